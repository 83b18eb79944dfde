(** The reference tetrahedron with tangential functions on its faces. *)
From Coq Require Import List Arith Reals Lra Lia Bool.
From Verif Require Import Poly_Spec Poly_Proofs HHO_Spec VHHO_Spec SymL_Spec Curl_Spec HHO_Model VHHO_Model Curl_Model HHO_Setting VHHO_Setting Curl_Setting
  HHO_Proofs HHO2_Proofs HHO3_Proofs HHO4_Proofs VHHO_Proofs VHHO3_Proofs HHOInst_Proofs RefTet_Proofs Curl_Proofs Curl2_Proofs Curl4_Proofs Curl5_Proofs.
Import ListNotations.
Open Scope R_scope.

(** the tangential bases of a list of faces with their frames *)
Definition tang_bases (fd : nat) (fcs : list sface) (es : list (pt * pt)) : list vbasis :=
  map (fun fe => tang_basis (fst (snd fe)) (snd (snd fe)) (el_basis (fc_elem (fst fe)) fd)) (combine fcs es).
Lemma tang_bases_fit fd fs fcs : Forall2 face_fit fs fcs -> forall es, Forall2 (fun f e => frame_fits f (fst e) (snd e)) fs es ->
  Forall2 (tb_fits fd) fs (tang_bases fd fcs es) /\ Forall2 (tb_spans fd) fs (tang_bases fd fcs es).
Proof.
  intros H. induction H as [|f fc fs fcs [[FF _] _] H IH]; intros es HE; inversion HE as [|? e ? es' He HE']; subst; [split; constructor|].
  destruct (IH es' HE') as [A B]. pose proof (fit_basis _ _ _ FF fd) as HB. split; (constructor; [|assumption]); cbn [fst snd].
  - exact (tang_fits f (fst e) (snd e) He fd _ HB).
  - exact (tang_spans f (fst e) (snd e) He fd _ HB).
Qed.
Definition s2 := / sqrt 2. Definition s6 := / sqrt 6.
Lemma s2_sq : s2 * s2 = / 2.
Proof. unfold s2. rewrite <- Rinv_mult, sqrt_sqrt by lra. reflexivity. Qed.
Lemma s6_sq : s6 * s6 = / 6.
Proof. unfold s6. rewrite <- Rinv_mult, sqrt_sqrt by lra. reflexivity. Qed.
Definition tet_frames : list (pt * pt) :=
  [(pt3 0 1 0, pt3 0 0 1); (pt3 1 0 0, pt3 0 0 1); (pt3 1 0 0, pt3 0 1 0); (pt3 s2 (- s2) 0, pt3 s6 s6 (- 2 * s6))].
Lemma tet_frames_fit : Forall2 (fun f e => frame_fits f (fst e) (snd e)) (po_facets tet_poly) tet_frames.
Proof.
  pose proof s2_sq as A. pose proof s6_sq as B. pose proof k3_sq as C.
  repeat (apply Forall2_cons); [| | | |apply Forall2_nil]; unfold frame_fits, unit_normal; cbn; repeat split; try ring; try lra.
Qed.
Definition tet_tb (fd : nat) : list vbasis := tang_bases fd (cl_faces tet_cell) tet_frames.
Lemma tet_tb_fits fd : Forall2 (tb_fits fd) (po_facets tet_poly) (tet_tb fd).
Proof. apply (tang_bases_fit fd _ _ (faces_fit 3 tet_poly tet_cell tet_cell_fits)). exact tet_frames_fit. Qed.

Lemma fits_deg fd fs tb : Forall2 (tb_fits fd) fs tb -> Forall (tb_deg fd) tb.
Proof. intros H. induction H as [|f b fs tb Hb H IH]; constructor; [|exact IH]. intros j Hj. apply (proj1 Hb), Hj. Qed.
Lemma F2l {A B} (Q : A -> B -> Prop) l l' : Forall2 Q l l' -> length l = length l'.
Proof. intros H. induction H; cbn; congruence. Qed.
Lemma fits_len P c fd tb : cell_fits 3 P c -> Forall2 (tb_fits fd) (po_facets P) tb -> length tb = length (cl_faces c).
Proof. intros HC H. rewrite <- (F2l _ _ _ H). apply (F2l _ _ _ (cf_faces _ _ _ HC)). Qed.

(** * maxwell_prj on the first face *)
Definition Vx : tf := fun a => if (a =? 1)%nat then PX 0 else PC 0.
Lemma int3_x : po_int tet_poly (PX 0) = / 24.
Proof. cbv -[Rplus Rmult Rinv Rminus Rdiv IZR INR fact pow Ropp]. simpl. field. Qed.
Definition prj_bad ldlt := maxwell_prj ldlt tet_cell 1 1 (tet_tb 1) (fun x a => peval (Vx a) x).
Lemma prj_faces_wrong ldlt (HS : solves_spd ldlt) : ~ tprojs 1 (po_facets tet_poly) (tfaces tet_cell 1 (tet_tb 1) (prj_bad ldlt)) Vx.
Proof.
  set (cb := vec_basis 3 (el_basis (cl_elem tet_cell) 1)).
  set (f := tet_facet F0 1 (pt3 (-1) 0 0)).
  set (b := tang_basis (pt3 0 1 0) (pt3 0 0 1) (el_basis (fc_elem (tet_face F0 (s3 (PX 2) (PX 1) (PC 0)) 1 (pt3 (-1) 0 0))) 1)).
  pose proof (tet_tb_fits 1) as HT. change (po_facets tet_poly) with (f :: tl (po_facets tet_poly)) in HT |- *. change (tet_tb 1) with (b :: tl (tet_tb 1)) in HT |- *.
  assert (Hb : tb_fits 1 f b) by (inversion HT; assumption). clear HT.
  pose proof (poly_int _ _ tet_is_polytope) as HI. destruct (poly_facets _ _ tet_is_polytope f (or_introl eq_refl)) as (FI & Fon).
  set (k := prj_elem ldlt (el_quad (cl_elem tet_cell) 2) b (fun x a => peval (Vx a) x)).
  assert (Ek : forall j, (j < v_size b)%nat -> prj_bad ldlt (v_size cb + j)%nat = k j).
  { intros j Hj. unfold prj_bad, maxwell_prj. fold cb. change (tet_tb 1) with (b :: tl (tet_tb 1)). cbn [fold_left]. rewrite (prj_fold tet_cell ldlt 1) by lia.
    rewrite set_seg_in by lia. replace (v_size cb + j - v_size cb)%nat with j by lia. reflexivity. }
  unfold tfaces. fold cb. cbn [tlist map vface_funs tprojs]. set (r := vlin (v_size b) (fun j => prj_bad ldlt (v_size cb + j)%nat) (v_comp b)).
  intros ((Dr & Tr & Hr) & _). pose proof (Hr r Dr Tr) as Z.
  rewrite (I_zero _ _ FI (vdot 3 r Vx)) in Z.
  2: { intros x (y & _ & Hx). rewrite peval_vdot. cbn. pose proof (Hx 0%nat) as H0. cbn in H0. rewrite H0. ring. }
  assert (R0 : forall a x, (a < 3)%nat -> fa_on f x -> peval (r a) x = 0) by (apply (vdot_sq_def _ _ FI); exact Z).
  assert (K0 : forall j, (j < v_size b)%nat -> k j = 0) by (intros j Hj; rewrite <- Ek by exact Hj; apply (proj2 Hb _ R0 j Hj)).
  assert (Ind : vindep (po_on tet_poly) 3 (v_size b) (v_comp b)).
  { intros h Hh. apply (proj2 Hb). intros a x Ha Hx. apply Hh; [exact Ha|apply Fon, Hx]. }
  set (M := vaccumulate 3 (el_quad (cl_elem tet_cell) 2) (vphi b) (vphi b) zeroM).
  assert (EM : forall i j, (i < v_size b)%nat -> (j < v_size b)%nat -> M i j = po_int tet_poly (vdot 3 (v_comp b i) (v_comp b j))).
  { intros i j Hi Hj. apply (vaccumulate_int 3 _ _ HI _ (fit_quad _ _ _ (cf_elem _ _ _ tet_cell_fits))); [reflexivity|reflexivity|]. apply (deg_vdot 3 _ _ 1 1); apply (proj1 Hb); assumption. }
  pose proof (HS (v_size b) M (fold_left (fun r qp => let '(x, w) := qp in fun i => r i + sg 3 (fun a => w * vphi b x i a * peval (Vx a) x)) (el_quad (cl_elem tet_cell) 2) zeroV)
    (spd_ext _ _ _ (fun i j A B => eq_sym (EM i j A B)) (vgram_spd _ _ HI 3 _ _ Ind)) 0%nat) as Q.
  assert (S0 : (0 < v_size b)%nat) by (apply (Nat.lt_le_trans _ (2 * 1)); [lia|]; unfold b, tang_basis; cbn [v_size]; apply Nat.mul_le_mono_l; apply el_one; lia).
  specialize (Q S0). rewrite (load_int _ _ HI _ (fit_quad _ _ _ (cf_elem _ _ _ tet_cell_fits))) in Q.
  2: { apply (deg_vdot 3 _ _ 1 1); [apply (proj1 Hb), S0|]. intros a _. unfold Vx. destruct (a =? 1)%nat; apply deg_le_pdeg; cbn; lia. }
  rewrite (int_ext _ _ HI _ (PX 0)) in Q.
  2: { intros x _. rewrite peval_vdot. unfold b, tang_basis, Vx, pscal. cbn [v_comp sg Nat.eqb peval Nat.modulo Nat.div Nat.divmod fst snd pt3 Nat.sub]. 
       assert (O : peval (b_poly (el_basis (fc_elem (tet_face F0 (s3 (PX 2) (PX 1) (PC 0)) 1 (pt3 (-1) 0 0))) 1) 0) x = 1) by exact (proj2 (el_one 2 (Nat.lt_0_succ 1) (s3 (PX 2) (PX 1) (PC 0)) 1) x).
       rewrite O. ring. }
  rewrite int3_x in Q. rewrite sg_zero in Q; [lra|]. intros j Hj. fold M. 
  assert (E : k j = 0) by (apply K0, Hj). unfold k, prj_elem in E. fold M in E. rewrite E. ring.
Qed.
