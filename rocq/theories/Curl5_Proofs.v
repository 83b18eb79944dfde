(** Projections, mass and impedance terms of the curl operators; the reconstruction in the plane. *)
From Coq Require Import List Arith Reals Lra Lia Bool.
From Verif Require Import Poly_Spec Poly_Proofs HHO_Spec VHHO_Spec SymL_Spec Curl_Spec HHO_Model VHHO_Model Stab_Model Nit_Model Curl_Model HHO_Setting VHHO_Setting Curl_Setting
  HHO_Proofs HHO2_Proofs HHO3_Proofs HHO4_Proofs HHO5_Proofs HHO6_Proofs HHO7_Proofs HHO8_Proofs HHO9_Proofs VHHO_Proofs VHHO2_Proofs VHHO3_Proofs VHHO4_Proofs
  Stab_Proofs Nit_Proofs Curl_Proofs Curl2_Proofs.
Import ListNotations.
Open Scope R_scope.

(** * load vectors and projections *)
Lemma load_fold b (g : pt -> nat -> R) q : forall r i,
  fold_left (fun r qp => let '(x, w) := qp in fun i => r i + sg 3 (fun a => w * vphi b x i a * g x a)) q r i =
  r i + qsum q (fun x => sg 3 (fun a => vphi b x i a * g x a)).
Proof.
  induction q as [|[x w] q IH]; intros r i; cbn [fold_left qsum]; [ring|]. rewrite IH.
  rewrite (sg_ext 3 (fun a => w * vphi b x i a * g x a) (fun a => w * (vphi b x i a * g x a))) by (intros; ring). rewrite sg_scal. ring.
Qed.
Lemma load_int on I (HI : integral on I) q (HQ : exact q I) b V qd i : deg_le (vdot 3 (v_comp b i) V) qd ->
  fold_left (fun r qp => let '(x, w) := qp in fun i => r i + sg 3 (fun a => w * vphi b x i a * peval (V a) x)) (q qd) zeroV i = I (vdot 3 (v_comp b i) V).
Proof.
  intros D. rewrite load_fold. unfold zeroV. rewrite Rplus_0_l. refine (eq_trans _ (exact_int _ _ HI q HQ qd _ D)). apply qsum_ext. intros x. rewrite peval_vdot. reflexivity.
Qed.
Section Prj.
  Context (P : polytope) (c : scell) (HC : cell_fits 3 P c).
  Let HI := poly_int _ _ (cf_poly _ _ _ HC).
  Context (ldlt : nat -> mtx -> (nat -> R) -> nat -> R) (HS : solves_spd ldlt) (cd fd : nat) (tb : list vbasis).
  Let cb := vec_basis 3 (el_basis (cl_elem c) cd).
  Lemma prj_fold f l : forall off ret j, (j < off)%nat ->
    snd (fold_left (fun st fb => let '(off, ret) := st in
             ((off + v_size fb)%nat, set_seg ret off (v_size fb) (prj_elem ldlt (el_quad (cl_elem c) (2 * fd)) fb f))) l (off, ret)) j = ret j.
  Proof.
    induction l as [|b l IH]; intros off ret j Hj; cbn [fold_left]; [reflexivity|]. rewrite IH by lia. apply set_seg_before, Hj.
  Qed.
  Lemma prj_cell V : vdeg 3 V cd -> l2vec (po_int P) 3 cd V (vcell_fun 3 c cd (maxwell_prj ldlt c cd fd tb (fun x a => peval (V a) x))).
  Proof.
    intros DV. pose proof (rb_deg P c HC cd) as Db. fold cb in Db. pose proof (rb_indep P c HC cd (map (fun _ => cb) (cl_faces c)) ltac:(apply map_length)) as Ind. fold cb in Ind.
    set (k := prj_elem ldlt (el_quad (cl_elem c) (2 * cd)) cb (fun x a => peval (V a) x)).
    apply (l2vec_ext _ _ HI 3 cd V (vlin (v_size cb) k (v_comp cb))).
    - intros a x Ha. unfold vcell_fun. fold cb. apply vlin_coef. intros j Hj. unfold maxwell_prj. fold cb. rewrite prj_fold by exact Hj. rewrite set_seg_in by lia. rewrite Nat.sub_0_r. reflexivity.
    - split; [apply vdeg_vlin, Db|]. intros w Dw. destruct (vec_span _ cd 3 _ (fit_basis _ _ _ (cf_elem _ _ _ HC) cd) w Dw) as (h & Hw). fold cb in Hw.
      rewrite (vdot_ext _ _ HI 3 w V (vlin (v_size cb) h (v_comp cb)) V) by (auto; intros; apply Hw; assumption).
      rewrite (vdot_ext _ _ HI 3 w _ (vlin (v_size cb) h (v_comp cb)) (vlin (v_size cb) k (v_comp cb))) by (auto; intros; apply Hw; assumption).
      rewrite !(vdot_lin_l _ _ HI). apply sg_ext. intros i Hi. f_equal. rewrite <- (vgram_lin _ _ HI). unfold k, prj_elem.
      set (M := vaccumulate 3 _ _ _ _).
      assert (EM : forall i j, (i < v_size cb)%nat -> (j < v_size cb)%nat -> M i j = po_int P (vdot 3 (v_comp cb i) (v_comp cb j))).
      { intros i' j Hi' Hj. apply (vaccumulate_int 3 _ _ HI _ (fit_quad _ _ _ (cf_elem _ _ _ HC))); [reflexivity|reflexivity|].
        apply (deg_le_mono _ (cd + cd)); [lia|]. apply deg_vdot; apply Db; assumption. }
      rewrite (mv_ext_m (v_size cb) _ M) by (intros; symmetry; apply EM; assumption). unfold mv.
      rewrite (HS (v_size cb) M _ (spd_ext _ _ _ (fun i j A B => eq_sym (EM i j A B)) (vgram_spd _ _ HI 3 _ _ Ind)) i Hi).
      apply (load_int _ _ HI _ (fit_quad _ _ _ (cf_elem _ _ _ HC))). apply (deg_le_mono _ (cd + cd)); [lia|]. apply deg_vdot; [apply Db, Hi|exact DV].
  Qed.
  (** * the mass of the cell function *)
  Lemma mass_oper N u v : (v_size cb <= N)%nat -> bil N (make_vector_mass_oper c cd) v u = po_int P (vdot 3 (vcell_fun 3 c cd v) (vcell_fun 3 c cd u)).
  Proof.
    intros HN. unfold make_vector_mass_oper. fold cb.
    assert (F : forall q M, bil N (fold_left (fun M qp => let '(x, w) := qp in
        add_block M 0 0 (v_size cb) (v_size cb) (fun i j => sg 3 (fun a => w * vphi cb x i a * vphi cb x j a))) q M) v u =
        bil N M v u + qsum q (peval (vdot 3 (vcell_fun 3 c cd v) (vcell_fun 3 c cd u)))).
    { induction q as [|[x w] q IH]; intros M; cbn [fold_left qsum]; [ring|]. rewrite IH, <- !bil2_bil, bil2_add_block by lia. rewrite !bil2_bil, Rplus_assoc. f_equal. f_equal. cbn [Nat.add].
      rewrite (sg_ext (v_size cb) _ (fun i => v i * (w * peval (vdot 3 (v_comp cb i) (vcell_fun 3 c cd u)) x))).
      - rewrite (sg_ext (v_size cb) _ (fun i => w * (v i * peval (vdot 3 (v_comp cb i) (vcell_fun 3 c cd u)) x))) by (intros; ring). rewrite sg_scal. f_equal.
        rewrite peval_vdot. unfold vcell_fun. fold cb. rewrite (sg_ext 3 (fun a => _ * _) (fun a => sg (v_size cb) (fun i => v i * (peval (v_comp cb i a) x * peval (vlin (v_size cb) u (v_comp cb) a) x)))).
        + rewrite sg_swap. apply sg_ext. intros i _. rewrite peval_vdot, sg_scal. reflexivity.
        + intros a _. rewrite (peval_vlin _ v), Rmult_comm, <- sg_scal. apply sg_ext. intros. ring.
      - intros i Hi. f_equal. unfold vphi, vcell_fun. fold cb. apply (row_dot (v_size cb) (v_comp cb) (fun i a => peval (v_comp cb i a) x) (v_comp cb i)). reflexivity. }
    rewrite F, bil_zero, Rplus_0_l. apply (exact_int _ _ HI _ (fit_quad _ _ _ (cf_elem _ _ _ HC))). apply (deg_le_mono _ (cd + cd)); [lia|]. apply deg_vdot; apply (vcell_deg 3 P c HC cd).
  Qed.
  (** * the impedance terms *)
  Definition ez : tf := fun a => PC (if (a =? 2)%nat then 1 else 0).
  Lemma imp_fold z N u v fs fcs : Forall2 face_fit fs fcs -> forall tb, Forall (tb_deg fd) tb -> length tb = length fcs -> forall bnd, length bnd = length fcs -> forall off Yy,
    (off + vface_dofs (tlist tb) <= N)%nat ->
    let r := snd (fold_left (imp_face z fd) (combine (combine fcs tb) bnd) (off, Yy)) in
    bil N (fst r) v u = bil N (fst Yy) v u + vsum_on fs bnd (vface_funs off (tlist tb) v) (vface_funs off (tlist tb) u) (fun f a b => z * fa_int f (vdot 3 a b)) /\
    sg N (fun i => v i * snd r i) = sg N (fun i => v i * snd Yy i) + vsum_on fs bnd (vface_funs off (tlist tb) v) (vface_funs off (tlist tb) v) (fun f a _ => z * fa_int f (a 2%nat)).
  Proof.
    intros H. induction H as [|f fc fs fcs [[FF [Hn _]] FI] H IH]; intros tb0 HT LT bnd LB off Yy Hoff.
    { destruct tb0; [|discriminate]. cbn. split; ring. }
    destruct tb0 as [|b tb0]; [discriminate|]. destruct bnd as [|on bnd]; [discriminate|]. inversion HT as [|? ? Hb HT1]; subst.
    cbn [combine fold_left]. unfold imp_face at 2. unfold imp_face at 3. destruct Yy as [Y y].
    cbn [tlist map vface_dofs] in Hoff. fold (tlist tb0) in Hoff. cbn [tlist map vface_funs vsum_on]. fold (tlist tb0).
    set (uF := fun u : nat -> R => vlin (v_size b) (fun j => u (off + j)%nat) (v_comp b)).
    assert (DF : forall u, vdeg 3 (uF u) fd) by (intros; apply vdeg_vlin, Hb).
    set (Yy' := if on then _ else _).
    destruct (IH tb0 HT1 ltac:(cbn in LT; lia) bnd ltac:(cbn in LB; lia) (off + v_size b)%nat Yy' ltac:(lia)) as [A B].
    assert (K : bil N (fst Yy') v u = bil N Y v u + (if on then z * fa_int f (vdot 3 (uF v) (uF u)) else 0) /\
                sg N (fun i => v i * snd Yy' i) = sg N (fun i => v i * y i) + (if on then z * fa_int f (uF v 2%nat) else 0)).
    { unfold Yy'. destruct on; [|split; cbn [fst snd]; ring].
      assert (F : forall q Yy, let r := fold_left (fun Yy qp => let '(x, w) := qp in
          (add_block (fst Yy) off off (v_size b) (v_size b) (fun i j => sg 3 (fun a => w * z * vphi b x i a * vphi b x j a)),
           add_seg (snd Yy) off (v_size b) (fun i => w * z * vphi b x i 2%nat))) q Yy in
          bil N (fst r) v u = bil N (fst Yy) v u + z * qsum q (peval (vdot 3 (uF v) (uF u))) /\
          sg N (fun i => v i * snd r i) = sg N (fun i => v i * snd Yy i) + z * qsum q (peval (uF v 2%nat))).
      { clear A B Yy'. induction q as [|[x w] q IHq]; intros Yy; cbn [fold_left qsum]; [split; ring|]. cbv zeta in *.
        destruct (IHq (add_block (fst Yy) off off (v_size b) (v_size b) (fun i j => sg 3 (fun a => w * z * vphi b x i a * vphi b x j a)),
           add_seg (snd Yy) off (v_size b) (fun i => w * z * vphi b x i 2%nat))) as [A B]. rewrite A, B. cbn [fst snd]. clear A B. split.
        - rewrite <- !bil2_bil, bil2_add_block by lia. rewrite Rplus_assoc. f_equal. rewrite Rmult_plus_distr_l. f_equal.
          rewrite (sg_ext (v_size b) _ (fun i => z * w * (v (off + i)%nat * peval (vdot 3 (v_comp b i) (uF u)) x))).
          + rewrite sg_scal. rewrite Rmult_assoc. f_equal. f_equal. rewrite peval_vdot.
            rewrite (sg_ext 3 (fun a => _ * _) (fun a => sg (v_size b) (fun i => v (off + i)%nat * (peval (v_comp b i a) x * peval (uF u a) x)))).
            * rewrite sg_swap. apply sg_ext. intros i _. rewrite peval_vdot, sg_scal. reflexivity.
            * intros a _. unfold uF at 1. rewrite (peval_vlin _ (fun j => v (off + j)%nat)), Rmult_comm, <- sg_scal. apply sg_ext. intros. ring.
          + intros i Hi. rewrite (Rmult_comm z w). rewrite <- (Rmult_assoc (w * z)), (Rmult_comm (w * z)), Rmult_assoc. f_equal. unfold vphi.
            apply (row_dot (v_size b) (v_comp b) (fun i a => peval (v_comp b i a) x) (v_comp b i)). reflexivity.
        - rewrite sg_add_seg by lia. rewrite Rplus_assoc. f_equal. rewrite Rmult_plus_distr_l. f_equal. unfold uF. rewrite peval_vlin, <- !sg_scal. apply sg_ext. intros. unfold vphi. ring. }
      destruct (F (el_quad (fc_elem fc) (2 * fd)) (Y, y)) as [F1 F2]. split; [refine (eq_trans F1 _)|refine (eq_trans F2 _)]; cbn [fst snd]; f_equal; f_equal; apply (exact_int _ _ FI _ (fit_quad _ _ _ FF)).
      - apply (deg_le_mono _ (fd + fd)); [lia|]. apply deg_vdot; apply DF.
      - apply (deg_le_mono _ fd); [lia|]. apply DF. lia. }
    destruct K as [K1 K2]. cbv zeta in A, B. cbv zeta. split.
    - refine (eq_trans A _). rewrite K1. cbn [fst]. fold (uF v) (uF u). ring.
    - refine (eq_trans B _). rewrite K2. cbn [snd]. fold (uF v). ring.
  Qed.
End Prj.
