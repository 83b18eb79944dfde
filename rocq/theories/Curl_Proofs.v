(** Vector products and curls; the reconstruction of the curl as a polynomial. *)
From Coq Require Import List Arith Reals Lra Lia Bool.
From Verif Require Import Poly_Spec Poly_Proofs HHO_Spec VHHO_Spec Curl_Spec HHO_Model VHHO_Model Curl_Model HHO_Setting VHHO_Setting Curl_Setting
  HHO_Proofs HHO2_Proofs HHO3_Proofs HHO4_Proofs HHO6_Proofs HHO7_Proofs HHO8_Proofs HHO9_Proofs VHHO_Proofs VHHO2_Proofs VHHO3_Proofs VHHO4_Proofs.
Import ListNotations.
Open Scope R_scope.

Ltac three a := destruct a as [|[|[|a]]]; [| | |lia].
Lemma nx_lt a : (nx a < 3)%nat.
Proof. destruct a as [|[|a]]; cbn; lia. Qed.
Lemma nxx_lt a : (nxx a < 3)%nat.
Proof. apply nx_lt. Qed.
Lemma eval_curls2_eq b x j a : (a < 3)%nat -> eval_curls2 b x j a = peval (curlv (v_comp (vec_basis 3 b) j) a) x.
Proof.
  intros Ha. unfold eval_curls2, curlv, dphi, psubp, pscal, nxx, vec_basis. cbn [v_comp peval].
  assert (H : (j mod 3 < 3)%nat) by (apply Nat.mod_upper_bound; lia).
  destruct (j mod 3)%nat as [|[|[|k]]]; [| | |lia]; three a; cbn; ring.
Qed.
Lemma cross3_eq V n x a : (a < 3)%nat -> cross3 (fun b => peval (V b) x) n a = peval (pcross V n a) x.
Proof. intros Ha. three a; unfold cross3, pcross, psubp, pscal, nxx; cbn; ring. Qed.
Lemma cross3_ext f f' n n' a : (forall b, (b < 3)%nat -> f b = f' b) -> (forall b, (b < 3)%nat -> n b = n' b) -> cross3 f n a = cross3 f' n' a.
Proof. intros H K. unfold cross3. rewrite !H, !K by lia. reflexivity. Qed.
Lemma tang_eq V n x a : (a < 3)%nat -> cross3 n (cross3 (fun b => peval (V b) x) n) a = peval (ptang V n a) x.
Proof. intros Ha. three a; unfold cross3, ptang, pcross, psubp, pscal, nxx; cbn; ring. Qed.
Lemma deg_pcross V n k : vdeg 3 V k -> vdeg 3 (pcross V n) k.
Proof. intros H a Ha. apply deg_le_sub; apply deg_le_scal, H; [apply nx_lt|apply nxx_lt]. Qed.
Lemma deg_ptang V n k : vdeg 3 V k -> vdeg 3 (ptang V n) k.
Proof. intros H a Ha. apply deg_le_sub; apply deg_le_scal, (deg_pcross V n k H); [apply nxx_lt|apply nx_lt]. Qed.
Lemma deg_curlv V k : vdeg 3 V k -> vdeg 3 (curlv V) (k - 1).
Proof. intros H a Ha. apply deg_le_sub; apply deg_le_diff, H; [apply nxx_lt|apply nx_lt]. Qed.
Lemma pcross_lin n0 n k B a x : peval (pcross (vlin n k B) n0 a) x = sg n (fun j => k j * peval (pcross (B j) n0 a) x).
Proof.
  unfold pcross, psubp, pscal. cbn [peval]. rewrite !peval_vlin, <- !sg_scal, <- sg_plus. apply sg_ext. intros. ring.
Qed.
Lemma curlv_lin n k B a x : peval (curlv (vlin n k B) a) x = sg n (fun j => k j * peval (curlv (B j) a) x).
Proof.
  unfold curlv, vlin, psubp, pscal. cbn [peval]. rewrite !pdiff_lincomb, <- !sg_scal, <- sg_plus. apply sg_ext. intros. ring.
Qed.
Lemma curlv_ext V V' : (forall a x, (a < 3)%nat -> peval (V a) x = peval (V' a) x) -> forall a x, peval (curlv V a) x = peval (curlv V' a) x.
Proof.
  intros H a x. unfold curlv, psubp, pscal. cbn [peval].
  rewrite (pdiff_ext (V (nxx a)) (V' (nxx a)) (nx a) (fun y => H _ y (nxx_lt a))), (pdiff_ext (V (nx a)) (V' (nx a)) (nxx a) (fun y => H _ y (nx_lt a))). reflexivity.
Qed.
Lemma pcross_ext V V' n x : (forall a, (a < 3)%nat -> peval (V a) x = peval (V' a) x) -> forall a, peval (pcross V n a) x = peval (pcross V' n a) x.
Proof. intros H a. unfold pcross, psubp, pscal. cbn [peval]. rewrite (H _ (nx_lt a)), (H _ (nxx_lt a)). reflexivity. Qed.
(** V x t *)
Definition pcross2 (V t : tf) : tf := fun a => psubp (PMul (V (nx a)) (t (nxx a))) (PMul (V (nxx a)) (t (nx a))).
Lemma div_cross V t x : peval (pdivv 3 (pcross2 V t)) x = peval (vdot 3 t (curlv V)) x - peval (vdot 3 V (curlv t)) x.
Proof. rewrite peval_pdivv, !peval_vdot. unfold pcross2, curlv, psubp, pscal, nxx. cbn [sg nx pdiff peval]. ring. Qed.
Lemma green_curl P (HP : is_polytope 3 P) V t :
  po_int P (vdot 3 t (curlv V)) = po_int P (vdot 3 V (curlv t)) + fsum (po_facets P) (fun f => fa_int f (vdot 3 V (pcross t (fa_normal f)))).
Proof.
  pose proof (poly_int _ _ HP) as HI. pose proof (green_vec 3 P HP (PC 1) (pcross2 V t)) as A.
  rewrite (I_zero _ _ HI (vdot 3 (pcross2 V t) (pgrad (PC 1)))) in A by (intros x _; rewrite peval_vdot; apply sg_zero; intros; cbn; ring).
  rewrite (I_ext _ _ HI (PMul (PC 1) (pdivv 3 (pcross2 V t))) (psubp (vdot 3 t (curlv V)) (vdot 3 V (curlv t)))) in A.
  2:{ intros x. cbn [peval]. rewrite div_cross. unfold psubp, pscal. cbn [peval]. ring. }
  rewrite (I_sub _ _ HI) in A.
  assert (B : fsum (po_facets P) (fun f => fa_int f (PMul (PC 1) (vnrm 3 (fa_normal f) (pcross2 V t)))) = fsum (po_facets P) (fun f => fa_int f (vdot 3 V (pcross t (fa_normal f))))).
  { pose proof (fun f Hf => proj1 (poly_facets _ _ HP f Hf)) as HF. clear A. induction (po_facets P) as [|f l IH]; cbn [fsum]; [reflexivity|].
    rewrite IH by (intros; apply HF; right; assumption). f_equal. apply (I_ext _ _ (HF f (or_introl eq_refl))). intros x. cbn [peval]. rewrite peval_vnrm, peval_vdot.
    unfold pcross2, pcross, psubp, pscal, nxx. cbn [sg nx peval]. ring. }
  lra.
Qed.
(** a row of products of functions, applied to unknowns *)
Lemma row_dot n (vb : nat -> tf) (g : nat -> nat -> R) (G : tf) w x k i : (forall a, (a < 3)%nat -> g i a = peval (G a) x) ->
  mv n (fun i j => sg 3 (fun a => w * g i a * peval (vb j a) x)) k i = w * peval (vdot 3 G (vlin n k vb)) x.
Proof.
  intros HG. rewrite peval_vdot. unfold mv.
  rewrite (sg_ext 3 (fun a => peval (G a) x * _) (fun a => sg n (fun j => k j * (peval (G a) x * peval (vb j a) x)))).
  - rewrite sg_swap, <- sg_scal. apply sg_ext. intros j _. rewrite sg_scal.
    rewrite (sg_ext 3 (fun a => w * g i a * peval (vb j a) x) (fun a => w * (peval (G a) x * peval (vb j a) x))) by (intros a Ha; rewrite HG by exact Ha; ring). rewrite sg_scal. ring.
  - intros a _. rewrite peval_vlin, <- sg_scal. apply sg_ext. intros. ring.
Qed.
Lemma vaccumulate_int m on I (HI : integral on I) q (HQ : exact q I) qd u v U V i j :
  (forall x a, (a < m)%nat -> u x i a = peval (U a) x) -> (forall x a, (a < m)%nat -> v x j a = peval (V a) x) ->
  deg_le (vdot m U V) qd -> vaccumulate m (q qd) u v zeroM i j = I (vdot m U V).
Proof.
  intros HU HV D. rewrite vaccumulate_eq. unfold zeroM. rewrite Rplus_0_l. refine (eq_trans _ (exact_int _ _ HI q HQ qd _ D)). apply qsum_ext.
  intros x. rewrite peval_vdot. apply sg_ext. intros a Ha. rewrite HU, HV by exact Ha. reflexivity.
Qed.

Lemma cross_tangent f t : tangent f (pcross t (fa_normal f)).
Proof. intros x _. unfold pcross, psubp, pscal, nxx. cbn [sg nx peval]. ring. Qed.
Lemma tprojs_sum fd k V t fs : forall us, (forall f, In f fs -> integral (fa_on f) (fa_int f)) -> tprojs fd fs us V -> (k <= fd)%nat -> vdeg 3 t k ->
  vfsum2 fs us (fun f uF => fa_int f (vdot 3 (pcross t (fa_normal f)) uF)) = fsum fs (fun f => fa_int f (vdot 3 V (pcross t (fa_normal f)))).
Proof.
  induction fs as [|f fs IH]; intros [|[u|] us] HF HP Hk Ht; cbn [tprojs] in HP; try contradiction; cbn [vfsum2 fsum]; [reflexivity|].
  destruct HP as ((Du & Tu & Hu) & HP). rewrite (IH us (fun f' H => HF f' (or_intror H)) HP Hk Ht).
  pose proof (HF f (or_introl eq_refl)) as Hf. rewrite (vdot_comm _ _ Hf 3 V). f_equal.
  apply Hu; [|apply cross_tangent]. intros a Ha. apply (deg_le_mono _ k); [exact Hk|]. apply (deg_pcross t _ k Ht a Ha).
Qed.

(** face functions of degree [fd] *)
Definition tb_deg (fd : nat) (b : vbasis) : Prop := forall j, (j < v_size b)%nat -> vdeg 3 (v_comp b j) fd.
Section Pk.
  Context (P : polytope) (c : scell) (HC : cell_fits 3 P c).
  Let HP := cf_poly _ _ _ HC.
  Let HI := poly_int _ _ HP.
  Context (ldlt : nat -> mtx -> (nat -> R) -> nat -> R) (HS : solves_spd ldlt) (cd rd fd : nat) (tb : list vbasis).
  Context (HT : Forall (tb_deg fd) tb) (LT : length tb = length (cl_faces c)).
  Let rs := el_basis (cl_elem c) rd.
  Let rb := vec_basis 3 rs.
  Let cb := vec_basis 3 (el_basis (cl_elem c) cd).
  Lemma rb_deg j : (j < v_size rb)%nat -> vdeg 3 (v_comp rb j) rd.
  Proof. apply (vec_deg (po_on P)). apply (fit_basis _ _ _ (cf_elem _ _ _ HC)). Qed.
  Lemma rb_indep : vindep (po_on P) 3 (v_size rb) (v_comp rb).
  Proof. apply (vec_indep (po_on P) rd 3); [lia|]. apply (fit_basis _ _ _ (cf_elem _ _ _ HC)). Qed.
  Let uT (u : nat -> R) : tf := vcell_fun 3 c cd u.
  Lemma pk_rows (Hq : (fd <= rd + 2)%nat) N u i : (i < v_size rb)%nat -> forall fs fcs, Forall2 face_fit fs fcs -> forall tb, Forall (tb_deg fd) tb -> forall off M,
    (off + vface_dofs (tlist tb) <= N)%nat -> length tb = length fcs ->
    mv N (snd (fold_left (pk_face rb rd) (combine fcs tb) (off, M))) u i =
    mv N M u i + vfsum2 fs (vface_funs off (tlist tb) u) (fun f uF => fa_int f (vdot 3 (pcross (v_comp rb i) (fa_normal f)) uF)).
  Proof.
    intros Hi fs fcs H. induction H as [|f fc fs fcs [[FF [Hn _]] FI] H IH]; intros tb0 HT0 off M Hoff L; [destruct tb0; [simpl; lra|discriminate]|].
    destruct tb0 as [|fb tb0]; [discriminate|]. inversion HT0 as [|? ? Hb HT1]; subst. cbn [combine fold_left]. unfold pk_face at 2. cbn [fst snd].
    cbn [tlist map vface_dofs] in Hoff. rewrite IH; [|exact HT1|unfold tlist; lia|cbn in L; lia]. cbn [tlist map vface_funs vfsum2]. rewrite <- Rplus_assoc. f_equal.
    set (uF := vlin (v_size fb) (fun j => u (off + j)%nat) (v_comp fb)).
    rewrite (fold_add_cols N off (v_size fb) u i _ (fun x => peval (vdot 3 (pcross (v_comp rb i) (fa_normal f)) uF) x)).
    - f_equal. apply (exact_int _ _ FI _ (fit_quad _ _ _ FF)). apply (deg_le_mono _ (rd + fd)); [lia|].
      apply deg_vdot; [apply deg_pcross, rb_deg, Hi|apply vdeg_vlin, Hb].
    - lia.
    - intros x w. unfold vphi. apply (row_dot (v_size fb) (v_comp fb) (fun i => cross3 (fun a => peval (v_comp rb i a) x) (fc_normal fc))). intros a Ha. rewrite Hn. apply cross3_eq, Ha.
  Qed.
  Let N := tdofs c cd tb.
  Let prog := curl_reconstruction_pk ldlt c cd rd tb.
  Definition CK (u : nat -> R) : tf := oper_fun rb N (fst prog) u.
  Definition ckform (u : nat -> R) (t : tf) : R :=
    po_int P (vdot 3 (vcell_fun 3 c cd u) (curlv t)) +
    vfsum2 (po_facets P) (tfaces c cd tb u) (fun f uF => fa_int f (vdot 3 (pcross t (fa_normal f)) uF)).
  Context (Hq : (fd <= rd + 2)%nat) (Hr : (rd <= cd + 1)%nat).
  Lemma pk_mass i j : (i < v_size rb)%nat -> (j < v_size rb)%nat ->
    vaccumulate 3 (el_quad (cl_elem c) (2 * cd + 2)) (vphi rb) (vphi rb) zeroM i j = po_int P (vdot 3 (v_comp rb i) (v_comp rb j)).
  Proof.
    intros Hi Hj. apply (vaccumulate_int 3 _ _ HI _ (fit_quad _ _ _ (cf_elem _ _ _ HC))); [reflexivity|reflexivity|].
    apply (deg_le_mono _ (rd + rd)); [lia|]. apply deg_vdot; apply rb_deg; assumption.
  Qed.
  Lemma ck_rhs u i : (i < v_size rb)%nat ->
    mv N (snd (fold_left (pk_face rb rd) (combine (cl_faces c) tb) (v_size cb, fold_left (fun M qp => let '(x, w) := qp in
                   add_cols M 0 (v_size cb) (fun i j => sg 3 (fun a => w * eval_curls2 rs x i a * vphi cb x j a))) (el_quad (cl_elem c) (2 * cd + 2)) zeroM))) u i
    = ckform u (v_comp rb i).
  Proof.
    intros Hi. rewrite (pk_rows Hq N u i Hi _ _ (faces_fit 3 P c HC) tb HT); [|unfold N, tdofs; reflexivity|exact LT].
    unfold ckform. f_equal.
    rewrite (fold_add_cols N 0 (v_size cb) u i _ (fun x => peval (vdot 3 (curlv (v_comp rb i)) (uT u)) x)).
    - rewrite mv_zero, Rplus_0_l. rewrite (vdot_comm _ _ HI). apply (exact_int _ _ HI _ (fit_quad _ _ _ (cf_elem _ _ _ HC))).
      apply (deg_le_mono _ (rd - 1 + cd)); [lia|]. apply deg_vdot; [apply deg_curlv, rb_deg, Hi|apply (vcell_deg 3 P c HC cd)].
    - unfold N, tdofs. fold cb. lia.
    - intros x w. unfold uT, vcell_fun. fold cb. apply (row_dot (v_size cb) (v_comp cb) (eval_curls2 rs x)). intros a Ha. apply eval_curls2_eq, Ha.
  Qed.
  Lemma ck_basis u i : (i < v_size rb)%nat -> po_int P (vdot 3 (v_comp rb i) (CK u)) = ckform u (v_comp rb i).
  Proof.
    intros Hi. unfold CK, oper_fun, prog, curl_reconstruction_pk. cbn [fst]. fold rs rb cb.
    match goal with |- context [solveM ldlt _ ?M ?rhs] => set (MM := M); set (RR := rhs) end.
    refine (eq_trans (vrec_eq (po_on P) (po_int P) HI 3 ldlt HS (v_size rb) (v_comp rb) rb_indep MM _ N RR u i Hi) _).
    - intros k l Hk Hl. apply pk_mass; assumption.
    - apply ck_rhs, Hi.
  Qed.
  Lemma ck_data u v : quadf N (snd prog) u v = po_int P (vdot 3 (CK u) (CK v)).
  Proof.
    unfold CK, oper_fun, prog, curl_reconstruction_pk. cbn [fst snd]. fold rs rb cb.
    match goal with |- context [solveM ldlt _ ?M ?rhs] => set (MM := M); set (RR := rhs) end.
    refine (vrec_data (po_on P) (po_int P) HI 3 ldlt HS (v_size rb) (v_comp rb) rb_indep MM _ N RR u v).
    intros k l Hk Hl. apply pk_mass; assumption.
  Qed.
  Lemma ck_deg u : vdeg 3 (CK u) rd.
  Proof. apply vdeg_vlin, rb_deg. Qed.
  Lemma ckform_lin u n k B : ckform u (vlin n k B) = sg n (fun j => k j * ckform u (B j)).
  Proof.
    unfold ckform. rewrite (vdot_ext _ _ HI 3 _ (curlv (vlin n k B)) (vcell_fun 3 c cd u) (vlin n k (fun j => curlv (B j)))) by (auto; intros; rewrite curlv_lin, peval_vlin; reflexivity).
    rewrite (vdot_lin_r _ _ HI).
    rewrite (vfsum2_ext _ _ _ (fun f uF => sg n (fun j => k j * fa_int f (vdot 3 (pcross (B j) (fa_normal f)) uF)))).
    - rewrite vfsum2_lin, <- sg_plus. apply sg_ext. intros. ring.
    - intros f uF Hf. pose proof (facet_int 3 P c HC f Hf) as HF. rewrite <- (vdot_lin_l _ _ HF). apply (vdot_ext _ _ HF); [|reflexivity].
      intros a x _ _. rewrite pcross_lin, peval_vlin. reflexivity.
  Qed.
  Lemma ckform_ext u t t' : (forall a x, (a < 3)%nat -> peval (t a) x = peval (t' a) x) -> ckform u t = ckform u t'.
  Proof.
    intros H. unfold ckform. f_equal.
    - apply (vdot_ext _ _ HI); [reflexivity|]. intros a x _ _. apply curlv_ext, H.
    - apply vfsum2_ext. intros f uF Hf. apply (vdot_ext _ _ (facet_int 3 P c HC f Hf)); [|reflexivity]. intros a x Ha Hx. apply pcross_ext. intros; apply H; assumption.
  Qed.
  Lemma ck_eq u t : vdeg 3 t rd -> vvars 3 3 t -> po_int P (vdot 3 t (CK u)) = ckform u t.
  Proof.
    intros Ht Hv. destruct (vec_span_all 3 P c HC 3 rd t Ht Hv) as (k & Hk). fold rs rb in Hk.
    rewrite (ckform_ext u t (vlin (v_size rb) k (v_comp rb))) by exact Hk.
    rewrite (vdot_ext _ _ HI 3 t (CK u) (vlin (v_size rb) k (v_comp rb)) (CK u)) by (auto; intros; apply Hk; assumption).
    rewrite (vdot_lin_l _ _ HI), ckform_lin. apply sg_ext. intros i Hi. rewrite ck_basis by exact Hi. reflexivity.
  Qed.
  (** with the curl of the cell function *)
  Lemma ckform_curl u t :
    ckform u t = po_int P (vdot 3 t (curlv (uT u))) +
    vfsum2 (po_facets P) (tfaces c cd tb u) (fun f uF => fa_int f (vdot 3 (pcross t (fa_normal f)) (vsub uF (uT u)))).
  Proof.
    rewrite (green_curl P HP (uT u) t). unfold ckform. fold (uT u). rewrite !Rplus_assoc. f_equal.
    pose proof (fun f Hf => facet_int 3 P c HC f Hf) as HF. unfold tfaces. generalize (v_size (vec_basis 3 (el_basis (cl_elem c) cd))). 
    assert (L2 : length (po_facets P) = length tb) by (rewrite LT; pose proof (faces_fit 3 P c HC) as F; clear - F; induction F; cbn; congruence). clear - HF L2 c cd.
    revert tb L2. induction (po_facets P) as [|f fs IH]; intros [|b tb] L2 off; cbn in L2; try discriminate; cbn [tlist map vface_funs vfsum2 fsum]; [lra|].
    fold (tlist tb). rewrite (IH (fun f' H => HF f' (or_intror H)) tb ltac:(lia)). pose proof (HF f (or_introl eq_refl)) as Hf.
    set (uF := vlin _ _ _). rewrite (I_ext _ _ Hf (vdot 3 (pcross t (fa_normal f)) (vsub uF (uT u))) (psubp (vdot 3 (pcross t (fa_normal f)) uF) (vdot 3 (uT u) (pcross t (fa_normal f))))).
    - rewrite (I_sub _ _ Hf). lra.
    - intros x. unfold psubp at 1, pscal. cbn [peval]. rewrite !peval_vdot. unfold vsub, psubp, pscal. cbn [sg peval]. ring.
  Qed.
  (** the curl of the interpolant is the projection of the curl *)
  Lemma ck_commutes_gen V u : l2vec (po_int P) 3 cd V (uT u) ->
    (forall t, vdeg 3 t rd -> vfsum2 (po_facets P) (tfaces c cd tb u) (fun f uF => fa_int f (vdot 3 (pcross t (fa_normal f)) uF)) = fsum (po_facets P) (fun f => fa_int f (vdot 3 V (pcross t (fa_normal f))))) ->
    l2vec (po_int P) 3 rd (curlv V) (CK u).
  Proof.
    intros HV HF. split; [apply ck_deg|]. intros w Hw.
    destruct (vec_span _ rd 3 _ (fit_basis _ _ _ (cf_elem _ _ _ HC) rd) w Hw) as (k & Kw). fold rs rb in Kw.
    rewrite (vdot_ext _ _ HI 3 w _ (vlin (v_size rb) k (v_comp rb)) (CK u)) by (auto; intros; apply Kw; assumption).
    rewrite (vdot_ext _ _ HI 3 w _ (vlin (v_size rb) k (v_comp rb)) (curlv V)) by (auto; intros; apply Kw; assumption).
    rewrite !(vdot_lin_l _ _ HI). apply sg_ext. intros i Hi. f_equal. rewrite ck_basis by exact Hi. rewrite (green_curl P HP V). unfold ckform. fold (uT u).
    rewrite (vdot_comm _ _ HI 3 (uT u)), (vdot_comm _ _ HI 3 V). f_equal.
    - apply (proj2 HV). intros a Ha. apply (deg_le_mono _ (rd - 1)); [lia|]. apply (deg_curlv _ rd), Ha. apply rb_deg, Hi.
    - apply HF, rb_deg, Hi.
  Qed.
  Lemma ck_commutes V u : (rd <= fd)%nat -> l2vec (po_int P) 3 cd V (uT u) -> tprojs fd (po_facets P) (tfaces c cd tb u) V ->
    l2vec (po_int P) 3 rd (curlv V) (CK u).
  Proof. intros Hf HV HF. apply (ck_commutes_gen V u HV). intros t Ht. apply (tprojs_sum fd rd); [apply (facet_int 3 P c HC)|exact HF|exact Hf|exact Ht]. Qed.
End Pk.
