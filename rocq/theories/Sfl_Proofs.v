(** Proofs for the reconstructions in a general basis and for make_sfl. *)
From Coq Require Import List Arith Reals Lra Lia Bool.
From Verif Require Import Poly_Spec Poly_Proofs HHO_Spec HHO_Model HHO_Setting HHO_Proofs HHO2_Proofs HHO3_Proofs HHO4_Proofs HHO5_Proofs HHO6_Proofs
  Sfl_Model Sfl_Setting.
Import ListNotations.
Open Scope R_scope.

Lemma fsum3_ext fs us vs g h : (forall f a b, In f fs -> g f a b = h f a b) -> fsum3 fs us vs g = fsum3 fs us vs h.
Proof.
  revert us vs. induction fs as [|f fs IH]; intros [|[a|] us] [|[b|] vs] H; cbn; try reflexivity.
  - rewrite (H f a b (or_introl eq_refl)), IH; [reflexivity|]. intros; apply H; right; assumption.
  - apply IH. intros; apply H; right; assumption.
Qed.
Lemma fsum3_lin fs us vs n k (g : nat -> facet -> pexp -> pexp -> R) :
  fsum3 fs us vs (fun f a b => sg n (fun j => k j * g j f a b)) = sg n (fun j => k j * fsum3 fs us vs (g j)).
Proof.
  revert us vs. induction fs as [|f fs IH]; intros [|[a|] us] [|[b|] vs]; cbn [fsum3]; try (symmetry; apply sg_zero; intros; ring).
  - rewrite IH, <- sg_plus. apply sg_ext. intros. ring.
  - apply IH.
Qed.

Section Gen.
  Context (d : nat) (P : polytope) (HP : is_polytope d P) (KK : mtx) (HK : spd d KK).
  Notation E := (en d P KK).
  (** the shape of the right-hand sides: the cell function, and a combination of two families of functions on the faces *)
  Definition gform (uT : pexp) (us vs : list (option pexp)) (g : pexp -> pexp -> pexp) (w : pexp) : R :=
    E uT w + fsum3 (po_facets P) us vs (fun f a b => fa_int f (PMul (g a b) (flux d KK (fa_normal f) w))).
  Lemma fct f : In f (po_facets P) -> integral (fa_on f) (fa_int f).
  Proof. intros H. apply (poly_facets _ _ HP f H). Qed.
  Lemma gform_lin uT us vs g n k W : gform uT us vs g (lincomb n k W) = sg n (fun j => k j * gform uT us vs g (W j)).
  Proof.
    unfold gform. rewrite (en_lincomb_r d P HP KK).
    rewrite (fsum3_ext _ _ _ _ (fun f a b => sg n (fun j => k j * fa_int f (PMul (g a b) (flux d KK (fa_normal f) (W j)))))).
    - rewrite fsum3_lin, <- sg_plus. apply sg_ext. intros. ring.
    - intros f a b Hf. pose proof (fct f Hf) as HF. rewrite <- (I_lincomb _ _ HF n k (fun j => PMul (g a b) (flux d KK (fa_normal f) (W j)))).
      apply (I_ext _ _ HF). intros x. rewrite peval_lincomb. cbn [peval]. rewrite flux_lincomb, <- sg_scal. apply sg_ext. intros. ring.
  Qed.
  Lemma gflux_ext n p q : (forall x, peval p x = peval q x) -> forall x, peval (flux d KK n p) x = peval (flux d KK n q) x.
  Proof. apply (flux_ext d (Some KK)). Qed.
  Lemma gform_ext uT us vs g w w' : (forall x, peval w x = peval w' x) -> gform uT us vs g w = gform uT us vs g w'.
  Proof.
    intros H. unfold gform. rewrite (en_ext d P HP KK uT w uT w' (fun _ => eq_refl) H). f_equal. apply fsum3_ext. intros f a b Hf.
    apply (I_ext _ _ (fct f Hf)). intros x. cbn [peval]. rewrite (gflux_ext _ w w' H). reflexivity.
  Qed.
  Lemma flux_one n w x : (forall y, peval w y = 1) -> peval (flux d KK n w) x = 0.
  Proof.
    intros H. rewrite (gflux_ext n w (PC 1) H). unfold flux. rewrite peval_psum. apply sg_zero. intros k _. unfold pscal, kgrad. cbn [peval].
    rewrite peval_psum, sg_zero; [ring|]. intros; simpl; ring.
  Qed.
  Lemma gform_one uT us vs g w : (forall x, peval w x = 1) -> gform uT us vs g w = 0.
  Proof.
    intros H. unfold gform. rewrite (en_const_r d P HP KK) by exact H.
    rewrite (fsum3_ext _ _ _ _ (fun f a b => sg 0 (fun j => 0 * 0))).
    - rewrite (fsum3_lin _ _ _ 0 (fun _ => 0) (fun _ _ _ _ => 0)). cbn. lra.
    - intros f a b Hf. cbn [sg]. apply (I_zero _ _ (fct f Hf)). intros x _. cbn [peval]. rewrite (flux_one _ w x H). ring.
  Qed.

  Context (rd : nat) (rb : sbasis) (HB : rec_basis d P rd rb).
  Let rbs := b_size rb.
  Definition tailb (x : nat -> R) : pexp := lincomb (rbs - 1) x (fun j => b_poly rb (S j)).
  Lemma tailb_const x : (exists k, forall y, po_on P y -> peval (tailb x) y = k) -> forall i, (i < rbs - 1)%nat -> x i = 0.
  Proof.
    intros (k & Hk) i Hi. apply (rb_ind _ _ _ _ HB (fun j => match j with O => - k | S j => x j end)) with (j := S i); [|unfold rbs in Hi; lia].
    intros y Hy. rewrite peval_lincomb. fold rbs. replace rbs with (S (rbs - 1)) by (pose proof (proj1 (rb_one _ _ _ _ HB)); unfold rbs; lia).
    rewrite sg_first, (proj2 (rb_one _ _ _ _ HB)). pose proof (Hk y Hy) as Q. unfold tailb in Q. rewrite peval_lincomb in Q. rewrite Q. lra.
  Qed.
  Context (lhs : mtx) (Hlhs : forall i j, (i < rbs - 1)%nat -> (j < rbs - 1)%nat -> lhs i j = E (b_poly rb (S j)) (b_poly rb (S i))).
  Lemma blhs_mv x i : (i < rbs - 1)%nat -> mv (rbs - 1) lhs x i = E (tailb x) (b_poly rb (S i)).
  Proof. intros Hi. unfold tailb. rewrite (en_lincomb_l d P HP KK). apply sg_ext. intros j Hj. rewrite Hlhs by lia. ring. Qed.
  Lemma blhs_spd : spd (rbs - 1) lhs.
  Proof.
    split.
    - intros i j Hi Hj. rewrite !Hlhs by lia. apply (en_sym d P HP KK HK).
    - intros x. assert (Q : quadf (rbs - 1) lhs x x = E (tailb x) (tailb x)).
      { unfold quadf. unfold tailb at 2. rewrite (en_lincomb_r d P HP KK). apply sg_ext. intros i Hi. f_equal. apply (blhs_mv x i Hi). }
      rewrite Q. split; [apply (en_pos d P HP KK HK)|]. intros Z. apply tailb_const. apply (en_def d P HP KK HK), Z.
  Qed.
  Context (ldlt : nat -> mtx -> (nat -> R) -> nat -> R) (HS : solves_spd ldlt) (N : nat) (rhs : mtx).
  Let oper := solveM ldlt (rbs - 1) lhs rhs.
  Lemma g_basis u i : (i < rbs - 1)%nat -> E (span_fun rb N oper u) (b_poly rb (S i)) = mv N rhs u i.
  Proof.
    intros Hi. change (span_fun rb N oper u) with (tailb (mv N oper u)). rewrite <- (blhs_mv _ i Hi). unfold oper. apply mv_solveM; [exact HS|apply blhs_spd|exact Hi].
  Qed.
  Lemma g_eq u uT us vs g : (forall i, (i < rbs - 1)%nat -> mv N rhs u i = gform uT us vs g (b_poly rb (S i))) ->
    forall w, in_span rb w -> E (span_fun rb N oper u) w = gform uT us vs g w.
  Proof.
    intros H w (k & Hk). rewrite (gform_ext _ _ _ _ _ _ Hk), (en_ext d P HP KK _ w _ _ (fun _ => eq_refl) Hk).
    rewrite (en_lincomb_r d P HP KK), gform_lin. fold rbs. replace rbs with (S (rbs - 1)) by (pose proof (proj1 (rb_one _ _ _ _ HB)); unfold rbs; lia).
    rewrite !sg_first, (gform_one _ _ _ _ (b_poly rb 0) (proj2 (rb_one _ _ _ _ HB))), (en_const_r d P HP KK _ _ (proj2 (rb_one _ _ _ _ HB))).
    f_equal. apply sg_ext. intros i Hi. rewrite (g_basis u i Hi), (H i Hi). reflexivity.
  Qed.
  Lemma g_data u v : quadf N (mprod (rbs - 1) (mtrans rhs) oper) u v = E (span_fun rb N oper u) (span_fun rb N oper v).
  Proof.
    change (quadf N (mprod (rbs - 1) (mtrans rhs) oper) u v) with (sg N (fun i => u i * mv N (mprod (rbs - 1) (mtrans rhs) oper) v i)).
    rewrite quadf_trans by trivial. unfold span_fun at 2. fold rbs. rewrite (en_lincomb_r d P HP KK). apply sg_ext. intros k Hk.
    rewrite (g_basis u k Hk). unfold mv. ring.
  Qed.
  Lemma span_deg u : deg_le (span_fun rb N oper u) rd.
  Proof. apply deg_le_lincomb. intros j Hj. apply (rb_degree _ _ _ _ HB). lia. Qed.
  Lemma span_in u : in_span rb (span_fun rb N oper u).
  Proof.
    exists (fun j => match j with O => 0 | S j => mv N oper u j end). intros x. unfold span_fun. rewrite !peval_lincomb.
    fold rbs. replace rbs with (S (rbs - 1)) at 2 by (pose proof (proj1 (rb_one _ _ _ _ HB)); unfold rbs; lia). rewrite sg_first. unfold mv. lra.
  Qed.
End Gen.
Lemma in_span_sub rb p q : in_span rb p -> in_span rb q -> in_span rb (psubp p q).
Proof.
  intros (k & Hk) (l & Hl). exists (fun j => k j - l j). intros x. unfold psubp, pscal. cbn [peval]. rewrite Hk, Hl, !peval_lincomb.
  transitivity (sg (b_size rb) (fun j => k j * peval (b_poly rb j) x) + (-1) * sg (b_size rb) (fun j => l j * peval (b_poly rb j) x)); [ring|].
  rewrite <- sg_scal, <- sg_plus. apply sg_ext. intros. ring.
Qed.

(** the interpolate of a polynomial: the cell function is its projection, the faces carry g a b with the flux moments of p *)
Lemma fsum3_green d P KK p uT us vs (g : pexp -> pexp -> pexp) w (HP : is_polytope d P) :
  length us = length (po_facets P) -> length vs = length (po_facets P) -> ~ In None us -> ~ In None vs ->
  (forall f a b, In (f, (Some a, Some b)) (combine (po_facets P) (combine us vs)) ->
     fa_int f (PMul uT (flux d KK (fa_normal f) w)) + fa_int f (PMul (g a b) (flux d KK (fa_normal f) w)) = fa_int f (PMul p (flux d KK (fa_normal f) w))) ->
  po_int P (PMul uT (divk d KK w)) = po_int P (PMul p (divk d KK w)) ->
  gform d P KK uT us vs g w = en d P KK p w.
Proof.
  intros L1 L2 N1 N2 Hf Hc. unfold gform. rewrite !(en_green d P HP). rewrite Hc.
  assert (G : fsum (po_facets P) (fun f => fa_int f (PMul uT (flux d KK (fa_normal f) w))) +
    fsum3 (po_facets P) us vs (fun f a b => fa_int f (PMul (g a b) (flux d KK (fa_normal f) w))) =
    fsum (po_facets P) (fun f => fa_int f (PMul p (flux d KK (fa_normal f) w)))); [|lra].
  clear Hc HP. revert us vs L1 L2 N1 N2 Hf. induction (po_facets P) as [|f fs IH]; intros [|[a|] us] [|[b|] vs] L1 L2 N1 N2 Hf; try discriminate; cbn [fsum fsum3]; [lra| | | |];
    try (exfalso; apply N1; left; reflexivity); try (exfalso; apply N2; left; reflexivity).
  rewrite <- (Hf f a b (or_introl eq_refl)).
  rewrite <- (IH us vs ltac:(cbn in L1; lia) ltac:(cbn in L2; lia) (fun H => N1 (or_intror H)) (fun H => N2 (or_intror H)) (fun f' a' b' H => Hf f' a' b' (or_intror H))). lra.
Qed.
