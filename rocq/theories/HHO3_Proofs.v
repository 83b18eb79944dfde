(** Proofs about the scalar HHO operators: the reconstruction solves its defining problem and reproduces polynomials. *)
From Coq Require Import List Arith Reals Lra Lia Bool.
From Verif Require Import Poly_Spec Poly_Proofs HHO_Spec HHO_Model HHO_Setting HHO_Proofs HHO2_Proofs.
Import ListNotations.
Open Scope R_scope.

Lemma fsum2_ext fs us f g : (forall x u, In x fs -> f x u = g x u) -> fsum2 fs us f = fsum2 fs us g.
Proof.
  revert us. induction fs as [|x fs IH]; intros [|[u|] us] H; simpl; try reflexivity.
  - rewrite (H x u (or_introl eq_refl)), IH; [reflexivity|]. intros; apply H; right; assumption.
  - apply IH. intros; apply H; right; assumption.
Qed.
Lemma fsum2_lin fs us n c (f : nat -> facet -> pexp -> R) :
  fsum2 fs us (fun x u => sg n (fun j => c j * f j x u)) = sg n (fun j => c j * fsum2 fs us (f j)).
Proof.
  revert us. induction fs as [|x fs IH]; intros [|[u|] us]; simpl; try (symmetry; apply sg_zero; intros; ring).
  - rewrite IH, <- sg_plus. apply sg_ext. intros. ring.
  - apply IH.
Qed.
Lemma fsum_ext fs f g : (forall x, In x fs -> f x = g x) -> fsum fs f = fsum fs g.
Proof. induction fs as [|x fs IH]; intros H; simpl; [reflexivity|]. rewrite (H x (or_introl eq_refl)), IH; [reflexivity|]. intros; apply H; right; assumption. Qed.

Lemma tens_eq d K b x c : (c < d)%nat -> tens d K (fun e => peval (pdiff e b) x) c = peval (kgrad d (tensor_of K) b c) x.
Proof.
  intros H. unfold kgrad. rewrite peval_psum. destruct K as [K|]; simpl.
  - apply sg_ext. intros. ring.
  - unfold pscal. cbn [peval]. rewrite (sg_delta d c (fun e => peval (pdiff e b) x) H). reflexivity.
Qed.
Lemma rdn_eq d K rb n x i : rdn d K rb n x i = peval (flux d (tensor_of K) n (b_poly rb (S i))) x.
Proof.
  unfold rdn, flux. rewrite peval_psum. apply sg_ext. intros k Hk. unfold pscal. cbn [peval]. unfold dphi.
  rewrite tens_eq by exact Hk. ring.
Qed.

Section Rec.
  Context (d : nat) (P : polytope) (c : scell) (HC : cell_fits d P c) (K : option mtx) (HK : spd d (tensor_of K)).
  Let HP := cf_poly _ _ _ HC.
  Let HI := poly_int _ _ HP.
  Let KK := tensor_of K.
  Variable rd : nat.
  Let rb := el_basis (cl_elem c) rd.
  Let rbs := b_size rb.
  Notation E := (en d P KK).

  Lemma lhs_eq i j : (S i < rbs)%nat -> (S j < rbs)%nat -> lap_lhs d K c rd rb i j = E (b_poly rb (S j)) (b_poly rb (S i)).
  Proof.
    intros Hi Hj. unfold lap_lhs.
    assert (G : forall q M, fold_left (fun M qp => let '(x, w) := qp in fun i j =>
        M i j + sg d (fun k => w * tens d K (dphi rb x (S i)) k * dphi rb x (S j) k)) q M i j =
        M i j + qsum q (peval (graddot d (b_poly rb (S j)) (kgrad d KK (b_poly rb (S i)))))).
    { induction q as [|[x w] q IH]; intros M; simpl; [lra|]. rewrite IH. unfold graddot. rewrite peval_psum, <- sg_scal.
      rewrite (sg_ext d (fun k => w * tens d K (dphi rb x (S i)) k * dphi rb x (S j) k)
        (fun k => w * peval (PMul (pdiff k (b_poly rb (S j))) (kgrad d KK (b_poly rb (S i)) k)) x)); [ring|].
      intros k Hk. unfold dphi. rewrite tens_eq by exact Hk. cbn [peval]. unfold KK. ring. }
    rewrite G. unfold zeroM. rewrite Rplus_0_l. apply (exact_int _ _ HI _ (fit_quad _ _ _ (cf_elem _ _ _ HC))).
    apply (deg_le_mono _ (rd - 1 + (rd - 1))); [lia|]. apply deg_graddot; [apply (basis_deg _ _ _ (cf_elem _ _ _ HC)); assumption|].
    intros k. apply deg_kgrad. apply (basis_deg _ _ _ (cf_elem _ _ _ HC)); assumption.
  Qed.
  (** the part of the reconstruction basis that carries the gradients *)
  Definition tailf (x : nat -> R) : pexp := lincomb (rbs - 1) x (fun j => b_poly rb (S j)).
  Lemma tail_const x : (exists k, forall y, po_on P y -> peval (tailf x) y = k) -> forall i, (i < rbs - 1)%nat -> x i = 0.
  Proof.
    intros (k & Hk) i Hi. destruct (fit_basis _ _ _ (cf_elem _ _ _ HC) rd) as (_ & Ind & _). fold rb in Ind. fold rbs in Ind.
    apply (Ind (fun j => match j with O => - k | S j => x j end)) with (j := S i); [|lia].
    intros y Hy. rewrite peval_lincomb. replace rbs with (S (rbs - 1)) by (pose proof (proj1 (cf_one _ _ _ HC rd)); unfold rbs, rb; lia).
    rewrite sg_first. rewrite (proj2 (cf_one _ _ _ HC rd)). pose proof (Hk y Hy) as Q. unfold tailf in Q. rewrite peval_lincomb in Q.
    rewrite Q. lra.
  Qed.
  Lemma lhs_mv x i : (i < rbs - 1)%nat -> mv (rbs - 1) (lap_lhs d K c rd rb) x i = E (tailf x) (b_poly rb (S i)).
  Proof.
    intros Hi. unfold tailf. rewrite (en_lincomb_l d P HP KK). apply sg_ext. intros j Hj. rewrite lhs_eq by lia. ring.
  Qed.
  Lemma lhs_spd : spd (rbs - 1) (lap_lhs d K c rd rb).
  Proof.
    split.
    - intros i j Hi Hj. rewrite !lhs_eq by lia. apply (en_sym d P HP KK HK).
    - intros x. assert (Q : quadf (rbs - 1) (lap_lhs d K c rd rb) x x = E (tailf x) (tailf x)).
      { unfold quadf. unfold tailf at 2. rewrite (en_lincomb_r d P HP KK). apply sg_ext. intros i Hi. f_equal. apply (lhs_mv x i Hi). }
      rewrite Q. split; [apply (en_pos d P HP KK HK)|]. intros Z. apply tail_const. apply (en_def d P HP KK HK), Z.
  Qed.

  (** the right hand side: the cell function and the face functions against w *)
  Definition rhs_form (uT : pexp) (uF : list (option pexp)) (w : pexp) : R :=
    E uT w + fsum2 (po_facets P) uF (fun f u => fa_int f (PMul (psubp u uT) (flux d KK (fa_normal f) w))).
  Lemma facet_int f : In f (po_facets P) -> integral (fa_on f) (fa_int f).
  Proof. intros H. apply (poly_facets _ _ HP f H). Qed.
  Lemma rhs_form_lin uT uF n k W : rhs_form uT uF (lincomb n k W) = sg n (fun j => k j * rhs_form uT uF (W j)).
  Proof.
    unfold rhs_form. rewrite (en_lincomb_r d P HP KK).
    rewrite (fsum2_ext _ _ _ (fun f u => sg n (fun j => k j * fa_int f (PMul (psubp u uT) (flux d KK (fa_normal f) (W j)))))).
    - rewrite fsum2_lin, <- sg_plus. apply sg_ext. intros. ring.
    - intros f u Hf. pose proof (facet_int f Hf) as HF. rewrite <- (I_lincomb _ _ HF n k (fun j => PMul (psubp u uT) (flux d KK (fa_normal f) (W j)))).
      apply (I_ext _ _ HF). intros x. rewrite peval_lincomb. cbn [peval]. rewrite flux_lincomb, <- sg_scal. apply sg_ext. intros. ring.
  Qed.
  Lemma flux_ext n p q : (forall x, peval p x = peval q x) -> forall x, peval (flux d KK n p) x = peval (flux d KK n q) x.
  Proof.
    intros H x. unfold flux. rewrite !peval_psum. apply sg_ext. intros k _. unfold kgrad, pscal. cbn [peval]. rewrite !peval_psum. f_equal.
    apply sg_ext. intros e _. cbn [peval]. rewrite (pdiff_ext p q e H). reflexivity.
  Qed.
  Lemma rhs_form_ext uT uF w w' : (forall x, peval w x = peval w' x) -> rhs_form uT uF w = rhs_form uT uF w'.
  Proof.
    intros H. unfold rhs_form. rewrite (en_ext d P HP KK uT w uT w' (fun _ => eq_refl) H). f_equal. apply fsum2_ext. intros f u Hf.
    apply (I_ext _ _ (facet_int f Hf)). intros x. cbn [peval]. rewrite (flux_ext _ w w' H). reflexivity.
  Qed.
  Lemma rhs_form_one uT uF w : (forall x, peval w x = 1) -> rhs_form uT uF w = 0.
  Proof.
    intros H. rewrite (rhs_form_ext uT uF w (PC 1) H). unfold rhs_form. rewrite (en_const_r d P HP KK) by reflexivity.
    rewrite (fsum2_ext _ _ _ (fun _ _ => 0)).
    - clear. assert (Z : fsum2 (po_facets P) uF (fun _ _ => 0) = 0); [|lra]. revert uF. induction (po_facets P) as [|f l IH]; intros [|[u|] us]; simpl; try reflexivity; rewrite ?IH; lra.
    - intros f u Hf. apply (I_zero _ _ (facet_int f Hf)). intros x _. cbn [peval].
      assert (Z : peval (flux d KK (fa_normal f) (PC 1)) x = 0); [|rewrite Z; ring].
      unfold flux. rewrite peval_psum. apply sg_zero. intros k _. unfold pscal, kgrad. cbn [peval]. rewrite peval_psum, sg_zero; [ring|].
      intros; simpl; ring.
  Qed.
  (** a polynomial of the reconstruction degree is 1 times a number plus a combination of the other functions *)
  Lemma span_tail w : pvars d w -> deg_le w rd -> exists k0 k, forall x, peval w x = k0 + peval (tailf k) x.
  Proof.
    intros V D. destruct (cf_span _ _ _ HC rd w V D) as (k & Hk). exists (k O), (fun j => k (S j)). intros x. rewrite Hk.
    unfold tailf. rewrite !peval_lincomb. fold rb. fold rbs.
    replace rbs with (S (rbs - 1)) at 1 by (pose proof (proj1 (cf_one _ _ _ HC rd)); unfold rbs, rb; lia).
    rewrite sg_first. unfold rb at 1. rewrite (proj2 (cf_one _ _ _ HC rd)). lra.
  Qed.
  Lemma forms_agree uT uF r : (forall i, (i < rbs - 1)%nat -> E r (b_poly rb (S i)) = rhs_form uT uF (b_poly rb (S i))) ->
    forall w, pvars d w -> deg_le w rd -> E r w = rhs_form uT uF w.
  Proof.
    intros H w V D. destruct (span_tail w V D) as (k0 & k & Hk).
    set (w' := PAdd (pscal k0 (PC 1)) (tailf k)).
    assert (Ew : forall x, peval w x = peval w' x) by (intros x; rewrite Hk; unfold w'; simpl; lra).
    rewrite (en_ext d P HP KK r w r w' (fun _ => eq_refl) Ew), (rhs_form_ext _ _ _ _ Ew). unfold w'.
    assert (R : rhs_form uT uF (PAdd (pscal k0 (PC 1)) (tailf k)) = rhs_form uT uF (tailf k)).
    { rewrite (rhs_form_ext uT uF _ (lincomb 2 (fun j => match j with O => k0 | _ => 1 end) (fun j => match j with O => PC 1 | _ => tailf k end))) by (intros x; simpl; lra).
      rewrite rhs_form_lin. cbn [sg]. rewrite (rhs_form_one _ _ (PC 1)) by reflexivity. lra. }
    rewrite R. rewrite (en_add_r d P HP KK), (en_scal_r d P HP KK), (en_const_r d P HP KK) by reflexivity.
    unfold tailf. rewrite (en_lincomb_r d P HP KK), rhs_form_lin.
    rewrite (sg_ext (rbs - 1) _ (fun j => k j * rhs_form uT uF (b_poly rb (S j)))); [lra|]. intros j Hj. rewrite (H j Hj). reflexivity.
  Qed.
End Rec.

(** * The right hand side computed by the program *)
Section Rhs.
  Context (d : nat) (P : polytope) (c : scell) (HC : cell_fits d P c) (K : option mtx) (HK : spd d (tensor_of K)).
  Let HP := cf_poly _ _ _ HC.
  Let HI := poly_int _ _ HP.
  Let KK := tensor_of K.
  Context (ldlt : nat -> mtx -> (nat -> R) -> nat -> R) (HS : solves_spd ldlt).
  Context (N : nat) (u : nat -> R).

  Lemma rhs_cell_row rd rb cb M i : (b_size cb <= N)%nat ->
    mv N (fold_left (fun M qp => let '(x, w) := qp in
        add_cols M 0 (b_size cb) (fun i j => sg d (fun k => w * tens d K (dphi rb x (S i)) k * dphi cb x j k))) rd M) u i =
    mv N M u i + qsum rd (peval (graddot d (lincomb (b_size cb) u (b_poly cb)) (kgrad d KK (b_poly rb (S i))))).
  Proof.
    intros HN. revert M. induction rd as [|[x w] q IH]; intros M; cbn [fold_left qsum]; [lra|]. rewrite IH, mv_add_cols by lia.
    rewrite Rplus_assoc. f_equal. f_equal. unfold graddot. rewrite peval_psum. unfold mv. cbn [Nat.add].
    rewrite (sg_ext (b_size cb) _ (fun j => sg d (fun k => u j * (w * tens d K (dphi rb x (S i)) k * dphi cb x j k))))
      by (intros j _; rewrite Rmult_comm, <- sg_scal; reflexivity).
    rewrite sg_swap, <- sg_scal. apply sg_ext. intros k Hk. cbn [peval]. rewrite pdiff_lincomb.
    rewrite (Rmult_comm (sg (b_size cb) _)), <- Rmult_assoc, <- sg_scal. apply sg_ext. intros j _. unfold dphi. rewrite tens_eq by exact Hk. fold KK. ring.
  Qed.
  Lemma face_qps_row (proj : bool) rb cb fb off n q M i : (b_size cb <= N)%nat -> (off + b_size fb <= N)%nat ->
    mv N (lap_face_qps d K proj rb cb fb off n q M) u i =
    mv N M u i + qsum q (fun x => peval (flux d KK n (b_poly rb (S i))) x *
      (peval (lincomb (b_size fb) (fun j => u (off + j)%nat) (b_poly fb)) x -
       (if proj then 0 else peval (lincomb (b_size cb) u (b_poly cb)) x))).
  Proof.
    intros Hc Hf. unfold lap_face_qps. revert M. induction q as [|[x w] q IH]; intros M; cbn [fold_left qsum]; [lra|]. rewrite IH.
    assert (A : mv (b_size fb) (fun i j => w * rdn d K rb n x i * phi fb x j) (fun j => u (off + j)%nat) i =
      w * (peval (flux d KK n (b_poly rb (S i))) x * peval (lincomb (b_size fb) (fun j => u (off + j)%nat) (b_poly fb)) x)).
    { rewrite peval_lincomb. unfold mv. rewrite rdn_eq, <- !sg_scal. apply sg_ext. intros j _. unfold phi. fold KK. ring. }
    assert (B : mv (b_size cb) (fun i j => - (w * rdn d K rb n x i * phi cb x j)) (fun j => u (0 + j)%nat) i =
      - (w * (peval (flux d KK n (b_poly rb (S i))) x * peval (lincomb (b_size cb) u (b_poly cb)) x))).
    { rewrite peval_lincomb. unfold mv. rewrite rdn_eq. rewrite Ropp_mult_distr_l, <- !sg_scal. apply sg_ext. intros j _. unfold phi. cbn [Nat.add]. fold KK. ring. }
    destruct proj; rewrite ?mv_add_cols by lia; rewrite ?A, ?B; ring.
  Qed.
End Rhs.
