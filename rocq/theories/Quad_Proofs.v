(** Proofs about the one-dimensional rules. *)
From Coq Require Import List ZArith QArith Reals Qreals Lra Lia Arith.
From Verif Require Import Common Poly_Spec Poly_Proofs Quad_Model.
Import ListNotations.
Open Scope R_scope.

(** ** A verified checker of moments, in integer arithmetic.

    Weights are scaled by [Dsc] (exactly); abscissae by [Xsc] and their powers
    by [Esc], both rounded down. *)
Definition Dsc : Z := (10 ^ 16)%Z.
Definition Xsc : Z := (2 ^ 60)%Z.
Definition Esc : Z := (2 ^ 64)%Z.
Definition fixd (q : Q) : Z := (Qnum q * (Dsc / Zpos (Qden q)))%Z.
Definition fixok (q : Q) : bool := Z.eqb (fixd q * Zpos (Qden q)) (Qnum q * Dsc).
Definition fixx (q : Q) : Z := (Qnum q * Xsc / Zpos (Qden q))%Z.
Definition zrow := (Z * Z * Z)%type.      (* abscissa, weight, power *)
Definition row0 (t : Q * Q) : zrow := (fixx (fst t), fixd (snd t), Esc).
Definition rowstep (r : zrow) : zrow := let '(x, w, p) := r in (x, w, Z.shiftr (p * x) 60).
Definition rowsum (l : list zrow) : Z := fold_right (fun r s => let '(x, w, p) := r in (w * p + s)%Z) 0%Z l.
Definition itarget (k : Z) : Z := if Z.even k then 2%Z else 0%Z.
Fixpoint chk (tol : Z) (fuel : nat) (k : Z) (l : list zrow) : bool :=
  match fuel with
  | O => true
  | S f => (Z.leb (Z.abs ((k + 1) * rowsum l - itarget k * (Dsc * Esc))) ((k + 1) * tol)
            && chk tol f (k + 1)%Z (map rowstep l))%bool
  end.
Definition wsum (l : list zrow) : Z := fold_right (fun r s => let '(x, w, p) := r in (w + s)%Z) 0%Z l.
Definition qle1 (q : Q) : bool := Z.leb (Z.abs (Qnum q)) (Zpos (Qden q)).
Definition qlt1 (q : Q) : bool := Z.ltb (Z.abs (Qnum q)) (Zpos (Qden q)).
Definition table_ok (t : table1) : bool :=
  (forallb (fun q => fixok (snd q) && qle1 (fst q) && Z.ltb 0 (Qnum (snd q)))%bool t
   && Z.leb (wsum (map row0 t)) (3 * Dsc))%bool.
Definition table_interior (t : table1) : bool := forallb (fun q => qlt1 (fst q)) t.
(** 3.3e-15 *)
Definition tol_gauss : Z := (33 * Esc)%Z.

Lemma gauss_tables_ok : forallb (fun t => table_ok t && table_interior t && chk tol_gauss (2 * length t) 0 (map row0 t))%bool
  gauss_rules = true.
Proof. vm_compute. reflexivity. Qed.
Lemma lobatto_tables_ok : forallb (fun t => table_ok t && chk tol_gauss (2 * length t - 2) 0 (map row0 t))%bool
  lobatto_rules = true.
Proof. vm_compute. reflexivity. Qed.

Definition tabR (t : table1) : list (R * R) := map (fun q => (Q2R (fst q), Q2R (snd q))) t.

Lemma div_nonneg x y : 0 <= x -> 0 < y -> 0 <= x / y.
Proof. intros. apply Rmult_le_pos; [assumption|]. now apply Rlt_le, Rinv_0_lt_compat. Qed.
Lemma Dpos : 0 < IZR Dsc. Proof. apply IZR_lt. reflexivity. Qed.
Lemma Xpos : 0 < IZR Xsc. Proof. apply IZR_lt. reflexivity. Qed.
Lemma Epos : 0 < IZR Esc. Proof. apply IZR_lt. reflexivity. Qed.

Lemma fix_val q : fixok q = true -> Q2R q = IZR (fixd q) / IZR Dsc.
Proof.
  unfold fixok. intro H. apply Z.eqb_eq in H. apply (f_equal IZR) in H. rewrite !mult_IZR in H.
  unfold Q2R. pose proof Dpos. assert (0 < IZR (Zpos (Qden q))) by (apply IZR_lt; reflexivity).
  apply (Rmult_eq_reg_r (IZR Dsc * IZR (Zpos (Qden q)))); [|nra].
  field_simplify; [|lra|lra]. lra.
Qed.

Definition dlt : R := 2 / IZR Xsc.
(** the row [r] represents abscissa [x], weight [w] and x^k *)
Definition repr (k : nat) (r : zrow) (t : R * R) : Prop :=
  let '(X, W, P) := r in
  Rabs (IZR X / IZR Xsc - fst t) <= 1 / IZR Xsc /\ Rabs (IZR X / IZR Xsc) <= 1 /\
  snd t = IZR W / IZR Dsc /\ Rabs (fst t) <= 1 /\ 0 < snd t /\
  Rabs (IZR P / IZR Esc - fst t ^ k) <= INR k * dlt.

Lemma floor_err a b : (0 < b)%Z -> Rabs (IZR (a / b) - IZR a / IZR b) <= 1.
Proof.
  intro Hb. pose proof (Z.div_mod a b ltac:(lia)) as E. pose proof (Z.mod_pos_bound a b Hb) as [M1 M2].
  assert (B : 0 < IZR b) by (apply IZR_lt; lia).
  apply IZR_le in M1. apply IZR_lt in M2.
  apply (f_equal IZR) in E. rewrite plus_IZR, mult_IZR in E.
  replace (IZR (a / b) - IZR a / IZR b) with (- (IZR (a mod b) / IZR b)) by (rewrite E; field; lra).
  rewrite Rabs_Ropp, Rabs_right.
  - apply (Rmult_le_reg_r (IZR b)); [lra|]. field_simplify; lra.
  - apply Rle_ge, div_nonneg; lra.
Qed.

Lemma Rabs_le_pow x k : Rabs x <= 1 -> Rabs (x ^ k) <= 1.
Proof.
  intro H. rewrite <- RPow_abs. rewrite <- (pow1 k). apply pow_incr. split; [apply Rabs_pos|exact H].
Qed.
Lemma Rabs_div a b : 0 < b -> Rabs (a / b) = Rabs a / b.
Proof.
  intro H. unfold Rdiv. rewrite Rabs_mult. f_equal. apply Rabs_right, Rle_ge, Rlt_le, Rinv_0_lt_compat, H.
Qed.
Lemma EX16 : IZR Esc = 16 * IZR Xsc.
Proof. rewrite <- mult_IZR. reflexivity. Qed.

Lemma repr_step k r t : repr k r t -> repr (S k) (rowstep r) t.
Proof.
  destruct r as [[X W] P], t as [x w]. cbn [repr rowstep fst snd]. intros (EX & BX & EW & HX & HW & HP).
  repeat split; try assumption.
  pose proof Xpos as HXs. pose proof Epos as HE.
  rewrite Z.shiftr_div_pow2 by lia. fold Xsc.
  set (fl := IZR (P * X / Xsc)).
  replace (fl / IZR Esc - x ^ S k) with
    ((fl - IZR (P * X) / IZR Xsc) / IZR Esc + ((IZR P / IZR Esc - x ^ k) * (IZR X / IZR Xsc) + x ^ k * (IZR X / IZR Xsc - x)))
    by (rewrite mult_IZR; cbn [pow]; field; lra).
  eapply Rle_trans; [apply Rabs_triang|]. rewrite S_INR.
  assert (B1 : Rabs ((fl - IZR (P * X) / IZR Xsc) / IZR Esc) <= 1 / IZR Xsc).
  { rewrite Rabs_div by lra. pose proof (floor_err (P * X) Xsc eq_refl) as FE. fold fl in FE.
    rewrite EX16. unfold Rdiv. apply Rmult_le_compat; try assumption; [apply Rabs_pos|apply Rlt_le, Rinv_0_lt_compat; lra|].
    apply Rinv_le_contravar; lra. }
  assert (B2 : Rabs ((IZR P / IZR Esc - x ^ k) * (IZR X / IZR Xsc)) <= INR k * dlt * 1).
  { rewrite Rabs_mult. apply Rmult_le_compat; auto using Rabs_pos. }
  assert (B3 : Rabs (x ^ k * (IZR X / IZR Xsc - x)) <= 1 * (1 / IZR Xsc)).
  { rewrite Rabs_mult. apply Rmult_le_compat; auto using Rabs_pos, Rabs_le_pow. }
  pose proof (Rabs_triang ((IZR P / IZR Esc - x ^ k) * (IZR X / IZR Xsc)) (x ^ k * (IZR X / IZR Xsc - x))).
  assert (dlt = 1 / IZR Xsc + 1 / IZR Xsc) by (unfold dlt; field; lra). lra.
Qed.

Lemma wsum_step l : wsum (map rowstep l) = wsum l.
Proof. induction l as [|[[x w] p] t IH]; cbn [map wsum fold_right rowstep]; [reflexivity|]. unfold wsum in IH. now rewrite IH. Qed.

Lemma rowsum_err k l r : Forall2 (repr k) l r ->
  Rabs (qsum r (fun x => x ^ k) - IZR (rowsum l) / (IZR Dsc * IZR Esc)) <= IZR (wsum l) / IZR Dsc * (INR k * dlt).
Proof.
  pose proof Dpos as HD. pose proof Epos as HE.
  induction 1 as [|[[X W] P] [x w] l r (EX & BX & EW & HX & HW & HP) _ IH];
    cbn [qsum rowsum wsum fold_right fst snd] in *.
  - replace (0 - 0 / (IZR Dsc * IZR Esc)) with 0 by (field; lra). rewrite Rabs_R0. lra.
  - fold (rowsum l) (wsum l). rewrite !plus_IZR, mult_IZR.
    replace (w * x ^ k + qsum r (fun x0 => x0 ^ k) - (IZR W * IZR P + IZR (rowsum l)) / (IZR Dsc * IZR Esc))
      with (- (w * (IZR P / IZR Esc - x ^ k)) + (qsum r (fun x0 => x0 ^ k) - IZR (rowsum l) / (IZR Dsc * IZR Esc)))
      by (rewrite EW; field; lra).
    eapply Rle_trans; [apply Rabs_triang|].
    replace ((IZR W + IZR (wsum l)) / IZR Dsc * (INR k * dlt)) with
      (w * (INR k * dlt) + IZR (wsum l) / IZR Dsc * (INR k * dlt)) by (rewrite EW; field; lra).
    apply Rplus_le_compat; [|exact IH]. rewrite Rabs_Ropp, Rabs_mult, (Rabs_right w) by lra.
    apply Rmult_le_compat_l; lra.
Qed.

Lemma imom_target k : imom k = IZR (itarget (Z.of_nat k)) / INR (S k).
Proof.
  unfold imom, itarget. f_equal. rewrite pow1.
  destruct (Z.even (Z.of_nat k)) eqn:E.
  - apply Z.even_spec in E. destruct E as [j Hj]. replace (S k) with (S (2 * Z.to_nat j)) by lia.
    rewrite pow_1_odd. lra.
  - rewrite <- Z.negb_odd in E. apply Bool.negb_false_iff, Z.odd_spec in E. destruct E as [j Hj].
    replace (S k) with (2 * S (Z.to_nat j))%nat by lia. rewrite pow_1_even. lra.
Qed.

Lemma dlt_pos : 0 <= dlt.
Proof. apply div_nonneg; [lra|apply Xpos]. Qed.
Lemma chk_sound tol fuel : forall k l r, chk tol fuel (Z.of_nat k) l = true -> Forall2 (repr k) l r ->
  (wsum l <= 3 * Dsc)%Z -> forall j, (j < fuel)%nat ->
  Rabs (qsum r (fun x => x ^ (k + j)) - imom (k + j)) <= IZR tol / (IZR Dsc * IZR Esc) + 3 * (INR (k + j) * dlt).
Proof.
  pose proof Dpos as HD. pose proof Epos as HE.
  induction fuel as [|fuel IH]; intros k l r C F2 Hw j Hj; [lia|].
  cbn [chk] in C. apply Bool.andb_true_iff in C. destruct C as [C1 C2].
  destruct j as [|j].
  - rewrite Nat.add_0_r. apply Z.leb_le in C1.
    replace (Z.of_nat k + 1)%Z with (Z.of_nat (S k)) in C1 by lia.
    apply IZR_le in C1. rewrite abs_IZR, minus_IZR, !mult_IZR, <- INR_IZR_INZ in C1.
    replace (qsum r (fun x => x ^ k) - imom k) with
      ((INR (S k) * IZR (rowsum l) - IZR (itarget (Z.of_nat k)) * (IZR Dsc * IZR Esc)) / (INR (S k) * (IZR Dsc * IZR Esc))
       + (qsum r (fun x => x ^ k) - IZR (rowsum l) / (IZR Dsc * IZR Esc))).
    + assert (HK : 0 < INR (S k)) by (apply lt_0_INR; lia).
      assert (HDE : 0 < IZR Dsc * IZR Esc) by nra.
      eapply Rle_trans; [apply Rabs_triang|]. apply Rplus_le_compat.
      * unfold Rdiv. rewrite Rabs_mult, (Rabs_right (/ _)) by (apply Rle_ge, Rlt_le, Rinv_0_lt_compat; nra).
        apply (Rmult_le_reg_r (INR (S k) * (IZR Dsc * IZR Esc))); [nra|].
        rewrite Rmult_assoc, Rinv_l, Rmult_1_r by nra.
        replace (IZR tol * / (IZR Dsc * IZR Esc) * (INR (S k) * (IZR Dsc * IZR Esc))) with (INR (S k) * IZR tol)
          by (field; nra). exact C1.
      * eapply Rle_trans; [apply rowsum_err; exact F2|].
        apply Rmult_le_compat_r; [apply Rmult_le_pos; [apply pos_INR|apply dlt_pos]|].
        apply IZR_le in Hw. rewrite mult_IZR in Hw. apply (Rmult_le_reg_r (IZR Dsc)); [lra|].
        unfold Rdiv. rewrite Rmult_assoc, Rinv_l by lra. lra.
    + rewrite imom_target. field. repeat split; try lra. apply not_0_INR. lia.
  - replace (k + S j)%nat with (S k + j)%nat by lia.
    apply (IH (S k) (map rowstep l) r).
    + now replace (Z.of_nat (S k)) with (Z.of_nat k + 1)%Z by lia.
    + clear - F2. induction F2; cbn [map]; constructor; auto using repr_step.
    + now rewrite wsum_step.
    + lia.
Qed.

Definition quad_eps : R := 4 / 10 ^ 15.

Lemma div_abs_le q : qle1 q = true -> Rabs (Q2R q) <= 1.
Proof.
  unfold qle1. intro H. apply Z.leb_le, IZR_le in H. rewrite abs_IZR in H.
  assert (0 < IZR (Zpos (Qden q))) by (apply IZR_lt; reflexivity).
  unfold Q2R. fold (IZR (Qnum q) / IZR (Zpos (Qden q))). rewrite Rabs_div by assumption.
  apply (Rmult_le_reg_r (IZR (Zpos (Qden q)))); [assumption|].
  unfold Rdiv. rewrite Rmult_assoc, Rinv_l by lra. lra.
Qed.
Lemma div_abs_lt q : qlt1 q = true -> Rabs (Q2R q) < 1.
Proof.
  unfold qlt1. intro H. apply Z.ltb_lt, IZR_lt in H. rewrite abs_IZR in H.
  assert (0 < IZR (Zpos (Qden q))) by (apply IZR_lt; reflexivity).
  unfold Q2R. fold (IZR (Qnum q) / IZR (Zpos (Qden q))). rewrite Rabs_div by assumption.
  apply (Rmult_lt_reg_r (IZR (Zpos (Qden q)))); [assumption|].
  unfold Rdiv. rewrite Rmult_assoc, Rinv_l by lra. lra.
Qed.
Lemma fixx_bound q : qle1 q = true -> Rabs (IZR (fixx q) / IZR Xsc) <= 1 /\ Rabs (IZR (fixx q) / IZR Xsc - Q2R q) <= 1 / IZR Xsc.
Proof.
  intro H. pose proof Xpos as HX. assert (HB : 0 < IZR (Zpos (Qden q))) by (apply IZR_lt; reflexivity). split.
  - rewrite Rabs_div, <- abs_IZR by lra. unfold qle1 in H. apply Z.leb_le in H.
    assert (L : (Z.abs (fixx q) <= Xsc)%Z).
    { unfold fixx. apply Z.abs_le. split.
      - apply Z.div_le_lower_bound; [lia|]. unfold Xsc in *. lia.
      - apply Z.div_le_upper_bound; [lia|]. unfold Xsc in *. lia. }
    apply IZR_le in L. apply (Rmult_le_reg_r (IZR Xsc)); [lra|]. unfold Rdiv. rewrite Rmult_assoc, Rinv_l by lra. lra.
  - replace (IZR (fixx q) / IZR Xsc - Q2R q) with
      ((IZR (fixx q) - IZR (Qnum q * Xsc) / IZR (Zpos (Qden q))) / IZR Xsc).
    + rewrite Rabs_div by lra. unfold Rdiv. apply Rmult_le_compat_r; [apply Rlt_le, Rinv_0_lt_compat; lra|].
      apply floor_err. reflexivity.
    + unfold Q2R. rewrite mult_IZR. field. lra.
Qed.

Lemma table_repr t : table_ok t = true -> Forall2 (repr 0) (map row0 t) (tabR t) /\ (wsum (map row0 t) <= 3 * Dsc)%Z.
Proof.
  unfold table_ok. intro H. apply Bool.andb_true_iff in H. destruct H as [H1 H2]. split; [|now apply Z.leb_le].
  clear H2. induction t as [|[x w] t IH]; cbn [map tabR forallb] in *; [constructor|].
  apply Bool.andb_true_iff in H1. destruct H1 as [H1 Ht].
  apply Bool.andb_true_iff in H1. destruct H1 as [H1 Hw].
  apply Bool.andb_true_iff in H1. destruct H1 as [Fw Hx].
  constructor; [|exact (IH Ht)]. cbn [repr row0 fst snd] in *.
  pose proof Dpos as HD. pose proof Epos as HE.
  rewrite (fix_val w Fw). destruct (fixx_bound x Hx) as [X1 X2].
  repeat split; auto using div_abs_le.
  - rewrite <- (fix_val w Fw). apply Z.ltb_lt, IZR_lt in Hw. unfold Q2R.
    apply Rmult_lt_0_compat; [lra|]. apply Rinv_0_lt_compat, IZR_lt. reflexivity.
  - cbn [pow INR]. unfold Rdiv. rewrite Rinv_r by lra. rewrite Rminus_diag_eq, Rabs_R0 by reflexivity. lra.
Qed.

Lemma table_accurate t K : (K <= 100)%nat -> table_ok t = true -> chk tol_gauss K 0 (map row0 t) = true ->
  forall k, (k < K)%nat -> Rabs (qsum (tabR t) (fun x => x ^ k) - imom k) <= quad_eps.
Proof.
  intros HK T C k Hk. destruct (table_repr t T) as [F2 Hw].
  pose proof (chk_sound tol_gauss K 0 _ _ C F2 Hw k Hk) as B. cbn [Nat.add] in B.
  eapply Rle_trans; [exact B|]. unfold quad_eps.
  assert (INR k <= 100) by (replace 100 with (INR 100) by (simpl; lra); apply le_INR; lia).
  pose proof Epos as HE. pose proof Dpos.
  replace (IZR tol_gauss / (IZR Dsc * IZR Esc)) with (33 / IZR Dsc)
    by (unfold tol_gauss; rewrite mult_IZR; field; lra).
  assert (E16 : IZR Dsc = 10 ^ 15 * 10) by (unfold Dsc; change 16%Z with (Z.of_nat 16); rewrite <- pow_IZR; ring).
  assert (DB : dlt <= 2 / 10 ^ 18).
  { unfold dlt. unfold Rdiv. apply Rmult_le_compat_l; [lra|]. apply Rinv_le_contravar; [apply pow_lt; lra|].
    replace (10 ^ 18) with (IZR (10 ^ 18)) by (change 18%Z with (Z.of_nat 18); rewrite <- pow_IZR; reflexivity).
    apply IZR_le. unfold Xsc. discriminate. }
  pose proof dlt_pos. pose proof (pos_INR k).
  assert (INR k * dlt <= 100 * (2 / 10 ^ 18)) by (apply Rmult_le_compat; lra).
  replace (100 * (2 / 10 ^ 18)) with (2 / 10 / 10 ^ 15) in * by (field; lra).
  rewrite E16. pose proof (pow_lt 10 15 ltac:(lra)) as P15.
  replace (33 / (10 ^ 15 * 10)) with (33 / 10 * / 10 ^ 15) by (field; lra).
  unfold Rdiv in *. pose proof (Rinv_0_lt_compat _ P15). lra.
Qed.

(** ** from moments to polynomials on an interval *)
Definition acc (rule : list (R * R)) (K : nat) (eps : R) : Prop :=
  forall k, (k < K)%nat -> Rabs (qsum rule (fun x => x ^ k) - imom k) <= eps.

Fixpoint cnorm (c : list R) : R := match c with [] => 0 | a :: t => Rabs a + cnorm t end.
Fixpoint cadd (p q : list R) : list R :=
  match p, q with
  | [], q => q
  | p, [] => p
  | a :: p, b :: q => (a + b) :: cadd p q
  end.
Definition cscale (k : R) (p : list R) : list R := map (Rmult k) p.
Definition cmulaff (m h : R) (p : list R) : list R := cadd (cscale m p) (0 :: cscale h p).
Fixpoint caff (m h : R) (c : list R) : list R :=
  match c with [] => [] | a :: t => cadd [a] (cmulaff m h (caff m h t)) end.

Lemma cadd_eval p : forall q x, cpoly (cadd p q) x = cpoly p x + cpoly q x.
Proof. induction p as [|a p IH]; intros [|b q] x; cbn [cadd cpoly]; try ring. rewrite IH. ring. Qed.
Lemma cscale_eval k p x : cpoly (cscale k p) x = k * cpoly p x.
Proof. induction p as [|a p IH]; cbn [cscale map cpoly]; [ring|]. fold (cscale k p). rewrite IH. ring. Qed.
Lemma caff_eval m h c x : cpoly (caff m h c) x = cpoly c (m + h * x).
Proof.
  induction c as [|a t IH]; cbn [caff cpoly]; [reflexivity|].
  rewrite cadd_eval. unfold cmulaff. rewrite cadd_eval. cbn [cpoly]. rewrite !cscale_eval, IH. ring.
Qed.
Lemma cadd_len p : forall q, length (cadd p q) = Nat.max (length p) (length q).
Proof. induction p as [|a p IH]; intros [|b q]; cbn [cadd length]; try lia. rewrite IH. lia. Qed.
Lemma caff_len m h c : length (caff m h c) = length c.
Proof.
  induction c as [|a t IH]; cbn [caff length]; [reflexivity|].
  rewrite cadd_len. unfold cmulaff. rewrite cadd_len. cbn [length]. unfold cscale. rewrite !map_length, IH. lia.
Qed.
Lemma cnorm_pos c : 0 <= cnorm c.
Proof. induction c as [|a t IH]; cbn [cnorm]; [lra|]. pose proof (Rabs_pos a). lra. Qed.
Lemma cadd_norm p : forall q, cnorm (cadd p q) <= cnorm p + cnorm q.
Proof.
  induction p as [|a p IH]; intros [|b q]; cbn [cadd cnorm]; try lra.
  pose proof (Rabs_triang a b). specialize (IH q). lra.
Qed.
Lemma cscale_norm k p : cnorm (cscale k p) = Rabs k * cnorm p.
Proof. induction p as [|a p IH]; cbn [cscale map cnorm]; [ring|]. fold (cscale k p). rewrite IH, Rabs_mult. ring. Qed.
Lemma caff_norm m h c : cnorm (caff m h c) <= cpoly (map Rabs c) (Rabs m + Rabs h).
Proof.
  induction c as [|a t IH]; cbn [caff map cpoly cnorm]; [lra|].
  pose proof (cadd_norm [a] (cmulaff m h (caff m h t))) as H1. cbn [cnorm] in H1.
  pose proof (cadd_norm (cscale m (caff m h t)) (0 :: cscale h (caff m h t))) as H2. fold (cmulaff m h (caff m h t)) in H2.
  cbn [cnorm] in H2. rewrite !cscale_norm, Rabs_R0 in H2.
  pose proof (Rabs_pos m). pose proof (Rabs_pos h).
  assert ((Rabs m + Rabs h) * cnorm (caff m h t) <= (Rabs m + Rabs h) * cpoly (map Rabs t) (Rabs m + Rabs h))
    by (apply Rmult_le_compat_l; lra). lra.
Qed.

Lemma acc_poly rule K eps : 0 <= eps -> acc rule K eps -> forall c k I, (length c + k <= K)%nat ->
  is_int1 (fun x => x ^ k * cpoly c x) (-1) 1 I ->
  Rabs (qsum rule (fun x => x ^ k * cpoly c x) - I) <= eps * cnorm c.
Proof.
  intros He A. induction c as [|a c IH]; intros k I L HI; cbn [cpoly cnorm length] in *.
  - assert (I = 0).
    { apply (is_int1_unique (fun x => x ^ k * 0) (-1) 1); [exact HI|].
      apply (is_int1_ext (fun _ => 0)); [intro; ring|apply is_int1_zero]. }
    subst I. rewrite (qsum_ext _ _ (fun _ => 0)) by (intro; ring). rewrite qsum_zero, Rminus_diag_eq, Rabs_R0 by reflexivity. lra.
  - assert (E : exists J, is_int1 (fun x => x ^ S k * cpoly c x) (-1) 1 J).
    { exists (I - a * imom k).
      apply (is_int1_ext (fun x => x ^ k * (a + x * cpoly c x) + - a * x ^ k)); [intro; cbn [pow]; ring|].
      replace (I - a * imom k) with (I + - a * imom k) by ring.
      apply is_int1_plus; [exact HI|]. apply is_int1_scal, is_int1_pow. }
    destruct E as [J HJ].
    assert (I = a * imom k + J).
    { apply (is_int1_unique (fun x => x ^ k * (a + x * cpoly c x)) (-1) 1); [exact HI|].
      apply (is_int1_ext (fun x => a * x ^ k + x ^ S k * cpoly c x)); [intro; cbn [pow]; ring|].
      apply is_int1_plus; [|exact HJ]. apply is_int1_scal, is_int1_pow. }
    subst I. rewrite (qsum_ext _ _ (fun x => a * x ^ k + x ^ S k * cpoly c x)) by (intro; cbn [pow]; ring).
    rewrite qsum_plus, qsum_scal.
    replace (a * qsum rule (fun x => x ^ k) + qsum rule (fun x => x ^ S k * cpoly c x) - (a * imom k + J))
      with (a * (qsum rule (fun x => x ^ k) - imom k) + (qsum rule (fun x => x ^ S k * cpoly c x) - J)) by ring.
    eapply Rle_trans; [apply Rabs_triang|]. rewrite Rabs_mult, Rmult_plus_distr_l.
    apply Rplus_le_compat; [|apply IH; [lia|exact HJ]].
    rewrite (Rmult_comm eps). apply Rmult_le_compat_l; [apply Rabs_pos|]. apply A. lia.
Qed.

Lemma half_max a b : Rabs (1 / 2 * (a + b)) + Rabs (1 / 2 * (b - a)) = Rmax (Rabs a) (Rabs b).
Proof.
  unfold Rmax. destruct (Rle_dec (Rabs a) (Rabs b)) as [H|H]; unfold Rabs in *;
    repeat (match goal with |- context [Rcase_abs ?x] => destruct (Rcase_abs x)
            | H : context [Rcase_abs ?x] |- _ => destruct (Rcase_abs x) end); lra.
Qed.

Lemma acc_interval rule K eps a b c I : 0 <= eps -> acc rule K eps -> (length c <= K)%nat ->
  is_int1 (cpoly c) a b I ->
  Rabs (qsum (map (fun t => (1 / 2 * (a + b) + 1 / 2 * (b - a) * fst t, 1 / 2 * (b - a) * snd t)) rule) (cpoly c) - I)
    <= eps * (Rabs (b - a) / 2) * cpoly (map Rabs c) (Rmax (Rabs a) (Rabs b)).
Proof.
  intros He A L HI. set (m := 1 / 2 * (a + b)). set (h := 1 / 2 * (b - a)).
  rewrite (qsum_map (fun x => m + h * x) h rule (cpoly c)).
  assert (HJ : exists J, is_int1 (fun x => x ^ 0 * cpoly (caff m h c) x) (-1) 1 J).
  { clear. generalize (caff m h c). intro q. generalize 0%nat. induction q as [|e q IH]; intro k; cbn [cpoly].
    - exists 0. apply (is_int1_ext (fun _ => 0)); [intro; ring|apply is_int1_zero].
    - destruct (IH (S k)) as [J HJ]. exists (e * imom k + J).
      apply (is_int1_ext (fun x => e * x ^ k + x ^ S k * cpoly q x)); [intro; cbn [pow]; ring|].
      apply is_int1_plus; [|exact HJ]. apply is_int1_scal, is_int1_pow. }
  destruct HJ as [J HJ].
  assert (EI : I = h * J).
  { apply (is_int1_unique (fun t => h * cpoly c (m + h * t)) (-1) 1).
    - apply is_int1_affine in HI. eapply is_int1_ext; [|exact HI]. intro t. cbv beta.
      replace ((b - a) / 2) with h by (unfold h; field). replace ((a + b) / 2) with m by (unfold m; field). reflexivity.
    - apply is_int1_scal. eapply is_int1_ext; [|exact HJ]. intro t. cbv beta. rewrite caff_eval. cbn [pow]. ring. }
  assert (EQ : qsum rule (fun x => cpoly c (m + h * x)) = qsum rule (fun x => x ^ 0 * cpoly (caff m h c) x)).
  { apply qsum_ext. intro x. rewrite caff_eval. cbn [pow]. ring. }
  rewrite EQ, EI. clear EQ.
  assert (L' : (length (caff m h c) + 0 <= K)%nat) by (rewrite caff_len; lia).
  pose proof (acc_poly rule K eps He A (caff m h c) 0%nat J L' HJ) as B.
  pose proof (caff_norm m h c) as N. unfold m, h in N. rewrite half_max in N. fold m h in N.
  match goal with |- Rabs (h * ?q - h * J) <= _ => replace (h * q - h * J) with (h * (q - J)) by ring end.
  rewrite Rabs_mult.
  replace (Rabs (b - a) / 2) with (Rabs h).
  - rewrite (Rmult_comm eps), Rmult_assoc. apply Rmult_le_compat_l; [apply Rabs_pos|].
    eapply Rle_trans; [exact B|]. apply Rmult_le_compat_l; assumption.
  - unfold h. rewrite Rabs_mult, (Rabs_right (1 / 2)) by lra. field.
Qed.

(** ** ... and on a segment of R^D *)
Definition line (m h : pt) : nat -> pexp := fun i => PAdd (PC (m i)) (PMul (PC (h i)) (PX 0)).

Lemma qsum_lift (rule : list (R * R)) f :
  qsum rule (fun x => f (fun _ : nat => x)) = qsum (map (fun t => ((fun _ : nat => fst t), snd t)) rule) f.
Proof. induction rule as [|[x w] t IH]; cbn [qsum map fst snd]; [reflexivity|]. now rewrite IH. Qed.

Lemma acc_lift rule K eps : acc rule K eps ->
  forall a, length a = 1%nat -> (lsum a < K)%nat ->
  Rabs (qsum (map (fun t => ((fun _ : nat => fst t), snd t)) rule) (mono a) - cmoment a) <= eps.
Proof.
  intros A [|k [|? ?]] L S; try discriminate. cbn [lsum cmoment] in *.
  rewrite <- (qsum_lift rule (mono [k])). rewrite Rmult_1_r.
  rewrite (qsum_ext _ _ (fun x => x ^ k)) by (intro; cbn [mono]; ring). apply A. lia.
Qed.

Lemma acc_segment rule K eps len (a b : pt) p I : 0 <= eps -> 0 <= len -> acc rule K eps -> (pdeg p < K)%nat ->
  is_int1 (fun t => peval p (fun i => a i + t * (b i - a i))) 0 1 I ->
  Rabs (qsum (map (fun t => (padd (pscale (1 / 2) (padd a b)) (pscale (fst t) (pscale (1 / 2) (psubt b a))),
                             1 / 2 * len * snd t)) rule) (peval p) - len * I)
    <= eps * (len / 2) * pmag p (fun i => Rmax (Rabs (a i)) (Rabs (b i))).
Proof.
  intros He Hl A Dg HI.
  set (m := pscale (1 / 2) (padd a b)). set (h := pscale (1 / 2) (psubt b a)).
  rewrite (qsum_map (fun x => padd m (pscale x h)) (1 / 2 * len) rule (peval p)).
  set (q := psub (line m h) p).
  assert (V : pvars 1 q) by (apply psub_vars; intro; cbn; repeat split; lia).
  destruct (cube_int_exists 1 q V) as [J HJ].
  assert (EQ : forall x, peval p (padd m (pscale x h)) = peval q (fun _ => x)).
  { intro x. unfold q. rewrite psub_eval. apply peval_ext. intro i. cbn [line peval]. unfold padd, pscale. ring. }
  assert (EI : I = / 2 * J).
  { apply is_int1_affine in HI.
    destruct HJ as (G & HG & HJ). cbn [is_int_cube] in HG.
    apply (is_int1_unique (fun t => / 2 * G t) (-1) 1); [|now apply is_int1_scal].
    eapply is_int1_ext; [|exact HI]. intro t. cbv beta. rewrite HG.
    replace ((1 - 0) / 2) with (/ 2) by field. f_equal. unfold q. rewrite psub_eval. apply peval_ext.
    intro i. cbn [line peval scons]. unfold m, h, padd, pscale, psubt. field. }
  assert (B : Rabs (qsum rule (fun x => peval q (fun _ => x)) - J) <= eps * pmag q (fun _ => 1)).
  { rewrite qsum_lift. apply (accurate_cube _ 1 (K - 1) eps q J); auto.
    - pose proof (psub_deg (line m h) p ltac:(intro; cbn; lia)). fold q in H. lia.
    - intros e L S. eapply acc_lift; eauto. lia. }
  assert (N : pmag q (fun _ => 1) = pmag p (fun i => Rmax (Rabs (a i)) (Rabs (b i)))).
  { unfold q. rewrite psub_mag. apply pmag_ext. intro i. cbn [line pmag]. rewrite Rmult_1_r.
    unfold m, h, padd, psubt, pscale. apply half_max. }
  rewrite (qsum_ext _ _ _ EQ), EI. rewrite N in B.
  match goal with |- Rabs (_ * ?s - _) <= _ => replace (1 / 2 * len * s - len * (/ 2 * J)) with (len / 2 * (s - J)) by field end.
  rewrite Rabs_mult, (Rabs_right (len / 2)) by lra. rewrite (Rmult_comm eps), Rmult_assoc.
  apply Rmult_le_compat_l; [lra|exact B].
Qed.

(** ** the tables *)
Lemma gauss_nth n : (n < 20)%nat -> let t := nth n gauss_rules [] in
  length t = S n /\ acc (tabR t) (2 * S n) quad_eps /\ Forall (fun p => -1 < fst p < 1 /\ 0 < snd p) (tabR t).
Proof.
  intros Hn t. pose proof gauss_tables_ok as H. rewrite forallb_forall in H.
  assert (IN : In t gauss_rules) by (apply nth_In; cbn [gauss_rules length]; lia).
  specialize (H t IN). apply Bool.andb_true_iff in H. destruct H as [H C].
  apply Bool.andb_true_iff in H. destruct H as [T It].
  assert (L : length t = S n) by (unfold t; clear - Hn; do 20 (destruct n as [|n]; [reflexivity|]); lia).
  rewrite L in C. split; [exact L|]. split; [intros k Hk; apply (table_accurate t (2 * S n)); auto; lia|].
  destruct (table_repr t T) as [F2 _]. unfold table_interior in It. rewrite forallb_forall in It.
  unfold table_ok in T. apply Bool.andb_true_iff in T. destruct T as [T _]. rewrite forallb_forall in T.
  apply Forall_forall. intros [x w] IN'. apply in_map_iff in IN'. destruct IN' as ((q & v) & E & IN'). injection E as <- <-.
  cbn [fst snd]. pose proof (div_abs_lt q (It _ IN')) as B. apply Rabs_def2 in B. split; [lra|].
  specialize (T _ IN'). cbn [fst snd] in T. apply Bool.andb_true_iff in T. destruct T as [_ Hw].
  apply Z.ltb_lt, IZR_lt in Hw. unfold Q2R. apply Rmult_lt_0_compat; [lra|]. apply Rinv_0_lt_compat, IZR_lt. reflexivity.
Qed.

Lemma lobatto_nth n : (1 <= n < 20)%nat -> let t := nth n lobatto_rules [] in
  length t = S n /\ acc (tabR t) (2 * n) quad_eps /\ Forall (fun p => -1 <= fst p <= 1 /\ 0 < snd p) (tabR t) /\
  (exists w, hd_error (tabR t) = Some (-1, w)) /\ (exists w l, tabR t = l ++ [(1, w)]).
Proof.
  intros Hn t. pose proof lobatto_tables_ok as H. rewrite forallb_forall in H.
  assert (IN : In t lobatto_rules) by (apply nth_In; cbn [lobatto_rules length]; lia).
  specialize (H t IN). apply Bool.andb_true_iff in H. destruct H as [T C].
  assert (L : length t = S n) by (unfold t; clear - Hn; do 20 (destruct n as [|n]; [reflexivity|]); lia).
  rewrite L in C. replace (2 * S n - 2)%nat with (2 * n)%nat in C by lia.
  split; [exact L|]. split; [intros k Hk; apply (table_accurate t (2 * n)); auto; lia|]. split.
  - unfold table_ok in T. apply Bool.andb_true_iff in T. destruct T as [T _]. rewrite forallb_forall in T.
    apply Forall_forall. intros [x w] IN'. apply in_map_iff in IN'. destruct IN' as ((q & v) & E & IN'). injection E as <- <-.
    specialize (T _ IN'). cbn [fst snd] in T |- *. apply Bool.andb_true_iff in T. destruct T as [T Hw].
    apply Bool.andb_true_iff in T. destruct T as [_ Hx]. apply div_abs_le in Hx.
    assert (H := Rle_abs (Q2R q)). assert (H' := Rle_abs (- Q2R q)). rewrite Rabs_Ropp in H'. split; [lra|].
    apply Z.ltb_lt, IZR_lt in Hw. unfold Q2R. apply Rmult_lt_0_compat; [lra|]. apply Rinv_0_lt_compat, IZR_lt. reflexivity.
  - assert (HD : exists w, hd_error t = Some ((-1.0000000000000000)%Q, w)).
    { unfold t. clear - Hn. destruct n as [|n]; [lia|]. do 19 (destruct n as [|n]; [eexists; reflexivity|]). lia. }
    assert (LS : exists w l, t = l ++ [(1.0000000000000000%Q, w)]).
    { pose proof (app_removelast_last (0%Q, 0%Q) (l := t) ltac:(intro E; rewrite E in L; discriminate)) as E.
      exists (snd (last t (0%Q, 0%Q))), (removelast t). rewrite E at 1. f_equal. f_equal.
      unfold t. clear - Hn. destruct n as [|n]; [lia|]. do 19 (destruct n as [|n]; [reflexivity|]). lia. }
    split.
    + destruct HD as [w HD]. destruct t as [|p t']; [discriminate|]. injection HD as ->.
      exists (Q2R w). cbn [tabR map hd_error fst snd]. do 2 f_equal. unfold Q2R. cbn [Qnum Qden]. field.
    + destruct LS as (w & l & E). exists (Q2R w), (tabR l). rewrite E. unfold tabR. rewrite map_app. cbn [map fst snd].
      do 3 f_equal. unfold Q2R. cbn [Qnum Qden]. field.
Qed.
