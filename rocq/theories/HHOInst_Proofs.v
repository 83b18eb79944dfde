(** Cells that satisfy what the HHO operators assume: simplices with Grundmann-Moeller quadratures and monomials.
    Here: positivity of integrals over a simplex, bases. *)
From Coq Require Import List Arith Reals Lra Lia Bool Factorial Classical.
From Verif Require Import Poly_Spec Poly_Proofs HHO_Spec HHO_Model HHO_Setting HHO_Proofs GM_Model GM_Proofs GM2_Proofs GM4_Proofs GM_Properties.
From Verif Require VBases_Proofs Bases_Spec Tensor_Spec.
Import ListNotations.
Open Scope R_scope.

(** * polynomials along a line *)
Fixpoint cadd (a b : list R) : list R :=
  match a, b with [], _ => b | _, [] => a | x :: a, y :: b => (x + y) :: cadd a b end.
Lemma cadd_eval a : forall b t, cpoly (cadd a b) t = cpoly a t + cpoly b t.
Proof. induction a as [|x a IH]; intros [|y b] t; cbn [cadd cpoly]; try lra. rewrite IH. ring. Qed.
Definition cscal (k : R) (a : list R) : list R := map (Rmult k) a.
Lemma cscal_eval k a t : cpoly (cscal k a) t = k * cpoly a t.
Proof. unfold cscal. induction a as [|x a IH]; cbn [map cpoly]; [lra|]. rewrite IH. ring. Qed.
Fixpoint cmul (a b : list R) : list R := match a with [] => [] | x :: a => cadd (cscal x b) (0 :: cmul a b) end.
Lemma cmul_eval a b t : cpoly (cmul a b) t = cpoly a t * cpoly b t.
Proof. induction a as [|x a IH]; cbn [cmul cpoly]; [lra|]. rewrite cadd_eval, cscal_eval. cbn [cpoly]. rewrite IH. ring. Qed.
Lemma line_poly p x v : exists c, forall t, peval p (fun i => x i + t * v i) = cpoly c t.
Proof.
  induction p as [k|i|p (a & Ha) q (b & Hb)|p (a & Ha) q (b & Hb)].
  - exists [k]. intros t. cbn. lra.
  - exists [x i; v i]. intros t. cbn. ring.
  - exists (cadd a b). intros t. cbn [peval]. rewrite Ha, Hb, cadd_eval. reflexivity.
  - exists (cmul a b). intros t. cbn [peval]. rewrite Ha, Hb, cmul_eval. reflexivity.
Qed.
Lemma cpoly_bound c : exists M, 0 <= M /\ forall t, 0 <= t <= 1 -> Rabs (cpoly c t) <= M.
Proof.
  induction c as [|a c (M & HM & H)].
  - exists 0. split; [lra|]. intros t _. cbn. rewrite Rabs_R0. lra.
  - exists (Rabs a + M). pose proof (Rabs_pos a). split; [lra|]. intros t Ht. cbn [cpoly].
    eapply Rle_trans; [apply Rabs_triang|]. apply Rplus_le_compat_l. rewrite Rabs_mult, (Rabs_right t) by lra.
    specialize (H t Ht). pose proof (Rabs_pos (cpoly c t)). nra.
Qed.
Lemma cpoly_zero c eps : 0 < eps -> (forall t, 0 < t <= eps -> cpoly c t = 0) -> forall t, cpoly c t = 0.
Proof.
  intros He. induction c as [|a c IH]; intros H t; [reflexivity|]. cbn [cpoly] in *.
  assert (A : a = 0).
  { destruct (cpoly_bound c) as (M & HM & B). destruct (Req_dec a 0) as [Z|NZ]; [exact Z|exfalso].
    pose proof (Rabs_pos_lt a NZ) as Pa.
    set (s := Rmin (Rmin eps 1) (Rabs a / (2 * (M + 1)))).
    assert (Q : 0 < Rabs a / (2 * (M + 1))) by (apply Rdiv_lt_0_compat; lra).
    assert (S0 : 0 < s) by (unfold s; apply Rmin_glb_lt; [apply Rmin_glb_lt; lra|exact Q]).
    assert (S1 : s <= eps) by (unfold s; eapply Rle_trans; [apply Rmin_l|apply Rmin_l]).
    assert (S2 : s <= 1) by (unfold s; eapply Rle_trans; [apply Rmin_l|apply Rmin_r]).
    assert (S3 : s <= Rabs a / (2 * (M + 1))) by (unfold s; apply Rmin_r).
    specialize (H s ltac:(lra)). specialize (B s ltac:(lra)).
    assert (E : a = - (s * cpoly c s)) by lra.
    assert (F : Rabs a <= s * M) by (rewrite E, Rabs_Ropp, Rabs_mult, (Rabs_right s) by lra; apply Rmult_le_compat_l; lra).
    assert (G : s * M <= Rabs a / (2 * (M + 1)) * M) by (apply Rmult_le_compat_r; lra).
    assert (K : Rabs a / (2 * (M + 1)) * M <= Rabs a / 2).
    { replace (Rabs a / 2) with (Rabs a / (2 * (M + 1)) * (M + 1)) by (field; lra). apply Rmult_le_compat_l; lra. }
    lra. }
  subst a. assert (Z : forall u, cpoly c u = 0).
  { apply IH. intros u Hu. specialize (H u Hu). assert (u * cpoly c u = 0) as Q by lra. apply Rmult_integral in Q as [Q|Q]; lra. }
  rewrite Z. lra.
Qed.
Lemma line_zero p x v eps : 0 < eps -> (forall t, 0 < t <= eps -> peval p (fun i => x i + t * v i) = 0) ->
  forall t, peval p (fun i => x i + t * v i) = 0.
Proof.
  intros He H t. destruct (line_poly p x v) as (c & Hc). rewrite Hc. apply (cpoly_zero c eps He). intros u Hu. rewrite <- Hc. apply H, Hu.
Qed.

(** * positivity of one-dimensional integrals *)
Lemma int1_mono F G a b : (forall s, derivable_pt_lim F s (G s)) -> (forall s, a <= s <= b -> 0 <= G s) ->
  forall s t, a <= s -> s <= t -> t <= b -> F s <= F t.
Proof.
  intros HF HG s t Hs Hst Ht. destruct (Req_dec s t) as [->|N]; [lra|].
  destruct (MVT_cor2 F G s t ltac:(lra) (fun c _ => HF c)) as (c & E & Hc).
  assert (0 <= G c) by (apply HG; lra). assert (0 <= G c * (t - s)) by (apply Rmult_le_pos; lra). lra.
Qed.
Lemma int1_pos G a b I : a <= b -> is_int1 G a b I -> (forall s, a <= s <= b -> 0 <= G s) -> 0 <= I.
Proof. intros Hab (F & HF & ->) HG. pose proof (int1_mono F G a b HF HG a b ltac:(lra) Hab ltac:(lra)). lra. Qed.
Lemma int1_def G a b I : a < b -> is_int1 G a b I -> (forall s, a <= s <= b -> 0 <= G s) -> I = 0 -> forall s, a <= s <= b -> G s = 0.
Proof.
  intros Hab (F & HF & EI) HG Z s Hs. subst I.
  assert (FC : forall t, a <= t <= b -> F t = F a).
  { intros t Ht. pose proof (int1_mono F G a b HF HG a t ltac:(lra) ltac:(lra) ltac:(lra)).
    pose proof (int1_mono F G a b HF HG t b ltac:(lra) ltac:(lra) ltac:(lra)). lra. }
  destruct (Req_dec (G s) 0) as [E|N]; [exact E|exfalso].
  destruct (HF s (Rabs (G s)) (Rabs_pos_lt _ N)) as (dl & Hd).
  (* a nonzero step that stays inside *)
  assert (St : exists h, h <> 0 /\ Rabs h < dl /\ a <= s + h <= b).
  { pose proof (cond_pos dl) as Pd. destruct (Rlt_dec s b) as [L|L].
    - exists (Rmin (dl / 2) (b - s)). assert (0 < Rmin (dl / 2) (b - s)) by (apply Rmin_glb_lt; lra).
      pose proof (Rmin_l (dl / 2) (b - s)). pose proof (Rmin_r (dl / 2) (b - s)). rewrite Rabs_right by lra. repeat split; lra.
    - exists (- Rmin (dl / 2) (s - a)). assert (0 < Rmin (dl / 2) (s - a)) by (apply Rmin_glb_lt; lra).
      pose proof (Rmin_l (dl / 2) (s - a)). pose proof (Rmin_r (dl / 2) (s - a)). rewrite Rabs_Ropp, Rabs_right by lra. repeat split; lra. }
  destruct St as (h & Hh & Hl & Hin). specialize (Hd h Hh Hl). rewrite (FC (s + h) Hin), (FC s Hs) in Hd.
  replace ((F a - F a) / h - G s) with (- G s) in Hd by (field; exact Hh). rewrite Rabs_Ropp in Hd. lra.
Qed.

(** * positivity over the simplex *)
Definition insimp (n : nat) (c : R) (y : pt) : Prop := (forall i, (i < n)%nat -> 0 <= y i) /\ sg n y <= c.
Lemma insimp_cons n c s y : 0 <= s -> insimp n (c - s) y -> insimp (S n) c (scons s y).
Proof.
  intros Hs (A & B). split.
  - intros [|i] Hi; cbn [scons]; [exact Hs|apply A; lia].
  - rewrite sg_first. change (s + sg n y <= c). lra.
Qed.
Lemma simp_pos n : forall c f I, 0 <= c -> is_int_simplex n c f I -> (forall y, insimp n c y -> 0 <= f y) -> 0 <= I.
Proof.
  induction n as [|n IH]; intros c f I Hc HI Hf.
  - cbn in HI. rewrite HI. apply Hf. split; [intros; lia|]. cbn. lra.
  - destruct HI as (G & HG & H1). apply (int1_pos G 0 c I Hc H1). intros s Hs.
    apply (IH (c - s) (fun x => f (scons s x)) (G s)); [lra|apply HG|]. intros y Hy. apply Hf, insimp_cons; [lra|exact Hy].
Qed.
Lemma pvars_ext n p x y : pvars n p -> (forall i, (i < n)%nat -> x i = y i) -> peval p x = peval p y.
Proof.
  intros V H. induction p as [k|i|p IHp q IHq|p IHp q IHq]; cbn [pvars peval] in *.
  - reflexivity.
  - apply H, V.
  - rewrite IHp, IHq by tauto. reflexivity.
  - rewrite IHp, IHq by tauto. reflexivity.
Qed.
Definition slice (s : R) (k : nat) : pexp := match k with O => PC s | S k => PX k end.
Lemma slice_eval s p x : peval (psub (slice s) p) x = peval p (scons s x).
Proof. rewrite psub_eval. apply peval_ext. intros [|k]; reflexivity. Qed.
Lemma slice_vars n s p : pvars (S n) p -> pvars n (psub (slice s) p).
Proof.
  intros V. induction p as [k|i|p IHp q IHq|p IHp q IHq]; cbn [psub pvars] in *; try tauto.
  destruct i as [|i]; cbn [slice pvars]; [exact Logic.I|lia].
Qed.
Lemma sg_nonneg_le n (y : pt) : (forall i, (i < n)%nat -> 0 <= y i) -> forall i, (i < n)%nat -> y i <= sg n y.
Proof.
  intros H i Hi. induction n as [|n IH]; [lia|]. cbn [sg]. pose proof (H n ltac:(lia)).
  assert (P : 0 <= sg n y) by (apply sg_le; intros; apply H; lia).
  destruct (Nat.eq_dec i n) as [->|]; [lra|]. assert (y i <= sg n y) by (apply IH; [intros; apply H; lia|lia]). lra.
Qed.
Lemma simp_def n : forall c p I, 0 < c -> pvars n p -> is_int_simplex n c (peval p) I -> (forall y, insimp n c y -> 0 <= peval p y) -> I = 0 ->
  forall y, insimp n c y -> peval p y = 0.
Proof.
  induction n as [|n IH]; intros c p I Hc V HI Hp Z y Hy.
  - cbn in HI. rewrite <- Z, HI. apply (pvars_ext 0); [exact V|intros; lia].
  - destruct HI as (G & HG & H1).
    assert (HG' : forall s, is_int_simplex n (c - s) (peval (psub (slice s) p)) (G s)).
    { intros s. eapply is_int_simplex_ext; [|apply HG]. intros x. symmetry. apply slice_eval. }
    assert (PG : forall s, 0 <= s <= c -> 0 <= G s).
    { intros s Hs. apply (simp_pos n (c - s) (peval (psub (slice s) p))); [lra|apply HG'|]. intros z Hz. rewrite slice_eval. apply Hp, insimp_cons; [lra|exact Hz]. }
    pose proof (int1_def G 0 c I Hc H1 PG Z) as GZ.
    assert (Inner : forall z, insimp (S n) c z -> z O < c -> peval p z = 0).
    { intros z (Pz & Sz) Lz. pose proof (Pz O ltac:(lia)) as P0.
      transitivity (peval (psub (slice (z O)) p) (fun k => z (S k))).
      - rewrite slice_eval. apply peval_ext. intros [|k]; reflexivity.
      - apply (IH (c - z O) _ (G (z O))); [lra|apply slice_vars, V|apply HG'| |apply GZ; lra|].
        + intros x Hx. rewrite slice_eval. apply Hp, insimp_cons; [lra|exact Hx].
        + split; [intros i Hi; apply Pz; lia|]. rewrite sg_first in Sz. lra. }
    destruct (Rlt_dec (y O) c) as [L|L]; [apply Inner; assumption|].
    pose proof (line_zero p y (fun i => - y i) 1 ltac:(lra)) as LZ.
    rewrite <- (LZ) with (t := 0); [apply peval_ext; intros; lra|].
    intros t Ht. destruct Hy as (Py & Sy). apply Inner.
    + split.
      * intros i Hi. specialize (Py i Hi). assert (0 <= (1 - t) * y i) by (apply Rmult_le_pos; lra). lra.
      * rewrite (sg_ext (S n) _ (fun i => (1 - t) * y i)) by (intros; ring). rewrite sg_scal.
        assert (0 <= sg (S n) y) by (apply sg_le; exact Py). assert (0 <= t * sg (S n) y) by (apply Rmult_le_pos; lra). lra.
    + pose proof (sg_nonneg_le (S n) y Py 0%nat ltac:(lia)). assert (y O = c) by lra. assert (0 < t * y O) by (apply Rmult_lt_0_compat; lra). lra.
Qed.
Lemma sg_abs n (v : nat -> R) : sg n v <= sg n (fun i => Rabs (v i)).
Proof. induction n as [|n IH]; cbn [sg]; [lra|]. pose proof (Rle_abs (v n)). lra. Qed.
(** a polynomial that vanishes on the simplex vanishes everywhere *)
Lemma simp_vanish n p : pvars n p -> (forall y, insimp n 1 y -> peval p y = 0) -> forall y, peval p y = 0.
Proof.
  intros V H y. set (b := fun _ : nat => / INR (S n)).
  assert (Pn : 0 < INR (S n)) by (apply lt_0_INR; lia).
  assert (B0 : 0 < / INR (S n)) by (apply Rinv_0_lt_compat, Pn).
  set (v := fun i => y i - b i).
  set (m := sg n (fun i => Rabs (v i))). assert (Pm : 0 <= m) by (apply sg_le; intros; apply Rabs_pos).
  pose proof (line_zero p b v (/ INR (S n) / (m + 1))) as LZ.
  rewrite <- LZ with (t := 1).
  - apply peval_ext. intros i. unfold v. ring.
  - apply Rdiv_lt_0_compat; lra.
  - intros t (T0 & T1). apply H.
    assert (T2 : t * m <= / INR (S n)).
    { apply Rle_trans with (/ INR (S n) / (m + 1) * m); [apply Rmult_le_compat_r; lra|].
      replace (/ INR (S n)) with (/ INR (S n) / (m + 1) * (m + 1)) at 2 by (field; split; lra).
      apply Rmult_le_compat_l; [|lra]. left. apply Rdiv_lt_0_compat; lra. }
    split.
    + intros i Hi. assert (A : Rabs (v i) <= m) by (unfold m; apply (sg_nonneg_le n (fun i => Rabs (v i))); [intros; apply Rabs_pos|exact Hi]).
      assert (C : - (t * m) <= t * v i). { pose proof (Rle_abs (- v i)) as A'. rewrite Rabs_Ropp in A'. assert (- m <= v i) by lra. assert (0 <= t * (m + v i)) by (apply Rmult_le_pos; lra). lra. }
      unfold b. lra.
    + rewrite sg_plus, sg_scal. assert (E : sg n b = INR n * / INR (S n)).
      { unfold b. generalize (/ INR (S n)). intros r. clear. induction n as [|n IH]; [cbn; ring|]. cbn [sg]. rewrite IH, S_INR. ring. }
      assert (C : t * sg n v <= t * m) by (apply Rmult_le_compat_l; [lra|]; apply sg_abs).
      rewrite E. assert (INR n * / INR (S n) + / INR (S n) = 1) by (rewrite S_INR in *; field; lra). lra.
Qed.

(** * the integral of a polynomial over the reference simplex *)
Definition Isimp (n : nat) (p : pexp) : R := fold_right (fun t s => fst t * smoment n (snd t) 1 + s) 0 (monos n p).
Lemma Isimp_int n p : pvars n p -> is_int_simplex n 1 (peval p) (Isimp n p).
Proof. intros V. eapply is_int_simplex_ext; [intros x; apply (monos_eval n p x V)|]. eapply is_int_simplex_meval, monos_ok. Qed.
Lemma Isimp_eq n p I : pvars n p -> is_int_simplex n 1 (peval p) I -> Isimp n p = I.
Proof. intros V H. exact (is_int_simplex_unique n 1 _ _ _ (Isimp_int n p V) H). Qed.

(** * elements: affine images of the simplex *)
Section Element.
  Context (n : nat) (Hn : (0 < n)%nat) (sb inv : nat -> pexp) (s : R) (Hs : 0 < s).
  Context (Vs : forall i, pvars n (sb i)) (Ds : forall i, (pdeg (sb i) <= 1)%nat).
  Context (Di : forall i, (pdeg (inv i) <= 1)%nat) (Hinv : forall y i, (i < n)%nat -> peval (inv i) (fun k => peval (sb k) y) = y i).
  Definition el_on (x : pt) : Prop := exists y, insimp n 1 y /\ forall i, x i = peval (sb i) y.
  Definition el_int (p : pexp) : R := s * Isimp n (psub sb p).
  Lemma sub_vars p : pvars n (psub sb p).
  Proof. apply psub_vars, Vs. Qed.
  Lemma el_spec p : exists J, is_int_simplex n 1 (fun y => peval p (fun k => peval (sb k) y)) J /\ el_int p = s * J.
  Proof.
    exists (Isimp n (psub sb p)). split; [|reflexivity]. eapply is_int_simplex_ext; [|apply Isimp_int, sub_vars]. intros y. apply psub_eval.
  Qed.
  Lemma el_val p J : is_int_simplex n 1 (fun y => peval p (fun k => peval (sb k) y)) J -> el_int p = s * J.
  Proof.
    intros H. unfold el_int. f_equal. apply Isimp_eq; [apply sub_vars|]. eapply is_int_simplex_ext; [|exact H]. intros y. symmetry. apply psub_eval.
  Qed.
  Lemma el_add p q : el_int (PAdd p q) = el_int p + el_int q.
  Proof.
    destruct (el_spec p) as (J & HJ & ->). destruct (el_spec q) as (J' & HJ' & ->). rewrite <- Rmult_plus_distr_l. apply el_val.
    eapply is_int_simplex_ext; [|apply (is_int_simplex_plus n 1 _ _ _ _ HJ HJ')]. intros y. reflexivity.
  Qed.
  Lemma el_scal c p : el_int (pscal c p) = c * el_int p.
  Proof.
    destruct (el_spec p) as (J & HJ & ->). replace (c * (s * J)) with (s * (c * J)) by ring. apply el_val.
    eapply is_int_simplex_ext; [|apply (is_int_simplex_scal n 1 c _ _ HJ)]. intros y. reflexivity.
  Qed.
  Lemma el_pos p : (forall x, el_on x -> 0 <= peval p x) -> 0 <= el_int p.
  Proof.
    intros H. destruct (el_spec p) as (J & HJ & ->). apply Rmult_le_pos; [lra|]. apply (simp_pos n 1 _ _ ltac:(lra) HJ).
    intros y Hy. apply H. exists y. split; [exact Hy|reflexivity].
  Qed.
  Lemma el_is_integral : integral el_on el_int.
  Proof.
    constructor.
    - intros p q H.
      assert (A : 0 <= el_int (psubp p q)) by (apply el_pos; intros x Hx; unfold psubp, pscal; cbn [peval]; rewrite (H x Hx); lra).
      assert (B : 0 <= el_int (psubp q p)) by (apply el_pos; intros x Hx; unfold psubp, pscal; cbn [peval]; rewrite (H x Hx); lra).
      unfold psubp in A, B. rewrite el_add, el_scal in A, B. lra.
    - apply el_add.
    - apply el_scal.
    - apply el_pos.
    - intros p H Z x (y & Hy & Ex). rewrite (peval_ext p x (fun k => peval (sb k) y)) by exact Ex. rewrite <- psub_eval.
      unfold el_int in Z. assert (Z' : Isimp n (psub sb p) = 0) by (apply Rmult_integral in Z as [Z|Z]; lra).
      apply (simp_def n 1 (psub sb p) _ ltac:(lra) (sub_vars p) (Isimp_int n _ (sub_vars p))); [|exact Z'|exact Hy].
      intros z Hz. rewrite psub_eval. apply H. exists z. split; [exact Hz|reflexivity].
  Qed.
  (** Grundmann-Moeller quadratures *)
  Definition el_rule (deg : nat) : list (pt * R) :=
    map (fun q => ((fun i => peval (sb i) (fst q)), s * snd q)) (as_rule (/ INR (fact n)) (gm_list n (gm_rule_of deg))).
  Lemma el_rule_exact : exact el_rule el_int.
  Proof.
    intros deg p Dp. unfold el_rule, el_int.
    transitivity (s * qsum (as_rule (/ INR (fact n)) (gm_list n (gm_rule_of deg))) (peval (psub sb p))).
    - generalize (as_rule (/ INR (fact n)) (gm_list n (gm_rule_of deg))). intros l. induction l as [|[z w] l IH]; cbn [map qsum fst snd]; [ring|].
      rewrite IH, psub_eval. ring.
    - f_equal. apply gm_exact; [exact Hn|apply sub_vars| |apply Isimp_int, sub_vars].
      pose proof (psub_deg sb p Ds). pose proof (gm_degree deg). lia.
  Qed.

  (** monomials in the coordinates of the simplex, by increasing degree *)
  Fixpoint ppow (p : pexp) (e : nat) : pexp := match e with O => PC 1 | S e => PMul p (ppow p e) end.
  Fixpoint pmono (i : nat) (a : list nat) : pexp := match a with [] => PC 1 | e :: a => PMul (ppow (inv i) e) (pmono (S i) a) end.
  Definition exps (deg : nat) : list (list nat) := flat_map (enum n) (seq 0 (S deg)).
  Definition el_bas (deg : nat) : sbasis := mkSB deg (length (exps deg)) (fun j => pmono 0 (nth j (exps deg) [])).
  Lemma ppow_eval p e x : peval (ppow p e) x = peval p x ^ e.
  Proof. induction e as [|e IH]; cbn [ppow peval pow]; [reflexivity|]. rewrite IH. reflexivity. Qed.
  Lemma pmono_eval a : forall i x, peval (pmono i a) x = mono a (fun k => peval (inv (i + k)%nat) x).
  Proof.
    induction a as [|e a IH]; intros i x; cbn [pmono peval mono]; [reflexivity|]. rewrite ppow_eval, IH, Nat.add_0_r. f_equal.
    apply mono_ext. intros k. rewrite Nat.add_succ_r. reflexivity.
  Qed.
  Lemma ppow_deg p e : (pdeg p <= 1)%nat -> (pdeg (ppow p e) <= e)%nat.
  Proof. intros H. induction e as [|e IH]; cbn [ppow pdeg]; lia. Qed.
  Lemma pmono_deg a : forall i, (pdeg (pmono i a) <= lsum a)%nat.
  Proof. induction a as [|e a IH]; intros i; cbn [pmono pdeg lsum]; [lia|]. pose proof (ppow_deg (inv i) e (Di i)). specialize (IH (S i)). lia. Qed.
  Lemma nsum_lsum a : nsum a = lsum a.
  Proof. induction a as [|x a IH]; [reflexivity|]. cbn [nsum lsum]. rewrite IH. reflexivity. Qed.
  Lemma exps_in deg a : In a (exps deg) <-> length a = n /\ (lsum a <= deg)%nat.
  Proof.
    unfold exps. rewrite in_flat_map. split.
    - intros (m & Hm & Ha). apply in_seq in Hm. apply enum_spec in Ha as [L N]. rewrite nsum_lsum in N. lia.
    - intros [L N]. exists (lsum a). split; [apply in_seq; lia|]. apply enum_spec. rewrite nsum_lsum. split; [exact L|reflexivity].
  Qed.
  Lemma exps_nodup deg : NoDup (exps deg).
  Proof.
    unfold exps. generalize (seq_NoDup (S deg) 0). generalize (seq 0 (S deg)). intros l ND. induction ND as [|m l Hm ND IH]; [constructor|].
    cbn [flat_map]. assert (Nap : forall (a b : list (list nat)), NoDup a -> NoDup b -> (forall z, In z a -> ~ In z b) -> NoDup (a ++ b)).
    { induction a as [|z a IHa]; intros b Na Nb H; [exact Nb|]. cbn [app]. inversion Na; subst. constructor.
      - rewrite in_app_iff. intros [K|K]; [tauto|]. apply (H z (or_introl eq_refl) K).
      - apply IHa; try assumption. intros w Hw. apply H. right. exact Hw. }
    apply Nap; [apply enum_nodup|exact IH|]. intros z Hz K. apply in_flat_map in K as (m' & Hm' & K). apply enum_spec in Hz as [_ <-]. apply enum_spec in K as [_ <-]. contradiction.
  Qed.
  Lemma mono_monomial a : forall y i, Bases_Spec.monomial a y i = mono a (fun k => y (i + k)%nat).
  Proof.
    induction a as [|e a IH]; intros y i; cbn [Bases_Spec.monomial mono]; [reflexivity|]. rewrite IH, Nat.add_0_r. f_equal.
    apply mono_ext. intros k. rewrite Nat.add_succ_r. reflexivity.
  Qed.
  (** coefficient of the monomial [a] *)
  Fixpoint coef (m : mlist) (a : list nat) : R :=
    match m with [] => 0 | (k, b) :: m => (if list_eq_dec Nat.eq_dec b a then k else 0) + coef m a end.
  Lemma pick E : NoDup E -> forall b (f : list nat -> R), In b E -> sg (length E) (fun j => (if list_eq_dec Nat.eq_dec b (nth j E []) then 1 else 0) * f (nth j E [])) = f b.
  Proof.
    induction E as [|a E IH]; intros ND b f Hb; [contradiction|]. inversion ND as [|? ? N1 N2]; subst. cbn [length]. rewrite sg_first. cbn [nth].
    destruct (list_eq_dec Nat.eq_dec b a) as [->|N].
    - rewrite sg_zero; [ring|]. intros i Hi. destruct (list_eq_dec Nat.eq_dec a (nth i E [])) as [E'|_]; [|ring]. exfalso. apply N1. rewrite E'. apply nth_In, Hi.
    - destruct Hb as [->|Hb]; [contradiction|]. rewrite IH by assumption. ring.
  Qed.
  Lemma meval_coef E m y : NoDup E -> (forall t, In t m -> In (snd t) E) ->
    meval m y = sg (length E) (fun j => coef m (nth j E []) * mono (nth j E []) y).
  Proof.
    intros ND. induction m as [|[k b] m IH]; intros H; cbn [meval coef]; [symmetry; apply sg_zero; intros; ring|].
    rewrite IH by (intros t Ht; apply H; right; exact Ht). cbn [fst snd].
    rewrite <- (pick E ND b (fun a => k * mono a y)) by (apply (H (k, b)); left; reflexivity). rewrite <- sg_plus. apply sg_ext. intros j _.
    destruct (list_eq_dec Nat.eq_dec b (nth j E [])); ring.
  Qed.
  Lemma el_span p deg : deg_le p deg -> exists c, forall x y, peval p (fun k => peval (sb k) y) = peval p x ->
    (forall i, (i < n)%nat -> peval (inv i) x = y i) -> peval p x = peval (lincomb (b_size (el_bas deg)) c (b_poly (el_bas deg))) x.
  Proof.
    intros (p' & Dp & Ep). set (m := monos n (psub sb p')). exists (fun j => coef m (nth j (exps deg) [])). intros x y E1 E2.
    rewrite <- E1, <- Ep, <- psub_eval, <- (monos_eval n _ y (sub_vars p')). fold m.
    rewrite (meval_coef (exps deg) m y (exps_nodup deg)).
    - rewrite peval_lincomb. unfold el_bas. cbn [b_size b_poly]. apply sg_ext. intros j Hj. f_equal. rewrite pmono_eval. apply mono_on.
      intros i Hi. cbn [Nat.add]. symmetry. apply E2. pose proof (proj1 (exps_in deg _) (nth_In (exps deg) [] Hj)). lia.
    - intros t Ht. pose proof (monos_ok n (psub sb p')) as OK. unfold mok in OK. rewrite Forall_forall in OK. destruct (OK t Ht) as [L N].
      apply exps_in. split; [exact L|]. pose proof (psub_deg sb p' Ds). lia.
  Qed.
  Lemma el_basis_on deg : basis_on el_on deg (b_size (el_bas deg)) (b_poly (el_bas deg)).
  Proof.
    split; [|split].
    - intros j Hj. exists (b_poly (el_bas deg) j). split; [|reflexivity]. cbn [el_bas b_poly b_size] in *.
      pose proof (pmono_deg (nth j (exps deg) []) 0). pose proof (proj1 (exps_in deg _) (nth_In (exps deg) [] Hj)). lia.
    - intros c H. cbn [el_bas b_size b_poly] in *.
      apply (VBases_Proofs.indep_idx n (exps deg) c (exps_nodup deg)); [intros a Ha; apply exps_in in Ha; tauto|].
      intros y. change Tensor_Spec.sig with sg.
      set (q := psub sb (lincomb (length (exps deg)) c (fun j => pmono 0 (nth j (exps deg) [])))).
      assert (Z : peval q y = 0).
      { apply (simp_vanish n); [apply sub_vars|]. intros z Hz. unfold q. rewrite psub_eval. apply H. exists z. split; [exact Hz|reflexivity]. }
      rewrite <- Z. unfold q. rewrite psub_eval, peval_lincomb. apply sg_ext. intros j Hj. f_equal. rewrite mono_monomial, pmono_eval. apply mono_on.
      intros i Hi. cbn [Nat.add]. symmetry. apply Hinv. pose proof (proj1 (exps_in deg _) (nth_In (exps deg) [] Hj)). lia.
    - intros p Hp. destruct (el_span p deg Hp) as (c & Hc). exists c. intros x (y & Hy & Ex). apply (Hc x y).
      + apply peval_ext. intros k. symmetry. apply Ex.
      + intros i Hi. rewrite (peval_ext (inv i) x (fun k => peval (sb k) y)) by exact Ex. apply Hinv, Hi.
  Qed.
  Definition el_of (diam : R) : selem := mkElem el_rule el_bas diam.
  Lemma el_fits diam : elem_fits el_on el_int (el_of diam).
  Proof. constructor; [exact el_rule_exact|exact el_basis_on|reflexivity]. Qed.
  Lemma el_one deg : (0 < b_size (el_bas deg))%nat /\ forall x, peval (b_poly (el_bas deg) 0) x = 1.
  Proof.
    assert (E0 : forall m, enum m 0 = [repeat O m]).
    { induction m as [|m IH]; [reflexivity|]. cbn [enum seq flat_map Nat.sub]. rewrite IH. cbn [map app]. rewrite <- repeat_cons. reflexivity. }
    assert (X : exps deg = repeat O n :: flat_map (enum n) (seq 1 deg)) by (unfold exps; cbn [seq flat_map]; rewrite E0; reflexivity).
    cbn [el_bas b_size b_poly]. rewrite X. cbn [length nth]. split; [lia|]. intros x. rewrite pmono_eval. apply mono_zero.
  Qed.
  Lemma el_nested deg deg' : (deg <= deg')%nat -> (b_size (el_bas deg) <= b_size (el_bas deg'))%nat /\
    forall j, (j < b_size (el_bas deg))%nat -> b_poly (el_bas deg') j = b_poly (el_bas deg) j.
  Proof.
    intros H. cbn [el_bas b_size b_poly].
    assert (X : exps deg' = exps deg ++ flat_map (enum n) (seq (S deg) (deg' - deg))).
    { unfold exps. rewrite <- flat_map_app. f_equal. rewrite <- seq_app. f_equal. lia. }
    rewrite X, app_length. split; [lia|]. intros j Hj. rewrite app_nth1 by exact Hj. reflexivity.
  Qed.
  Lemma el_basvars d deg j : (forall i, pvars d (inv i)) -> pvars d (b_poly (el_bas deg) j).
  Proof.
    intros H. cbn [el_bas b_poly]. generalize (nth j (exps deg) []). intros a. generalize O. induction a as [|e a IH]; intros i; cbn [pmono pvars]; [exact Logic.I|].
    split; [|apply IH]. induction e as [|e IHe]; cbn [ppow pvars]; [exact Logic.I|]. split; [apply H|exact IHe].
  Qed.
End Element.
