(** C27: the Grundmann-Moeller rules. *)
From Coq Require Import List Arith Bool Reals Lia Lra Factorial Permutation.
From Verif Require Import Common Poly_Spec Poly_Proofs Quad_Spec Quad_Model Geo_Model Geo_Spec Geo_Proofs GM_Model GM_Proofs GM2_Proofs GM3_Proofs GM4_Proofs.
Import ListNotations.
Local Open Scope R_scope.

Lemma nsum_list_sum l : nsum l = list_sum l.
Proof. induction l as [|a l IH]; [reflexivity|]. cbn [nsum]. rewrite IH. reflexivity. Qed.

(** the inner loop visits every composition of [m] into [n + 1] parts exactly once, as long as the arrays are large enough *)
Theorem C27_compositions : forall n m den w cap, (0 < n)%nat -> exists L,
  NoDup L /\ (forall a, In a L <-> length a = (n + 1)%nat /\ list_sum a = m) /\
  ((length L <= cap)%nat -> gm_points cap m n den w (mkC [] 0 0 false) =
     Ok (map (fun a => (map (fun dim => INR (2 * nth (dim + 1) a 0 + 1)%nat / INR den) (seq 0 n), w)) L)).
Proof.
  intros n m dn w cap Hn. exists (enum (n + 1) m). split; [apply enum_nodup|]. split.
  - intros a. rewrite enum_spec, nsum_list_sum. reflexivity.
  - intros C. rewrite gm_points_ok by (assumption || reflexivity). reflexivity.
Qed.
Print Assumptions C27_compositions.

(** gm_rule_size is the binomial coefficient, and gm_rule_set fills exactly that many entries *)
Theorem C27_size : forall n s, (0 < n)%nat ->
  (gm_rule_size s n * (fact s * fact (n + 1)) = fact (n + s + 1))%nat /\
  exists l, gm_rule_set s n (gm_rule_size s n) = Ok l /\ length l = gm_rule_size s n.
Proof.
  intros n s Hn. split.
  - unfold gm_rule_size. rewrite i4_choose_ok. rewrite <- (choose_fact (n + s + 1) s) by lia. do 3 f_equal. lia.
  - pose proof (gm_filled_ok n s Hn) as G. exists (gm_list n s). split; [|symmetry; apply gm_size].
    unfold gm_rule_set. change 1 with ((-1) ^ 0) at 1. apply (groups_ok n s Hn); [reflexivity|].
    rewrite gm_size. unfold gm_list. rewrite flat_len. apply Nat.le_refl.
Qed.
Print Assumptions C27_size.

(** the points are inside the reference simplex, and the weights sum to one *)
Theorem C27_inside : forall n s l, (0 < n)%nat -> gm_rule_set s n (gm_rule_size s n) = Ok l ->
  (forall x w, In (x, w) l -> length x = n /\ (forall c, In c x -> 0 < c) /\ fold_right Rplus 0 x < 1) /\
  fold_right (fun q r => snd q + r) 0 l = 1.
Proof.
  intros n s l Hn E.
  assert (El : l = gm_list n s).
  { unfold gm_rule_set in E. change 1 with ((-1) ^ 0) in E at 1. rewrite (groups_ok n s Hn) in E; [injection E as <-; reflexivity|reflexivity|].
    rewrite gm_size. unfold gm_list. rewrite flat_len. apply Nat.le_refl. }
  subst l. clear E. split.
  - intros x w Hx. unfold gm_list in Hx. apply in_flat_map in Hx as (i & Hi & Hx). apply in_seq in Hi. unfold group in Hx. apply in_map_iff in Hx as (a & Ea & Ha).
    unfold gm_pt in Ea. apply pair_equal_spec in Ea as [Ex _]. subst x. apply enum_spec in Ha as [La Sa].
    assert (Dp : 0 < INR (den n s i)) by (apply lt_0_INR; unfold den; lia).
    split; [rewrite map_length, seq_length; reflexivity|]. split.
    + intros c Hc. apply in_map_iff in Hc as (dim & <- & _). apply Rdiv_lt_0_compat; [apply lt_0_INR; lia|exact Dp].
    + replace (fold_right Rplus 0 (map (fun dim => INR (2 * nth (dim + 1) a 0 + 1)%nat / INR (den n s i)) (seq 0 n))) with (rs n (fun j => bary (den n s i) a (S j))).
      * pose proof (bary_sum (den n s i) (S n) a) as B. rewrite rs_head in B. assert (0 < bary (den n s i) a 0%nat) by (apply Rdiv_lt_0_compat; [apply lt_0_INR; lia|exact Dp]).
        specialize (B ltac:(lia) ltac:(unfold den; lia) ltac:(lia)). lra.
      * rewrite <- rsum_seq. generalize (seq 0 n). induction l as [|j l IH]; [reflexivity|]. cbn [rsum map fold_right]. rewrite IH. unfold bary. rewrite (Nat.add_1_r j). reflexivity.
  - pose proof (gm_moment n s (repeat 0%nat n) Hn (repeat_length _ _)) as M.
    assert (Z : lsum (repeat 0%nat n) = 0%nat /\ pfact (repeat 0%nat n) = 1) by (clear; induction n as [|n [A B]]; [split; reflexivity|cbn [repeat lsum pfact]; rewrite A, B; split; [reflexivity|cbn; ring]]).
    destruct Z as [Z1 Z2]. specialize (M ltac:(lia)). rewrite qsum_as_rule in M. unfold smoment in M. rewrite Z1, Z2, pow1 in M. cbn [Nat.add] in M.
    assert (P : INR (fact n) <> 0) by apply not_0_INR, fact_neq_0.
    assert (R1 : rsum (fun q => snd q * mono (repeat 0%nat n) (ptl (fst q))) (gm_list n s) = 1).
    { apply Rmult_eq_reg_l with (/ INR (fact n)); [|apply Rinv_neq_0_compat; exact P]. rewrite M. field. exact P. }
    rewrite <- R1. generalize (gm_list n s). induction l as [|q l IH]; [reflexivity|]. cbn [fold_right rsum]. rewrite IH, mono_zero. ring.
Qed.
Print Assumptions C27_inside.

(** exactness on the reference simplex, in any dimension: the weights are relative to the volume 1/n! *)
Theorem C27_exact : forall n s l p I, (0 < n)%nat -> gm_rule_set s n (gm_rule_size s n) = Ok l ->
  pvars n p -> (pdeg p <= 2 * s + 1)%nat -> is_int_simplex n 1 (peval p) I ->
  qsum (map (fun q => (fun i => nth i (fst q) 0, snd q / INR (fact n))) l) (peval p) = I.
Proof.
  intros n s l p I Hn E V Dg HI.
  assert (El : l = gm_list n s).
  { unfold gm_rule_set in E. change 1 with ((-1) ^ 0) in E at 1. rewrite (groups_ok n s Hn) in E; [injection E as <-; reflexivity|reflexivity|].
    rewrite gm_size. unfold gm_list. rewrite flat_len. apply Nat.le_refl. }
  subst l. rewrite <- (gm_exact n s p I Hn V Dg HI). rewrite qsum_as_rule. generalize (gm_list n s). induction l as [|q l IH]; cbn [map qsum rsum]; [ring|].
  rewrite IH. unfold ptl. unfold Rdiv. ring.
Qed.
Print Assumptions C27_exact.

Lemma gm_degree degree : (degree <= 2 * gm_rule_of degree + 1)%nat.
Proof.
  unfold gm_rule_of. pose proof (Nat.div_mod degree 2 ltac:(lia)) as H. pose proof (Nat.mod_upper_bound degree 2 ltac:(lia)).
  destruct (Nat.eqb_spec (degree mod 2) 0) as [Z|N]; [lia|].
  assert (M : degree mod 2 = 1%nat) by lia. rewrite M in H. replace (degree - 1)%nat with (degree / 2 * 2)%nat by lia. rewrite Nat.div_mul by lia. lia.
Qed.
Definition affsub (p0 : pt) (vs : list pt) : nat -> pexp :=
  fun i => fst (fold_left (fun e v => (PAdd (fst e) (PMul (PX (snd e)) (PC (v i))), S (snd e))) vs (PC (p0 i), 0%nat)).

(** any triangle of the plane *)
Theorem C27_triangle : forall degree p0 p1 p2, exists r, grundmann_moeller_2 degree p0 p1 p2 = Ok r /\
  length r = gm_rule_size (gm_rule_of degree) 2 /\
  forall p I, pvars 2 p -> (pdeg p <= degree)%nat -> is_int_triangle p0 p1 p2 (peval p) I -> qsum r (peval p) = I.
Proof.
  intros degree p0 p1 p2. unfold grundmann_moeller_2. rewrite gm_filled_ok by lia. cbn [bind]. eexists. split; [reflexivity|].
  split; [rewrite map_length, gm_size; reflexivity|]. intros p I V Dg (J & HJ & ->).
  set (sb := affsub p0 [psubt p1 p0; psubt p2 p0]).
  pose proof (gm_degree degree) as GD.
  assert (Ex : qsum (as_rule (/ INR (fact 2)) (gm_list 2 (gm_rule_of degree))) (peval (psub sb p)) = J).
  { apply gm_exact; [lia| | |].
    - apply psub_vars. intros i. unfold sb, affsub. cbn. repeat split; lia.
    - pose proof (psub_deg sb p). specialize (H (fun i => le_n 1)). lia.
    - eapply is_int_simplex_ext; [|exact HJ]. intros z. rewrite psub_eval. apply peval_ext. intros i. unfold sb, affsub. cbn. unfold psubt. ring. }
  rewrite <- Ex. rewrite qsum_as_rule, kahan2. generalize (gm_list 2 (gm_rule_of degree)). intros l. induction l as [|q l IH]; cbn [map qsum rsum]; [ring|].
  rewrite IH. rewrite psub_eval.
  rewrite (peval_ext p (comb (comb p0 (nth 0 (fst q) 0) (psubt p1 p0)) (nth 1 (fst q) 0) (psubt p2 p0)) (fun i => peval (sb i) (ptl (fst q))))
    by (intros i; unfold sb, affsub, comb, padd, pscale, ptl; cbn; unfold psubt; ring).
  change (INR (fact 2)) with 2. field.
Qed.
Print Assumptions C27_triangle.

(** any tetrahedron *)
Theorem C27_tetrahedron : forall degree p0 p1 p2 p3, exists r, grundmann_moeller_3 degree p0 p1 p2 p3 = Ok r /\
  length r = gm_rule_size (gm_rule_of degree) 3 /\
  forall p I, pvars 3 p -> (pdeg p <= degree)%nat -> is_int_tetra p0 p1 p2 p3 (peval p) I -> qsum r (peval p) = I.
Proof.
  intros degree p0 p1 p2 p3. unfold grundmann_moeller_3. rewrite gm_filled_ok by lia. cbn [bind]. eexists. split; [reflexivity|].
  split; [rewrite map_length, gm_size; reflexivity|]. intros p I V Dg (J & HJ & ->).
  set (sb := affsub p0 [psubt p1 p0; psubt p2 p0; psubt p3 p0]).
  pose proof (gm_degree degree) as GD.
  assert (Ex : qsum (as_rule (/ INR (fact 3)) (gm_list 3 (gm_rule_of degree))) (peval (psub sb p)) = J).
  { apply gm_exact; [lia| | |].
    - apply psub_vars. intros i. unfold sb, affsub. cbn. repeat split; lia.
    - pose proof (psub_deg sb p). specialize (H (fun i => le_n 1)). lia.
    - eapply is_int_simplex_ext; [|exact HJ]. intros z. rewrite psub_eval. apply peval_ext. intros i. unfold sb, affsub. cbn. unfold psubt. ring. }
  rewrite <- Ex. rewrite qsum_as_rule.
  assert (Vt : tetra_volume (psubt p1 p0) (psubt p2 p0) (psubt p3 p0) = Rabs (triple p0 p1 p2 p3) / 6).
  { unfold tetra_volume, triple, psubt. do 2 f_equal. ring. }
  rewrite Vt. generalize (gm_list 3 (gm_rule_of degree)). intros l. induction l as [|q l IH]; cbn [map qsum rsum]; [ring|].
  rewrite IH. rewrite psub_eval.
  rewrite (peval_ext p (comb (comb (comb p0 (nth 0 (fst q) 0) (psubt p1 p0)) (nth 1 (fst q) 0) (psubt p2 p0)) (nth 2 (fst q) 0) (psubt p3 p0)) (fun i => peval (sb i) (ptl (fst q))))
    by (intros i; unfold sb, affsub, comb, padd, pscale, ptl; cbn; unfold psubt; ring).
  replace (INR (fact 3)) with 6 by (cbn; ring). field.
Qed.
Print Assumptions C27_tetrahedron.

Example gm_size_example : gm_rule_size 3 2 = 20%nat /\ gm_rule_of 7 = 3%nat /\ gm_rule_of 6 = 3%nat.
Proof. repeat split; reflexivity. Qed.
(** the hypotheses of C27_exact are met: the integral of x^2 y over the triangle is 1/60 *)
Example gm_exact_example : is_int_simplex 2 1 (peval (PMul (PX 0) (PMul (PX 0) (PX 1)))) (1 / 60).
Proof.
  pose proof (is_int_simplex_mono [2; 1]%nat 1) as H. cbn [length] in H.
  replace (1 / 60) with (smoment 2 [2; 1]%nat 1) by (unfold smoment; cbn; field).
  eapply is_int_simplex_ext; [|exact H]. intros x. cbn. ring.
Qed.
