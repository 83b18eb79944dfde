(** C01, C02: rational numbers (mesh/rational.hpp). *)
From Coq Require Import ZArith QArith Qabs.
From Verif Require Import Common Rational_Model Rational_Spec Rational_Proofs.

(** C01: any program of rational operations that never divides by zero runs without
    undefined behaviour and returns a pair whose value is the exact mathematical result. *)
Theorem C01_rational_programs_exact :
  forall e q, meaning e = Some q ->
  exists r, reval e = Ok r /\ den r <> 0%Z /\ value r == q.
Proof.
  intros e q M. destruct (reval_correct e q M) as (r & H1 & H2 & H3 & _).
  exact (ex_intro _ r (conj H1 (conj H2 H3))).
Qed.
Print Assumptions C01_rational_programs_exact.

(** C01: simplify keeps the value, returns a positive denominator and a reduced fraction. *)
Theorem C01_simplify_reduces :
  forall r, den r <> 0%Z ->
  exists s, simplify r = Ok s /\ (0 < den s)%Z /\ value s == value r /\ Z.gcd (num s) (den s) = 1%Z.
Proof. exact simplify_spec. Qed.
Print Assumptions C01_simplify_reduces.

(** C01: the helper gcd (whatever the signs) and lcm. *)
Theorem C01_gcd_lcm :
  forall a b, (exists g, gcd a b = Some g /\ Z.abs g = Z.gcd a b) /\
  ((a <> 0 \/ b <> 0)%Z -> exists l, lcm a b = Ok l /\ Z.abs l = Z.lcm a b).
Proof. intros a b. exact (conj (gcd_spec a b) (lcm_spec a b)). Qed.
Print Assumptions C01_gcd_lcm.

Example C01_nontrivial :
  meaning (EDiv (EAdd (EMake 1 (-6)) (EMul (EMake (-2) 4) (EInt 3))) (EDivI (EMake 5 7) (-2))) <> None.
Proof. vm_compute. discriminate. Qed.

(** C02 (partial): the four comparisons and abs agree with the numerical order for values
    whose last operation adjusts signs.  Missing: values coming straight out of
    [*=(rational)], [/] and [/=(I)], for which the claim is false (see below). *)
Theorem C02_order_partial :
  forall e f p q, meaning e = Some p -> meaning f = Some q ->
  last_op_adjusts_signs e = true -> last_op_adjusts_signs f = true ->
  exists x y, reval e = Ok x /\ reval f = Ok y /\
    (rlt x y = true <-> p < q) /\ (rle x y = true <-> p <= q) /\
    (rgt x y = true <-> q < p) /\ (rge x y = true <-> q <= p) /\
    value (rabs x) == Qabs p.
Proof.
  intros e f p q M N A B.
  destruct (reval_correct e p M) as (x & X1 & X2 & X3 & X4).
  destruct (reval_correct f q N) as (y & Y1 & Y2 & Y3 & Y4).
  exists x, y. split; [exact X1|]. split; [exact Y1|].
  destruct (order_correct x y (X4 A) (Y4 B)) as (O1 & O2 & O3 & O4).
  destruct (rabs_correct x (X4 A)) as [_ O5].
  rewrite X3, Y3 in O1, O2, O3, O4. rewrite X3 in O5.
  exact (conj O1 (conj O2 (conj O3 (conj O4 O5)))).
Qed.
Print Assumptions C02_order_partial.

Example C02_nontrivial : last_op_adjusts_signs (EAdd (EMul (EMake (-2) 4) (EInt 1)) (EMake 1 3)) = true
  /\ meaning (EAdd (EMul (EMake (-2) 4) (EInt 1)) (EMake 1 3)) <> None.
Proof. vm_compute. split; [reflexivity|discriminate]. Qed.

(** C02 is false in general: (-2/3)*(1/4) is stored as 1/(-6), and then compares
    greater than zero; the same happens after dividing by a negative integer. *)
Theorem C02_order_refuted :
  (exists e p x, meaning e = Some p /\ reval e = Ok x /\ e = EMul (EMake (-2) 3) (EMake 1 4)
     /\ p < 0 /\ rlt x (rat_of_int 0) = false /\ value (rabs x) < 0) /\
  (exists e p x, meaning e = Some p /\ reval e = Ok x /\ e = EDivI (EInt 1) (-2)
     /\ -1 < p < 0 /\ rgt x (rat_of_int 0) = true /\ rlt x (rat_of_int (-1)) = true).
Proof.
  split.
  - exists (EMul (EMake (-2) 3) (EMake 1 4)), (-2 # 12), (mkR 1 (-6)). vm_compute. repeat split; reflexivity.
  - exists (EDivI (EInt 1) (-2)), (-1 # 2), (mkR 1 (-2)). vm_compute. repeat split; reflexivity.
Qed.
Print Assumptions C02_order_refuted.
