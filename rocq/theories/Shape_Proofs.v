(** Trigonometric identity for the regular polygon. *)
From Coq Require Import Reals Lra Nsatz.
Open Scope R_scope.
Lemma turn radius a u v :
  (radius * cos (2 * (a + u)) - radius * cos (2 * a)) * (radius * sin (2 * (a + u + v)) - radius * sin (2 * a)) -
  (radius * sin (2 * (a + u)) - radius * sin (2 * a)) * (radius * cos (2 * (a + u + v)) - radius * cos (2 * a)) =
  radius ^ 2 * (4 * (sin u * sin v * sin (u + v))).
Proof.
  replace (a + u + v) with (a + (u + v)) by ring. rewrite !Rmult_plus_distr_l. rewrite !(cos_plus (2 * a)), !(sin_plus (2 * a)).
  pose proof (sin2_cos2 (2 * a)) as A. unfold Rsqr in A. generalize dependent (sin (2 * a)). generalize (cos (2 * a)). intros ca sa A.
  rewrite <- Rmult_plus_distr_l. rewrite (cos_2a_sin u), (sin_2a u), (cos_2a_sin (u + v)), (sin_2a (u + v)), (sin_plus u v), (cos_plus u v).
  pose proof (sin2_cos2 u) as U. pose proof (sin2_cos2 v) as V. unfold Rsqr in U, V. generalize dependent (sin u). generalize (cos u). generalize dependent (sin v). generalize (cos v).
  intros cv sv V cu su U. replace (radius ^ 2) with (radius * radius) by ring. nsatz.
Qed.
