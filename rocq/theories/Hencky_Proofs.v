(** Proofs about the Hencky-Mises law. *)
From Coq Require Import List Arith Bool Reals Lra Lia FunctionalExtensionality.
From Verif Require Import Common Tensor_Model Tensor_Spec Tensor_Proofs Law_Model Hencky_Model Hencky_Spec.
Import ListNotations.
Local Open Scope R_scope.

Lemma d_ext f g x l : (forall t, f t = g t) -> derivable_pt_lim f x l -> derivable_pt_lim g x l.
Proof. intros E H eps He. destruct (H eps He) as [d Hd]. exists d. intros h H1 H2. rewrite <- !E. apply Hd; assumption. Qed.

(** ** scalars *)
Lemma root_pos a : 0 <= a -> 1 <= sqrt (1 + a).
Proof. intros H. rewrite <- sqrt_1 at 1. apply sqrt_le_1_alt. lra. Qed.
Lemma root_sq a : 0 <= a -> sqrt (1 + a) * sqrt (1 + a) = 1 + a.
Proof. intros. apply sqrt_sqrt. lra. Qed.
Lemma le_of_sq x y : 0 <= y -> x * x <= y * y -> x <= y.
Proof. intros. apply Rsqr_incr_0_var; assumption. Qed.
Lemma scal_low a b p : 0 <= a -> 0 <= b -> p * p <= a * b ->
  0 <= a * (1 / sqrt (1 + a)) + b * (1 / sqrt (1 + b)) - p * (1 / sqrt (1 + a) + 1 / sqrt (1 + b)).
Proof.
  intros Ha Hb Hp. pose proof (root_pos a Ha). pose proof (root_pos b Hb). pose proof (root_sq a Ha). pose proof (root_sq b Hb).
  set (X := sqrt (1 + a)) in *. set (Y := sqrt (1 + b)) in *.
  assert (2 * p <= a + b). { apply le_of_sq; [lra|]. pose proof (Rle_0_sqr (a - b)) as Q. unfold Rsqr in Q. lra. }
  assert (K : 1 + p <= X * Y).
  { apply le_of_sq; [apply Rmult_le_pos; lra|]. replace (X * Y * (X * Y)) with ((X * X) * (Y * Y)) by ring. rewrite H1, H2. lra. }
  replace a with (X * X - 1) by lra. replace b with (Y * Y - 1) by lra.
  replace ((X * X - 1) * (1 / X) + (Y * Y - 1) * (1 / Y) - p * (1 / X + 1 / Y)) with ((X * Y - (1 + p)) * (1 / X + 1 / Y)) by (field; lra).
  apply Rmult_le_pos; [lra|]. assert (0 < 1 / X) by (apply Rdiv_lt_0_compat; lra). assert (0 < 1 / Y) by (apply Rdiv_lt_0_compat; lra). lra.
Qed.
Lemma inv_root_le1 a : 0 <= a -> 0 < 1 / sqrt (1 + a) <= 1.
Proof.
  intros Ha. pose proof (root_pos a Ha). split; [apply Rdiv_lt_0_compat; lra|]. apply Rmult_le_reg_r with (sqrt (1 + a)); [lra|].
  unfold Rdiv. rewrite Rmult_assoc, Rinv_l by lra. lra.
Qed.
Lemma inv_root_mono a b : 0 <= a -> a <= b -> 1 / sqrt (1 + b) <= 1 / sqrt (1 + a).
Proof.
  intros Ha L. pose proof (root_pos a Ha). assert (sqrt (1 + a) <= sqrt (1 + b)) by (apply sqrt_le_1_alt; lra).
  unfold Rdiv. rewrite !Rmult_1_l. apply Rinv_le_contravar; lra.
Qed.
Lemma scal_up a b p : 0 <= a -> 0 <= b -> p * p <= a * b ->
  a * (1 / sqrt (1 + a)) + b * (1 / sqrt (1 + b)) - p * (1 / sqrt (1 + a) + 1 / sqrt (1 + b)) <= a + b - 2 * p.
Proof.
  intros Ha Hb Hp. pose proof (inv_root_le1 a Ha). pose proof (inv_root_le1 b Hb).
  assert (M : a <= b -> 1 / sqrt (1 + b) <= 1 / sqrt (1 + a)) by (apply inv_root_mono, Ha).
  assert (N : b <= a -> 1 / sqrt (1 + a) <= 1 / sqrt (1 + b)) by (apply inv_root_mono, Hb).
  set (u := 1 / sqrt (1 + a)) in *. set (v := 1 / sqrt (1 + b)) in *.
  pose proof (sqrt_pos a). pose proof (sqrt_pos b). pose proof (sqrt_sqrt a Ha) as Ea. pose proof (sqrt_sqrt b Hb) as Eb.
  assert (M' : sqrt a <= sqrt b -> v <= u) by (intros; apply M; apply sqrt_le_0; assumption).
  assert (N' : sqrt b <= sqrt a -> u <= v) by (intros; apply N; apply sqrt_le_0; assumption).
  set (x := sqrt a) in *. set (y := sqrt b) in *.
  assert (p <= x * y). { apply le_of_sq; [apply Rmult_le_pos; lra|]. replace (x * y * (x * y)) with (a * b) by (rewrite <- Ea, <- Eb; ring). exact Hp. }
  assert (0 <= (x * y - p) * (2 - u - v)) by (apply Rmult_le_pos; lra).
  assert (0 <= (x - y) * (x * (1 - u) - y * (1 - v))).
  { destruct (Rle_lt_dec y x) as [L|L].
    - apply Rmult_le_pos; [lra|]. specialize (N' L). assert (y * (1 - v) <= x * (1 - v)) by (apply Rmult_le_compat_r; lra).
      assert (x * (1 - v) <= x * (1 - u)) by (apply Rmult_le_compat_l; lra). lra.
    - replace ((x - y) * (x * (1 - u) - y * (1 - v))) with ((y - x) * (y * (1 - v) - x * (1 - u))) by ring. apply Rmult_le_pos; [lra|].
      specialize (M' ltac:(lra)). assert (x * (1 - u) <= y * (1 - u)) by (apply Rmult_le_compat_r; lra).
      assert (y * (1 - u) <= y * (1 - v)) by (apply Rmult_le_compat_l; lra). lra. }
  nra.
Qed.

(** ** the scalar product of matrices *)
Lemma ddot_pos D A : 0 <= ddot D A A.
Proof.
  unfold ddot. assert (P : forall n f, (forall i, 0 <= f i) -> 0 <= sig n f).
  { intros n f H. induction n as [|n IH]; cbn; [lra|]. specialize (H n). lra. }
  apply P. intros i. apply P. intros j. apply Rle_0_sqr.
Qed.
Lemma ddot_expand D A B t : ddot D (madd A (mscal t B)) (madd A (mscal t B)) = ddot D A A + 2 * t * ddot D A B + t * t * ddot D B B.
Proof.
  unfold ddot. rewrite <- !sig_mul, <- !sig_add. apply sig_ext. intros i _. rewrite <- !sig_mul, <- !sig_add. apply sig_ext. intros j _.
  unfold madd, mscal. ring.
Qed.
Lemma ddot_sym D A B : ddot D A B = ddot D B A.
Proof. unfold ddot. apply sig_ext. intros i _. apply sig_ext. intros j _. ring. Qed.
Lemma schwarz D A B : ddot D A B * ddot D A B <= ddot D A A * ddot D B B.
Proof.
  set (a := ddot D A A). set (b := ddot D A B). set (c := ddot D B B).
  assert (Q : forall t, 0 <= a + 2 * t * b + t * t * c) by (intros t; unfold a, b, c; rewrite <- ddot_expand; apply ddot_pos).
  assert (0 <= c) by apply ddot_pos. destruct (Req_dec c 0) as [Z|N].
  - destruct (Req_dec b 0) as [Zb|Nb]; [rewrite Z, Zb; lra|]. exfalso. specialize (Q (- (a + 1) / (2 * b))). rewrite Z in Q.
    replace (a + 2 * (- (a + 1) / (2 * b)) * b + - (a + 1) / (2 * b) * (- (a + 1) / (2 * b)) * 0) with (-1) in Q by (field; exact Nb). lra.
  - specialize (Q (- b / c)). replace (a + 2 * (- b / c) * b + - b / c * (- b / c) * c) with ((a * c - b * b) / c) in Q by (field; exact N).
    assert (0 <= (a * c - b * b) / c * c) by (apply Rmult_le_pos; lra). replace ((a * c - b * b) / c * c) with (a * c - b * b) in H0 by (field; exact N). lra.
Qed.

(** ** the model in terms of the specification *)
Lemma dev_dv D A i j : deviator D A i j = dv D A i j.
Proof. unfold deviator, dv, trace, tr. rewrite tsum_sig. reflexivity. Qed.
Lemma mnorm_sq D A : mnorm D (deviator D A) * mnorm D (deviator D A) = ddot D (dv D A) (dv D A).
Proof.
  unfold mnorm. assert (E : sqnorm D (deviator D A) = ddot D (dv D A) (dv D A)).
  { unfold sqnorm, msum, ddot. rewrite tsum_sig. apply sig_ext. intros i _. rewrite tsum_sig. apply sig_ext. intros j _. rewrite !dev_dv. reflexivity. }
  rewrite E. apply sqrt_sqrt, ddot_pos.
Qed.
Definition ur (D : nat) (e : mtx) : R := 1 / sqrt (1 + ddot D (dv D e) (dv D e)).
Lemma ddot_dv_ext D A B : meq D A B -> ddot D (dv D A) (dv D A) = ddot D (dv D B) (dv D B).
Proof.
  intros E. assert (T : tr D A = tr D B) by (apply sig_ext; intros i Hi; apply E; exact Hi).
  unfold ddot. apply sig_ext. intros i Hi. apply sig_ext. intros j Hj. unfold dv. rewrite T, (E i j Hi Hj). reflexivity.
Qed.
Lemma ur_ext D A B : meq D A B -> ur D A = ur D B.
Proof. intros E. unfold ur. rewrite (ddot_dv_ext D A B E). reflexivity. Qed.
Lemma form_eq D m G i j :
  mplus (mtimes (tildemu m (mnorm D (deviator D G))) G) (mtimes (tildelambda m (mnorm D (deviator D G)) * trace D G) mident) i j =
  m_mu m * (1 + ur D G) * G i j + (m_lambda m + m_mu m / 2 - m_mu m / 2 * ur D G) * tr D G * delta i j.
Proof.
  unfold mplus, mtimes, tildemu, tildelambda. rewrite mnorm_sq. unfold ur, trace. rewrite tsum_sig. unfold tr, mident, delta.
  pose proof (root_pos _ (ddot_pos D (dv D G))). field. lra.
Qed.
Lemma embed_eq D M : D = 2%nat \/ D = 3%nat -> meq D (get_block (embed D M) 0 0) M.
Proof.
  intros [->| ->] i j Hi Hj; unfold get_block, embed; cbn -[convertMatrix3D]; [|reflexivity].
  unfold convertMatrix3D, set_block. replace (0 <=? i)%nat with true by reflexivity.
  assert (I : i = 0%nat \/ i = 1%nat) by lia. assert (J : j = 0%nat \/ j = 1%nat) by lia.
  destruct I as [->| ->], J as [->| ->]; reflexivity.
Qed.
Lemma stress_eq D m q e i j : D = 2%nat \/ D = 3%nat -> (i < D)%nat -> (j < D)%nat ->
  stress_at D m q e i j = m_mu m * (1 + ur D e) * e i j + (m_lambda m + m_mu m / 2 - m_mu m / 2 * ur D e) * tr D e * delta i j.
Proof.
  intros HD Hi Hj. unfold stress_at, hm_whole, hm_stress. cbn [hm_curr]. rewrite form_eq.
  pose proof (embed_eq D e HD) as E. rewrite (ur_ext D _ _ E), (E i j Hi Hj).
  assert (T : tr D (get_block (embed D e) 0 0) = tr D e) by (apply sig_ext; intros k Hk; apply E; exact Hk). rewrite T. reflexivity.
Qed.
Lemma ddot_ext D A B C E : meq D A B -> meq D C E -> ddot D A C = ddot D B E.
Proof. intros H1 H2. unfold ddot. apply sig_ext. intros i Hi. apply sig_ext. intros j Hj. rewrite (H1 i j Hi Hj), (H2 i j Hi Hj). reflexivity. Qed.
Definition sform (D : nat) (m : material) (u : R) (e : mtx) : mtx := fun i j =>
  m_mu m * (1 + u) * e i j + (m_lambda m + m_mu m / 2 - m_mu m / 2 * u) * tr D e * delta i j.
Lemma stress_form D m q e : D = 2%nat \/ D = 3%nat -> meq D (stress_at D m q e) (sform D m (ur D e) e).
Proof. intros HD i j Hi Hj. apply stress_eq; assumption. Qed.
(** the work of a stress difference, in the plane and in space *)
Lemma work2 m u v a b :
  ddot 2 (msub (sform 2 m u a) (sform 2 m v b)) (msub a b) =
  m_mu m * ((ddot 2 (dv 2 a) (dv 2 a) + ddot 2 (dv 2 b) (dv 2 b) - 2 * ddot 2 (dv 2 a) (dv 2 b))
     + (ddot 2 (dv 2 a) (dv 2 a) * u + ddot 2 (dv 2 b) (dv 2 b) * v - ddot 2 (dv 2 a) (dv 2 b) * (u + v)))
  + (m_lambda m + m_mu m) * (tr 2 (msub a b) * tr 2 (msub a b)).
Proof. unfold ddot, dv, tr, sform, msub, madd, mscal, delta, tr. cbn [sig Nat.eqb INR]. field. Qed.
Lemma work3 m u v a b :
  ddot 3 (msub (sform 3 m u a) (sform 3 m v b)) (msub a b) =
  m_mu m * ((ddot 3 (dv 3 a) (dv 3 a) + ddot 3 (dv 3 b) (dv 3 b) - 2 * ddot 3 (dv 3 a) (dv 3 b))
     + (ddot 3 (dv 3 a) (dv 3 a) * u + ddot 3 (dv 3 b) (dv 3 b) * v - ddot 3 (dv 3 a) (dv 3 b) * (u + v)))
  + ((m_lambda m + 5 / 6 * m_mu m - m_mu m / 6 * u) * tr 3 a - (m_lambda m + 5 / 6 * m_mu m - m_mu m / 6 * v) * tr 3 b) * tr 3 (msub a b).
Proof. unfold ddot, dv, tr, sform, msub, madd, mscal, delta, tr. cbn [sig Nat.eqb INR]. field. Qed.
(** the tangent applied to a symmetric matrix *)
Lemma tangent_eq D m q e H : D = 2%nat \/ D = 3%nat -> sym3 H ->
  meq D (tapplyD D (tangent_at D m q e) H) (fun i j => 2 * m_mu m * H i j + m_lambda m * tr D H * delta i j).
Proof.
  intros [->| ->] HS i j Hi Hj.
  - assert (I : i = 0%nat \/ i = 1%nat) by lia. assert (J : j = 0%nat \/ j = 1%nat) by lia. pose proof (HS 0%nat 1%nat) as Q.
    destruct I as [->| ->], J as [->| ->]; unfold tapplyD, tangent_at, hm_whole, hm_modulus, tr, delta, mplus, mtimes, coeff, bad, IxI, mident; cbn; unfold mzero; rewrite ?Q; field.
  - assert (I : i = 0%nat \/ i = 1%nat \/ i = 2%nat) by lia. assert (J : j = 0%nat \/ j = 1%nat \/ j = 2%nat) by lia.
    pose proof (HS 0%nat 1%nat) as Q1. pose proof (HS 0%nat 2%nat) as Q2. pose proof (HS 1%nat 2%nat) as Q3.
    destruct I as [->|[->| ->]], J as [->|[->| ->]]; unfold tapplyD, tangent_at, hm_whole, hm_modulus, tr, delta, mplus, mtimes, coeff, bad, IxI, mident; cbn; unfold mzero; rewrite ?Q1, ?Q2, ?Q3; field.
Qed.
Lemma sym_sub a b : sym3 a -> sym3 b -> sym3 (msub a b).
Proof. intros A B i j. unfold msub, madd, mscal. rewrite (A i j), (B i j). reflexivity. Qed.
Lemma tangent_work2 m q e H : sym3 H ->
  ddot 2 (tapplyD 2 (tangent_at 2 m q e) H) H = 2 * m_mu m * ddot 2 (dv 2 H) (dv 2 H) + (m_lambda m + m_mu m) * (tr 2 H * tr 2 H).
Proof.
  intros HS. rewrite (ddot_ext 2 _ _ H H (tangent_eq 2 m q e H (or_introl eq_refl) HS)) by (intros i j _ _; reflexivity).
  unfold ddot, dv, tr, delta, tr. cbn [sig Nat.eqb INR]. field.
Qed.
Lemma dev_diff2 a b : ddot 2 (dv 2 (msub a b)) (dv 2 (msub a b)) = ddot 2 (dv 2 a) (dv 2 a) + ddot 2 (dv 2 b) (dv 2 b) - 2 * ddot 2 (dv 2 a) (dv 2 b).
Proof. unfold ddot, dv, tr, msub, madd, mscal, delta. cbn [sig Nat.eqb INR]. field. Qed.
Lemma dev_diff3 a b : ddot 3 (dv 3 (msub a b)) (dv 3 (msub a b)) = ddot 3 (dv 3 a) (dv 3 a) + ddot 3 (dv 3 b) (dv 3 b) - 2 * ddot 3 (dv 3 a) (dv 3 b).
Proof. unfold ddot, dv, tr, msub, madd, mscal, delta. cbn [sig Nat.eqb INR]. field. Qed.
Lemma msub_ext D A A' B B' : meq D A A' -> meq D B B' -> meq D (msub A B) (msub A' B').
Proof. intros H1 H2 i j Hi Hj. unfold msub, madd, mscal. rewrite (H1 i j Hi Hj), (H2 i j Hi Hj). reflexivity. Qed.
Lemma meq_refl D A : meq D A A. Proof. intros i j _ _. reflexivity. Qed.
Lemma secant_dev D a b : 0 <= ddot D (dv D a) (dv D a) * ur D a + ddot D (dv D b) (dv D b) * ur D b - ddot D (dv D a) (dv D b) * (ur D a + ur D b)
   <= ddot D (dv D a) (dv D a) + ddot D (dv D b) (dv D b) - 2 * ddot D (dv D a) (dv D b).
Proof.
  split; [apply scal_low|apply scal_up]; try apply ddot_pos; apply schwarz.
Qed.

(** ** derivatives *)
Lemma d_lin c a x : derivable_pt_lim (fun t => c + t * a) x a.
Proof.
  replace a with (0 + (1 * a + x * 0)) at 1 by ring.
  apply (derivable_pt_lim_plus (fun _ => c) (fun t => t * a)); [apply derivable_pt_lim_const|].
  apply (derivable_pt_lim_mult (fun t => t) (fun _ => a)); [apply derivable_pt_lim_id|apply derivable_pt_lim_const].
Qed.
Lemma d_quad c a b : derivable_pt_lim (fun t => c + 2 * t * a + t * t * b) 0 (2 * a).
Proof.
  apply (d_ext (fun t => (c + t * (2 * a)) + t * (0 + t * b))); [intros t; ring|].
  replace (2 * a) with (2 * a + (1 * (0 + 0 * b) + 0 * b)) at 1 by ring.
  apply (derivable_pt_lim_plus (fun t => c + t * (2 * a)) (fun t => t * (0 + t * b))); [apply d_lin|].
  apply (derivable_pt_lim_mult (fun t => t) (fun t => 0 + t * b)); [apply derivable_pt_lim_id|apply d_lin].
Qed.
Lemma d_root f x l : 0 <= f x -> derivable_pt_lim f x l -> derivable_pt_lim (fun t => sqrt (1 + f t)) x (/ (2 * sqrt (1 + f x)) * l).
Proof.
  intros P H. apply (derivable_pt_lim_comp (fun t => 1 + f t) sqrt).
  - replace l with (0 + l) by ring. apply (derivable_pt_lim_plus (fun _ => 1) f); [apply derivable_pt_lim_const|exact H].
  - apply derivable_pt_lim_sqrt. lra.
Qed.
Lemma d_iroot f x l : 0 <= f x -> derivable_pt_lim f x l ->
  derivable_pt_lim (fun t => 1 / sqrt (1 + f t)) x (- (l / (2 * ((1 + f x) * sqrt (1 + f x))))).
Proof.
  intros P H. pose proof (root_pos _ P) as RP. pose proof (root_sq _ P) as RS.
  pose proof (derivable_pt_lim_div (fun _ => 1) (fun t => sqrt (1 + f t)) x 0 _ (derivable_pt_lim_const 1 x) (d_root f x l P H) ltac:(lra)) as K.
  cbv beta in K. replace (- (l / (2 * ((1 + f x) * sqrt (1 + f x))))) with ((0 * sqrt (1 + f x) - / (2 * sqrt (1 + f x)) * l * 1) / Rsqr (sqrt (1 + f x))); [exact K|].
  unfold Rsqr. rewrite RS. field. split; lra.
Qed.
Lemma dv_path D F H t i j : dv D (madd F (mscal t H)) i j = madd (dv D F) (mscal t (dv D H)) i j.
Proof. unfold dv, tr, madd, mscal. rewrite sig_add, sig_mul. unfold Rdiv. ring. Qed.
Lemma tr_path D F H t : tr D (madd F (mscal t H)) = tr D F + t * tr D H.
Proof. unfold tr, madd, mscal. rewrite sig_add, sig_mul. reflexivity. Qed.
Lemma q_path D F H t : ddot D (dv D (madd F (mscal t H))) (dv D (madd F (mscal t H))) =
  ddot D (dv D F) (dv D F) + 2 * t * ddot D (dv D F) (dv D H) + t * t * ddot D (dv D H) (dv D H).
Proof. rewrite <- ddot_expand. apply ddot_ext; intros i j _ _; apply dv_path. Qed.

Lemma energy2 m q : derives_from 2 (energy_plane m) (stress_at 2 m q).
Proof.
  intros F H. set (a := ddot 2 (dv 2 F) (dv 2 F)). set (b := ddot 2 (dv 2 F) (dv 2 H)). set (c := ddot 2 (dv 2 H) (dv 2 H)).
  assert (W : ddot 2 (stress_at 2 m q F) H = m_mu m * (1 + ur 2 F) * b + (m_lambda m + m_mu m) * tr 2 F * tr 2 H).
  { rewrite (ddot_ext 2 _ (sform 2 m (ur 2 F) F) H H (stress_form 2 m q F (or_introl eq_refl)) (meq_refl 2 H)).
    unfold b, ddot, dv, sform, tr, delta, tr. cbn [sig Nat.eqb INR]. field. }
  assert (P : 0 <= a) by apply ddot_pos. pose proof (root_pos a P) as RP.
  assert (Q : derivable_pt_lim (fun t => a + 2 * t * b + t * t * c) 0 (2 * b)) by apply d_quad.
  assert (Q0 : a + 2 * 0 * b + 0 * 0 * c = a) by ring.
  pose proof (d_root (fun t => a + 2 * t * b + t * t * c) 0 (2 * b) ltac:(cbv beta; lra) Q) as Rt. cbv beta in Rt. rewrite Q0 in Rt.
  apply (d_ext (fun t => m_mu m * ((/ 2) * (a + 2 * t * b + t * t * c) + sqrt (1 + (a + 2 * t * b + t * t * c)))
     + (m_lambda m + m_mu m) / 2 * (tr 2 F * tr 2 F + 2 * t * (tr 2 F * tr 2 H) + t * t * (tr 2 H * tr 2 H)))).
  { intros t. unfold energy_plane. rewrite q_path, tr_path. fold a b c. unfold Rdiv. ring. }
  rewrite W. replace (m_mu m * (1 + ur 2 F) * b + (m_lambda m + m_mu m) * tr 2 F * tr 2 H)
    with (m_mu m * (/ 2 * (2 * b) + / (2 * sqrt (1 + a)) * (2 * b)) + (m_lambda m + m_mu m) / 2 * (2 * (tr 2 F * tr 2 H))).
  2: { unfold ur. fold a. field. lra. }
  apply derivable_pt_lim_plus.
  - apply (derivable_pt_lim_scal (fun t => / 2 * (a + 2 * t * b + t * t * c) + sqrt (1 + (a + 2 * t * b + t * t * c)))).
    apply derivable_pt_lim_plus; [|exact Rt]. apply (derivable_pt_lim_scal (fun t => a + 2 * t * b + t * t * c)). exact Q.
  - apply (derivable_pt_lim_scal (fun t => tr 2 F * tr 2 F + 2 * t * (tr 2 F * tr 2 H) + t * t * (tr 2 H * tr 2 H))). apply d_quad.
Qed.

(** stress along a path through zero *)
Lemma tangent_zero D m q H : D = 2%nat \/ D = 3%nat -> sym3 H ->
  has_derivative D (stress_at D m q) mzero H (tapplyD D (tangent_at D m q mzero) H).
Proof.
  intros HD HS i j Hi Hj. rewrite (tangent_eq D m q mzero H HD HS i j Hi Hj).
  set (c := ddot D (dv D H) (dv D H)).
  assert (Q : derivable_pt_lim (fun t => 0 + 2 * t * 0 + t * t * c) 0 (2 * 0)) by apply d_quad.
  pose proof (d_iroot (fun t => 0 + 2 * t * 0 + t * t * c) 0 (2 * 0) ltac:(cbv beta; lra) Q) as U. cbv beta in U.
  replace (0 + 2 * 0 * 0 + 0 * 0 * c) with 0 in U by ring.
  apply (d_ext (fun t => t * (m_mu m * H i j + (m_lambda m + m_mu m / 2) * tr D H * delta i j + (1 / sqrt (1 + (0 + 2 * t * 0 + t * t * c))) * (m_mu m * H i j - m_mu m / 2 * tr D H * delta i j)))).
  { intros t. rewrite (stress_eq D m q _ i j HD Hi Hj). unfold ur. rewrite q_path, tr_path. fold c.
    assert (Z : tr D mzero = 0) by (unfold tr, mzero; apply sig_zero; reflexivity).
    assert (Z0 : ddot D (dv D mzero) (dv D mzero) = 0).
    { unfold ddot. apply sig_zero. intros k _. apply sig_zero. intros l _. unfold dv. rewrite Z. unfold mzero, Rdiv. ring. }
    assert (Z1 : ddot D (dv D mzero) (dv D H) = 0).
    { unfold ddot. apply sig_zero. intros k _. apply sig_zero. intros l _. unfold dv at 1. rewrite Z. unfold mzero, Rdiv. ring. }
    rewrite Z, Z0, Z1. unfold madd, mscal, mzero. ring. }
  set (k := m_mu m * H i j + (m_lambda m + m_mu m / 2) * tr D H * delta i j). set (g := m_mu m * H i j - m_mu m / 2 * tr D H * delta i j).
  set (w := - (2 * 0 / (2 * ((1 + 0) * sqrt (1 + 0))))) in U.
  assert (R1 : sqrt (1 + 0) = 1) by (rewrite Rplus_0_r; apply sqrt_1).
  replace (2 * m_mu m * H i j + m_lambda m * tr D H * delta i j) with (1 * (k + 1 / sqrt (1 + (0 + 2 * 0 * 0 + 0 * 0 * c)) * g) + 0 * (0 + (w * g + 1 / sqrt (1 + (0 + 2 * 0 * 0 + 0 * 0 * c)) * 0))).
  2: { replace (0 + 2 * 0 * 0 + 0 * 0 * c) with 0 by ring. rewrite R1. unfold k, g. field. }
  apply (derivable_pt_lim_mult (fun t => t) (fun t => k + 1 / sqrt (1 + (0 + 2 * t * 0 + t * t * c)) * g)); [apply derivable_pt_lim_id|].
  apply (derivable_pt_lim_plus (fun _ => k) (fun t => 1 / sqrt (1 + (0 + 2 * t * 0 + t * t * c)) * g)); [apply derivable_pt_lim_const|].
  apply (derivable_pt_lim_mult (fun t => 1 / sqrt (1 + (0 + 2 * t * 0 + t * t * c))) (fun _ => g)); [exact U|apply derivable_pt_lim_const].
Qed.

(** the derivative in the direction of the deviator, in the plane *)
Lemma dv2_tr A : tr 2 (dv 2 A) = 0.
Proof. unfold tr, dv, tr, delta. cbn [sig Nat.eqb INR]. field. Qed.
Lemma dv2_idem A i j : dv 2 (dv 2 A) i j = dv 2 A i j.
Proof. unfold dv at 1. rewrite dv2_tr. unfold Rdiv. ring. Qed.
Lemma radial m q F i j : (i < 2)%nat -> (j < 2)%nat ->
  derivable_pt_lim (fun t => stress_at 2 m q (madd F (mscal t (dv 2 F))) i j) 0
    (m_mu m * dv 2 F i j * (1 + / ((1 + ddot 2 (dv 2 F) (dv 2 F)) * sqrt (1 + ddot 2 (dv 2 F) (dv 2 F))))).
Proof.
  intros Hi Hj. set (a := ddot 2 (dv 2 F) (dv 2 F)). assert (P : 0 <= a) by apply ddot_pos. pose proof (root_pos a P) as RP.
  assert (Q : derivable_pt_lim (fun t => a + 2 * t * a + t * t * a) 0 (2 * a)) by apply d_quad.
  assert (Q0 : a + 2 * 0 * a + 0 * 0 * a = a) by ring.
  pose proof (d_iroot (fun t => a + 2 * t * a + t * t * a) 0 (2 * a) ltac:(cbv beta; lra) Q) as U. cbv beta in U. rewrite Q0 in U.
  set (d := dv 2 F i j).
  apply (d_ext (fun t => ((m_lambda m + m_mu m) * tr 2 F * delta i j + m_mu m * d) + (t * (m_mu m * d) + (1 / sqrt (1 + (a + 2 * t * a + t * t * a))) * (m_mu m * d + t * (m_mu m * d))))).
  { intros t. rewrite (stress_eq 2 m q _ i j (or_introl eq_refl) Hi Hj). unfold ur. rewrite q_path, tr_path, dv2_tr.
    rewrite (ddot_ext 2 (dv 2 F) (dv 2 F) (dv 2 (dv 2 F)) (dv 2 F)) by (intros k l _ _; first [reflexivity|apply dv2_idem]).
    rewrite (ddot_ext 2 (dv 2 (dv 2 F)) (dv 2 F) (dv 2 (dv 2 F)) (dv 2 F)) by (intros k l _ _; apply dv2_idem). fold a.
    unfold madd, mscal. fold d. replace (F i j) with (d + tr 2 F / 2 * delta i j) by (unfold d, dv; cbn [INR]; field). field.
    assert (0 <= a + 2 * t * a + t * t * a). { replace (a + 2 * t * a + t * t * a) with (a * ((1 + t) * (1 + t))) by ring. apply Rmult_le_pos; [exact P|apply Rle_0_sqr]. }
    pose proof (root_pos _ H). lra. }
  set (r := m_mu m * d) in *. set (w := - (2 * a / (2 * ((1 + a) * sqrt (1 + a))))) in U.
  replace (r * (1 + / ((1 + a) * sqrt (1 + a)))) with (0 + ((1 * r + 0 * 0) + (w * (r + 0 * r) + 1 / sqrt (1 + (a + 2 * 0 * a + 0 * 0 * a)) * r))).
  2: { rewrite Q0. unfold w. field. split; lra. }
  apply (derivable_pt_lim_plus (fun _ => (m_lambda m + m_mu m) * tr 2 F * delta i j + r)); [apply derivable_pt_lim_const|].
  apply (derivable_pt_lim_plus (fun t => t * r)).
  - apply (derivable_pt_lim_mult (fun t => t) (fun _ => r)); [apply derivable_pt_lim_id|apply derivable_pt_lim_const].
  - apply (derivable_pt_lim_mult (fun t => 1 / sqrt (1 + (a + 2 * t * a + t * t * a))) (fun t => r + t * r)); [exact U|apply d_lin].
Qed.
Lemma radial_not m q F i j : m_mu m <> 0 -> sym3 F -> (i < 2)%nat -> (j < 2)%nat -> dv 2 F i j <> 0 ->
  ~ has_derivative 2 (stress_at 2 m q) F (dv 2 F) (tapplyD 2 (tangent_at 2 m q F) (dv 2 F)).
Proof.
  intros Hm HS Hi Hj Hd K. specialize (K i j Hi Hj). pose proof (uniqueness_limite _ _ _ _ K (radial m q F i j Hi Hj)) as E.
  assert (SD : sym3 (dv 2 F)) by (intros k l; unfold dv, delta; rewrite (HS k l), (Nat.eqb_sym k l); reflexivity).
  rewrite (tangent_eq 2 m q F (dv 2 F) (or_introl eq_refl) SD i j Hi Hj), dv2_tr in E.
  assert (A : 0 < ddot 2 (dv 2 F) (dv 2 F)).
  { assert (I : i = 0%nat \/ i = 1%nat) by lia. assert (J : j = 0%nat \/ j = 1%nat) by lia. set (d := dv 2 F) in *.
    assert (0 < d i j * d i j) by (apply Rsqr_pos_lt; exact Hd). unfold ddot. cbn [sig].
    pose proof (Rle_0_sqr (d 0%nat 0%nat)). pose proof (Rle_0_sqr (d 0%nat 1%nat)). pose proof (Rle_0_sqr (d 1%nat 0%nat)). pose proof (Rle_0_sqr (d 1%nat 1%nat)).
    unfold Rsqr in *. destruct I as [->| ->], J as [->| ->]; lra. }
  set (a := ddot 2 (dv 2 F) (dv 2 F)) in *. pose proof (root_pos a ltac:(lra)) as RP.
  assert (G : 1 < (1 + a) * sqrt (1 + a)). { apply Rlt_le_trans with ((1 + a) * 1); [lra|]. apply Rmult_le_compat_l; lra. }
  assert (I1 : / ((1 + a) * sqrt (1 + a)) < 1). { set (z := (1 + a) * sqrt (1 + a)) in *. apply Rmult_lt_reg_r with z; [lra|]. rewrite Rinv_l by lra. lra. }
  assert (N : m_mu m * dv 2 F i j <> 0) by (apply Rmult_integral_contrapositive_currified; assumption).
  assert (E2 : (m_mu m * dv 2 F i j) * (1 - / ((1 + a) * sqrt (1 + a))) = 0) by lra.
  apply Rmult_integral in E2. destruct E2; [contradiction|lra].
Qed.

(** ** space *)
Definition dg (x y z : R) : mtx := fun i j => if Nat.eqb i j then match i with O => x | 1%nat => y | _ => z end else 0.
Lemma meet3 m q e H : ddot 3 (stress_at 3 m q e) H = ddot 3 (sform 3 m (ur 3 e) e) H.
Proof. apply ddot_ext; [apply stress_form; right; reflexivity|apply meq_refl]. Qed.
Lemma const_of_zero (f : R -> R) : (forall x, derivable_pt_lim f x 0) -> forall x y, f x = f y.
Proof.
  intros H x y. assert (pr : derivable f) by (intros z; exists 0; apply H).
  apply (null_derivative_1 f pr). intros z. apply derive_pt_eq_0. apply H.
Qed.
Lemma shift f x l : derivable_pt_lim (fun t => f (x + t)) 0 l -> derivable_pt_lim f x l.
Proof.
  intros H eps He. destruct (H eps He) as [d Hd]. exists d. intros h H1 H2. specialize (Hd h H1 H2). rewrite Rplus_0_l in Hd. rewrite Rplus_0_r in Hd. exact Hd.
Qed.

Lemma no_energy3 m q psi : m_mu m <> 0 -> ~ derives_from 3 psi (stress_at 3 m q).
Proof.
  intros Hm K. set (e := fun s t => dg (s + t) (s - t) s).
  set (k := fun t => m_lambda m + 5 / 6 * m_mu m - m_mu m / 6 * (1 / sqrt (1 + 2 * (t * t)))).
  assert (U : forall s t, ur 3 (e s t) = 1 / sqrt (1 + 2 * (t * t))).
  { intros s t. unfold ur. replace (ddot 3 (dv 3 (e s t)) (dv 3 (e s t))) with (2 * (t * t)); [reflexivity|].
    unfold ddot, dv, tr, e, dg, delta. cbn [sig Nat.eqb INR]. field. }
  assert (DS : forall t s, derivable_pt_lim (fun x => psi (e x t)) s (9 * k t * s)).
  { intros t s. apply shift. specialize (K (e s t) (dg 1 1 1)). rewrite meet3, U in K.
    replace (9 * k t * s) with (ddot 3 (sform 3 m (1 / sqrt (1 + 2 * (t * t))) (e s t)) (dg 1 1 1)).
    - refine (d_ext _ _ _ _ _ K). intros x. f_equal. apply functional_extensionality. intros i. apply functional_extensionality. intros j.
      unfold madd, mscal, e, dg. destruct (Nat.eqb i j); [|ring]. destruct i as [|[|]]; ring.
    - unfold k, ddot, sform, tr, e, dg, delta. cbn [sig Nat.eqb INR]. field.
      assert (0 <= 2 * (t * t)) by (pose proof (Rle_0_sqr t) as Q; unfold Rsqr in Q; lra). pose proof (root_pos _ H). lra. }
  assert (DT : forall s t, derivable_pt_lim (fun x => psi (e s x)) t (2 * m_mu m * t * (1 + 1 / sqrt (1 + 2 * (t * t))))).
  { intros s t. apply shift. specialize (K (e s t) (dg 1 (-1) 0)). rewrite meet3, U in K.
    replace (2 * m_mu m * t * (1 + 1 / sqrt (1 + 2 * (t * t)))) with (ddot 3 (sform 3 m (1 / sqrt (1 + 2 * (t * t))) (e s t)) (dg 1 (-1) 0)).
    - refine (d_ext _ _ _ _ _ K). intros x. f_equal. apply functional_extensionality. intros i. apply functional_extensionality. intros j.
      unfold madd, mscal, e, dg. destruct (Nat.eqb i j); [|ring]. destruct i as [|[|]]; ring.
    - unfold ddot, sform, tr, e, dg, delta. cbn [sig Nat.eqb INR]. ring. }
  assert (A : forall t, psi (e 1 t) - psi (e 0 t) = 9 / 2 * k t).
  { intros t. assert (Z : forall x y, psi (e x t) - 9 / 2 * k t * (x * x) = psi (e y t) - 9 / 2 * k t * (y * y)).
    { apply (const_of_zero (fun x => psi (e x t) - 9 / 2 * k t * (x * x))). intros x.
      replace 0 with (9 * k t * x - 9 / 2 * k t * (1 * x + x * 1)) by field.
      apply derivable_pt_lim_minus; [apply DS|]. apply (derivable_pt_lim_scal (fun x => x * x)).
      apply (derivable_pt_lim_mult (fun x => x) (fun x => x)); apply derivable_pt_lim_id. }
    specialize (Z 1 0). lra. }
  assert (B : psi (e 1 1) - psi (e 0 1) = psi (e 1 0) - psi (e 0 0)).
  { apply (const_of_zero (fun t => psi (e 1 t) - psi (e 0 t))). intros t.
    replace 0 with (2 * m_mu m * t * (1 + 1 / sqrt (1 + 2 * (t * t))) - 2 * m_mu m * t * (1 + 1 / sqrt (1 + 2 * (t * t)))) by ring.
    apply derivable_pt_lim_minus; apply DT. }
  rewrite !A in B. unfold k in B. replace (1 + 2 * (0 * 0)) with 1 in B by ring. replace (1 + 2 * (1 * 1)) with 3 in B by ring. rewrite sqrt_1 in B.
  assert (S3 : 1 < sqrt 3). { rewrite <- sqrt_1 at 1. apply sqrt_lt_1_alt. lra. }
  assert (L : 1 / sqrt 3 < 1). { apply Rmult_lt_reg_r with (sqrt 3); [lra|]. unfold Rdiv. rewrite Rmult_assoc, Rinv_l by lra. lra. }
  assert (E : m_mu m * (1 - 1 / sqrt 3) = 0) by lra.
  apply Rmult_integral in E. destruct E; [contradiction|lra].
Qed.
Lemma not_monotone3 m q : 0 < m_mu m -> exists a b, sym3 a /\ sym3 b /\ ddot 3 (msub (stress_at 3 m q a) (stress_at 3 m q b)) (msub a b) < 0.
Proof.
  intros Hm. set (u := 1 / sqrt 3).
  assert (S3 : 1 < sqrt 3). { rewrite <- sqrt_1 at 1. apply sqrt_lt_1_alt. lra. }
  assert (L : u < 1). { unfold u. apply Rmult_lt_reg_r with (sqrt 3); [lra|]. unfold Rdiv. rewrite Rmult_assoc, Rinv_l by lra. lra. }
  (* trace x for a, x - 1 and deviator diag(1,-1,0) for b *)
  set (g := m_mu m / 6 * (1 - u)). assert (G : 0 < g) by (unfold g; apply Rmult_lt_0_compat; lra).
  set (w := m_mu m * (2 + 2 * u) + (m_lambda m + 5 / 6 * m_mu m - m_mu m / 6 * u)).
  set (x := (w + 1) / g).
  set (a := dg (x / 3) (x / 3) (x / 3)). set (b := dg ((x - 1) / 3 + 1) ((x - 1) / 3 - 1) ((x - 1) / 3)).
  assert (SY : forall p r s, sym3 (dg p r s)). { intros p r s i j. unfold dg. rewrite (Nat.eqb_sym j i). destruct (Nat.eqb i j) eqn:E; [|reflexivity]. apply Nat.eqb_eq in E. subst j. reflexivity. }
  exists a, b. split; [apply SY|]. split; [apply SY|].
  rewrite (ddot_ext 3 _ (msub (sform 3 m (ur 3 a) a) (sform 3 m (ur 3 b) b)) _ (msub a b)); [|apply msub_ext; apply stress_form; right; reflexivity|apply meq_refl].
  assert (Ua : ur 3 a = 1).
  { unfold ur. replace (ddot 3 (dv 3 a) (dv 3 a)) with 0; [rewrite Rplus_0_r, sqrt_1; field|]. unfold ddot, dv, tr, a, dg, delta. cbn [sig Nat.eqb INR]. field. }
  assert (Ub : ur 3 b = u).
  { unfold ur. replace (ddot 3 (dv 3 b) (dv 3 b)) with 2; [unfold u; do 2 f_equal; ring|]. unfold ddot, dv, tr, b, dg, delta. cbn [sig Nat.eqb INR]. field. }
  rewrite Ua, Ub. replace (ddot 3 (msub (sform 3 m 1 a) (sform 3 m u b)) (msub a b)) with (w - g * x).
  - unfold x. replace (w - g * ((w + 1) / g)) with (-1) by (field; lra). lra.
  - unfold w, g, ddot, sform, tr, msub, madd, mscal, a, b, dg, delta. cbn [sig Nat.eqb INR]. field.
Qed.
