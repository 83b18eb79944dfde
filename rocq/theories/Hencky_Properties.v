(** Properties of the Hencky-Mises law. *)
From Coq Require Import List Arith Bool Reals Lra Lia.
From Verif Require Import Common Tensor_Model Tensor_Spec Tensor_Proofs Law_Model Hencky_Model Hencky_Spec Hencky_Proofs.
Import ListNotations.
Local Open Scope R_scope.

(** * C184: the law in the plane *)

(** The stress returned by compute_whole is the gradient of an energy, for every strain and in every
    direction. *)
Theorem C184_energy_plane m q : derives_from 2 (energy_plane m) (stress_at 2 m q).
Proof. apply energy2. Qed.
(** The work of a stress difference on the strain difference lies between one half of what the
    returned tangent gives and what it gives. *)
Theorem C184_secant_plane m q a b e : 0 <= m_mu m -> 0 <= m_lambda m + m_mu m -> sym3 a -> sym3 b ->
  let d := msub a b in
  let elastic := ddot 2 (tapplyD 2 (tangent_at 2 m q e) d) d in
  elastic / 2 <= ddot 2 (msub (stress_at 2 m q a) (stress_at 2 m q b)) d <= elastic.
Proof.
  intros Hm Hl Sa Sb d elastic. unfold elastic, d. rewrite tangent_work2 by (apply sym_sub; assumption). rewrite dev_diff2.
  rewrite (ddot_ext 2 (msub (stress_at 2 m q a) (stress_at 2 m q b)) (msub (sform 2 m (ur 2 a) a) (sform 2 m (ur 2 b) b)) (msub a b) (msub a b)); [|apply msub_ext; apply stress_form; left; reflexivity|apply meq_refl].
  rewrite work2. destruct (secant_dev 2 a b) as [L U].
  pose proof (ddot_pos 2 (dv 2 (msub a b))) as P. rewrite dev_diff2 in P.
  pose proof (Rle_0_sqr (tr 2 (msub a b))) as T. unfold Rsqr in T.
  set (A := ddot 2 (dv 2 a) (dv 2 a) + ddot 2 (dv 2 b) (dv 2 b) - 2 * ddot 2 (dv 2 a) (dv 2 b)) in *.
  set (B := ddot 2 (dv 2 a) (dv 2 a) * ur 2 a + _ - _) in *. set (T2 := tr 2 (msub a b) * tr 2 (msub a b)) in *.
  pose proof (Rmult_le_pos _ _ Hm L). pose proof (Rmult_le_pos _ _ Hl T). pose proof (Rmult_le_compat_l _ _ _ Hm U). split; lra.
Qed.
(** Two symmetric strains with the same stress are equal. *)
Theorem C184_unique_plane m q a b : 0 < m_mu m -> 0 < m_lambda m + m_mu m -> sym3 a -> sym3 b ->
  meq 2 (stress_at 2 m q a) (stress_at 2 m q b) -> meq 2 a b.
Proof.
  intros Hm Hl Sa Sb E. destruct (C184_secant_plane m q a b mzero ltac:(lra) ltac:(lra) Sa Sb) as [L _].
  rewrite tangent_work2 in L by (apply sym_sub; assumption).
  assert (Z : ddot 2 (msub (stress_at 2 m q a) (stress_at 2 m q b)) (msub a b) = 0).
  { unfold ddot. apply sig_zero. intros i Hi. apply sig_zero. intros j Hj. unfold msub at 1. unfold madd, mscal. rewrite (E i j Hi Hj). ring. }
  rewrite Z in L. pose proof (ddot_pos 2 (dv 2 (msub a b))) as P. pose proof (Rle_0_sqr (tr 2 (msub a b))) as T. unfold Rsqr in T.
  set (d := msub a b) in *.
  assert (PD : 0 <= m_mu m * ddot 2 (dv 2 d) (dv 2 d)) by (apply Rmult_le_pos; lra).
  assert (PT : 0 <= (m_lambda m + m_mu m) * (tr 2 d * tr 2 d)) by (apply Rmult_le_pos; lra).
  assert (D0 : ddot 2 (dv 2 d) (dv 2 d) = 0). { assert (X : m_mu m * ddot 2 (dv 2 d) (dv 2 d) = 0) by lra. apply Rmult_integral in X. destruct X; lra. }
  assert (T0 : tr 2 d = 0). { assert (X : (m_lambda m + m_mu m) * (tr 2 d * tr 2 d) = 0) by lra. apply Rmult_integral in X. destruct X as [X|X]; [lra|]. apply Rmult_integral in X. tauto. }
  assert (K : forall i j, (i < 2)%nat -> (j < 2)%nat -> dv 2 d i j = 0).
  { intros i j Hi Hj. unfold ddot in D0. cbn [sig] in D0. set (v := dv 2 d) in *.
    pose proof (Rle_0_sqr (v 0%nat 0%nat)). pose proof (Rle_0_sqr (v 0%nat 1%nat)). pose proof (Rle_0_sqr (v 1%nat 0%nat)). pose proof (Rle_0_sqr (v 1%nat 1%nat)). unfold Rsqr in *.
    assert (I : i = 0%nat \/ i = 1%nat) by lia. assert (J : j = 0%nat \/ j = 1%nat) by lia.
    apply Rsqr_0_uniq. unfold Rsqr. destruct I as [->| ->], J as [->| ->]; lra. }
  intros i j Hi Hj. specialize (K i j Hi Hj). unfold dv in K. rewrite T0 in K. unfold d, msub, madd, mscal in K. unfold Rdiv in K. lra.
Qed.
(** The hypotheses are met by a material with lambda = mu = 1 and the strains diag(1,0) and 0; the
    stress of the first is not the linear one. *)
Definition mat1 : material := mkMat 1 1 0 0 0 0 [].
Example C184_case : 0 < m_mu mat1 /\ 0 < m_lambda mat1 + m_mu mat1 /\ sym3 (dg 1 0 0) /\ sym3 mzero /\
  ur 2 (dg 1 0 0) < 1 /\ stress_at 2 mat1 hm_make (dg 1 0 0) 0%nat 0%nat < 3.
Proof.
  cbn [m_mu m_lambda mat1]. split; [lra|]. split; [lra|].
  split; [intros [|[|[|i]]] [|[|[|j]]]; unfold dg; cbn; try reflexivity; destruct (Nat.eqb_spec i j) as [->|N]; [rewrite Nat.eqb_refl; reflexivity|destruct (Nat.eqb_spec j i); [congruence|reflexivity]]|].
  split; [intros i j; reflexivity|].
  assert (U : ur 2 (dg 1 0 0) < 1).
  { unfold ur. replace (ddot 2 (dv 2 (dg 1 0 0)) (dv 2 (dg 1 0 0))) with (1 / 2) by (unfold ddot, dv, tr, dg, delta; cbn [sig Nat.eqb INR]; field).
    assert (1 < sqrt (1 + 1 / 2)). { rewrite <- sqrt_1 at 1. apply sqrt_lt_1_alt. lra. }
    set (z := sqrt (1 + 1 / 2)) in *. apply Rmult_lt_reg_r with z; [lra|]. unfold Rdiv. rewrite Rmult_assoc, Rinv_l by lra. lra. }
  split; [exact U|]. rewrite (stress_eq 2 mat1 hm_make (dg 1 0 0) 0 0 (or_introl eq_refl)) by lia.
  set (u := ur 2 (dg 1 0 0)) in *. unfold tr, dg, delta. cbn [sig Nat.eqb m_mu m_lambda mat1]. lra.
Qed.

(** * C185: the law in space *)

(** The stress derives from no energy. *)
Theorem C185_energy_space_refuted m q : m_mu m <> 0 -> ~ exists psi, derives_from 3 psi (stress_at 3 m q).
Proof. intros Hm [psi K]. exact (no_energy3 m q psi Hm K). Qed.
(** The stress is not monotone: some stress difference does negative work on the strain difference. *)
Theorem C185_monotone_space_refuted m q : 0 < m_mu m ->
  ~ forall a b, sym3 a -> sym3 b -> 0 <= ddot 3 (msub (stress_at 3 m q a) (stress_at 3 m q b)) (msub a b).
Proof. intros Hm K. destruct (not_monotone3 m q Hm) as (a & b & Sa & Sb & L). specialize (K a b Sa Sb). lra. Qed.
(** Between strains of the same trace the bounds of the plane hold. *)
Theorem C185_secant_space_partial m q a b : 0 <= m_mu m -> tr 3 a = tr 3 b ->
  let d := msub a b in
  m_mu m * ddot 3 d d <= ddot 3 (msub (stress_at 3 m q a) (stress_at 3 m q b)) d <= 2 * m_mu m * ddot 3 d d.
Proof.
  intros Hm T d. unfold d.
  assert (Z : tr 3 (msub a b) = 0) by (unfold tr, msub, madd, mscal in *; cbn [sig] in *; lra).
  assert (E : ddot 3 (msub a b) (msub a b) = ddot 3 (dv 3 (msub a b)) (dv 3 (msub a b))).
  { apply ddot_ext; intros i j _ _; unfold dv; rewrite Z; unfold Rdiv; ring. }
  rewrite E, dev_diff3.
  rewrite (ddot_ext 3 (msub (stress_at 3 m q a) (stress_at 3 m q b)) (msub (sform 3 m (ur 3 a) a) (sform 3 m (ur 3 b) b)) (msub a b) (msub a b)); [|apply msub_ext; apply stress_form; right; reflexivity|apply meq_refl].
  rewrite work3, Z. destruct (secant_dev 3 a b) as [L U].
  set (A := ddot 3 (dv 3 a) (dv 3 a) + ddot 3 (dv 3 b) (dv 3 b) - 2 * ddot 3 (dv 3 a) (dv 3 b)) in *.
  set (B := ddot 3 (dv 3 a) (dv 3 a) * ur 3 a + _ - _) in *.
  pose proof (Rmult_le_pos _ _ Hm L). pose proof (Rmult_le_compat_l _ _ _ Hm U). split; lra.
Qed.
Example C185_case : tr 3 (dg 2 0 0) = tr 3 (dg 1 1 0) /\ ~ meq 3 (dg 2 0 0) (dg 1 1 0).
Proof.
  split; [unfold tr, dg; cbn; ring|]. intros E. specialize (E 0%nat 0%nat ltac:(lia) ltac:(lia)). unfold dg in E. cbn in E. lra.
Qed.

(** * C186: the tangent *)

(** At zero strain the returned tangent is the derivative of the stress, and the stress is zero. *)
Theorem C186_tangent_at_zero_partial DIM m q H : DIM = 2%nat \/ DIM = 3%nat -> sym3 H ->
  meq DIM (stress_at DIM m q mzero) mzero /\
  has_derivative DIM (stress_at DIM m q) mzero H (tapplyD DIM (tangent_at DIM m q mzero) H).
Proof.
  intros HD HS. split; [|apply tangent_zero; assumption].
  intros i j Hi Hj. rewrite (stress_eq DIM m q mzero i j HD Hi Hj).
  assert (Z : tr DIM mzero = 0) by (unfold tr, mzero; apply sig_zero; reflexivity). rewrite Z. unfold mzero. ring.
Qed.
(** In the plane, at every symmetric strain with a deviator it is not: the derivative in the direction
    of the deviator is smaller. *)
Theorem C186_tangent_refuted m q F i j : m_mu m <> 0 -> sym3 F -> (i < 2)%nat -> (j < 2)%nat -> dv 2 F i j <> 0 ->
  ~ has_derivative 2 (stress_at 2 m q) F (dv 2 F) (tapplyD 2 (tangent_at 2 m q F) (dv 2 F)).
Proof. apply radial_not. Qed.
Example C186_case : m_mu mat1 <> 0 /\ dv 2 (dg 1 0 0) 0%nat 0%nat <> 0.
Proof. split; [cbn; lra|]. unfold dv, tr, dg, delta. cbn [sig Nat.eqb INR]. lra. Qed.

(** * C187: state and the two stresses of a quadrature point *)

(** Neither the previous state nor the flag matters, the strain is stored, and the previous strain is
    changed by update only. *)
Theorem C187_no_history DIM m q q0 strain t t0 : DIM = 2%nat \/ DIM = 3%nat ->
  let '(q1, s1, C1) := hm_whole DIM m q strain t in
  let '(q2, s2, C2) := hm_whole DIM m q0 strain t0 in
  s1 = s2 /\ C1 = C2 /\ hm_curr q1 = hm_curr q2 /\ meq DIM (hm_curr q1) strain /\ hm_prev q1 = hm_prev q /\
  meq DIM (hm_prev (hm_update q1)) strain.
Proof.
  intros HD. cbn [hm_whole]. pose proof (embed_eq DIM strain HD) as E.
  split; [reflexivity|]. split; [reflexivity|]. cbn [hm_curr hm_prev hm_update]. split; [reflexivity|]. split; [exact E|]. split; [reflexivity|exact E].
Qed.
(** compute_stress3D agrees with the stress of compute_whole in space, and in the plane when the trace
    of the strain is zero. *)
Theorem C187_stress3D_partial DIM m q strain t : DIM = 3%nat \/ DIM = 2%nat /\ tr 2 strain = 0 ->
  let '(q', s, _) := hm_whole DIM m q strain t in meq DIM (hm_stress3D m q') s.
Proof.
  intros HD. cbn [hm_whole]. destruct HD as [->|[-> T]].
  - intros i j Hi Hj. unfold hm_stress3D, hm_stress. cbn [hm_curr]. unfold embed. cbn [Nat.eqb]. reflexivity.
  - set (M := embed 2 strain). pose proof (embed_eq 2 strain (or_introl eq_refl)) as E. fold M in E.
    assert (O2 : forall i j, (2 <= i)%nat \/ (2 <= j)%nat -> M i j = 0).
    { intros i j H. unfold M, embed, convertMatrix3D, set_block. cbn [Nat.eqb]. destruct (_ && _)%bool eqn:B; [|reflexivity]. exfalso.
      apply andb_prop in B. destruct B as [B B4]. apply andb_prop in B. destruct B as [B B3]. apply andb_prop in B. destruct B as [B1 B2].
      try apply Nat.ltb_lt in B2. try apply Nat.ltb_lt in B3. try apply Nat.ltb_lt in B4. try apply Nat.leb_le in B1. lia. }
    assert (E' : forall i j, (i < 2)%nat -> (j < 2)%nat -> M i j = strain i j) by exact E.
    assert (T3 : tr 3 M = 0). { unfold tr in *. cbn [sig] in *. rewrite !E', O2 by lia. lra. }
    assert (U : ur 3 M = ur 2 (get_block M 0 0)).
    { rewrite (ur_ext 2 _ _ E). unfold ur. do 3 f_equal. unfold ddot, dv. rewrite T3, T. cbn [sig].
      rewrite (O2 0%nat 2%nat), (O2 1%nat 2%nat), (O2 2%nat 0%nat), (O2 2%nat 1%nat), (O2 2%nat 2%nat) by lia. rewrite !E' by lia. unfold delta. cbn [Nat.eqb]. unfold Rdiv. ring. }
    intros i j Hi Hj. unfold hm_stress3D, hm_stress. cbn [hm_curr]. fold M. rewrite !form_eq, U.
    assert (T2 : tr 2 (get_block M 0 0) = 0) by (rewrite <- T; apply sig_ext; intros k Hk; apply E; exact Hk). rewrite T2, T3.
    reflexivity.
Qed.
(** In the plane in general they differ: the deviators are those of two and of three dimensions. *)
Theorem C187_stress3D_refuted m q t : m_mu m <> 0 ->
  ~ forall strain, sym3 strain -> let '(q', s, _) := hm_whole 2 m q strain t in meq 2 (hm_stress3D m q') s.
Proof.
  intros Hm K.
  assert (SY : sym3 (dg 1 0 0)). { intros i j. unfold dg. rewrite (Nat.eqb_sym j i). destruct (Nat.eqb i j) eqn:B; [|reflexivity]. apply Nat.eqb_eq in B. subst j. reflexivity. }
  specialize (K (dg 1 0 0) SY). cbn [hm_whole] in K. specialize (K 0%nat 0%nat ltac:(lia) ltac:(lia)).
  unfold hm_stress3D, hm_stress in K. cbn [hm_curr] in K. rewrite !form_eq in K.
  set (M := embed 2 (dg 1 0 0)) in *.
  assert (U3 : ur 3 M = 1 / sqrt (1 + 2 / 3)).
  { unfold ur. do 3 f_equal. unfold ddot, dv, tr, M, embed, convertMatrix3D, set_block, mzero, dg, delta. cbn. field. }
  assert (U2 : ur 2 (get_block M 0 0) = 1 / sqrt (1 + 1 / 2)).
  { unfold M. rewrite (ur_ext 2 _ _ (embed_eq 2 (dg 1 0 0) (or_introl eq_refl))). unfold ur. do 3 f_equal. unfold ddot, dv, tr, dg, delta. cbn [sig Nat.eqb INR]. field. }
  assert (T3 : tr 3 M = 1) by (unfold tr, M, embed, convertMatrix3D, set_block, mzero, dg; cbn; ring).
  assert (T2 : tr 2 (get_block M 0 0) = 1) by (unfold tr, get_block, M, embed, convertMatrix3D, set_block, mzero, dg; cbn; ring).
  assert (M0 : M 0%nat 0%nat = 1) by reflexivity. assert (M1 : get_block M 0 0 0%nat 0%nat = 1) by reflexivity.
  rewrite U3, U2, T3, T2, M0, M1 in K. unfold delta in K. cbn [Nat.eqb] in K.
  assert (R : 1 < sqrt (1 + 1 / 2) < sqrt (1 + 2 / 3)).
  { split; [rewrite <- sqrt_1 at 1|]; apply sqrt_lt_1_alt; lra. }
  set (x := sqrt (1 + 1 / 2)) in *. set (y := sqrt (1 + 2 / 3)) in *.
  assert (E : m_mu m * (1 / x - 1 / y) = 0) by lra.
  apply Rmult_integral in E. destruct E as [E|E]; [contradiction|].
  assert (L : 1 / y < 1 / x) by (unfold Rdiv; rewrite !Rmult_1_l; apply Rinv_lt_contravar; [apply Rmult_lt_0_compat; lra|lra]).
  lra.
Qed.

Print Assumptions C184_energy_plane.
Print Assumptions C184_secant_plane.
Print Assumptions C184_unique_plane.
Print Assumptions C185_energy_space_refuted.
Print Assumptions C185_monotone_space_refuted.
Print Assumptions C185_secant_space_partial.
Print Assumptions C186_tangent_at_zero_partial.
Print Assumptions C186_tangent_refuted.
Print Assumptions C187_no_history.
Print Assumptions C187_stress3D_partial.
Print Assumptions C187_stress3D_refuted.
