(** Properties of the behaviour laws, of the strain and stress measures and of the Newmark step. *)
From Coq Require Import List Arith Bool Reals Lra Lia Permutation.
From Verif Require Import Common Tensor_Model Tensor_Spec Tensor_Proofs Law_Model Law_Spec Law_Proofs Law2_Proofs Law3_Proofs Law4_Proofs.
Import ListNotations.
Local Open Scope R_scope.

(** * C37: plastic return mapping *)

(** the ordinate of the curve is a function of the abscissa *)
Lemma on_curve_unique mu c p r r' : curve_ok mu c -> on_curve c p r -> on_curve c p r' -> r = r'.
Proof.
  intros HC. pose proof (proj1 HC) as HL.
  assert (K : forall i j, (i < j)%nat -> (j <= length c - 2)%nat -> p <= cp c (S i) -> cp c j <= p ->
    cr c i + slope c i * (p - cp c i) = cr c j + slope c j * (p - cp c j)).
  { intros i j L Hj A B. destruct (Nat.eq_dec j (S i)) as [->|N].
    - assert (p = cp c (S i)) by lra. subst p. destruct (curve_seg _ _ HC i ltac:(lia)) as [S1 _]. unfold slope at 1. field. lra.
    - exfalso. pose proof (curve_mono _ _ HC j (S (S i)) ltac:(lia) ltac:(lia)). destruct (curve_seg _ _ HC (S i) ltac:(lia)) as [S1 _]. lra. }
  assert (N : forall p r, on_curve c p r -> exists i, (i <= length c - 2)%nat /\ (i = 0%nat \/ cp c i <= p) /\ (S (S i) = length c \/ p <= cp c (S i)) /\ r = cr c i + slope c i * (p - cp c i)).
  { intros p0 r0 (i & x0 & y0 & x1 & y1 & A & B & C & D & E). assert (S i < length c)%nat by (apply nth_error_Some; congruence).
    rewrite (nth_pt c i) in A by lia. rewrite (nth_pt c (S i)) in B by lia. injection A as <- <-. injection B as <- <-.
    exists i. repeat split; auto. lia. }
  intros H1 H2. destruct (N _ _ H1) as (i & I1 & I2 & I3 & ->). destruct (N _ _ H2) as (j & J1 & J2 & J3 & ->).
  destruct (Nat.lt_trichotomy i j) as [L|[->|L]]; [|reflexivity|].
  - apply K; auto; [destruct I3; [lia|assumption]|destruct J2; [lia|assumption]].
  - symmetry. apply K; auto; [destruct J3; [lia|assumption]|destruct I2; [lia|assumption]].
Qed.

(** what is true of every reachable state *)
Definition inv (DIM : nat) (q : qp) : Prop :=
  qp_wf DIM q /\ plane_total DIM (ee_curr q) (ep_curr q) /\ tr3 (ep_curr q) = 0 /\ 0 <= p_prev q /\ 0 <= p_curr q.
Lemma inv_make DIM : inv DIM qp_make.
Proof.
  unfold inv, qp_wf, plane_total, qp_make. cbn [ee_prev ep_prev p_prev ee_curr ep_curr p_curr].
  assert (P : meq 3 (madd mzero mzero) (in_plane DIM (madd mzero mzero))).
  { intros i j _ _. unfold in_plane. destruct (_ && _)%bool; unfold madd, mzero; ring. }
  assert (T : tr3 mzero = 0) by (unfold tr3; rewrite sig3; unfold mzero; ring).
  repeat split; auto; lra.
Qed.
Lemma inv_update DIM q : inv DIM q -> inv DIM (qp_update q).
Proof. unfold inv, qp_wf, qp_update. cbn [ee_prev ep_prev p_prev ee_curr ep_curr p_curr]. tauto. Qed.
Lemma in_plane_idem DIM M N : meq 3 N (in_plane DIM M) -> meq 3 N (in_plane DIM N).
Proof.
  intros H i j Hi Hj. unfold in_plane. specialize (H i j Hi Hj). unfold in_plane in H. destruct (_ && _)%bool; [reflexivity|exact H].
Qed.
Lemma return_ext drive limit m q s s' q' S : meq 3 s s' -> return_ok drive limit m q s q' S -> return_ok drive limit m q s' q' S.
Proof.
  intros E (A & B & C & D & Str & r & F & G). split; [intros i j Hi Hj; rewrite <- (E i j Hi Hj); auto|].
  split; [exact B|]. split; [exact C|]. split; [exact D|]. exists Str, r. split; [|exact G].
  apply (isotropic_ext m (madd s (mscal (-1) (ep_prev q)))); [|exact F]. intros i j Hi Hj. unfold madd. rewrite (E i j Hi Hj). reflexivity.
Qed.
Lemma inv_return DIM drive limit m q s q' S : inv DIM q -> return_ok drive limit m q (in_plane DIM s) q' S -> inv DIM q'.
Proof.
  intros (I1 & I2 & I3 & I4 & I5) (A & _ & C & (D1 & D2 & D3) & Str & r & _ & _ & G). unfold inv, qp_wf. rewrite D1, D2, D3.
  split; [exact I1|]. split; [apply (in_plane_idem DIM s), A|]. split; [exact C|]. split; [exact I4|].
  destruct G as [(_ & _ & _ & ->)|(_ & _ & L & _)]; lra.
Qed.

Section Isotropic.
  Context (DIM : nat) (m : material).
  Hypotheses (HD : DIM = 2%nat \/ DIM = 3%nat) (Hmu : 0 < m_mu m) (HC : curve_ok (m_mu m) (m_curve m))
             (HP : forall p r, 0 <= p -> on_curve (m_curve m) p r -> 0 < r).
  Lemma iso_step q strain t : inv DIM q -> exists q' S C,
    law_whole iso_whole3D DIM m q strain t = Ok (Some (q', S, C)) /\ return_ok iso_drive (on_curve (m_curve m)) m q (in_plane DIM strain) q' S.
  Proof.
    intros (W & _ & _ & P & _). assert (HP' : forall p r, p_prev q <= p -> on_curve (m_curve m) p r -> 0 < r) by (intros; apply (HP p); [lra|assumption]).
    exists (iso_new DIM m q (embed DIM strain)), (hooke m (ee_curr (iso_new DIM m q (embed DIM strain)))). eexists. split.
    - unfold law_whole. rewrite (iso_compute DIM m q (embed DIM strain) t HD HC W HP'). reflexivity.
    - apply (return_ext _ _ _ _ (embed DIM strain)); [apply embed_in_plane, HD|]. apply (iso_return_ok DIM m q (embed DIM strain) HD HC W HP').
  Qed.
  Lemma iso_inv q : reachable iso_whole3D DIM m q -> inv DIM q.
  Proof.
    induction 1 as [|q strain t q' s C R IH E|q R IH]; [apply inv_make| |apply inv_update, IH].
    destruct (iso_step q strain t IH) as (q1 & S1 & C1 & E1 & K). rewrite E in E1. injection E1 as <- <- <-. eapply inv_return; eassumption.
  Qed.
End Isotropic.
Section Kinematic.
  Context (DIM : nat) (m : material).
  Hypotheses (HD : DIM = 2%nat \/ DIM = 3%nat) (Hmu : 0 < m_mu m) (HH : 0 <= m_H m) (HK : 0 <= m_K m) (Hy : 0 < m_sy0 m).
  Lemma kin_step q strain t : inv DIM q -> exists q' S C,
    law_whole kin_whole3D DIM m q strain t = Ok (Some (q', S, C)) /\ return_ok (kin_drive (m_K m)) (fun p r => r = m_sy0 m + m_H m * p) m q (in_plane DIM strain) q' S.
  Proof.
    intros (W & _ & _ & P & _).
    exists (kin_new DIM m q (embed DIM strain)), (hooke m (ee_curr (kin_new DIM m q (embed DIM strain)))). eexists. split.
    - unfold law_whole. rewrite (kin_compute DIM m q (embed DIM strain) t Hmu HH HK Hy W P). reflexivity.
    - apply (return_ext _ _ _ _ (embed DIM strain)); [apply embed_in_plane, HD|]. apply (kin_return_ok DIM m q (embed DIM strain) HD Hmu HH HK Hy W P).
  Qed.
  Lemma kin_inv q : reachable kin_whole3D DIM m q -> inv DIM q.
  Proof.
    induction 1 as [|q strain t q' s C R IH E|q R IH]; [apply inv_make| |apply inv_update, IH].
    destruct (kin_step q strain t IH) as (q1 & S1 & C1 & E1 & K). rewrite E in E1. injection E1 as <- <- <-. eapply inv_return; eassumption.
  Qed.
End Kinematic.

(** For every history of strains, the next strain is accepted; the total strain is the one given, the
    plastic strain is trace free, the state stays elastic below the yield limit and otherwise returns to
    the hardening curve with a plastic increment that is not negative. *)
Theorem C37_isotropic_return DIM m q strain t :
  DIM = 2%nat \/ DIM = 3%nat -> 0 < m_mu m -> curve_ok (m_mu m) (m_curve m) ->
  (forall p r, 0 <= p -> on_curve (m_curve m) p r -> 0 < r) ->
  reachable iso_whole3D DIM m q ->
  0 <= p_prev q /\
  exists q' S C, law_whole iso_whole3D DIM m q strain t = Ok (Some (q', S, C)) /\
    return_ok iso_drive (on_curve (m_curve m)) m q (in_plane DIM strain) q' S.
Proof.
  intros HD Hmu HC HP R. pose proof (iso_inv DIM m HD HC HP q R) as I. split; [apply I|]. apply iso_step; auto.
Qed.
Theorem C37_kinematic_return DIM m q strain t :
  DIM = 2%nat \/ DIM = 3%nat -> 0 < m_mu m -> 0 <= m_H m -> 0 <= m_K m -> 0 < m_sy0 m ->
  reachable kin_whole3D DIM m q ->
  0 <= p_prev q /\
  exists q' S C, law_whole kin_whole3D DIM m q strain t = Ok (Some (q', S, C)) /\
    return_ok (kin_drive (m_K m)) (fun p r => r = m_sy0 m + m_H m * p) m q (in_plane DIM strain) q' S.
Proof.
  intros HD Hmu HH HK Hy R. pose proof (kin_inv DIM m HD Hmu HH HK Hy q R) as I. split; [apply I|]. apply kin_step; auto.
Qed.

(** Accepting a step makes it the starting point of the next one: the two strains add up to the given
    one, and the cumulated plastic strain has grown by the size of the plastic strain increment. *)
Definition accepted (DIM : nat) (q : qp) (strain : mtx) (q1 : qp) : Prop :=
  meq 3 (madd (ee_prev q1) (ep_prev q1)) (in_plane DIM strain) /\
  p_prev q <= p_prev q1 /\
  (p_prev q1 - p_prev q)² = 2 / 3 * sig 3 (fun i => sig 3 (fun j => (ep_prev q1 i j - ep_prev q i j)²)) /\
  ee_curr q1 = ee_prev q1 /\ ep_curr q1 = ep_prev q1 /\ p_curr q1 = p_prev q1.
Lemma return_accepted DIM drive limit m q strain q' S :
  return_ok drive limit m q (in_plane DIM strain) q' S -> accepted DIM q strain (qp_update q').
Proof.
  intros (A & _ & _ & _ & Str & r & _ & _ & G). unfold accepted, qp_update. cbn [ee_prev ep_prev p_prev ee_curr ep_curr p_curr].
  split; [exact A|].
  assert (K : p_prev q <= p_curr q' /\ (p_curr q' - p_prev q)² = 2 / 3 * sig 3 (fun i => sig 3 (fun j => (ep_curr q' i j - ep_prev q i j)²))).
  { destruct G as [(_ & _ & -> & ->)|(_ & _ & L & _ & n & E & _ & N & _)].
    - split; [lra|]. rewrite !sig3. unfold Rsqr. ring.
    - split; [exact L|]. set (d := p_curr q' - p_prev q) in *.
      transitivity (2 / 3 * (d * d * sig 3 (fun i => sig 3 (fun j => n i j * n i j)))).
      + rewrite N. unfold Rsqr. field.
      + rewrite !sig3. rewrite !E by lia. unfold madd, mscal. unfold Rsqr. ring. }
  destruct K as (K1 & K2). repeat split; assumption.
Qed.
Theorem C37_isotropic_accepted DIM m q strain t q' S C :
  DIM = 2%nat \/ DIM = 3%nat -> 0 < m_mu m -> curve_ok (m_mu m) (m_curve m) ->
  (forall p r, 0 <= p -> on_curve (m_curve m) p r -> 0 < r) ->
  reachable iso_whole3D DIM m q -> law_whole iso_whole3D DIM m q strain t = Ok (Some (q', S, C)) ->
  accepted DIM q strain (qp_update q').
Proof.
  intros HD Hmu HC HP R E. destruct (C37_isotropic_return DIM m q strain t HD Hmu HC HP R) as (_ & q1 & S1 & C1 & E1 & K).
  rewrite E in E1. injection E1 as <- <- <-. eapply return_accepted; exact K.
Qed.
Theorem C37_kinematic_accepted DIM m q strain t q' S C :
  DIM = 2%nat \/ DIM = 3%nat -> 0 < m_mu m -> 0 <= m_H m -> 0 <= m_K m -> 0 < m_sy0 m ->
  reachable kin_whole3D DIM m q -> law_whole kin_whole3D DIM m q strain t = Ok (Some (q', S, C)) ->
  accepted DIM q strain (qp_update q').
Proof.
  intros HD Hmu HH HK Hy R E. destruct (C37_kinematic_return DIM m q strain t HD Hmu HH HK Hy R) as (_ & q1 & S1 & C1 & E1 & K).
  rewrite E in E1. injection E1 as <- <- <-. eapply return_accepted; exact K.
Qed.
(** a curve whose ordinates do not decrease, positive at the start, is accepted *)
Theorem C37_hardening_curves mu c x y l : 0 < mu -> c = (x, y) :: l -> l <> [] -> x <= 0 -> 0 < y ->
  (forall i x0 y0 x1 y1, nth_error c i = Some (x0, y0) -> nth_error c (S i) = Some (x1, y1) -> x0 < x1 /\ y0 <= y1) ->
  curve_ok mu c /\ forall p r, 0 <= p -> on_curve c p r -> 0 < r.
Proof.
  intros Hmu Hc Hl Hx Hy H.
  assert (OK : curve_ok mu c).
  { split; [subst c; destruct l; [congruence|cbn; lia]|]. intros i x0 y0 x1 y1 A B. destruct (H i _ _ _ _ A B) as [L M]. split; [exact L|].
    assert (0 <= (y1 - y0) / (x1 - x0)) by (apply Rmult_le_pos; [lra|left; apply Rinv_0_lt_compat; lra]). lra. }
  split; [exact OK|].
  assert (MR : forall i x0 y0, nth_error c i = Some (x0, y0) -> y <= y0).
  { induction i as [|i IH]; intros x0 y0 A; [subst c; injection A as <- <-; lra|].
    destruct (nth_error c i) as [[x1 y1]|] eqn:E; [|exfalso; apply nth_error_None in E; assert (S i < length c)%nat by (apply nth_error_Some; congruence); lia].
    pose proof (IH _ _ eq_refl). destruct (H i _ _ _ _ E A). lra. }
  intros p r Hp (i & x0 & y0 & x1 & y1 & A & B & C & D & ->). destruct (H i _ _ _ _ A B) as [L M]. pose proof (MR _ _ _ A).
  assert (x0 <= p) by (destruct C as [->|]; [subst c; injection A as <- <-; lra|assumption]).
  assert (0 <= (y1 - y0) / (x1 - x0) * (p - x0)) by (apply Rmult_le_pos; [apply Rmult_le_pos; [lra|left; apply Rinv_0_lt_compat; lra]|lra]). lra.
Qed.
(** the ordinate is a function of the abscissa, so the returned stress is the one of the curve *)
Theorem C37_curve_is_a_function mu c p r r' : curve_ok mu c -> on_curve c p r -> on_curve c p r' -> r = r'.
Proof. apply on_curve_unique. Qed.
(** without a curve the law is elastic *)
Lemma empty_step DIM m q strain t : m_curve m = [] -> (DIM = 2%nat \/ DIM = 3%nat) -> inv DIM q -> ep_prev q = mzero -> p_prev q = 0 -> exists q' C,
  law_whole iso_whole3D DIM m q strain t = Ok (Some (q', hooke m (ee_curr q'), C)) /\
  meq 3 (ee_curr q') (in_plane DIM strain) /\ ep_curr q' = mzero /\ p_curr q' = 0 /\ plastic q' = false /\ ee_prev q' = ee_prev q /\ ep_prev q' = ep_prev q /\ p_prev q' = p_prev q.
Proof.
  intros HC HD (W & _) E0 P0.
  exists (mkQ (ee_prev q) (ep_prev q) (p_prev q) (trial_of DIM q (embed DIM strain)) (ep_prev q) (p_prev q) false). eexists. split; [|repeat split].
  - unfold law_whole, iso_whole3D. rewrite HC. cbn [length Nat.eqb]. rewrite finish_ok; [reflexivity|]. apply W.
  - intros i j Hi Hj. cbn [ee_curr]. rewrite (trial_eq DIM q (embed DIM strain) HD (proj1 W) i j Hi Hj). rewrite E0. unfold madd, mscal, mzero. rewrite (embed_in_plane DIM strain HD i j Hi Hj). ring.
  - exact E0.
  - exact P0.
Qed.
Theorem C37_empty_curve_elastic DIM m q strain t : DIM = 2%nat \/ DIM = 3%nat -> m_curve m = [] ->
  reachable iso_whole3D DIM m q -> exists q' S C,
  law_whole iso_whole3D DIM m q strain t = Ok (Some (q', S, C)) /\ plastic q' = false /\ p_curr q' = 0 /\ isotropic m (in_plane DIM strain) S.
Proof.
  intros HD HC R.
  assert (I : inv DIM q /\ ep_prev q = mzero /\ p_prev q = 0 /\ ep_curr q = mzero /\ p_curr q = 0).
  { induction R as [|q st t0 q' s C R IH E|q R IH].
    - split; [apply inv_make|]. repeat split.
    - destruct IH as (I & E0 & P0 & E1 & P1). destruct (empty_step DIM m q st t0 HC HD I E0 P0) as (q1 & C1 & F & G1 & G2 & G3 & G4 & G5 & G6 & G7).
      rewrite E in F. injection F as -> -> ->. rewrite G6, G7. split; [|auto].
      unfold inv, qp_wf. rewrite G5, G6, G7, G2, G3. destruct I as (I1 & I2 & I3 & I4 & I5). rewrite P1 in I5.
      split; [exact I1|]. split; [|split; [|split; [exact I4|exact I5]]].
      + apply (in_plane_idem DIM st). intros i j Hi Hj. unfold madd. rewrite (G1 i j Hi Hj). unfold mzero. ring.
      + unfold tr3. rewrite sig3. unfold mzero. ring.
    - destruct IH as (I & E0 & P0 & E1 & P1). split; [apply inv_update, I|]. cbn. auto. }
  destruct I as (I & E0 & P0 & _). destruct (empty_step DIM m q strain t HC HD I E0 P0) as (q1 & C1 & F & G1 & G2 & G3 & G4 & _).
  exists q1, (hooke m (ee_curr q1)), C1. split; [exact F|]. split; [exact G4|]. split; [exact G3|].
  apply (isotropic_ext m (ee_curr q1)); [exact G1|apply hooke_iso].
Qed.
(** a curve with a single point makes the law read outside the curve *)
Theorem C37_single_point_refuted DIM m q strain t : length (m_curve m) = 1%nat -> law_whole iso_whole3D DIM m q strain t = UB.
Proof. intros H. unfold law_whole, iso_whole3D. rewrite H. reflexivity. Qed.

(** non-trivial instances: a three point curve, and a strain that yields *)
Definition curve_ex : list (R * R) := [(0, 1); (1, 2); (2, 5 / 2)].
Definition mat_ex : material := mkMat 1 1 (1 / 2) (1 / 3) 1 1 curve_ex.
Example C37_curve_ex : curve_ok (m_mu mat_ex) (m_curve mat_ex) /\ forall p r, 0 <= p -> on_curve (m_curve mat_ex) p r -> 0 < r.
Proof.
  apply (C37_hardening_curves _ _ 0 1 [(1, 2); (2, 5 / 2)]); try (cbn; lra); [reflexivity|discriminate|].
  intros i x0 y0 x1 y1. cbn [mat_ex m_curve curve_ex]. destruct i as [|[|[|i]]]; cbn; intros A B; try discriminate; injection A as <- <-; injection B as <- <-; lra.
Qed.
(** shearing a fresh point beyond the limit is plastic *)
Definition shear (g : R) : mtx := fun i j => match i, j with O, 1%nat => g | 1%nat, O => g | _, _ => 0 end.
Example C37_yields : exists q' S C, law_whole iso_whole3D 2 mat_ex qp_make (shear 1) true = Ok (Some (q', S, C)) /\ plastic q' = true.
Proof.
  destruct C37_curve_ex as [OK POS].
  destruct (C37_isotropic_return 2 mat_ex qp_make (shear 1) true (or_introl eq_refl) ltac:(cbn; lra) OK POS (reach_new _ _ _)) as (_ & q' & S & C & E & K).
  exists q', S, C. split; [exact E|]. destruct K as (_ & _ & _ & _ & Str & r & I & O & [(L & _)|(_ & P & _)]); [|exact P]. exfalso.
  assert (R1 : r = 1).
  { apply (C37_curve_is_a_function (m_mu mat_ex) (m_curve mat_ex) (p_prev qp_make)); [exact OK|exact O|].
    exists 0%nat, 0, 1, 1, 2. cbn. repeat split; auto; try lra. }
  assert (V : vonmises (iso_drive Str (ep_prev qp_make)) = sqrt 12).
  { unfold iso_drive, vonmises. f_equal. unfold dev3, tr3. cbn [sig]. rewrite !I by lia. unfold in_plane, madd, mscal, tr3, delta. cbn. unfold mzero. field. }
  rewrite V, R1 in L. assert (1 < sqrt 12); [|lra]. rewrite <- sqrt_1 at 1. apply sqrt_lt_1; lra.
Qed.

(** * C62: consistent tangent *)
Section TangentIso.
  Context (DIM : nat) (m : material) (q : qp) (strain H : mtx).
  Hypotheses (HD : DIM = 2%nat \/ DIM = 3%nat) (Hmu : 0 < m_mu m) (HC : curve_ok (m_mu m) (m_curve m))
             (HP : forall p r, 0 <= p -> on_curve (m_curve m) p r -> 0 < r) (HR : reachable iso_whole3D DIM m q) (HS : sym3 H).
  Lemma iso_tangent q' S C : iso_whole3D DIM m q strain true = Ok (Some (q', S, C)) ->
    (plastic q' = true -> p_prev q < p_curr q' /\ forall x y, In (x, y) (m_curve m) -> p_curr q' <> x) ->
    derivative_along (fun e => stress_of (iso_whole3D DIM m q e true)) strain H (tapply C H).
  Proof.
    pose proof (iso_inv DIM m HD HC HP q HR) as (W & _ & _ & P & _).
    assert (HP' : forall p r, p_prev q <= p -> on_curve (m_curve m) p r -> 0 < r) by (intros; apply (HP p); [lra|assumption]).
    rewrite (iso_compute DIM m q strain true HD HC W HP'). intros E. injection E as Eq ES EC. subst S. intros HN.
    exists (fun t => iso_stress DIM m q strain H t), 1. split; [lra|]. split.
    { intros t _. rewrite (iso_compute DIM m q (madd strain (mscal t H)) true HD HC W HP'). reflexivity. }
    set (c := m_curve m). set (T := trial_of DIM q strain). set (se := mtimes (2 * m_mu m) (deviator 3 T)). set (se_eq := sigmaeq se).
    set (i0 := find_i0 c (p_prev q) (length c - 1) 0). set (R0 := cr c i0 + slope c i0 * (p_prev q - cp c i0)).
    set (i1 := find_i1 c (m_mu m) (p_prev q) se_eq (length c - 2 - i0) (Datatypes.S i0)).
    pose proof (se_0 DIM m q strain H) as S0. fold T in S0. fold se in S0. fold se_eq in S0.
    destruct (Rlt_dec (se_eq - R0) 0) as [L|L].
    - intros i j Hi Hj. subst C. unfold iso_tan. fold c. fold T. fold se. fold se_eq. fold i0. fold R0. destruct (Rlt_dec (se_eq - R0) 0) as [_|]; [|lra].
      apply (iso_d_elastic DIM m q strain H HS); auto. fold T. fold se. rewrite <- S0. fold c. fold i0. fold R0. lra.
    - assert (PL : plastic q' = true) by (rewrite <- Eq; unfold iso_new; fold c; fold T; fold se; fold se_eq; fold i0; fold R0; destruct (Rlt_dec (se_eq - R0) 0); [lra|reflexivity]).
      destruct (HN PL) as [N1 N2].
      assert (PC : p_curr q' = p_prev q + (se_eq - cr c i1 - slope c i1 * (p_prev q - cp c i1)) / (3 * m_mu m + slope c i1)).
      { rewrite <- Eq. unfold iso_new. fold c; fold T; fold se; fold se_eq; fold i0; fold R0. destruct (Rlt_dec (se_eq - R0) 0); [lra|]. reflexivity. }
      destruct (i0_props c (m_mu m) (p_prev q) 0 HC) as (I1 & I2 & I3). fold i0 in I1, I2, I3.
      destruct (i1_props c (m_mu m) (p_prev q) se_eq HC) as (J1 & J2 & J3). fold i0 in J1, J2, J3. fold i1 in J1, J2, J3.
      destruct (curve_seg _ _ HC i1 ltac:(apply J1)) as [S3 S4]. fold c in S3, S4. destruct (curve_seg _ _ HC i0 I1) as [S5 S6]. fold c in S5, S6.
      assert (LT : R0 < se_eq).
      { destruct (Rle_lt_or_eq_dec R0 se_eq ltac:(lra)) as [Q|Q]; [exact Q|]. exfalso.
        assert (i1 = i0).
        { destruct (Nat.eq_dec i1 i0) as [|N]; [assumption|]. exfalso. pose proof (J2 (Datatypes.S i0) ltac:(lia)) as G. destruct I3 as [I3|I3]; [lia|].
          unfold gap in G. rewrite <- Q in G. unfold R0 in G.
          assert (E1 : cr c (Datatypes.S i0) = cr c i0 + slope c i0 * (cp c (Datatypes.S i0) - cp c i0)) by (unfold slope; field; lra).
          rewrite E1 in G. assert (0 < (3 * m_mu m + slope c i0) * (cp c (Datatypes.S i0) - p_prev q)) by (apply Rmult_lt_0_compat; lra). lra. }
        rewrite H0 in PC. replace (se_eq - cr c i0 - slope c i0 * (p_prev q - cp c i0)) with 0 in PC by (rewrite <- Q; unfold R0; ring). unfold Rdiv in PC. lra. }
      intros i j Hi Hj. rewrite <- EC. apply (iso_d_plastic DIM m q strain H HC HP' HS); auto.
      + fold T. fold se. rewrite <- S0. fold c. fold i0. fold R0. exact LT.
      + fold T. fold se. rewrite <- S0. fold c. fold i0. fold i1.
        destruct (Nat.eq_dec i1 i0) as [|N]; [left; assumption|right]. pose proof (J2 i1 ltac:(lia)) as G. destruct (Rle_lt_or_eq_dec _ _ G) as [Q|Q]; [exact Q|]. exfalso.
        apply (N2 (cp c i1) (cr c i1)).
        * apply nth_error_In with i1. apply nth_pt. pose proof (proj1 HC) as C2. fold c in C2. lia.
        * rewrite PC. unfold gap in Q. replace se_eq with (cr c i1 - 3 * m_mu m * (p_prev q - cp c i1)) by lra. field. lra.
  Qed.
End TangentIso.
(** The tangent returned by a plastic law is the derivative of the stress it returns, in every
    symmetric direction: always after an elastic step, and after a plastic one unless it ends on a
    corner of the hardening curve or starts exactly on the yield surface. *)
Theorem C62_isotropic_tangent DIM m q strain H q' S C :
  DIM = 2%nat \/ DIM = 3%nat -> 0 < m_mu m -> curve_ok (m_mu m) (m_curve m) ->
  (forall p r, 0 <= p -> on_curve (m_curve m) p r -> 0 < r) -> reachable iso_whole3D DIM m q -> sym3 H ->
  iso_whole3D DIM m q strain true = Ok (Some (q', S, C)) ->
  (plastic q' = true -> p_prev q < p_curr q' /\ forall x y, In (x, y) (m_curve m) -> p_curr q' <> x) ->
  derivative_along (fun e => stress_of (iso_whole3D DIM m q e true)) strain H (tapply C H).
Proof. intros. eapply iso_tangent; eassumption. Qed.
Theorem C62_kinematic_tangent DIM m q strain H q' S C :
  DIM = 2%nat \/ DIM = 3%nat -> 0 < m_mu m -> 0 <= m_H m -> 0 <= m_K m -> 0 < m_sy0 m ->
  reachable kin_whole3D DIM m q -> sym3 H ->
  kin_whole3D DIM m q strain true = Ok (Some (q', S, C)) ->
  (plastic q' = true -> p_prev q < p_curr q') ->
  derivative_along (fun e => stress_of (kin_whole3D DIM m q e true)) strain H (tapply C H).
Proof.
  intros HD Hmu HH HK Hy HR HS. pose proof (kin_inv DIM m HD Hmu HH HK Hy q HR) as (W & _ & _ & P & _).
  rewrite (kin_compute DIM m q strain true Hmu HH HK Hy W P). intros E. injection E as Eq ES EC. subst S. intros HN.
  exists (fun t => kin_stress DIM m q strain H t), 1. split; [lra|]. split.
  { intros t _. rewrite (kin_compute DIM m q (madd strain (mscal t H)) true Hmu HH HK Hy W P). reflexivity. }
  set (T := trial_of DIM q strain). set (X := mtimes (m_K m) (ep_prev q)). set (se := mminus (mtimes (2 * m_mu m) (deviator 3 T)) X). set (se_eq := sigmaeq se).
  pose proof (kse_0 DIM m q strain H) as S0. fold T in S0. fold X in S0. fold se in S0. fold se_eq in S0.
  destruct (Rlt_dec (se_eq - m_sy0 m - m_H m * p_prev q) 0) as [L|L].
  - intros i j Hi Hj. subst C. unfold kin_tan. fold T. fold X. fold se. fold se_eq. destruct (Rlt_dec (se_eq - m_sy0 m - m_H m * p_prev q) 0) as [_|]; [|lra].
    apply (kin_d_elastic DIM m q strain H HS); auto. fold T. fold X. fold se. rewrite <- S0. lra.
  - assert (PL : plastic q' = true) by (rewrite <- Eq; unfold kin_new; fold T; fold X; fold se; fold se_eq; destruct (Rlt_dec (se_eq - _ - _) 0); [lra|reflexivity]).
    pose proof (HN PL) as N1.
    assert (PC : p_curr q' = p_prev q + (se_eq - m_sy0 m - m_H m * p_prev q) / (3 * m_mu m + m_H m + 3 * m_K m / 2)).
    { rewrite <- Eq. unfold kin_new. fold T; fold X; fold se; fold se_eq. destruct (Rlt_dec (se_eq - _ - _) 0); [lra|]. reflexivity. }
    assert (LT : m_sy0 m + m_H m * p_prev q < se_eq).
    { destruct (Rle_lt_or_eq_dec (m_sy0 m + m_H m * p_prev q) se_eq ltac:(lra)) as [Q|Q]; [exact Q|]. exfalso.
      replace (se_eq - m_sy0 m - m_H m * p_prev q) with 0 in PC by lra. unfold Rdiv in PC. lra. }
    intros i j Hi Hj. rewrite <- EC. apply (kin_d_plastic DIM m q strain H Hmu HH HK Hy W P HS); auto.
    fold T. fold X. fold se. rewrite <- S0. exact LT.
Qed.
(** asking for the tangent changes neither the state nor the stress; without it the elastic modulus
    is returned *)
Theorem C62_tangent_flag DIM m q strain :
  (DIM = 2%nat \/ DIM = 3%nat -> 0 < m_mu m -> curve_ok (m_mu m) (m_curve m) ->
   (forall p r, 0 <= p -> on_curve (m_curve m) p r -> 0 < r) -> reachable iso_whole3D DIM m q ->
   exists q' S C, iso_whole3D DIM m q strain true = Ok (Some (q', S, C)) /\ iso_whole3D DIM m q strain false = Ok (Some (q', S, elastic_modulus3D m))) /\
  (DIM = 2%nat \/ DIM = 3%nat -> 0 < m_mu m -> 0 <= m_H m -> 0 <= m_K m -> 0 < m_sy0 m -> reachable kin_whole3D DIM m q ->
   exists q' S C, kin_whole3D DIM m q strain true = Ok (Some (q', S, C)) /\ kin_whole3D DIM m q strain false = Ok (Some (q', S, elastic_modulus3D m))).
Proof.
  split.
  - intros HD Hmu HC HP HR. pose proof (iso_inv DIM m HD HC HP q HR) as (W & _ & _ & P & _).
    assert (HP' : forall p r, p_prev q <= p -> on_curve (m_curve m) p r -> 0 < r) by (intros; apply (HP p); [lra|assumption]).
    do 3 eexists. split; [apply (iso_compute DIM m q strain true HD HC W HP')|]. rewrite (iso_compute DIM m q strain false HD HC W HP'). unfold iso_tan. destruct (Rlt_dec _ _); reflexivity.
  - intros HD Hmu HH HK Hy HR. pose proof (kin_inv DIM m HD Hmu HH HK Hy q HR) as (W & _ & _ & P & _).
    do 3 eexists. split; [apply (kin_compute DIM m q strain true Hmu HH HK Hy W P)|]. rewrite (kin_compute DIM m q strain false Hmu HH HK Hy W P). unfold kin_tan. destruct (Rlt_dec _ _); reflexivity.
Qed.
(** the linear laws *)
Theorem C62_linear_laws m F H : sym3 H ->
  derivative_along (fun e => Ok (fst (elastic_whole3D m e))) F H (tapply (snd (elastic_whole3D m F)) H) /\
  derivative_along (fun e => Ok (fst (linear_whole3D m e))) F H (tapply (snd (linear_whole3D m F)) H) /\
  isotropic m F (fst (elastic_whole3D m F)).
Proof.
  intros HS. split; [|split; [|apply hooke_iso]].
  - exists (fun t => hooke m (madd F (mscal t H))), 1. split; [lra|]. split; [reflexivity|]. intros i j Hi Hj. cbn [elastic_whole3D snd].
    rewrite tapply_elastic by assumption.
    apply (d_ext (fun t => 2 * m_mu m * (F i j + t * H i j) + m_lambda m * (tr3 F + t * tr3 H) * delta i j)).
    + intros t. rewrite (hooke_iso m _ i j Hi Hj). rewrite tr3_madd, tr3_mscal. reflexivity.
    + eapply d_eq; [|apply d_plus; [apply d_mult; [apply d_const|apply d_aff]|apply d_mult; [apply d_mult; [apply d_const|apply d_aff]|apply d_const]]]. cbv beta. ring.
  - exists (fun t => mtimes (m_lambda m) (madd F (mscal t H))), 1. split; [lra|]. split; [reflexivity|]. intros i j Hi Hj. cbn [linear_whole3D snd].
    rewrite tapply_times, tapply_id4 by assumption. unfold mtimes, madd, mscal.
    eapply d_eq; [|apply d_mult; [apply d_const|apply d_aff]]. cbv beta. ring.
Qed.

(** a fresh point sheared by 1 yields inside the first segment of the curve: p = (sqrt 12 - 1) / 4 *)
Lemma shear_eq X : X = mzero -> sigmaeq (mminus (mtimes 2 (deviator 3 (trial_of 3 qp_make (shear 1)))) X) = sqrt 12.
Proof.
  intros ->. rewrite sigmaeq_sq. f_equal. unfold sq3. cbn [sig]. unfold mminus, mtimes. rewrite !deviator_dev3. unfold dev3, tr3. cbn [sig]. unfold trial_of, mplus, mminus, embed, total_strain_prev, qp_make, convertMatrix, get_block, mplus, shear, delta, mzero. cbn. field.
Qed.
Lemma sqrt12 : 3 < sqrt 12 < 4.
Proof.
  split.
  - replace 3 with (sqrt 9) by (replace 9 with (3 * 3) by ring; apply sqrt_square; lra). apply sqrt_lt_1; lra.
  - replace 4 with (sqrt 16) by (replace 16 with (4 * 4) by ring; apply sqrt_square; lra). apply sqrt_lt_1; lra.
Qed.
Example C62_plastic_ex :
  (exists q' S C, iso_whole3D 3 mat_ex qp_make (shear 1) true = Ok (Some (q', S, C)) /\ plastic q' = true /\
    p_prev qp_make < p_curr q' /\ forall x y, In (x, y) (m_curve mat_ex) -> p_curr q' <> x) /\
  (exists q' S C, kin_whole3D 3 mat_ex qp_make (shear 1) true = Ok (Some (q', S, C)) /\ plastic q' = true /\ p_prev qp_make < p_curr q') /\
  sym3 (shear 1).
Proof.
  destruct C37_curve_ex as [OK POS]. pose proof sqrt12 as Q.
  pose proof (inv_make 3) as (W & _ & _ & P & _).
  assert (SE : sigmaeq (mtimes (2 * m_mu mat_ex) (deviator 3 (trial_of 3 qp_make (shear 1)))) = sqrt 12).
  { rewrite <- (shear_eq mzero eq_refl). rewrite !sigmaeq_sq. f_equal. f_equal. apply sq3_ext. intros i j _ _. unfold mminus, mzero, mtimes. cbn [mat_ex m_mu]. ring. }
  split; [|split].
  - exists (iso_new 3 mat_ex qp_make (shear 1)). do 2 eexists. split; [apply (iso_compute 3 mat_ex qp_make (shear 1) true (or_intror eq_refl) OK W POS)|].
    unfold iso_new. cbv zeta. rewrite SE. set (c := m_curve mat_ex).
    assert (I0 : find_i0 c (p_prev qp_make) (length c - 1) 0 = 0%nat) by (cbn; destruct (Rlt_dec 0 1); [reflexivity|lra]). rewrite I0.
    assert (I1 : find_i1 c (m_mu mat_ex) (p_prev qp_make) (sqrt 12) (length c - 2 - 0) 1 = 0%nat).
    { cbn [c m_curve mat_ex curve_ex length Nat.sub find_i1]. destruct (Rlt_dec 0 _) as [_|N]; [reflexivity|]. exfalso. apply N. cbn. lra. }
    rewrite I1. unfold slope. cbn [c m_curve mat_ex curve_ex cp cr nth fst snd m_mu p_prev qp_make].
    destruct (Rlt_dec _ 0) as [L|L]; [exfalso; lra|]. cbn [plastic p_curr]. split; [reflexivity|]. split; [lra|].
    intros x y [E|[E|[E|[]]]]; injection E as <- <-; lra.
  - exists (kin_new 3 mat_ex qp_make (shear 1)). do 2 eexists. split.
    { apply (kin_compute 3 mat_ex qp_make (shear 1) true); try (cbn; lra). exact W. }
    unfold kin_new. cbv zeta.
    assert (SK : sigmaeq (mminus (mtimes (2 * m_mu mat_ex) (deviator 3 (trial_of 3 qp_make (shear 1)))) (mtimes (m_K mat_ex) (ep_prev qp_make))) = sqrt 12).
    { rewrite <- (shear_eq mzero eq_refl). rewrite !sigmaeq_sq. f_equal. f_equal. apply sq3_ext. intros i j _ _. unfold mminus, mzero, mtimes. cbn. unfold mzero. ring. }
    rewrite SK. cbn [mat_ex m_sy0 m_H m_K m_mu p_prev qp_make]. destruct (Rlt_dec _ 0) as [L|L]; [exfalso; lra|]. cbn [plastic p_curr]. split; [reflexivity|].
    assert (0 < (sqrt 12 - 1 - 1 / 2 * 0) / (3 * 1 + 1 / 2 + 3 * (1 / 3) / 2)) by (apply Rmult_lt_0_compat; [lra|apply Rinv_0_lt_compat; lra]). lra.
  - intros i j. unfold shear. destruct i as [|[|]], j as [|[|]]; reflexivity.
Qed.

(** * C63: hyperelastic laws *)
Theorem C63_neohookean m F H : 0 < det3 F -> (1 <= m_type m <= 6)%nat -> exists P C,
  neo_stress m F = Ok P /\ neo_tangent m F = Ok C /\
  derivative_along (neo_stress m) F H (tapply C H) /\
  (m_type m <> 4%nat -> derivative_along_R (neo_energy m) F H (ddot 3 P H)).
Proof.
  intros HJ HT. exists (neo_s m F), (neo_t m F). split; [apply neo_stress_ok; assumption|]. split; [apply neo_tangent_ok; assumption|].
  destruct (J_near F H HJ) as (d & Hd & K). split.
  - exists (fun t => neo_s m (moved F H t)), d. split; [exact Hd|]. split; [intros t Ht; apply neo_stress_ok; [exact HT|apply K, Ht]|].
    intros i j Hi Hj. apply neo_d; assumption.
  - intros N. exists (fun t => neo_e m (moved F H t)), d. split; [exact Hd|]. split; [intros t Ht; apply neo_energy_ok; [exact HT|apply K, Ht]|].
    apply neo_e_d; assumption.
Qed.
Theorem C63_cavitation m F H : 0 < det3 F -> (1 <= m_type m <= 6)%nat -> exists P C,
  cav_stress m F = Ok P /\ cav_tangent m F = Ok C /\
  derivative_along (cav_stress m) F H (tapply C H) /\
  (m_type m <> 4%nat -> derivative_along_R (cav_energy m) F H (ddot 3 P H)).
Proof.
  intros HJ HT. exists (cav_s m F), (cav_t m F). split; [apply cav_stress_ok; assumption|]. split; [apply cav_tangent_ok; assumption|].
  destruct (J_near F H HJ) as (d & Hd & K). split.
  - exists (fun t => cav_s m (moved F H t)), d. split; [exact Hd|]. split; [intros t Ht; apply cav_stress_ok; [exact HT|apply K, Ht]|].
    intros i j Hi Hj. apply cav_d; assumption.
  - intros N. exists (fun t => cav_e m (moved F H t)), d. split; [exact Hd|]. split; [intros t Ht; apply cav_energy_ok; [exact HT|apply K, Ht]|].
    apply cav_e_d; assumption.
Qed.
Theorem C63_rejects m F : det3 F <= 0 \/ ~ (1 <= m_type m <= 6)%nat ->
  neo_stress m F = Throw InvalidArgument /\ neo_tangent m F = Throw InvalidArgument /\ neo_energy m F = Throw InvalidArgument /\
  cav_stress m F = Throw InvalidArgument /\ cav_tangent m F = Throw InvalidArgument /\ cav_energy m F = Throw InvalidArgument.
Proof.
  intros H. unfold neo_stress, neo_tangent, neo_energy, cav_stress, cav_tangent, cav_energy, guardJ.
  destruct (Rle_dec (det3 F) 0); [repeat split|]. destruct H as [H|H]; [lra|]. destruct (T1_bad _ (det3 F) H) as (E1 & E2 & E3).
  cbv zeta. rewrite E1, E3. repeat split.
Qed.
(** with the volumetric law 4 the energy uses 1/(1-J) where the documentation and the stress have 1-1/J *)
Definition diag211 : mtx := fun i j => if (i =? j)%nat then (if (i =? 0)%nat then 2 else 1) else 0.
Definition e00 : mtx := fun i j => if ((i =? 0) && (j =? 0))%nat%bool then 1 else 0.
Theorem C67_energy_law4_refuted : exists m F H P, m_type m = 4%nat /\ 0 < det3 F /\ neo_stress m F = Ok P /\ cav_stress m F = Ok P /\
  ~ derivative_along_R (neo_energy m) F H (ddot 3 P H) /\ ~ derivative_along_R (cav_energy m) F H (ddot 3 P H).
Proof.
  set (m := mkMat 1 0 0 0 0 4 []). exists m, diag211, e00.
  assert (DJ : det3 diag211 = 2) by (unfold det3, minor3, diag211; cbn; ring).
  assert (HT : type_ok (m_type m)) by (unfold type_ok; cbn; lia).
  assert (DT : forall t, det3 (moved diag211 e00 t) = 2 + t) by (intros t; unfold det3, minor3, moved, madd, mscal, diag211, e00; cbn; ring).
  assert (E0 : ddot 3 (neo_s m diag211) e00 = 1 / 8).
  { unfold ddot, neo_s, mplus, mtimes, mtransp, inv3. rewrite DJ. unfold m, T1f. cbn [m_mu m_lambda m_type law_T1]. unfold minor3, diag211, e00, sgn. cbn. field. }
  assert (D1 : dlim (fun t => 1 / 2 * (1 / (1 - (2 + t)) * (1 / (1 - (2 + t))))) 0 (-1)).
  { eapply d_eq; [|dpoly; lra]. unfold Rsqr. field. }
  assert (CS : cav_s m diag211 = neo_s m diag211).
  { unfold cav_s, neo_s, m. cbn [m_mu]. unfold mplus, mtimes. rewrite Rmult_0_l. reflexivity. }
  exists (neo_s m diag211). split; [reflexivity|]. split; [rewrite DJ; lra|]. split; [apply neo_stress_ok; [exact HT|lra]|].
  split; [rewrite <- CS; apply cav_stress_ok; [exact HT|lra]|]. rewrite E0.
  assert (AUX : forall (e : mtx -> outcome R) (f : R -> R), (forall t, 0 < 2 + t -> e (moved diag211 e00 t) = Ok (f t)) ->
    (forall t, f t = 1 / 2 * (1 / (1 - (2 + t)) * (1 / (1 - (2 + t))))) -> ~ derivative_along_R e diag211 e00 (1 / 8)).
  { intros e f He Hf (g & d & Hd & G & D).
    assert (D2 : dlim (fun t => 1 / 2 * (1 / (1 - (2 + t)) * (1 / (1 - (2 + t))))) 0 (1 / 8)).
    { apply (d_local g _ 0 _ (Rmin d 1)); [apply Rmin_pos; lra| |exact D]. intros t Ht. rewrite Rminus_0_r in Ht.
      assert (T1 : Rabs t < d) by (apply Rlt_le_trans with (1 := Ht); apply Rmin_l). assert (T2 : Rabs t < 1) by (apply Rlt_le_trans with (1 := Ht); apply Rmin_r).
      apply Rabs_def2 in T2. pose proof (G t T1) as G1. fold (moved diag211 e00 t) in G1. rewrite He in G1 by lra. injection G1 as <-. apply Hf. }
    pose proof (uniqueness_limite _ _ _ _ D1 D2). lra. }
  split.
  - apply (AUX _ (fun t => neo_e m (moved diag211 e00 t))); [intros t Ht; apply neo_energy_ok; [exact HT|rewrite DT; exact Ht]|].
    intros t. unfold neo_e. rewrite DT. unfold m, Uf. cbn [m_mu m_lambda m_type law_U]. unfold Rdiv. rewrite !Rmult_0_l. ring.
  - apply (AUX _ (fun t => cav_e m (moved diag211 e00 t))); [intros t Ht; apply cav_energy_ok; [exact HT|rewrite DT; exact Ht]|].
    intros t. unfold cav_e. rewrite DT. unfold m, Uf. cbn [m_mu m_lambda m_type law_U]. unfold Rdiv. rewrite Rmult_0_r, !Rmult_0_l. ring.
Qed.
(** the stress and the tangent of law 4 still agree with each other *)
Theorem C67_law4_partial m F H : 0 < det3 F -> m_type m = 4%nat -> exists P C,
  neo_stress m F = Ok P /\ neo_tangent m F = Ok C /\ derivative_along (neo_stress m) F H (tapply C H).
Proof. intros HJ HT. destruct (C63_neohookean m F H HJ ltac:(lia)) as (P & C & A & B & D & _). exists P, C. auto. Qed.
Example C63_ex : 0 < det3 diag211 /\ (1 <= m_type mat_ex <= 6)%nat.
Proof. split; [unfold det3, minor3, diag211; cbn; lra|cbn; lia]. Qed.

(** * C64: strain and stress measures *)
Theorem C64_stress_measures D F S : D = 2%nat \/ D = 3%nat -> mdet D F <> 0 ->
  meq D (convertPK1toPK2 D (convertPK2toPK1 D S F) F) S /\ meq D (convertPK2toPK1 D (convertPK1toPK2 D S F) F) S /\
  meq D (convertPK1toCauchy D (convertCauchytoPK1 D S F) F) S /\ meq D (convertCauchytoPK1 D (convertPK1toCauchy D S F) F) S /\
  meq D (convertPK2toCauchy D (convertCauchytoPK2 D S F) F) S /\ meq D (convertCauchytoPK2 D (convertPK2toCauchy D S F) F) S /\
  meq D (convertCauchytoPK2 D S F) (convertPK1toPK2 D (convertCauchytoPK1 D S F) F) /\
  meq D (convertPK2toCauchy D S F) (convertPK1toCauchy D (convertPK2toPK1 D S F) F) /\
  meq D (convertPK2toPK1 D S F) (mmul D F S) /\
  meq D (convertPK2toCauchy D S F) (mscal (/ mdet D F) (mmul D (mmul D F S) (mtr F))).
Proof.
  intros HD HF. repeat match goal with |- _ /\ _ => split end;
    first [apply pk12; assumption | apply pk21; assumption | apply pk1c; assumption | apply cpk1; assumption | apply pk2c; assumption | apply cpk2; assumption
          | apply comp1; assumption | apply comp2; assumption | idtac].
  - intros i j _ _. reflexivity.
  - intros i j _ _. unfold convertPK2toCauchy, mdivs, mscal. unfold Rdiv. rewrite Rmult_comm. reflexivity.
Qed.
(** the determinant used by the conversions is the usual one: inverse and transpose agree with it *)
Theorem C64_inverse D F : D = 2%nat \/ D = 3%nat -> mdet D F <> 0 -> meq D (mmul D (minv D F) F) eye /\ meq D (mmul D F (minv D F)) eye.
Proof.
  intros HD HF. split.
  - exact (inv_l D HD F HF).
  - exact (inv_r D HD F HF).
Qed.
Theorem C64_strain_measures D G : D = 2%nat \/ D = 3%nat ->
  (forall i j, convertFtoG (convertGtoF G) i j = G i j /\ convertGtoF (convertFtoG G) i j = G i j) /\
  meq D (convertGtoF G) (madd G eye) /\
  meq D (convertFtoCauchyGreenRight D G) (mmul D (mtr G) G) /\ meq D (convertFtoCauchyGreenLeft D G) (mmul D G (mtr G)) /\
  meq D (convertGtoCauchyGreenRight D G) (mmul D (mtr (madd G eye)) (madd G eye)) /\
  meq D (convertGtoCauchyGreenLeft D G) (mmul D (madd G eye) (mtr (madd G eye))) /\
  meq D (convertGtoGreenLagrange D G) (mscal (1 / 2) (madd (madd G (mtr G)) (mmul D (mtr G) G))) /\
  meq D (convertFtoGreenLagrange D G) (mscal (1 / 2) (madd (mmul D (mtr G) G) (mscal (-1) eye))).
Proof.
  intros HD. split; [intros i j; unfold convertFtoG, convertGtoF, mminus, mplus; split; ring|].
  repeat match goal with |- _ /\ _ => split end; try (intros i j _ _; reflexivity).
  - intros i j Hi Hj. unfold convertGtoGreenLagrange, convertCauchyGreenRighttoGreenLagrange, convertGtoCauchyGreenRight, convertFtoCauchyGreenRight, convertGtoF.
    unfold mtimes, mminus, mprod, mtransp, mplus, mscal, madd, mmul, mtr, mident.
    destruct HD as [-> | ->]; [destruct i as [|[|]], j as [|[|]]|destruct i as [|[|[|]]], j as [|[|[|]]]]; try (exfalso; lia); cbn [tsum sig Nat.eqb]; field.
  - intros i j Hi Hj. unfold convertFtoGreenLagrange, convertCauchyGreenRighttoGreenLagrange, convertFtoCauchyGreenRight, mtimes, mminus, mscal, madd.
    change (mprod D (mtransp G) G i j) with (mmul D (mtr G) G i j). change (mident i j) with (eye i j). ring.
Qed.
(** a rigid rotation has no Green-Lagrange strain *)
Theorem C64_rotation_invariant D Q F : D = 2%nat \/ D = 3%nat -> meq D (mmul D (mtr Q) Q) eye ->
  meq D (convertFtoGreenLagrange D (mmul D Q F)) (convertFtoGreenLagrange D F).
Proof.
  intros HD HQ. assert (E : meq D (mprod D (mtransp (mprod D Q F)) (mprod D Q F)) (mprod D (mtransp F) F)).
  { rewrite (transp_prod D HD Q F). rewrite (mprod_assoc D HD). rewrite <- (mprod_assoc D HD (mtransp Q) Q F).
    change (mprod D (mtransp Q) Q) with (mmul D (mtr Q) Q). rewrite HQ. change eye with mident. rewrite (eye_l D HD). reflexivity. }
  intros i j Hi Hj. unfold convertFtoGreenLagrange, convertCauchyGreenRighttoGreenLagrange, convertFtoCauchyGreenRight, mtimes, mminus.
  change (mmul D Q F) with (mprod D Q F). rewrite (E i j Hi Hj). reflexivity.
Qed.
Theorem C64_von_mises M : VonMisesCriteria 3 M = vonmises M.
Proof. unfold VonMisesCriteria. fold (sigmaeq (deviator 3 M)). rewrite sigmaeq_sq, vonmises_sq. f_equal. f_equal. apply sq3_ext. intros i j _ _. apply deviator_dev3. Qed.
(** the linearised strain is computed as G G^T / 2 *)
Theorem C68_linearized_strain_refuted : exists G, forall D, D = 2%nat \/ D = 3%nat ->
  ~ meq D (convertGtoLinearizedStrain D G) (mscal (1 / 2) (madd G (mtr G))).
Proof.
  exists (shear 1). intros D HD H. specialize (H 0%nat 0%nat ltac:(lia) ltac:(lia)). unfold convertGtoLinearizedStrain, mprod, mtimes, mtransp, mscal, madd, mtr, shear in H.
  destruct HD as [-> | ->]; cbn in H; lra.
Qed.
Theorem C68_linearized_strain_partial D G : D = 2%nat \/ D = 3%nat ->
  meq D (convertGtoLinearizedStrain D G) (mscal (1 / 2) (mmul D G (mtr G))).
Proof. intros [-> | ->] i j _ _; unfold convertGtoLinearizedStrain, mprod, mtimes, mtransp, mscal, mmul, mtr; cbn [tsum sig]; ring. Qed.
Example C64_ex : mdet 3 diag211 <> 0.
Proof. unfold mdet, det3, minor3, diag211. cbn. lra. Qed.

(** * C65: derivatives of the determinant *)
Theorem C65_first_derivative M H :
  derivable_pt_lim (fun t => det2 (madd M (mscal t H))) 0 (ddot 2 (JacobianFirstDerivate2 M) H) /\
  derivable_pt_lim (fun t => det3 (madd M (mscal t H))) 0 (ddot 3 (JacobianFirstDerivate3 M) H).
Proof.
  split.
  - eapply d_eq; [|unfold det2; apply d_minus; apply (mul_d M H)]. unfold ddot. cbn [sig JacobianFirstDerivate2]. ring.
  - eapply d_eq; [|apply (det_d' M H)]. unfold ddot. cbn [sig]. unfold JacobianFirstDerivate3. cbn [rows3]. unfold ddet, dminor, minor3. ring.
Qed.
Theorem C65_second_derivative_2D M H i j : (i < 2)%nat -> (j < 2)%nat ->
  derivable_pt_lim (fun t => JacobianFirstDerivate2 (madd M (mscal t H)) i j) 0 (tapply2 JacobianSecondDerivate2 H i j).
Proof.
  intros Hi Hj. destruct i as [|[|]], j as [|[|]]; try (exfalso; lia); cbn [JacobianFirstDerivate2];
    (eapply d_eq; [|first [apply (Ft_entry M H)|apply d_opp, (Ft_entry M H)]]); unfold tapply2; cbn [sig]; cbn; unfold mzero; ring.
Qed.
(** in three dimensions the coefficient stored at (6,3) should be -M(1,2); every other one is right *)
Lemma second_3D M H i j : (i < 3)%nat -> (j < 3)%nat ->
  derivable_pt_lim (fun t => JacobianFirstDerivate3 (madd M (mscal t H)) i j) 0 (tapply (fset (JacobianSecondDerivate3 M) 6 3 (- M 1%nat 2%nat)) H i j).
Proof.
  intros Hi Hj. rewrite tapply_rd by assumption.
  destruct i as [|[|[|]]], j as [|[|[|]]]; try (exfalso; lia); unfold JacobianFirstDerivate3; cbn [rows3];
    (eapply d_eq; [|apply d_minus; apply (mul_d M H)]); cbn [sig]; unfold rd; cbn; unfold mzero; ring.
Qed.
Theorem C69_second_derivative_3D_partial M H : derivative_along (fun X => Ok (JacobianFirstDerivate3 X)) M H
  (tapply (fset (JacobianSecondDerivate3 M) 6 3 (- M 1%nat 2%nat)) H) /\
  (M 1%nat 2%nat = M 2%nat 1%nat -> derivative_along (fun X => Ok (JacobianFirstDerivate3 X)) M H (tapply (JacobianSecondDerivate3 M) H)).
Proof.
  split.
  - exists (fun t => JacobianFirstDerivate3 (madd M (mscal t H))), 1. split; [lra|]. split; [reflexivity|]. intros i j. apply second_3D.
  - intros E. exists (fun t => JacobianFirstDerivate3 (madd M (mscal t H))), 1. split; [lra|]. split; [reflexivity|]. intros i j Hi Hj.
    eapply d_eq; [|apply (second_3D M H i j Hi Hj)]. rewrite !tapply_rd by assumption. rewrite E.
    destruct i as [|[|[|]]], j as [|[|[|]]]; try (exfalso; lia); cbn [sig]; unfold rd; cbn; reflexivity.
Qed.
Theorem C69_second_derivative_3D_refuted : exists M H, ~ derivative_along (fun X => Ok (JacobianFirstDerivate3 X)) M H (tapply (JacobianSecondDerivate3 M) H).
Proof.
  set (M := fun i j => if ((i =? 1) && (j =? 2))%nat%bool then 1 else 0 : R). exists M, e00. intros (g & d & Hd & G & D).
  specialize (D 2%nat 1%nat ltac:(lia) ltac:(lia)). pose proof (second_3D M e00 2 1 ltac:(lia) ltac:(lia)) as K.
  assert (D' : derivable_pt_lim (fun t => JacobianFirstDerivate3 (madd M (mscal t e00)) 2%nat 1%nat) 0 (tapply (JacobianSecondDerivate3 M) e00 2%nat 1%nat)).
  { apply (d_local (fun t => g t 2%nat 1%nat) _ 0 _ d Hd); [|exact D]. intros t Ht. rewrite Rminus_0_r in Ht. specialize (G t Ht). injection G as <-. reflexivity. }
  pose proof (uniqueness_limite _ _ _ _ D' K) as U. rewrite !tapply_rd in U by lia. revert U. cbn [sig]. unfold rd, M, e00. cbn. unfold mzero. lra.
Qed.

(** * C66: material parameters *)
Theorem C66_young_poisson m E nu : E <> 0 -> 1 + nu <> 0 -> 1 - 2 * nu <> 0 ->
  m_mu m = mu_of E nu -> m_lambda m = lambda_of E nu -> getE m = E /\ getNu m = nu.
Proof.
  intros HE H1 H2 Hm Hl. unfold getE, getNu. rewrite Hm, Hl. unfold mu_of, lambda_of. 
  assert (S : E * nu / ((1 + nu) * (1 - 2 * nu)) + E / (2 * (1 + nu)) = E / (2 * (1 + nu) * (1 - 2 * nu))) by (field; auto).
  rewrite S. split; field; repeat split; auto.
Qed.
Theorem C66_lame m : m_mu m <> 0 -> m_lambda m + m_mu m <> 0 -> 3 * m_lambda m + 2 * m_mu m <> 0 ->
  mu_of (getE m) (getNu m) = m_mu m /\ lambda_of (getE m) (getNu m) = m_lambda m.
Proof.
  intros H1 H2 H3. unfold mu_of, lambda_of, getE, getNu. set (l := m_lambda m) in *. set (u := m_mu m) in *.
  assert (N1 : 1 + l / (2 * (l + u)) = (3 * l + 2 * u) / (2 * (l + u))) by (field; assumption).
  assert (N2 : 1 - 2 * (l / (2 * (l + u))) = u / (l + u)) by (field; assumption).
  rewrite N1, N2. split; field; auto.
Qed.
Theorem C66_tangent_modulus m ET : getE m <> 0 -> getE m - ET <> 0 -> m_H m = H_of (getE m) ET (m_K m) -> getET m = ET.
Proof.
  intros HE HT Hh. unfold getET. rewrite Hh. unfold H_of. set (E := getE m) in *. clearbody E.
  replace (E * ET / (E - ET) - 3 / 2 * m_K m + 3 / 2 * m_K m) with (E * ET / (E - ET)) by ring.
  replace (E * ET / (E - ET) + E) with (E * E / (E - ET)) by (field; assumption). field. auto.
Qed.
(** checking a hardening curve sorts it, changes nothing else, and fails exactly when two points have
    abscissae closer than eps *)
Theorem C66_check_curve eps m : 0 < eps ->
  match checkRpCurve eps m with
  | Ok m' => Permutation (m_curve m) (m_curve m') /\
      (forall i x0 y0 x1 y1, nth_error (m_curve m') i = Some (x0, y0) -> nth_error (m_curve m') (S i) = Some (x1, y1) -> x0 + eps <= x1) /\
      (m_lambda m', m_mu m', m_H m', m_K m', m_sy0 m', m_type m') = (m_lambda m, m_mu m, m_H m, m_K m, m_sy0 m, m_type m)
  | Throw e => e = InvalidArgument /\ ~ ForallOrdPairs (fun a b => eps <= Rabs (fst a - fst b)) (m_curve m)
  | UB => False
  end.
Proof.
  intros HE. unfold checkRpCurve. pose proof (sort_perm (m_curve m)) as P. pose proof (sort_sorted (m_curve m)) as Q.
  pose proof (close_far eps _ HE Q) as CF. destruct (close_pts eps (sort_pts (m_curve m))).
  - split; [reflexivity|]. intros N. assert (true = false); [|discriminate]. apply CF. eapply far_perm; [exact P|exact N].
  - cbn [m_curve m_lambda m_mu m_H m_K m_sy0 m_type]. split; [exact P|]. split; [|reflexivity]. apply sorted_far_inc; [exact HE|exact Q|]. apply CF. reflexivity.
Qed.
Example C66_ex : getE (mkMat (lambda_of 210 (1 / 3)) (mu_of 210 (1 / 3)) 0 0 0 1 []) = 210.
Proof. apply (C66_young_poisson _ 210 (1 / 3)); try reflexivity; lra. Qed.

(** * C38: Newmark step *)
(** a body at rest away from the origin, with no force on it, is thrown to the other side *)
Theorem C38_constant_acceleration_refuted : exists mass beta gamma dt s, 0 < mass /\ 0 < beta <= 1 / 2 /\ 0 <= gamma <= 1 /\ 0 < dt /\
  d_v s = 0 /\ d_a s = 0 /\
  let f := mass * d_a s in let s' := newmark_step mass beta gamma dt f s in
  d_u s' <> d_u s + dt * d_v s + dt * dt / 2 * d_a s /\ d_v s' <> d_v s + dt * d_a s /\ d_a s' <> d_a s.
Proof.
  exists 1, (1 / 4), (1 / 2), 1, (mkDyn 1 0 0). cbn [d_u d_v d_a]. repeat split; try lra;
    unfold newmark_step, newmark_post, newmark_solve, newmark_init; cbn [it_u it_v it_a it_vp it_pred d_u d_v d_a]; lra.
Qed.
(** gamma has no effect: the new acceleration is used with both weights *)
Theorem C38_gamma_ignored_refuted mass beta dt f s gamma gamma' : newmark_step mass beta gamma dt f s = newmark_step mass beta gamma' dt f s.
Proof.
  unfold newmark_step, newmark_post. cbn [it_u it_v it_a it_vp it_pred]. f_equal. ring.
Qed.
(** what holds: the velocity moves by dt times the new acceleration, and from rest at the origin the
    acceleration is the force divided by the mass *)
Theorem C38_newmark_partial mass beta gamma dt f s : 0 < mass -> 0 < beta -> 0 < dt ->
  let s' := newmark_step mass beta gamma dt f s in
  d_v s' = d_v s + dt * d_a s' /\
  (d_u s = 0 -> d_v s = 0 -> d_a s = 0 -> mass * d_a s' = f /\ d_u s' = beta * (dt * dt) * d_a s').
Proof.
  intros Hm Hb Ht. unfold newmark_step, newmark_post, newmark_solve, newmark_init. cbn [it_u it_v it_a it_vp it_pred d_u d_v d_a]. split; [ring|].
  intros -> -> ->. split; field; repeat split; lra.
Qed.

Print Assumptions C37_isotropic_return.
Print Assumptions C37_kinematic_return.
Print Assumptions C37_isotropic_accepted.
Print Assumptions C37_kinematic_accepted.
Print Assumptions C37_hardening_curves.
Print Assumptions C37_empty_curve_elastic.
Print Assumptions C62_isotropic_tangent.
Print Assumptions C62_kinematic_tangent.
Print Assumptions C62_linear_laws.
Print Assumptions C63_neohookean.
Print Assumptions C63_cavitation.
Print Assumptions C67_energy_law4_refuted.
Print Assumptions C64_stress_measures.
Print Assumptions C64_strain_measures.
Print Assumptions C65_first_derivative.
Print Assumptions C69_second_derivative_3D_partial.
Print Assumptions C66_check_curve.
Print Assumptions C38_newmark_partial.

Print Assumptions C37_curve_is_a_function.
Print Assumptions C37_single_point_refuted.
Print Assumptions C62_tangent_flag.
Print Assumptions C63_rejects.
Print Assumptions C67_law4_partial.
Print Assumptions C64_inverse.
Print Assumptions C64_rotation_invariant.
Print Assumptions C64_von_mises.
Print Assumptions C68_linearized_strain_refuted.
Print Assumptions C68_linearized_strain_partial.
Print Assumptions C65_second_derivative_2D.
Print Assumptions C69_second_derivative_3D_refuted.
Print Assumptions C66_young_poisson.
Print Assumptions C66_lame.
Print Assumptions C66_tangent_modulus.
Print Assumptions C38_constant_acceleration_refuted.
Print Assumptions C38_gamma_ignored_refuted.
