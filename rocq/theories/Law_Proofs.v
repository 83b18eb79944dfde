(** Proofs about behaviour laws. *)
From Coq Require Import List Arith Bool Reals Lra Lia.
From Verif Require Import Common Tensor_Model Tensor_Spec Tensor_Proofs Law_Model Law_Spec.
Import ListNotations.
Local Open Scope R_scope.

(** ** Explicit sums *)
Lemma tsum3 f : tsum 3 f = f 0%nat + f 1%nat + f 2%nat.
Proof. cbn. ring. Qed.
Lemma sig3 f : sig 3 f = f 0%nat + f 1%nat + f 2%nat.
Proof. cbn. ring. Qed.
Lemma trace_tr3 A : trace 3 A = tr3 A.
Proof. reflexivity. Qed.
Lemma deviator_dev3 A i j : deviator 3 A i j = dev3 A i j.
Proof. unfold deviator, dev3, mident, delta. rewrite trace_tr3. f_equal. f_equal. f_equal. cbn. ring. Qed.
Definition sq3 (A : mtx) : R := sig 3 (fun i => sig 3 (fun j => A i j * A i j)).
Lemma sqnorm3 A : sqnorm 3 A = sq3 A.
Proof. reflexivity. Qed.
Lemma sq3_ext A B : meq 3 A B -> sq3 A = sq3 B.
Proof. intros H. unfold sq3. repeat rewrite sig3. rewrite !(H _ _) by lia. reflexivity. Qed.
Lemma sq3_scal c A : sq3 (mscal c A) = c * c * sq3 A.
Proof. unfold sq3, mscal. repeat rewrite sig3. ring. Qed.
Lemma sq3_pos A : 0 <= sq3 A.
Proof. unfold sq3. repeat rewrite sig3. repeat apply Rplus_le_le_0_compat; apply Rle_0_sqr. Qed.
Lemma tr3_ext A B : meq 3 A B -> tr3 A = tr3 B.
Proof. intros H. unfold tr3. rewrite !sig3. rewrite !(H _ _) by lia. reflexivity. Qed.
Lemma dev3_ext A B : meq 3 A B -> meq 3 (dev3 A) (dev3 B).
Proof. intros H i j Hi Hj. unfold dev3. rewrite (tr3_ext _ _ H), (H i j Hi Hj). reflexivity. Qed.
Lemma tr3_dev A : tr3 (dev3 A) = 0.
Proof. unfold tr3 at 1, dev3, delta. cbn. unfold tr3. cbn. field. Qed.
Lemma dev3_free A : tr3 A = 0 -> forall i j, dev3 A i j = A i j.
Proof. intros H i j. unfold dev3. rewrite H. field. Qed.
Lemma vonmises_sq A : vonmises A = sqrt (3 / 2 * sq3 (dev3 A)).
Proof. reflexivity. Qed.
Lemma vonmises_ext A B : meq 3 A B -> vonmises A = vonmises B.
Proof. intros H. rewrite !vonmises_sq. f_equal. f_equal. apply sq3_ext, dev3_ext, H. Qed.
Lemma sigmaeq_sq A : sigmaeq A = sqrt (3 / 2 * sq3 A).
Proof. unfold sigmaeq. rewrite sqnorm3. reflexivity. Qed.
Lemma eq_scal c A : sqrt (3 / 2 * sq3 (mscal c A)) = Rabs c * sqrt (3 / 2 * sq3 A).
Proof.
  rewrite sq3_scal. replace (3 / 2 * (c * c * sq3 A)) with (c * c * (3 / 2 * sq3 A)) by ring.
  rewrite sqrt_mult; [|apply Rle_0_sqr|pose proof (sq3_pos A); lra]. f_equal. change (c * c) with (Rsqr c). apply sqrt_Rsqr_abs.
Qed.
Lemma over_zero b : over 0 b = false.
Proof.
  unfold over. destruct (Req_EM_T b 0); [reflexivity|]. destruct (Rlt_dec _ _) as [H|]; [|reflexivity]. exfalso. revert H.
  rewrite Rabs_R0. unfold Rdiv. rewrite Rmult_0_l. intros H. assert (0 < / 10 ^ 8) by (apply Rinv_0_lt_compat, pow_lt; lra). lra.
Qed.
Lemma finish_ok m q C : tr3 (ep_curr q) = 0 -> finish m q C = Ok (Some (q, hooke m (ee_curr q), C)).
Proof.
  intros H. unfold finish. rewrite trace_tr3, H, Rabs_R0. destruct (Rlt_dec _ _) as [L|]; [|reflexivity]. exfalso.
  assert (0 < / 10 ^ 8) by (apply Rinv_0_lt_compat, pow_lt; lra). lra.
Qed.
Lemma hooke_iso m e : isotropic m e (hooke m e).
Proof. intros i j _ _. unfold hooke, mplus, mtimes, mident, delta. rewrite trace_tr3. reflexivity. Qed.
Lemma isotropic_ext m e e' S : meq 3 e e' -> isotropic m e S -> isotropic m e' S.
Proof. intros H I i j Hi Hj. rewrite (I i j Hi Hj), (H i j Hi Hj), (tr3_ext _ _ H). reflexivity. Qed.
(** deviator of the stress of Hooke's law *)
Lemma dev_isotropic m e S : isotropic m e S -> meq 3 (dev3 S) (mscal (2 * m_mu m) (dev3 e)).
Proof.
  intros I i j Hi Hj. unfold dev3 at 1. rewrite (tr3_ext _ _ I). rewrite (I i j Hi Hj). unfold mscal, dev3.
  unfold tr3 at 2. rewrite sig3. unfold delta at 2 3 4. cbn [Nat.eqb]. unfold tr3. rewrite !sig3. field.
Qed.

(** ** The piecewise linear curve *)
Lemma nth_pt c i : (i < length c)%nat -> nth_error c i = Some (cp c i, cr c i).
Proof. intros H. rewrite (nth_error_nth' c (0, 0) H). unfold cp, cr. destruct (nth i c (0, 0)); reflexivity. Qed.
Lemma find_i0_spec c p : (2 <= length c)%nat -> forall k i, (i + k = length c - 1)%nat ->
  (forall j, (j < i)%nat -> cp c (S j) <= p) ->
  let i0 := find_i0 c p k i in (i0 <= length c - 2)%nat /\ (i0 = 0%nat \/ cp c i0 <= p) /\ ((S (S i0) = length c) \/ p < cp c (S i0)).
Proof.
  intros Hn. induction k as [|k IH]; intros i Hk Hi; cbn [find_i0].
  - split; [lia|]. split; [|left; lia]. destruct (length c - 2)%nat as [|j] eqn:E; [left; reflexivity|]. right. apply Hi. lia.
  - destruct (Rlt_dec p (cp c (S i))) as [L|L].
    + split; [lia|]. split; [|right; exact L]. destruct i as [|j]; [left; reflexivity|right; apply Hi; lia].
    + apply IH; [lia|]. intros j Hj. destruct (Nat.eq_dec j i) as [->|]; [lra|apply Hi; lia].
Qed.
Definition gap (c : list (R * R)) (mu p se : R) (i : nat) : R := cr c i - 3 * mu * (p - cp c i) - se.
Lemma find_i1_spec c mu p se i0 : (2 <= length c)%nat -> (i0 <= length c - 2)%nat -> forall k i, (i + k = length c - 1)%nat -> (i0 < i)%nat ->
  (forall j, (i0 < j < i)%nat -> gap c mu p se j <= 0) ->
  let i1 := find_i1 c mu p se k i in
  (i0 <= i1 <= length c - 2)%nat /\ (forall j, (i0 < j <= i1)%nat -> gap c mu p se j <= 0) /\ (S (S i1) = length c \/ 0 < gap c mu p se (S i1)).
Proof.
  intros Hn H0. induction k as [|k IH]; intros i Hk Hi Hb; cbn [find_i1].
  - split; [lia|]. split; [|left; lia]. intros j Hj. apply Hb. lia.
  - fold (gap c mu p se i). destruct (Rlt_dec 0 (gap c mu p se i)) as [L|L].
    + split; [lia|]. split; [intros j Hj; apply Hb; lia|]. right. replace (S (i - 1)) with i by lia. exact L.
    + apply IH; [lia|lia|]. intros j Hj. destruct (Nat.eq_dec j i) as [->|]; [lra|apply Hb; lia].
Qed.
Lemma curve_seg mu c : curve_ok mu c -> forall i, (i <= length c - 2)%nat -> cp c i < cp c (S i) /\ 0 < 3 * mu + slope c i.
Proof.
  intros [Hn H] i Hi. apply (H i (cp c i) (cr c i) (cp c (S i)) (cr c (S i))); apply nth_pt; lia.
Qed.
Lemma curve_mono mu c : curve_ok mu c -> forall j i, (i <= j)%nat -> (j < length c)%nat -> cp c i <= cp c j.
Proof.
  intros H. induction j as [|j IH]; intros i Hi Hj; [assert (i = 0)%nat by lia; subst; lra|].
  destruct (Nat.eq_dec i (S j)) as [->|]; [lra|]. pose proof (curve_seg _ _ H j ltac:(lia)) as [L _]. pose proof (IH i ltac:(lia) ltac:(lia)). lra.
Qed.
Lemma on_curve_seg c i p : (i <= length c - 2)%nat -> (2 <= length c)%nat -> (i = 0%nat \/ cp c i <= p) -> (S (S i) = length c \/ p <= cp c (S i)) ->
  on_curve c p (cr c i + slope c i * (p - cp c i)).
Proof.
  intros Hi Hn H1 H2. exists i, (cp c i), (cr c i), (cp c (S i)), (cr c (S i)).
  repeat split; auto; apply nth_pt; lia.
Qed.

(** the scalar return mapping *)
Section Scalar.
  Context (c : list (R * R)) (mu p se : R).
  Hypotheses (Hmu : 0 < mu) (HC : curve_ok mu c).
  Let i0 := find_i0 c p (length c - 1) 0.
  Let i1 := find_i1 c mu p se (length c - 2 - i0) (S i0).
  Let R0 := cr c i0 + slope c i0 * (p - cp c i0).
  Lemma i0_props : (i0 <= length c - 2)%nat /\ (i0 = 0%nat \/ cp c i0 <= p) /\ ((S (S i0) = length c) \/ p < cp c (S i0)).
  Proof. apply find_i0_spec; [apply HC|lia|intros j Hj; lia]. Qed.
  Lemma R0_on_curve : on_curve c p R0.
  Proof.
    destruct i0_props as (A & B & C). apply on_curve_seg; auto; [apply HC|]. destruct C; [left; assumption|right; lra].
  Qed.
  Lemma i1_props : (i0 <= i1 <= length c - 2)%nat /\ (forall j, (i0 < j <= i1)%nat -> gap c mu p se j <= 0) /\ (S (S i1) = length c \/ 0 < gap c mu p se (S i1)).
  Proof.
    destruct i0_props as (A & B & C). pose proof (proj1 HC). apply find_i1_spec; auto; try lia. 
  Qed.
  Let dp := (se - cr c i1 - slope c i1 * (p - cp c i1)) / (3 * mu + slope c i1).
  Lemma return_scalar : R0 <= se -> 0 <= dp /\ on_curve c (p + dp) (se - 3 * mu * dp).
  Proof.
    intros L. destruct i0_props as (A & B & C). destruct i1_props as (D & E & F).
    destruct (curve_seg _ _ HC i1 ltac:(lia)) as [S1 S2].
    assert (Eq : se - 3 * mu * dp = cr c i1 + slope c i1 * (p + dp - cp c i1)).
    { unfold dp. field. lra. }
    (* G(x) = line(x) + 3 mu (x - p) - se vanishes at p + dp *)
    assert (G : forall x, cr c i1 + slope c i1 * (x - cp c i1) + 3 * mu * (x - p) - se = (3 * mu + slope c i1) * (x - (p + dp))).
    { intros x. replace se with (se - 3 * mu * dp + 3 * mu * dp) by ring. rewrite Eq. ring. }
    assert (Left : gap c mu p se i1 <= 0 -> cp c i1 <= p + dp).
    { intros H. pose proof (G (cp c i1)) as g. unfold gap in H. apply Rnot_lt_le. intros N.
      assert (0 < (3 * mu + slope c i1) * (cp c i1 - (p + dp))) by (apply Rmult_lt_0_compat; lra). lra. }
    assert (Right : 0 < gap c mu p se (S i1) -> p + dp <= cp c (S i1)).
    { intros H. pose proof (G (cp c (S i1))) as g. unfold gap in H.
      replace (slope c i1 * (cp c (S i1) - cp c i1)) with (cr c (S i1) - cr c i1) in g by (unfold slope; field; lra).
      apply Rnot_lt_le. intros N.
      assert (0 < (3 * mu + slope c i1) * (p + dp - cp c (S i1))) by (apply Rmult_lt_0_compat; lra). lra. }
    assert (P : 0 <= dp /\ (i1 = 0%nat \/ cp c i1 <= p + dp)).
    { destruct (Nat.eq_dec i1 i0) as [Q|Q].
      - assert (0 <= dp).
        { unfold dp. rewrite Q in *. apply Rmult_le_pos; [unfold R0 in L; lra|]. left. apply Rinv_0_lt_compat. lra. }
        split; [assumption|]. rewrite Q. destruct B as [B|B]; [left; exact B|right; lra].
      - assert (G1 : gap c mu p se i1 <= 0) by (apply E; lia). pose proof (Left G1) as L1. split; [|right; exact L1].
        destruct C as [C|C]; [lia|]. pose proof (curve_mono _ _ HC i1 (S i0) ltac:(lia) ltac:(lia)). lra. }
    destruct P as [P1 P2]. split; [exact P1|]. rewrite Eq. apply on_curve_seg; auto; [lia|apply HC|]. destruct F as [F|F]; [left; exact F|right; apply Right, F].
  Qed.
End Scalar.

(** ** The trial state *)
Definition plane_total (DIM : nat) (e p : mtx) : Prop := meq 3 (madd e p) (in_plane DIM (madd e p)).
Lemma embed_in_plane DIM M : DIM = 2%nat \/ DIM = 3%nat -> meq 3 (embed DIM M) (in_plane DIM M).
Proof.
  intros [-> | ->] i j Hi Hj; unfold embed, in_plane; cbn [Nat.eqb].
  - unfold convertMatrix3D, set_block, mzero. destruct i as [|[|[|]]], j as [|[|[|]]]; try lia; reflexivity.
  - destruct (Nat.ltb_spec i 3), (Nat.ltb_spec j 3); try lia. reflexivity.
Qed.
Definition trial_of (DIM : nat) (q : qp) (strain : mtx) : mtx := mplus (ee_prev q) (mminus strain (embed DIM (total_strain_prev q))).
Lemma trial_eq DIM q strain : DIM = 2%nat \/ DIM = 3%nat -> plane_total DIM (ee_prev q) (ep_prev q) ->
  meq 3 (trial_of DIM q strain) (madd strain (mscal (-1) (ep_prev q))).
Proof.
  intros HD HP i j Hi Hj. unfold trial_of, mplus at 1, mminus. rewrite (embed_in_plane _ _ HD i j Hi Hj).
  replace (in_plane DIM (total_strain_prev q) i j) with (in_plane DIM (madd (ee_prev q) (ep_prev q)) i j) by reflexivity.
  rewrite <- (HP i j Hi Hj). unfold madd, mscal. ring.
Qed.

(** a plastic correction along the deviatoric direction s, of equivalent norm se = sqrt(3/2 s:s) *)
Section Correction.
  Context (s : mtx) (dp : R).
  Let se := sqrt (3 / 2 * sq3 s).
  Hypotheses (Hs : tr3 s = 0) (Hse : 0 < se).
  Let n := mdivs (mtimes 3 s) (2 * se).
  Lemma se_sq : 3 / 2 * sq3 s = se * se.
  Proof. unfold se. rewrite sqrt_sqrt; [reflexivity|]. pose proof (sq3_pos s). lra. Qed.
  Lemma normal_tr : tr3 n = 0.
  Proof. unfold n, tr3, mdivs, mtimes. rewrite sig3. unfold tr3 in Hs. rewrite sig3 in Hs. replace (3 * s 0%nat 0%nat / (2 * se) + 3 * s 1%nat 1%nat / (2 * se) + 3 * s 2%nat 2%nat / (2 * se)) with (3 / (2 * se) * (s 0%nat 0%nat + s 1%nat 1%nat + s 2%nat 2%nat)) by (field; lra). rewrite Hs. ring. Qed.
  Lemma normal_sq : sig 3 (fun i => sig 3 (fun j => n i j * n i j)) = 3 / 2.
  Proof.
    change (sq3 n = 3 / 2). rewrite (sq3_ext n (mscal (3 / (2 * se)) s)) by (intros i j _ _; unfold n, mdivs, mtimes, mscal; field; lra).
    rewrite sq3_scal. replace (sq3 s) with (2 / 3 * (se * se)) by (rewrite <- se_sq; field). field. lra.
  Qed.
  (** moving back by a*dp*n leaves the equivalent norm se - 3/2 a dp *)
  Lemma corrected a : 0 <= se - 3 / 2 * a * dp -> sqrt (3 / 2 * sq3 (madd s (mscal (- a * dp) n))) = se - 3 / 2 * a * dp.
  Proof.
    intros H. rewrite (sq3_ext _ (mscal ((se - 3 / 2 * a * dp) / se) s)) by (intros i j _ _; unfold madd, mscal, n, mdivs, mtimes; field; lra).
    rewrite eq_scal. change (sqrt (3 / 2 * sq3 s)) with se. rewrite Rabs_pos_eq; [field; lra|].
    apply Rmult_le_pos; [exact H|]. left. apply Rinv_0_lt_compat. exact Hse.
  Qed.
End Correction.

Definition qp_wf (DIM : nat) (q : qp) : Prop := plane_total DIM (ee_prev q) (ep_prev q) /\ tr3 (ep_prev q) = 0.

Lemma tr3_madd A B : tr3 (madd A B) = tr3 A + tr3 B.
Proof. unfold tr3, madd. rewrite !sig3. ring. Qed.
Lemma tr3_mscal c A : tr3 (mscal c A) = c * tr3 A.
Proof. unfold tr3, mscal. rewrite !sig3. ring. Qed.
Lemma dev3_lin A c B i j : dev3 (madd A (mscal c B)) i j = dev3 A i j + c * dev3 B i j.
Proof. unfold dev3. rewrite tr3_madd, tr3_mscal. unfold madd, mscal. field. Qed.

Lemma vm_trial m q strain T S : isotropic m T S -> meq 3 T (madd strain (mscal (-1) (ep_prev q))) ->
  sigmaeq (mtimes (2 * m_mu m) (deviator 3 T)) = vonmises S.
Proof.
  intros I E. rewrite sigmaeq_sq, vonmises_sq. f_equal. f_equal. apply sq3_ext. intros i j Hi Hj.
  rewrite (dev_isotropic _ _ _ I i j Hi Hj). unfold mtimes, mscal. rewrite deviator_dev3. reflexivity.
Qed.
Lemma tr_se c T : tr3 (mtimes c (deviator 3 T)) = 0.
Proof.
  rewrite (tr3_ext _ (mscal c (dev3 T))), tr3_mscal, tr3_dev; [ring|]. intros i j _ _. unfold mtimes, mscal. rewrite deviator_dev3. reflexivity.
Qed.

Section Iso.
  Context (DIM : nat) (m : material) (q : qp) (strain : mtx) (t : bool).
  Hypotheses (HD : DIM = 2%nat \/ DIM = 3%nat) (Hmu : 0 < m_mu m) (HC : curve_ok (m_mu m) (m_curve m)) (HQ : qp_wf DIM q)
             (HP : forall p r, p_prev q <= p -> on_curve (m_curve m) p r -> 0 < r).
  Let c := m_curve m.
  Let T := trial_of DIM q strain.
  Let se := mtimes (2 * m_mu m) (deviator 3 T).
  Let se_eq := sigmaeq se.
  Let i0 := find_i0 c (p_prev q) (length c - 1) 0.
  Let R0 := cr c i0 + slope c i0 * (p_prev q - cp c i0).
  Let i1 := find_i1 c (m_mu m) (p_prev q) se_eq (length c - 2 - i0) (S i0).
  Let dem := 3 * m_mu m + slope c i1.
  Let dp := (se_eq - cr c i1 - slope c i1 * (p_prev q - cp c i1)) / dem.
  Let n := mdivs (mtimes 3 se) (2 * se_eq).
  Definition iso_new : qp :=
    if Rlt_dec (se_eq - R0) 0 then mkQ (ee_prev q) (ep_prev q) (p_prev q) T (ep_prev q) (p_prev q) false
    else mkQ (ee_prev q) (ep_prev q) (p_prev q) (mminus T (mtimes dp n)) (mplus (ep_prev q) (mtimes dp n)) (p_prev q + dp) true.
  Definition iso_tan : mtx :=
    if Rlt_dec (se_eq - R0) 0 then elastic_modulus3D m
    else if t then tangent_ep m n dp se_eq dem else elastic_modulus3D m.

  Lemma iso_facts : 0 < R0 /\ (R0 <= se_eq -> 0 < se_eq /\ 0 <= dp /\ on_curve c (p_prev q + dp) (se_eq - 3 * m_mu m * dp) /\ 0 < se_eq - 3 * m_mu m * dp /\ tr3 n = 0).
  Proof.
    assert (P0 : 0 < R0) by (apply (HP (p_prev q)); [lra|apply (R0_on_curve c (m_mu m) (p_prev q) 0 HC)]).
    split; [exact P0|]. intros L. assert (P1 : 0 < se_eq) by lra.
    destruct (return_scalar c (m_mu m) (p_prev q) se_eq HC L) as (A & B).
    fold c in A, B. change (0 <= dp) in A. change (on_curve c (p_prev q + dp) (se_eq - 3 * m_mu m * dp)) in B.
    repeat split; auto.
    - apply (HP (p_prev q + dp)); [lra|exact B].
    - unfold n, se_eq. rewrite sigmaeq_sq. apply normal_tr; [apply tr_se|]. rewrite <- sigmaeq_sq. exact P1.
  Qed.

  Lemma iso_compute : iso_whole3D DIM m q strain t = Ok (Some (iso_new, hooke m (ee_curr iso_new), iso_tan)).
  Proof.
    destruct iso_facts as (P0 & P1). destruct HQ as [_ HT].
    unfold iso_whole3D. fold c. pose proof (proj1 HC) as C0. fold c in C0. cbv zeta. destruct (Nat.eqb_spec (length c) 0); [lia|]. destruct (Nat.eqb_spec (length c) 1); [lia|]. fold (trial_of DIM q strain). fold T. fold se. fold i0.
    destruct (i0_props c (m_mu m) (p_prev q) 0 HC) as (I1 & I2 & I3). fold i0 in I1, I2, I3.
    destruct (curve_seg _ _ HC i0 I1) as [S1 S2].
    destruct (Req_EM_T (cp c (S i0) - cp c i0) 0) as [Z|_]; [exfalso; unfold c in Z; lra|].
    fold se_eq. unfold se at 1. rewrite (trace_tr3 (mtimes _ _)), tr_se, over_zero. unfold iso_new, iso_tan.
    replace (se_eq - cr c i0 - slope c i0 * (p_prev q - cp c i0)) with (se_eq - R0) by (unfold R0; ring).
    destruct (Rlt_dec (se_eq - R0) 0) as [L|L].
    - apply finish_ok. exact HT.
    - destruct (P1 ltac:(lra)) as (P2 & P3 & P4 & P5 & P6). fold i1.
      destruct (i1_props c (m_mu m) (p_prev q) se_eq HC) as (J1 & _ & _). fold i0 in J1. fold i1 in J1. cbv zeta in J1.
      destruct (curve_seg _ _ HC i1 ltac:(apply J1)) as [S3 S4].
      destruct (Req_EM_T (cp c (S i1) - cp c i1) 0) as [Z|_]; [exfalso; unfold c in Z; lra|]. fold dem. fold dp.
      destruct (Req_EM_T (dem * se_eq) 0) as [Z|_]; [exfalso; apply Rmult_integral in Z; unfold dem, c in Z; lra|]. fold n.
      apply finish_ok. cbn [ep_curr]. change (tr3 (madd (ep_prev q) (mscal dp n)) = 0). rewrite tr3_madd, tr3_mscal, HT, P6. ring.
  Qed.

  Lemma iso_return_ok : return_ok iso_drive (on_curve c) m q strain iso_new (hooke m (ee_curr iso_new)).
  Proof.
    destruct iso_facts as (P0 & P1). destruct HQ as [HPl HT].
    pose proof (trial_eq DIM q strain HD HPl) as TE. fold T in TE.
    assert (V : se_eq = vonmises (hooke m T)) by (apply (vm_trial m q strain T); [apply hooke_iso|exact TE]).
    assert (COMMON : isotropic m (madd strain (mscal (-1) (ep_prev q))) (hooke m T)) by (apply (isotropic_ext m T); [exact TE|apply hooke_iso]).
    unfold return_ok. split; [|split; [apply hooke_iso|split; [|split]]].
    - unfold iso_new. destruct (Rlt_dec _ _); intros i j Hi Hj; unfold madd; cbn [ee_curr ep_curr].
      + rewrite (TE i j Hi Hj). unfold madd, mscal. ring.
      + unfold mminus, mplus. rewrite (TE i j Hi Hj). unfold madd, mscal. ring.
    - unfold iso_new. destruct (Rlt_dec _ _) as [L|L]; cbn [ep_curr]; [exact HT|]. destruct (P1 ltac:(lra)) as (_ & _ & _ & _ & P6).
      change (tr3 (madd (ep_prev q) (mscal dp n)) = 0). rewrite tr3_madd, tr3_mscal, HT, P6. ring.
    - unfold iso_new. destruct (Rlt_dec _ _); cbn; auto.
    - exists (hooke m T), R0. split; [exact COMMON|]. split; [apply (R0_on_curve c (m_mu m) (p_prev q) 0 HC)|].
      unfold iso_new. destruct (Rlt_dec (se_eq - R0) 0) as [L|L].
      + left. cbn. unfold iso_drive. rewrite <- V. repeat split; lra.
      + right. destruct (P1 ltac:(lra)) as (P2 & P3 & P4 & P5 & P6). cbn [plastic p_curr ep_curr ee_curr]. unfold iso_drive. rewrite <- V.
        assert (DV : forall i j, (i < 3)%nat -> (j < 3)%nat -> dev3 (hooke m (mminus T (mtimes dp n))) i j = madd se (mscal (- (2 * m_mu m) * dp) n) i j).
        { pose proof (hooke_iso m (mminus T (mtimes dp n))) as I. intros i j Hi Hj. rewrite (dev_isotropic _ _ _ I i j Hi Hj). unfold mscal.
          assert (DD : dev3 (mminus T (mtimes dp n)) i j = dev3 T i j - dp * dev3 n i j).
          { unfold dev3. replace (tr3 (mminus T (mtimes dp n))) with (tr3 T - dp * tr3 n) by (unfold tr3, mminus, mtimes; rewrite !sig3; ring). unfold mminus, mtimes. field. }
          rewrite DD, (dev3_free n P6). unfold madd, se, mtimes. rewrite deviator_dev3. ring. }
        assert (VM : vonmises (hooke m (mminus T (mtimes dp n))) = se_eq - 3 * m_mu m * dp).
        { rewrite vonmises_sq. rewrite (sq3_ext _ (madd se (mscal (- (2 * m_mu m) * dp) n))) by exact DV.
          unfold n, se_eq. rewrite sigmaeq_sq. rewrite corrected; [field| |]; rewrite <- sigmaeq_sq; fold se_eq; [exact P2|lra]. }
        split; [lra|]. split; [reflexivity|]. split; [lra|]. rewrite VM. split; [exact P4|].
        exists n. split; [|split; [exact P6|split]].
        * intros i j _ _. unfold mplus, madd, mtimes, mscal. ring.
        * unfold n, se_eq. rewrite sigmaeq_sq. apply normal_sq. rewrite <- sigmaeq_sq. exact P2.
        * intros i j Hi Hj. rewrite (DV i j Hi Hj). unfold madd, mscal, n, mdivs, mtimes. field. lra.
  Qed.
End Iso.

Section Kin.
  Context (DIM : nat) (m : material) (q : qp) (strain : mtx) (t : bool).
  Hypotheses (HD : DIM = 2%nat \/ DIM = 3%nat) (Hmu : 0 < m_mu m) (HH : 0 <= m_H m) (HK : 0 <= m_K m) (Hy : 0 < m_sy0 m)
             (HQ : qp_wf DIM q) (Hp : 0 <= p_prev q).
  Let T := trial_of DIM q strain.
  Let X := mtimes (m_K m) (ep_prev q).
  Let se := mminus (mtimes (2 * m_mu m) (deviator 3 T)) X.
  Let se_eq := sigmaeq se.
  Let R0 := m_sy0 m + m_H m * p_prev q.
  Let dem := 3 * m_mu m + m_H m + 3 * m_K m / 2.
  Let dp := (se_eq - m_sy0 m - m_H m * p_prev q) / dem.
  Let n := mdivs (mtimes 3 se) (2 * se_eq).
  Definition kin_new : qp :=
    if Rlt_dec (se_eq - m_sy0 m - m_H m * p_prev q) 0 then mkQ (ee_prev q) (ep_prev q) (p_prev q) T (ep_prev q) (p_prev q) false
    else mkQ (ee_prev q) (ep_prev q) (p_prev q) (mminus T (mtimes dp n)) (mplus (ep_prev q) (mtimes dp n)) (p_prev q + dp) true.
  Definition kin_tan : mtx :=
    if Rlt_dec (se_eq - m_sy0 m - m_H m * p_prev q) 0 then elastic_modulus3D m
    else if t then tangent_ep m n dp se_eq dem else elastic_modulus3D m.

  Lemma kin_tr : tr3 X = 0 /\ tr3 se = 0.
  Proof.
    destruct HQ as [_ HT]. assert (tr3 X = 0) by (unfold X; change (tr3 (mscal (m_K m) (ep_prev q)) = 0); rewrite tr3_mscal, HT; ring).
    split; [assumption|]. unfold se. replace (tr3 (mminus (mtimes (2 * m_mu m) (deviator 3 T)) X)) with (tr3 (mtimes (2 * m_mu m) (deviator 3 T)) - tr3 X) by (unfold tr3, mminus; rewrite !sig3; ring).
    rewrite tr_se. lra.
  Qed.
  Lemma kin_facts : 0 < R0 /\ 0 < dem /\ (R0 <= se_eq -> 0 < se_eq /\ 0 <= dp /\ se_eq - (3 * m_mu m + 3 / 2 * m_K m) * dp = m_sy0 m + m_H m * (p_prev q + dp) /\ tr3 n = 0).
  Proof.
    assert (P0 : 0 < R0) by (unfold R0; pose proof (Rmult_le_pos _ _ HH Hp); lra). assert (D0 : 0 < dem) by (unfold dem; lra).
    split; [exact P0|]. split; [exact D0|]. intros L. assert (P1 : 0 < se_eq) by lra. split; [exact P1|]. split; [|split].
    - unfold dp. apply Rmult_le_pos; [unfold R0 in L; lra|]. left. apply Rinv_0_lt_compat, D0.
    - assert (E : dp * dem = se_eq - m_sy0 m - m_H m * p_prev q) by (unfold dp; field; lra). unfold dem in E. lra.
    - unfold n, se_eq. rewrite sigmaeq_sq. apply normal_tr; [apply kin_tr|]. rewrite <- sigmaeq_sq. exact P1.
  Qed.
  Lemma kin_compute : kin_whole3D DIM m q strain t = Ok (Some (kin_new, hooke m (ee_curr kin_new), kin_tan)).
  Proof.
    destruct kin_facts as (P0 & D0 & P1). destruct kin_tr as [T1 T2]. pose proof HQ as [_ HT].
    unfold kin_whole3D. cbv zeta. fold (trial_of DIM q strain). fold T. fold X. fold se. fold se_eq. rewrite !(trace_tr3 X), !(trace_tr3 se), T1, T2, !over_zero.
    unfold kin_new, kin_tan. destruct (Rlt_dec _ _) as [L|L].
    - cbn [ep_curr]. rewrite trace_tr3, HT, over_zero. reflexivity.
    - fold dem. fold dp. fold n. destruct (P1 ltac:(unfold R0; lra)) as (P2 & P3 & P4 & P5).
      destruct (Req_EM_T (dem * se_eq) 0) as [Z|_]; [exfalso; apply Rmult_integral in Z; lra|].
      cbn [ep_curr]. rewrite trace_tr3. replace (tr3 (mplus (ep_prev q) (mtimes dp n))) with 0; [rewrite over_zero; reflexivity|].
      symmetry. change (tr3 (madd (ep_prev q) (mscal dp n)) = 0). rewrite tr3_madd, tr3_mscal, HT, P5. ring.
  Qed.
  Lemma kin_return_ok : return_ok (kin_drive (m_K m)) (fun p r => r = m_sy0 m + m_H m * p) m q strain kin_new (hooke m (ee_curr kin_new)).
  Proof.
    destruct kin_facts as (P0 & D0 & P1). destruct kin_tr as [T1 T2]. pose proof HQ as [HPl HT].
    pose proof (trial_eq DIM q strain HD HPl) as TE. fold T in TE.
    assert (KD : forall S ep e, isotropic m e S -> tr3 ep = 0 -> meq 3 (dev3 (kin_drive (m_K m) S ep)) (madd (mscal (2 * m_mu m) (dev3 e)) (mscal (- m_K m) ep))).
    { intros S ep e I Z i j Hi Hj. unfold kin_drive. rewrite dev3_lin, (dev_isotropic _ _ _ I i j Hi Hj), (dev3_free _ Z). unfold madd, mscal. ring. }
    assert (KQ : forall S ep e, isotropic m e S -> tr3 ep = 0 -> vonmises (kin_drive (m_K m) S ep) = sqrt (3 / 2 * sq3 (madd (mscal (2 * m_mu m) (dev3 e)) (mscal (- m_K m) ep)))).
    { intros S ep e I Z. rewrite vonmises_sq. f_equal. f_equal. apply sq3_ext. exact (KD S ep e I Z). }
    assert (V : se_eq = vonmises (kin_drive (m_K m) (hooke m T) (ep_prev q))).
    { rewrite (KQ _ _ T (hooke_iso m T) HT). unfold se_eq. rewrite sigmaeq_sq. f_equal. f_equal. apply sq3_ext. intros i j _ _.
      unfold se, X, mminus, mtimes, madd, mscal. rewrite deviator_dev3. ring. }
    assert (COMMON : isotropic m (madd strain (mscal (-1) (ep_prev q))) (hooke m T)) by (apply (isotropic_ext m T); [exact TE|apply hooke_iso]).
    unfold return_ok. split; [|split; [apply hooke_iso|split; [|split]]].
    - unfold kin_new. destruct (Rlt_dec _ _); intros i j Hi Hj; unfold madd; cbn [ee_curr ep_curr].
      + rewrite (TE i j Hi Hj). unfold madd, mscal. ring.
      + unfold mminus, mplus. rewrite (TE i j Hi Hj). unfold madd, mscal. ring.
    - unfold kin_new. destruct (Rlt_dec _ _) as [L|L]; cbn [ep_curr]; [exact HT|]. destruct (P1 ltac:(unfold R0; lra)) as (_ & _ & _ & P6).
      change (tr3 (madd (ep_prev q) (mscal dp n)) = 0). rewrite tr3_madd, tr3_mscal, HT, P6. ring.
    - unfold kin_new. destruct (Rlt_dec _ _); cbn; auto.
    - exists (hooke m T), R0. split; [exact COMMON|]. split; [reflexivity|].
      unfold kin_new. destruct (Rlt_dec _ 0) as [L|L].
      + left. cbn. rewrite <- V. unfold R0. repeat split; lra.
      + right. destruct (P1 ltac:(unfold R0; lra)) as (P2 & P3 & P4 & P6). cbn [plastic p_curr ep_curr ee_curr]. rewrite <- V.
        assert (Z : tr3 (mplus (ep_prev q) (mtimes dp n)) = 0) by (change (tr3 (madd (ep_prev q) (mscal dp n)) = 0); rewrite tr3_madd, tr3_mscal, HT, P6; ring).
        assert (DV : forall i j, (i < 3)%nat -> (j < 3)%nat ->
          madd (mscal (2 * m_mu m) (dev3 (mminus T (mtimes dp n)))) (mscal (- m_K m) (mplus (ep_prev q) (mtimes dp n))) i j = madd se (mscal (- (2 * m_mu m + m_K m) * dp) n) i j).
        { intros i j Hi Hj.
          assert (DD : dev3 (mminus T (mtimes dp n)) i j = dev3 T i j - dp * dev3 n i j).
          { unfold dev3. replace (tr3 (mminus T (mtimes dp n))) with (tr3 T - dp * tr3 n) by (unfold tr3, mminus, mtimes; rewrite !sig3; ring). unfold mminus, mtimes. field. }
          unfold madd, mscal. rewrite DD, (dev3_free n P6). unfold se, X, mminus, mplus, mtimes. rewrite deviator_dev3. ring. }
        assert (VM : vonmises (kin_drive (m_K m) (hooke m (mminus T (mtimes dp n))) (mplus (ep_prev q) (mtimes dp n))) = se_eq - (3 * m_mu m + 3 / 2 * m_K m) * dp).
        { rewrite (KQ _ _ _ (hooke_iso m (mminus T (mtimes dp n))) Z). rewrite (sq3_ext _ (madd se (mscal (- (2 * m_mu m + m_K m) * dp) n))) by exact DV.
          unfold n, se_eq. rewrite sigmaeq_sq. rewrite corrected; [field| |]; rewrite <- sigmaeq_sq; fold se_eq; [exact P2|].
          replace (se_eq - 3 / 2 * (2 * m_mu m + m_K m) * dp) with (se_eq - (3 * m_mu m + 3 / 2 * m_K m) * dp) by field. rewrite P4.
          apply Rplus_le_le_0_compat; [lra|]. apply Rmult_le_pos; lra. }
        split; [unfold R0; lra|]. split; [reflexivity|]. split; [lra|]. rewrite VM. split; [exact P4|].
        exists n. split; [|split; [exact P6|split]].
        * intros i j _ _. unfold mplus, madd, mtimes, mscal. ring.
        * unfold n, se_eq. rewrite sigmaeq_sq. apply normal_sq. rewrite <- sigmaeq_sq. exact P2.
        * intros i j Hi Hj. rewrite (KD _ _ _ (hooke_iso m (mminus T (mtimes dp n))) Z i j Hi Hj), (DV i j Hi Hj). unfold madd, mscal, n, mdivs, mtimes. field. lra.
  Qed.
End Kin.
