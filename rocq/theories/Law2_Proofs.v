(** Derivatives of the stresses. *)
From Coq Require Import List Arith Bool Reals Lra Lia.
From Verif Require Import Common Tensor_Model Tensor_Spec Tensor_Proofs Tensor_Properties Law_Model Law_Spec Law_Proofs.
Import ListNotations.
Local Open Scope R_scope.

(** ** Derivatives of expressions in one variable *)
Notation dlim := derivable_pt_lim.
Lemma d_ext f g x l : (forall t, f t = g t) -> dlim f x l -> dlim g x l.
Proof. intros H D eps He. destruct (D eps He) as [d Hd]. exists d. intros h h0 h1. rewrite <- !H. apply Hd; assumption. Qed.
(** functions that agree near x *)
Lemma d_local f g x l d : 0 < d -> (forall t, Rabs (t - x) < d -> f t = g t) -> dlim f x l -> dlim g x l.
Proof.
  intros Hd H D eps He. destruct (D eps He) as [d' Hd']. assert (P : 0 < Rmin d d') by (apply Rmin_pos; [lra|apply cond_pos]).
  exists (mkposreal _ P). intros h h0 h1. cbn in h1. rewrite <- !H.
  - apply Hd'; [exact h0|]. apply Rlt_le_trans with (1 := h1). apply Rmin_r.
  - rewrite Rminus_diag_eq, Rabs_R0 by reflexivity. exact Hd.
  - replace (x + h - x) with h by ring. apply Rlt_le_trans with (1 := h1). apply Rmin_l.
Qed.
Lemma d_eq f x l l' : l = l' -> dlim f x l -> dlim f x l'.
Proof. intros <-. auto. Qed.
Lemma d_const c x : dlim (fun _ => c) x 0.
Proof. apply derivable_pt_lim_const. Qed.
Lemma d_id x : dlim (fun t => t) x 1.
Proof. apply derivable_pt_lim_id. Qed.
Lemma d_plus f g x a b : dlim f x a -> dlim g x b -> dlim (fun t => f t + g t) x (a + b).
Proof. apply derivable_pt_lim_plus. Qed.
Lemma d_minus f g x a b : dlim f x a -> dlim g x b -> dlim (fun t => f t - g t) x (a - b).
Proof. apply derivable_pt_lim_minus. Qed.
Lemma d_opp f x a : dlim f x a -> dlim (fun t => - f t) x (- a).
Proof. apply derivable_pt_lim_opp. Qed.
Lemma d_mult f g x a b : dlim f x a -> dlim g x b -> dlim (fun t => f t * g t) x (a * g x + f x * b).
Proof. apply derivable_pt_lim_mult. Qed.
Lemma d_div f g x a b : dlim f x a -> dlim g x b -> g x <> 0 -> dlim (fun t => f t / g t) x ((a * g x - b * f x) / Rsqr (g x)).
Proof. apply derivable_pt_lim_div. Qed.
Lemma d_comp f g x a b : dlim f x a -> dlim g (f x) b -> dlim (fun t => g (f t)) x (b * a).
Proof. apply derivable_pt_lim_comp. Qed.
Lemma d_aff a b x : dlim (fun t => a + t * b) x b.
Proof. eapply d_eq; [|apply d_plus; [apply d_const|apply d_mult; [apply d_id|apply d_const]]]. cbv beta. ring. Qed.
Lemma d_cont f x l : dlim f x l -> continuity_pt f x.
Proof. intros H. apply derivable_continuous_pt. exists l. exact H. Qed.
(** a continuous function keeps the sign it has *)
Lemma cont_lt f x b : continuity_pt f x -> f x < b -> exists d, 0 < d /\ forall t, Rabs (t - x) < d -> f t < b.
Proof.
  intros C H. destruct (C (b - f x)) as (d & Hd & K); [lra|]. exists d. split; [exact Hd|]. intros t Ht.
  destruct (Req_dec t x) as [->|N]; [exact H|].
  assert (R_dist (f t) (f x) < b - f x) as Q by (apply K; split; [split; [exact I|auto]|exact Ht]).
  unfold R_dist in Q. apply Rabs_def2 in Q. lra.
Qed.
Lemma cont_gt f x b : continuity_pt f x -> b < f x -> exists d, 0 < d /\ forall t, Rabs (t - x) < d -> b < f t.
Proof.
  intros C H. destruct (cont_lt (- f)%F x (- b)) as (d & Hd & K); [apply continuity_pt_opp, C|unfold opp_fct; lra|].
  exists d. split; [exact Hd|]. intros t Ht. specialize (K t Ht). unfold opp_fct in K. lra.
Qed.

(** ** Small strain laws *)
Definition in3 (A B : mtx) : R := sig 3 (fun i => sig 3 (fun j => A i j * B i j)).
Lemma tcoef_eq T f : is_tensor 3 T f -> forall i j k l, (i < 3)%nat -> (j < 3)%nat -> (k < 3)%nat -> (l < 3)%nat -> tcoef T i j k l = f i j k l.
Proof. intros H i j k l Hi Hj Hk Hl. unfold tcoef. rewrite H by assumption. reflexivity. Qed.

Lemma is4_tensor : is_tensor 3 is4 (fun i j k l => (delta i k * delta j l + delta i l * delta j k) / 2).
Proof. destruct (C36_identities 3 mzero ltac:(lia)) as (I4 & IS & E1 & E2 & T1 & T2 & _). unfold is4. rewrite E2. exact T2. Qed.
Lemma id4_tensor : is_tensor 3 id4 (fun i j k l => delta i k * delta j l).
Proof. destruct (C36_identities 3 mzero ltac:(lia)) as (I4 & IS & E1 & E2 & T1 & T2 & _). unfold id4. rewrite E1. exact T1. Qed.
Lemma tcoef_rd T i j k l : (i < 3)%nat -> (j < 3)%nat -> (k < 3)%nat -> (l < 3)%nat -> tcoef T i j k l = rd 3 T i j k l.
Proof.
  intros Hi Hj Hk Hl. unfold tcoef, coeff, bad.
  destruct (Nat.leb_spec 3 i), (Nat.leb_spec 3 j), (Nat.leb_spec 3 k), (Nat.leb_spec 3 l); try lia. reflexivity.
Qed.
Lemma tapply_rd T H i j : (i < 3)%nat -> (j < 3)%nat -> tapply T H i j = sig 3 (fun k => sig 3 (fun l => rd 3 T i j k l * H k l)).
Proof. intros Hi Hj. unfold tapply. apply sig_ext. intros k Hk. apply sig_ext. intros l Hl. rewrite tcoef_rd by assumption. reflexivity. Qed.
(** tapply is linear in the tensor *)
Lemma tapply_plus S T H i j : (i < 3)%nat -> (j < 3)%nat -> tapply (mplus S T) H i j = tapply S H i j + tapply T H i j.
Proof. intros Hi Hj. rewrite !tapply_rd by assumption. unfold rd, mplus. cbn [sig]. ring. Qed.
Lemma tapply_minus S T H i j : (i < 3)%nat -> (j < 3)%nat -> tapply (mminus S T) H i j = tapply S H i j - tapply T H i j.
Proof. intros Hi Hj. rewrite !tapply_rd by assumption. unfold rd, mminus. cbn [sig]. ring. Qed.
Lemma tapply_times c T H i j : (i < 3)%nat -> (j < 3)%nat -> tapply (mtimes c T) H i j = c * tapply T H i j.
Proof. intros Hi Hj. rewrite !tapply_rd by assumption. unfold rd, mtimes. cbn [sig]. ring. Qed.
Lemma tapply_divs c T H i j : (i < 3)%nat -> (j < 3)%nat -> tapply (mdivs T c) H i j = tapply T H i j / c.
Proof. intros Hi Hj. rewrite !tapply_rd by assumption. unfold rd, mdivs, Rdiv. cbn [sig]. ring. Qed.
Lemma tapply_tensor T f H i j : is_tensor 3 T f -> (i < 3)%nat -> (j < 3)%nat -> tapply T H i j = sig 3 (fun k => sig 3 (fun l => f i j k l * H k l)).
Proof. intros HT Hi Hj. unfold tapply. apply sig_ext. intros k Hk. apply sig_ext. intros l Hl. rewrite (tcoef_eq _ _ HT) by assumption. reflexivity. Qed.
Lemma tapply_kron A B H i j : (i < 3)%nat -> (j < 3)%nat -> tapply (Kronecker 3 A B) H i j = A i j * in3 B H.
Proof.
  intros Hi Hj. destruct (C36_products 3 A B) as (K & _). rewrite (tapply_tensor _ _ H i j K Hi Hj). unfold in3. cbn [sig]. ring.
Qed.
Lemma tapply_inf A B H i j : (i < 3)%nat -> (j < 3)%nat -> tapply (ProductInf 3 A B) H i j = sig 3 (fun k => sig 3 (fun l => A i l * B j k * H k l)).
Proof. intros Hi Hj. destruct (C36_products 3 A B) as (_ & _ & K & _). apply (tapply_tensor _ _ H i j K Hi Hj). Qed.
Lemma tapply_IxI H i j : (i < 3)%nat -> (j < 3)%nat -> tapply IxI H i j = tr3 H * delta i j.
Proof.
  intros Hi Hj. destruct (C36_products 3 mzero mzero) as (_ & _ & _ & _ & K). rewrite (tapply_tensor _ _ H i j K Hi Hj).
  unfold tr3. cbn [sig]. unfold delta. cbn [Nat.eqb]. ring.
Qed.
Lemma tapply_id4 H i j : (i < 3)%nat -> (j < 3)%nat -> tapply id4 H i j = H i j.
Proof.
  intros Hi Hj. rewrite (tapply_tensor _ _ H i j id4_tensor Hi Hj).
  destruct i as [|[|[|]]], j as [|[|[|]]]; try lia; unfold delta; cbn [sig Nat.eqb]; ring.
Qed.
Lemma tapply_is4 H i j : (i < 3)%nat -> (j < 3)%nat -> tapply is4 H i j = (H i j + H j i) / 2.
Proof.
  intros Hi Hj. rewrite (tapply_tensor _ _ H i j is4_tensor Hi Hj).
  destruct i as [|[|[|]]], j as [|[|[|]]]; try lia; unfold delta; cbn [sig Nat.eqb]; field.
Qed.
Lemma tapply_elastic m H i j : sym3 H -> (i < 3)%nat -> (j < 3)%nat -> tapply (elastic_modulus3D m) H i j = 2 * m_mu m * H i j + m_lambda m * tr3 H * delta i j.
Proof.
  intros HS Hi Hj. unfold elastic_modulus3D. rewrite tapply_plus, !tapply_times, tapply_is4, tapply_IxI by assumption. rewrite (HS j i). field.
Qed.
Lemma tapply_tangent m n dp se dem H i j : sym3 H -> (i < 3)%nat -> (j < 3)%nat -> se <> 0 -> dem <> 0 ->
  tapply (tangent_ep m n dp se dem) H i j =
  2 * m_mu m * H i j + m_lambda m * tr3 H * delta i j + 4 * (m_mu m * m_mu m) * (dp / se - 1 / dem) * (n i j * in3 n H) - 6 * (m_mu m * m_mu m) * dp / se * dev3 H i j.
Proof.
  intros HS Hi Hj N1 N2. unfold tangent_ep. rewrite tapply_minus, tapply_plus, !tapply_times, tapply_kron, tapply_minus, tapply_divs, tapply_is4, tapply_IxI, tapply_elastic by assumption.
  rewrite (HS j i). unfold dev3. field. split; assumption.
Qed.

(** the norm of s + t D *)
Section Norm.
  Context (s D : mtx).
  Definition eqn (t : R) : R := sqrt (3 / 2 * sq3 (madd s (mscal t D))).
  Lemma eqn_poly t : 3 / 2 * sq3 (madd s (mscal t D)) = 3 / 2 * sq3 s + t * (3 * in3 s D) + t * t * (3 / 2 * sq3 D).
  Proof. unfold sq3, in3, madd, mscal. cbn [sig]. field. Qed.
  Lemma eqn_cont : continuity_pt eqn 0.
  Proof.
    apply (continuity_pt_comp (fun t => 3 / 2 * sq3 (madd s (mscal t D))) sqrt).
    - apply d_cont with (3 * in3 s D). eapply d_ext; [intros t; symmetry; apply eqn_poly|].
      eapply d_eq; [|apply d_plus; [apply d_aff|apply d_mult; [apply d_mult; apply d_id|apply d_const]]]. cbv beta. ring.
    - apply continuity_pt_sqrt. pose proof (sq3_pos (madd s (mscal 0 D))). lra.
  Qed.
  Lemma eqn_0 : eqn 0 = sqrt (3 / 2 * sq3 s).
  Proof. unfold eqn. rewrite eqn_poly. f_equal. ring. Qed.
  Lemma eqn_d : 0 < eqn 0 -> dlim eqn 0 (3 / 2 * in3 s D / eqn 0).
  Proof.
    intros P. assert (P' : 0 < 3 / 2 * sq3 s).
    { rewrite eqn_0 in P. apply Rnot_le_lt. intros N. rewrite (sqrt_neg_0 _ N) in P. lra. }
    apply (d_ext (fun t => sqrt (3 / 2 * sq3 s + t * (3 * in3 s D) + t * t * (3 / 2 * sq3 D)))); [intros t; unfold eqn; rewrite eqn_poly; reflexivity|].
    eapply d_eq; [|apply (d_comp (fun t => 3 / 2 * sq3 s + t * (3 * in3 s D) + t * t * (3 / 2 * sq3 D)) sqrt); [apply d_plus; [apply d_aff|apply d_mult; [apply d_mult; apply d_id|apply d_const]]|apply derivable_pt_lim_sqrt]].
    - cbv beta. rewrite eqn_0. replace (3 / 2 * sq3 s + 0 * (3 * in3 s D) + 0 * 0 * (3 / 2 * sq3 D)) with (3 / 2 * sq3 s) by ring. field. apply Rgt_not_eq. apply sqrt_lt_R0, P'.
    - lra.
  Qed.
End Norm.

(** stress after a plastic correction of the trial strain T + t H, with the deviatoric direction
    s + t 2 mu dev H *)
Section Corrected.
  Context (m : material) (T H s : mtx) (a dem : R).
  Hypotheses (HS : sym3 H) (Hs : tr3 s = 0) (Hd : dem <> 0).
  Let D := mscal (2 * m_mu m) (dev3 H).
  Let phi := eqn s D.
  Hypothesis (Hphi : 0 < phi 0).
  Let n := mdivs (mtimes 3 s) (2 * phi 0).
  Let dp := (phi 0 - a) / dem.
  Lemma in3_dev : in3 s D = 2 * m_mu m * in3 s H.
  Proof.
    unfold D, in3, mscal, dev3. unfold tr3 in Hs. rewrite sig3 in Hs. cbn [sig]. unfold delta. cbn [Nat.eqb].
    replace (s 2%nat 2%nat) with (- s 0%nat 0%nat - s 1%nat 1%nat) by lra. unfold tr3. cbn [sig]. field.
  Qed.
  Lemma corrected_d i j : (i < 3)%nat -> (j < 3)%nat ->
    dlim (fun t => 2 * m_mu m * (T i j + t * H i j) + m_lambda m * (tr3 T + t * tr3 H) * delta i j - 2 * m_mu m * ((phi t - a) / dem * (3 / (2 * phi t)) * (s i j + t * D i j))) 0
      (tapply (tangent_ep m n dp (phi 0) dem) H i j).
  Proof.
    intros Hi Hj. pose proof (eqn_d s D Hphi) as DP. fold phi in DP. set (k := 3 / 2 * in3 s D / phi 0) in DP.
    assert (A1 : dlim (fun t => (phi t - a) / dem) 0 (k / dem)).
    { apply (d_ext (fun t => phi t * / dem - a * / dem)); [intros t; field; assumption|]. eapply d_eq; [|apply d_minus; [apply d_mult; [exact DP|apply d_const]|apply d_const]]. cbv beta. field. assumption. }
    assert (A2 : dlim (fun t => 3 / (2 * phi t)) 0 (- 3 * k / (2 * phi 0 * phi 0))).
    { eapply d_eq; [|apply d_div; [apply d_const|apply d_mult; [apply d_const|exact DP]|lra]]. unfold Rsqr. field. lra. }
    eapply d_eq; [|apply d_minus; [apply d_plus; [apply d_mult; [apply d_const|apply d_aff]|apply d_mult; [apply d_mult; [apply d_const|apply d_aff]|apply d_const]]|apply d_mult; [apply d_const|apply d_mult; [apply d_mult; [exact A1|exact A2]|apply d_aff]]]].
    cbv beta. rewrite tapply_tangent by (auto; lra). unfold k. rewrite in3_dev. unfold dp.
    replace (in3 n H) with (3 / (2 * phi 0) * in3 s H) by (unfold n, in3, mdivs, mtimes, Rdiv; cbn [sig]; ring).
    unfold n at 1, mdivs, mtimes. unfold D, mscal. field. lra.
  Qed.
End Corrected.

(** the segment found for a nearby equivalent stress is the same *)
Lemma gap_mono c mu p se : curve_ok mu c -> forall j i, (i <= j)%nat -> (j < length c)%nat -> gap c mu p se i <= gap c mu p se j.
Proof.
  intros H. induction j as [|j IH]; intros i Hi Hj; [assert (i = 0)%nat by lia; subst; lra|].
  destruct (Nat.eq_dec i (S j)) as [->|]; [lra|]. pose proof (IH i ltac:(lia) ltac:(lia)). enough (gap c mu p se j <= gap c mu p se (S j)) by lra.
  destruct (curve_seg _ _ H j ltac:(lia)) as [L P]. unfold gap.
  assert (E : cr c (S j) - cr c j = slope c j * (cp c (S j) - cp c j)) by (unfold slope; field; lra).
  assert (0 < (3 * mu + slope c j) * (cp c (S j) - cp c j)) by (apply Rmult_lt_0_compat; lra). lra.
Qed.
Lemma find_i1_unique c mu p se i0 i : curve_ok mu c -> (i0 <= length c - 2)%nat ->
  (i0 <= i <= length c - 2)%nat -> (i = i0 \/ gap c mu p se i <= 0) -> (S (S i) = length c \/ 0 < gap c mu p se (S i)) ->
  find_i1 c mu p se (length c - 2 - i0) (S i0) = i.
Proof.
  intros HC H0 Hi A B. pose proof (proj1 HC) as HL.
  destruct (find_i1_spec c mu p se i0 HL H0 (length c - 2 - i0) (S i0) ltac:(lia) ltac:(lia) ltac:(intros; lia)) as (C & D & E).
  set (i1 := find_i1 c mu p se (length c - 2 - i0) (S i0)) in *. cbv zeta in C, D, E.
  destruct (Nat.lt_trichotomy i1 i) as [L|[L|L]]; [|exact L|].
  - destruct E as [E|E]; [lia|]. destruct A as [A|A]; [lia|]. pose proof (gap_mono c mu p se HC i (S i1) ltac:(lia) ltac:(lia)). lra.
  - destruct B as [B|B]; [lia|]. pose proof (D (S i) ltac:(lia)). lra.
Qed.

(** the strain increment enters the trial state linearly *)
Lemma trial_lin DIM q strain H t i j : trial_of DIM q (madd strain (mscal t H)) i j = trial_of DIM q strain i j + t * H i j.
Proof. unfold trial_of, mplus, mminus, madd, mscal. ring. Qed.
Lemma tr3_trial DIM q strain H t : tr3 (trial_of DIM q (madd strain (mscal t H))) = tr3 (trial_of DIM q strain) + t * tr3 H.
Proof. unfold tr3. rewrite !sig3, !trial_lin. ring. Qed.
Lemma dev_trial DIM q strain H t i j : dev3 (trial_of DIM q (madd strain (mscal t H))) i j = dev3 (trial_of DIM q strain) i j + t * dev3 H i j.
Proof. unfold dev3. rewrite tr3_trial, trial_lin. field. Qed.
Lemma hooke_elastic_d m DIM q strain H i j : sym3 H -> (i < 3)%nat -> (j < 3)%nat ->
  dlim (fun t => hooke m (trial_of DIM q (madd strain (mscal t H))) i j) 0 (tapply (elastic_modulus3D m) H i j).
Proof.
  intros HS Hi Hj. rewrite tapply_elastic by assumption.
  apply (d_ext (fun t => 2 * m_mu m * (trial_of DIM q strain i j + t * H i j) + m_lambda m * (tr3 (trial_of DIM q strain) + t * tr3 H) * delta i j)).
  - intros t. rewrite (hooke_iso m _ i j Hi Hj), trial_lin, tr3_trial. reflexivity.
  - eapply d_eq; [|apply d_plus; [apply d_mult; [apply d_const|apply d_aff]|apply d_mult; [apply d_mult; [apply d_const|apply d_aff]|apply d_const]]]. cbv beta. ring.
Qed.
Lemma hooke_corrected m T n dp i j : tr3 n = 0 -> (i < 3)%nat -> (j < 3)%nat ->
  hooke m (mminus T (mtimes dp n)) i j = 2 * m_mu m * T i j + m_lambda m * tr3 T * delta i j - 2 * m_mu m * (dp * n i j).
Proof.
  intros HT Hi Hj. rewrite (hooke_iso m _ i j Hi Hj). replace (tr3 (mminus T (mtimes dp n))) with (tr3 T - dp * tr3 n) by (unfold tr3, mminus, mtimes; rewrite !sig3; ring).
  rewrite HT. unfold mminus, mtimes. ring.
Qed.
Lemma min3 a b c : 0 < a -> 0 < b -> 0 < c -> exists d, 0 < d /\ d <= a /\ d <= b /\ d <= c.
Proof.
  intros A B C. exists (Rmin a (Rmin b c)). split; [repeat apply Rmin_pos; assumption|]. split; [apply Rmin_l|]. split.
  - apply Rle_trans with (1 := Rmin_r _ _). apply Rmin_l.
  - apply Rle_trans with (1 := Rmin_r _ _). apply Rmin_r.
Qed.

Section IsoTangent.
  Context (DIM : nat) (m : material) (q : qp) (strain H : mtx).
  Hypotheses (HD : DIM = 2%nat \/ DIM = 3%nat) (Hmu : 0 < m_mu m) (HC : curve_ok (m_mu m) (m_curve m)) (HQ : qp_wf DIM q)
             (HP : forall p r, p_prev q <= p -> on_curve (m_curve m) p r -> 0 < r) (HS : sym3 H).
  Let c := m_curve m.
  Let T := trial_of DIM q strain.
  Let se := mtimes (2 * m_mu m) (deviator 3 T).
  Let D := mscal (2 * m_mu m) (dev3 H).
  Let phi := eqn se D.
  Let i0 := find_i0 c (p_prev q) (length c - 1) 0.
  Let R0 := cr c i0 + slope c i0 * (p_prev q - cp c i0).
  Let i1 := find_i1 c (m_mu m) (p_prev q) (phi 0) (length c - 2 - i0) (S i0).
  Let dem := 3 * m_mu m + slope c i1.
  Let a := cr c i1 + slope c i1 * (p_prev q - cp c i1).
  Lemma se_t t : sigmaeq (mtimes (2 * m_mu m) (deviator 3 (trial_of DIM q (madd strain (mscal t H))))) = phi t.
  Proof.
    rewrite sigmaeq_sq. unfold phi, eqn. f_equal. f_equal. apply sq3_ext. intros i j _ _. unfold mtimes at 1. rewrite deviator_dev3, dev_trial.
    unfold madd, mscal, se, D, mtimes, mscal. rewrite deviator_dev3. unfold T. ring.
  Qed.
  Lemma se_0 : sigmaeq se = phi 0.
  Proof. rewrite sigmaeq_sq. unfold phi. rewrite eqn_0. reflexivity. Qed.
  Definition iso_stress (t : R) : mtx := hooke m (ee_curr (iso_new DIM m q (madd strain (mscal t H)))).

  Lemma iso_d_elastic : phi 0 < R0 -> forall i j, (i < 3)%nat -> (j < 3)%nat -> dlim (fun t => iso_stress t i j) 0 (tapply (elastic_modulus3D m) H i j).
  Proof.
    intros L i j Hi Hj. destruct (cont_lt phi 0 R0 (eqn_cont se D) L) as (d & Hd & K).
    apply (d_local (fun t => hooke m (trial_of DIM q (madd strain (mscal t H))) i j) _ 0 _ d Hd); [|apply hooke_elastic_d; assumption].
    intros t Ht. unfold iso_stress, iso_new. rewrite se_t. fold c. fold i0. fold R0. specialize (K t Ht). destruct (Rlt_dec (phi t - R0) 0) as [_|N]; [reflexivity|lra].
  Qed.

  Lemma iso_d_plastic : R0 < phi 0 -> (i1 = i0 \/ gap c (m_mu m) (p_prev q) (phi 0) i1 < 0) -> forall i j, (i < 3)%nat -> (j < 3)%nat ->
    dlim (fun t => iso_stress t i j) 0 (tapply (iso_tan DIM m q strain true) H i j).
  Proof.
    intros L G i j Hi Hj.
    destruct (iso_facts DIM m q strain HC HP) as (P0 & _). fold c in P0. fold i0 in P0. fold R0 in P0. assert (PP : 0 < phi 0) by lra.
    destruct (i0_props c (m_mu m) (p_prev q) 0 HC) as (I1 & _ & _). fold i0 in I1.
    destruct (i1_props c (m_mu m) (p_prev q) (phi 0) HC) as (J1 & J2 & J3). fold i0 in J1, J2, J3. fold i1 in J1, J2, J3.
    destruct (curve_seg _ _ HC i1 ltac:(apply J1)) as [S3 S4]. change (0 < dem) in S4.
    assert (E1 : exists d1, 0 < d1 /\ forall t, Rabs (t - 0) < d1 -> R0 < phi t) by (apply cont_gt; [apply eqn_cont|exact L]).
    assert (E2 : exists d2, 0 < d2 /\ forall t, Rabs (t - 0) < d2 -> i1 = i0 \/ gap c (m_mu m) (p_prev q) (phi t) i1 <= 0).
    { destruct G as [G|G]; [exists 1; split; [lra|auto]|].
      destruct (cont_gt phi 0 (cr c i1 - 3 * m_mu m * (p_prev q - cp c i1)) (eqn_cont se D)) as (d & Hd & K); [unfold gap in G; lra|].
      exists d. split; [exact Hd|]. intros t Ht. right. unfold gap. specialize (K t Ht). lra. }
    assert (E3 : exists d3, 0 < d3 /\ forall t, Rabs (t - 0) < d3 -> S (S i1) = length c \/ 0 < gap c (m_mu m) (p_prev q) (phi t) (S i1)).
    { destruct J3 as [J3|J3]; [exists 1; split; [lra|auto]|].
      destruct (cont_lt phi 0 (cr c (S i1) - 3 * m_mu m * (p_prev q - cp c (S i1))) (eqn_cont se D)) as (d & Hd & K); [unfold gap in J3; lra|].
      exists d. split; [exact Hd|]. intros t Ht. right. unfold gap. specialize (K t Ht). lra. }
    destruct E1 as (d1 & H1 & K1), E2 as (d2 & H2 & K2), E3 as (d3 & H3 & K3).
    destruct (min3 d1 d2 d3 H1 H2 H3) as (d & Hd & M1 & M2 & M3).
    assert (TS : tr3 se = 0) by apply tr_se.
    assert (FI : forall t, Rabs (t - 0) < d -> find_i1 c (m_mu m) (p_prev q) (phi t) (length c - 2 - i0) (S i0) = i1).
    { intros t Ht. apply find_i1_unique; auto; [apply K2; lra|apply K3; lra]. }
    assert (Z0 : Rabs (0 - 0) < d) by (rewrite Rminus_0_r, Rabs_R0; exact Hd).
    unfold iso_tan. fold c. fold i0. fold R0. fold T. fold se. rewrite se_0. rewrite (FI 0 Z0). destruct (Rlt_dec (phi 0 - R0) 0) as [N|_]; [lra|].
    fold dem.
    replace (phi 0 - cr c i1 - slope c i1 * (p_prev q - cp c i1)) with (phi 0 - a) by (unfold a; ring).
    eapply d_local; [exact Hd| |apply (corrected_d m T H se a dem HS TS ltac:(lra) PP i j Hi Hj)].
    intros t Ht. unfold iso_stress, iso_new. rewrite se_t. fold c. fold i0. fold R0. rewrite (FI t Ht). pose proof (K1 t ltac:(lra)) as K1'.
    destruct (Rlt_dec (phi t - R0) 0) as [N|_]; [lra|]. cbn [ee_curr]. fold dem.
    set (T' := trial_of DIM q (madd strain (mscal t H))).
    rewrite hooke_corrected; [|unfold mdivs, mtimes|exact Hi|exact Hj].
    - unfold T'. rewrite trial_lin, tr3_trial. fold T. unfold mdivs, mtimes at 1. fold D. fold phi.
      replace (phi t - cr c i1 - slope c i1 * (p_prev q - cp c i1)) with (phi t - a) by (unfold a; ring).
      unfold mtimes. rewrite deviator_dev3, dev_trial. fold T. unfold se, D, mtimes, mscal. rewrite deviator_dev3. field. lra.
    - rewrite <- (se_t t). change (tr3 (mdivs (mtimes 3 (mtimes (2 * m_mu m) (deviator 3 T'))) (2 * sigmaeq (mtimes (2 * m_mu m) (deviator 3 T')))) = 0).
      rewrite sigmaeq_sq. apply normal_tr; [apply tr_se|]. rewrite <- sigmaeq_sq. unfold T'. rewrite se_t. lra.
  Qed.
End IsoTangent.

Section KinTangent.
  Context (DIM : nat) (m : material) (q : qp) (strain H : mtx).
  Hypotheses (HD : DIM = 2%nat \/ DIM = 3%nat) (Hmu : 0 < m_mu m) (HH : 0 <= m_H m) (HK : 0 <= m_K m) (Hy : 0 < m_sy0 m)
             (HQ : qp_wf DIM q) (Hp : 0 <= p_prev q) (HS : sym3 H).
  Let T := trial_of DIM q strain.
  Let X := mtimes (m_K m) (ep_prev q).
  Let se := mminus (mtimes (2 * m_mu m) (deviator 3 T)) X.
  Let D := mscal (2 * m_mu m) (dev3 H).
  Let phi := eqn se D.
  Let a := m_sy0 m + m_H m * p_prev q.
  Let dem := 3 * m_mu m + m_H m + 3 * m_K m / 2.
  Lemma kse_t t : sigmaeq (mminus (mtimes (2 * m_mu m) (deviator 3 (trial_of DIM q (madd strain (mscal t H))))) X) = phi t.
  Proof.
    rewrite sigmaeq_sq. unfold phi, eqn. f_equal. f_equal. apply sq3_ext. intros i j _ _. unfold mminus at 1, mtimes at 1. rewrite deviator_dev3, dev_trial.
    unfold madd, mscal, se, D, mminus, mtimes, mscal. rewrite deviator_dev3. unfold T, X, mtimes. ring.
  Qed.
  Lemma kse_0 : sigmaeq se = phi 0.
  Proof. rewrite sigmaeq_sq. unfold phi. rewrite eqn_0. reflexivity. Qed.
  Definition kin_stress (t : R) : mtx := hooke m (ee_curr (kin_new DIM m q (madd strain (mscal t H)))).

  Lemma kin_d_elastic : phi 0 < a -> forall i j, (i < 3)%nat -> (j < 3)%nat -> dlim (fun t => kin_stress t i j) 0 (tapply (elastic_modulus3D m) H i j).
  Proof.
    intros L i j Hi Hj. destruct (cont_lt phi 0 a (eqn_cont se D) L) as (d & Hd & K).
    apply (d_local (fun t => hooke m (trial_of DIM q (madd strain (mscal t H))) i j) _ 0 _ d Hd); [|apply hooke_elastic_d; assumption].
    intros t Ht. unfold kin_stress, kin_new. fold X. rewrite kse_t. specialize (K t Ht). unfold a in K. destruct (Rlt_dec _ 0) as [_|N]; [reflexivity|lra].
  Qed.

  Lemma kin_d_plastic : a < phi 0 -> forall i j, (i < 3)%nat -> (j < 3)%nat ->
    dlim (fun t => kin_stress t i j) 0 (tapply (kin_tan DIM m q strain true) H i j).
  Proof.
    intros L i j Hi Hj.
    assert (P0 : 0 < a) by (unfold a; pose proof (Rmult_le_pos _ _ HH Hp); lra). assert (D0 : 0 < dem) by (unfold dem; lra). assert (PP : 0 < phi 0) by lra.
    destruct (cont_gt phi 0 a (eqn_cont se D) L) as (d & Hd & K).
    destruct (kin_tr DIM m q strain HQ) as [T1 T2]. fold X in T1. fold T in T2. fold X in T2. fold se in T2.
    unfold kin_tan. fold T. fold X. fold se. rewrite kse_0. destruct (Rlt_dec _ 0) as [N|_]; [unfold a in L; lra|]. fold dem.
    replace (phi 0 - m_sy0 m - m_H m * p_prev q) with (phi 0 - a) by (unfold a; ring).
    eapply d_local; [exact Hd| |apply (corrected_d m T H se a dem HS T2 ltac:(lra) PP i j Hi Hj)].
    intros t Ht. unfold kin_stress, kin_new. fold X. rewrite kse_t. pose proof (K t Ht) as K1.
    destruct (Rlt_dec _ 0) as [N|_]; [unfold a in K1; lra|]. cbn [ee_curr]. fold dem.
    set (T' := trial_of DIM q (madd strain (mscal t H))).
    rewrite hooke_corrected; [| |exact Hi|exact Hj].
    - unfold T'. rewrite trial_lin, tr3_trial. fold T. unfold mdivs, mtimes at 1. fold D. fold phi.
      replace (phi t - m_sy0 m - m_H m * p_prev q) with (phi t - a) by (unfold a; ring).
      unfold mminus, mtimes. rewrite deviator_dev3, dev_trial. fold T. unfold se, D, X, mminus, mtimes, mscal. rewrite deviator_dev3. field. lra.
    - rewrite <- (kse_t t). fold T'.
      rewrite sigmaeq_sq. destruct (kin_tr DIM m q (madd strain (mscal t H)) HQ) as [_ T3]. apply normal_tr; [exact T3|]. rewrite <- sigmaeq_sq. unfold T'. rewrite kse_t. lra.
  Qed.
End KinTangent.
