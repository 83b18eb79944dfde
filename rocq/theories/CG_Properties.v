(** C39, C58, C59: the conjugate gradient solver. *)
From Coq Require Import List Arith Bool Reals Lra Lia String.
From Verif Require Import CG_Model CG_Spec CG_Proofs.
Import ListNotations.
Local Open Scope R_scope.

Lemma loop_exact n A p nr0 s0 f : forall k iter, steps n A s0 (iter + k) f -> (forall i, (i < iter + k)%nat -> ~ stops n p nr0 (f i)) ->
  cg_loop p n A nr0 k iter (f iter) = Finished (f (iter + k)%nat) (iter + k).
Proof.
  induction k as [|k IH]; intros iter H HN; cbn [cg_loop]; [rewrite Nat.add_0_r; reflexivity|].
  pose proof (HN iter ltac:(lia)) as G. unfold stops in G. destruct (going p (fdiv (norm n (cr (f iter))) nr0)); [|contradiction].
  rewrite (proj2 (steps_at _ _ _ _ _ H) iter) by lia. replace (iter + S k)%nat with (S iter + k)%nat by lia.
  apply IH; replace (S iter + k)%nat with (iter + S k)%nat by lia; assumption.
Qed.
Lemma steps_le n A s0 k m f : steps n A s0 m f -> (k <= m)%nat -> steps n A s0 k f.
Proof. induction 1 as [f H|m f H IH HS]; intros L; [replace k with O by lia; constructor; exact H|]. destruct (Nat.eq_dec k (S m)) as [->|]; [constructor; assumption|apply IH; lia]. Qed.

(** the whole call, in terms of the sequence of states *)
Definition init_of (p : cg_params) (A : rmat) (b x : rvec) := cg_init p (rcols A) (rcoef A) (rent b) (rent x).
Definition nr0_of (p : cg_params) (A : rmat) (b x : rvec) := norm (rcols A) (cr (init_of p A b x)).
Lemma cg_call p A b x : sized A b x -> conjugated_gradient p A b x =
  match cg_loop p (rcols A) (rcoef A) (nr0_of p A b x) (cg_limit p (rcols A)) 0 (init_of p A b x) with
  | Finished s k => (true, Some (mkRV (rcols A) (cx s)), k) | Broken k => (true, None, k) end.
Proof.
  intros (H1 & H2 & H3). unfold conjugated_gradient. rewrite H1, H2, H3, !Nat.eqb_refl. reflexivity.
Qed.
Lemma call_states p A b x : sized A b x ->
  match conjugated_gradient p A b x with
  | (ret, Some xs, m) => ret = true /\ (m <= cg_limit p (rcols A))%nat /\ exists g, steps (rcols A) (rcoef A) (init_of p A b x) m g /\
      xs = mkRV (rcols A) (cx (g m)) /\ (forall i, (i < m)%nat -> ~ stops (rcols A) p (nr0_of p A b x) (g i)) /\ (stops (rcols A) p (nr0_of p A b x) (g m) \/ m = cg_limit p (rcols A))
  | (ret, None, m) => ret = true /\ (1 <= m <= cg_limit p (rcols A))%nat /\ exists g, steps (rcols A) (rcoef A) (init_of p A b x) (m - 1) g /\
      cg_step (rcols A) (rcoef A) (g (m - 1)%nat) = None /\ (forall i, (i < m)%nat -> ~ stops (rcols A) p (nr0_of p A b x) (g i))
  end.
Proof.
  intros SZ. rewrite (cg_call p A b x SZ).
  assert (H := loop_spec (rcols A) (rcoef A) p (nr0_of p A b x) (init_of p A b x) (cg_limit p (rcols A)) 0 (fun _ => init_of p A b x) (steps_0 _ _ _ _ eq_refl) ltac:(intros; lia)).
  cbn beta in H. destruct (cg_loop p (rcols A) (rcoef A) (nr0_of p A b x) (cg_limit p (rcols A)) 0 (init_of p A b x)) as [s m|m].
  - destruct H as (B & (g & G1 & G2 & G3) & Y). split; [reflexivity|]. split; [lia|]. exists g. split; [exact G1|]. split; [rewrite G2; reflexivity|]. split; [exact G3|].
    rewrite G2. exact Y.
  - destruct H as (B & g & G1 & _ & G2 & G3). split; [reflexivity|]. split; [lia|]. exists g. auto.
Qed.
Lemma residual_inv p A b x k f : steps (rcols A) (rcoef A) (init_of p A b x) k f -> forall i, (i < rcols A)%nat -> cr (f k) i = residual A b (mkRV (rcols A) (cx (f k))) i.
Proof.
  induction 1 as [f H|k f H IH HS]; intros i Hi.
  - rewrite H. unfold init_of, cg_init, residual. cbn. destruct (use_initial_guess p); reflexivity.
  - unfold residual. cbn [rent]. apply (cg_step_residual (rcols A) (rcoef A) (rent b) (f k) (f (S k)) HS); [|exact Hi]. intros j Hj. rewrite IH by exact Hj. reflexivity.
Qed.
Lemma norm_residual p A b x k f : steps (rcols A) (rcoef A) (init_of p A b x) k f -> norm (rcols A) (cr (f k)) = residual_norm A b (mkRV (rcols A) (cx (f k))).
Proof.
  intros H. unfold norm, residual_norm. f_equal. apply rsum_ext. intros i Hi. rewrite (residual_inv p A b x k f H) by exact Hi. reflexivity.
Qed.
Lemma nr0_residual p A b x : nr0_of p A b x = residual_norm A b (starting p x).
Proof.
  unfold nr0_of, norm, residual_norm. f_equal. apply rsum_ext. intros i Hi. unfold init_of, cg_init, residual, starting, amul. cbn. destruct (use_initial_guess p); reflexivity.
Qed.
Lemma norm_nonneg n x : 0 <= norm n x. Proof. apply sqrt_pos. Qed.
Lemma stops_inv n p nr0 s : 0 <= nr0 -> stops n p nr0 s <-> nr0 = 0 \/ norm n (cr s) <= rr_tol p * nr0 \/ rr_max p * nr0 <= norm n (cr s).
Proof.
  intros P. unfold stops, going, fdiv. destruct (Req_EM_T nr0 0) as [E|E]; [split; auto|].
  assert (PP : 0 < nr0) by lra. assert (NQ : norm n (cr s) = norm n (cr s) / nr0 * nr0) by (field; exact E). set (q := norm n (cr s) / nr0) in *.
  destruct (Rlt_dec (rr_tol p) q) as [H1|H1]; destruct (Rlt_dec q (rr_max p)) as [H2|H2]; cbn; rewrite NQ; split; try discriminate; try reflexivity.
  - intros [|[|]]; [lra| |]; exfalso; nra.
  - intros _. right. right. nra.
  - intros _. right. left. nra.
  - intros _. right. left. nra.
Qed.

(** Mis-sized input is refused and leaves x alone. *)
Theorem C39_rejected : forall p A b x, ~ sized A b x <-> conjugated_gradient p A b x = (false, Some x, O).
Proof.
  intros p A b x. split.
  - intros N. unfold conjugated_gradient. destruct (Nat.eqb_spec (rrows A) (rcols A)) as [H1|]; [|reflexivity]. cbn.
    destruct (Nat.eqb_spec (rsize b) (rcols A)) as [H2|]; [|reflexivity]. cbn. destruct (Nat.eqb_spec (rsize x) (rcols A)) as [H3|]; [|reflexivity].
    exfalso. apply N. repeat split; assumption.
  - intros E SZ. pose proof (call_states p A b x SZ) as C. rewrite E in C. destruct C as (C & _). discriminate.
Qed.

(** Otherwise it returns true within the iteration limit (2N when the limit given is 0).  A finite
    answer has N entries; its true residual meets the tolerance relative to the initial residual, or
    has grown by the factor rr_max, or the iterations are used up, or the initial residual was zero
    and the answer is the starting vector.  The answer is not finite only after a division by zero:
    some iterate x_k with non-stopping residual, from which no step exists. *)
Theorem C39_stops : forall p A b x, sized A b x ->
  match conjugated_gradient p A b x with
  | (ret, out, m) => ret = true /\ (m <= (if (max_iter p =? 0)%nat then 2 * rcols A else max_iter p))%nat /\
    forall xs, out = Some xs -> rsize xs = rcols A /\
      ((residual_norm A b (starting p x) = 0 /\ m = O /\ forall i, rent xs i = rent (starting p x) i) \/
       residual_norm A b xs <= rr_tol p * residual_norm A b (starting p x) \/
       rr_max p * residual_norm A b (starting p x) <= residual_norm A b xs \/
       m = (if (max_iter p =? 0)%nat then 2 * rcols A else max_iter p)%nat)
  end.
Proof.
  intros p A b x SZ. pose proof (call_states p A b x SZ) as C. destruct (conjugated_gradient p A b x) as [[ret [xs|]] m].
  - destruct C as (-> & B & g & G1 & G2 & G3 & G4). split; [reflexivity|]. split; [exact B|]. intros xs' [= <-]. split; [rewrite G2; reflexivity|].
    destruct G4 as [G4|G4]; [|right; right; right; exact G4].
    apply stops_inv in G4; [|apply norm_nonneg]. rewrite nr0_residual, (norm_residual p A b x m g G1), <- G2 in G4.
    destruct G4 as [Z|[Q|Q]]; [|right; left; exact Q|right; right; left; exact Q].
    left. split; [exact Z|].
    assert (M0 : m = O).
    { destruct m as [|m]; [reflexivity|]. exfalso. apply (G3 O); [lia|]. apply stops_inv; [apply norm_nonneg|]. left. rewrite nr0_residual. exact Z. }
    split; [exact M0|]. subst m. intros i. rewrite G2. cbn. rewrite (proj1 (steps_at _ _ _ _ _ G1)). unfold init_of, cg_init, starting. cbn. destruct (use_initial_guess p); reflexivity.
  - destruct C as (-> & B & _). split; [reflexivity|]. split; [exact (proj2 B)|]. discriminate.
Qed.

(** Zero true residual means a solution of the system. *)
Theorem C39_exact : forall A b x, residual_norm A b x = 0 <-> forall i, (i < rcols A)%nat -> rsum (rcols A) (fun j => rcoef A i j * rent x j) = rent b i.
Proof.
  intros A b x. change (residual_norm A b x) with (norm (rcols A) (residual A b x)). rewrite norm_zero. split.
  - intros H i Hi. pose proof (dot_zero _ _ H i Hi) as E. unfold residual in E. lra.
  - intros H. unfold dot. apply rsum_zero. intros i Hi. unfold residual. rewrite H by exact Hi. ring.
Qed.

(** The k-th iterate, obtained by limiting the iterations to k, is the state after k steps of the
    full run. *)
Lemma iterate_state p A b x m g : sized A b x -> steps (rcols A) (rcoef A) (init_of p A b x) m g -> (forall i, (i < m)%nat -> ~ stops (rcols A) p (nr0_of p A b x) (g i)) ->
  forall k, (k <= m)%nat -> exists y, iterate p A b x k = Some y /\ forall i, rent y i = cx (g k) i.
Proof.
  intros SZ G1 G3 k Hk. destruct k as [|k].
  - exists (starting p x). split; [reflexivity|]. intros i. rewrite (proj1 (steps_at _ _ _ _ _ G1)). unfold init_of, cg_init, starting. cbn. destruct (use_initial_guess p); reflexivity.
  - unfold iterate. rewrite cg_call by exact SZ. change (cg_limit (with_limit p (S k)) (rcols A)) with (S k).
    change (init_of (with_limit p (S k)) A b x) with (init_of p A b x). change (nr0_of (with_limit p (S k)) A b x) with (nr0_of p A b x).
    pose proof (loop_exact (rcols A) (rcoef A) (with_limit p (S k)) (nr0_of p A b x) (init_of p A b x) g (S k) 0) as L. cbn [Nat.add] in L.
    rewrite (proj1 (steps_at _ _ _ _ _ G1)) in L. rewrite L.
    + cbn. eexists. split; [reflexivity|]. reflexivity.
    + apply (steps_le _ _ _ _ m); assumption.
    + intros i Hi. apply (G3 i). lia.
Qed.

(** For symmetric A: the residuals at different iterates are orthogonal, the steps between
    consecutive iterates are A-conjugate. *)
Theorem C39_orthogonality : forall p A b x ret xs m, sized A b x -> symmetric A -> conjugated_gradient p A b x = (ret, Some xs, m) ->
  (forall i j, (i < j)%nat -> (j <= m)%nat -> exists xi xj, iterate p A b x i = Some xi /\ iterate p A b x j = Some xj /\ orthogonal A (residual A b xi) (residual A b xj)) /\
  (forall i j, (i < j)%nat -> (j < m)%nat -> exists xi xi' xj xj', iterate p A b x i = Some xi /\ iterate p A b x (S i) = Some xi' /\
     iterate p A b x j = Some xj /\ iterate p A b x (S j) = Some xj' /\
     conjugate A (fun k => rent xi' k - rent xi k) (fun k => rent xj' k - rent xj k)).
Proof.
  intros p A b x ret xs m SZ SY E. pose proof (call_states p A b x SZ) as C. rewrite E in C. destruct C as (_ & B & g & G1 & G2 & G3 & G4).
  pose proof (orthogonality (rcols A) (rcoef A) SY (init_of p A b x) m g (fun _ => eq_refl) G1) as OR.
  pose proof (iterate_state p A b x m g SZ G1 G3) as IT. split.
  - intros i j Hij Hj. destruct (IT i ltac:(lia)) as (xi & I1 & I2). destruct (IT j Hj) as (xj & J1 & J2). exists xi, xj. split; [exact I1|]. split; [exact J1|].
    unfold orthogonal. rewrite <- (proj1 (OR i j Hij Hj)). apply rsum_ext. intros k Hk.
    rewrite (residual_inv p A b x i g (steps_le _ _ _ i m g G1 ltac:(lia)) k Hk), (residual_inv p A b x j g (steps_le _ _ _ _ _ _ G1 Hj) k Hk).
    unfold residual. cbn [rent]. rewrite (rsum_ext _ (fun j0 => rcoef A k j0 * rent xi j0) (fun j0 => rcoef A k j0 * cx (g i) j0)) by (intros; rewrite I2; reflexivity).
    rewrite (rsum_ext _ (fun j0 => rcoef A k j0 * rent xj j0) (fun j0 => rcoef A k j0 * cx (g j) j0)) by (intros; rewrite J2; reflexivity). reflexivity.
  - intros i j Hij Hj. destruct (IT i ltac:(lia)) as (xi & I1 & I2). destruct (IT (S i) ltac:(lia)) as (xi' & I1' & I2'). destruct (IT j ltac:(lia)) as (xj & J1 & J2). destruct (IT (S j) Hj) as (xj' & J1' & J2').
    exists xi, xi', xj, xj'. do 4 (split; [assumption|]). unfold conjugate.
    destruct (cg_step_inv _ _ _ _ (proj2 (steps_at _ _ _ _ _ G1) i ltac:(lia))) as (_ & _ & XI & _ & _).
    destruct (cg_step_inv _ _ _ _ (proj2 (steps_at _ _ _ _ _ G1) j ltac:(lia))) as (_ & _ & XJ & _ & _).
    set (a := dot (rcols A) (cr (g i)) (cr (g i)) / dot (rcols A) (cd (g i)) (amul (rcols A) (rcoef A) (cd (g i)))) in *.
    set (c := dot (rcols A) (cr (g j)) (cr (g j)) / dot (rcols A) (cd (g j)) (amul (rcols A) (rcoef A) (cd (g j)))) in *.
    transitivity (a * c * dot (rcols A) (cd (g i)) (amul (rcols A) (rcoef A) (cd (g j)))); [|rewrite (proj2 (OR i j Hij ltac:(lia))); ring].
    unfold dot, amul. rewrite <- rsum_mul. apply rsum_ext. intros k Hk. rewrite I2, I2', XI.
    rewrite (rsum_ext _ (fun j0 => rcoef A k j0 * (rent xj' j0 - rent xj j0)) (fun j0 => c * (rcoef A k j0 * cd (g j) j0))) by (intros l Hl; rewrite J2, J2', XJ; ring).
    rewrite rsum_mul. ring.
Qed.

(** For a symmetric positive definite matrix, a tolerance >= 0 and a limit of at least N iterations
    (or 0), the answer is finite, found in at most N iterations, and its residual meets the tolerance
    unless the solver gave up because the residual had grown by rr_max. *)
Theorem C39_positive_definite : forall p A b x, sized A b x -> symmetric A -> positive_definite A -> 0 <= rr_tol p ->
  max_iter p = O \/ (rcols A <= max_iter p)%nat ->
  exists xs m, conjugated_gradient p A b x = (true, Some xs, m) /\ (m <= rcols A)%nat /\
    (residual_norm A b xs <= rr_tol p * residual_norm A b (starting p x) \/ rr_max p * residual_norm A b (starting p x) <= residual_norm A b xs).
Proof.
  intros p A b x SZ SY PD T0 LIM. pose proof (call_states p A b x SZ) as C. destruct (conjugated_gradient p A b x) as [[ret [xs|]] m].
  - destruct C as (-> & B & g & G1 & G2 & G3 & G4). exists xs, m. split; [reflexivity|].
    pose proof (orthogonality (rcols A) (rcoef A) SY (init_of p A b x) m g (fun _ => eq_refl) G1) as OR.
    assert (MN : (m <= rcols A)%nat).
    { apply (bessel (rcols A) (fun i => cr (g i))).
      - intros i l Hi Hl N. destruct (Nat.lt_total i l) as [L|[L|L]]; [apply OR; lia|contradiction|rewrite dot_comm; apply OR; lia].
      - intros i Hi Z. apply (G3 i Hi). apply stops_inv; [apply norm_nonneg|]. right. left. rewrite (proj2 (norm_zero _ _) Z). apply Rmult_le_pos; [exact T0|apply norm_nonneg]. }
    split; [exact MN|].
    assert (ST : stops (rcols A) p (nr0_of p A b x) (g m)).
    { destruct G4 as [G4|G4]; [exact G4|]. assert (m = rcols A \/ rcols A = O) as [M|M].
      { unfold cg_limit in G4. destruct (Nat.eqb_spec (max_iter p) 0); [|lia]. lia. }
      - destruct (Req_EM_T (dot (rcols A) (cr (g m)) (cr (g m))) 0) as [Z|NZ].
        + apply stops_inv; [apply norm_nonneg|]. right. left. rewrite (proj2 (norm_zero _ _) Z). apply Rmult_le_pos; [exact T0|apply norm_nonneg].
        + exfalso. enough (S m <= rcols A)%nat by lia. apply (bessel (rcols A) (fun i => cr (g i))).
          * intros i l Hi Hl N. destruct (Nat.lt_total i l) as [L|[L|L]]; [apply OR; lia|contradiction|rewrite dot_comm; apply OR; lia].
          * intros i Hi Z. destruct (Nat.eq_dec i m) as [->|NE]; [contradiction|]. apply (G3 i); [lia|]. apply stops_inv; [apply norm_nonneg|]. right. left. rewrite (proj2 (norm_zero _ _) Z). apply Rmult_le_pos; [exact T0|apply norm_nonneg].
      - apply stops_inv; [apply norm_nonneg|]. left. unfold nr0_of. rewrite M. cbn. apply sqrt_0. }
    apply stops_inv in ST; [|apply norm_nonneg]. rewrite nr0_residual, (norm_residual p A b x m g G1), <- G2 in ST. destruct ST as [Z|ST]; [|exact ST]. left.
    assert (M0 : m = O).
    { destruct m as [|m]; [reflexivity|]. exfalso. apply (G3 O); [lia|]. apply stops_inv; [apply norm_nonneg|]. left. rewrite nr0_residual. exact Z. }
    subst m. rewrite G2, <- (norm_residual p A b x O g G1), (proj1 (steps_at _ _ _ _ _ G1)).
    change (norm (rcols A) (cr (init_of p A b x))) with (nr0_of p A b x). rewrite nr0_residual, Z. lra.
  - exfalso. destruct C as (_ & B & g & G1 & G2 & G3). set (k := (m - 1)%nat) in *.
    pose proof (G3 k ltac:(lia)) as NS. rewrite stops_inv in NS by apply norm_nonneg.
    assert (NZ : dot (rcols A) (cr (g k)) (cr (g k)) <> 0).
    { intros Z. apply NS. right. left. rewrite (proj2 (norm_zero _ _) Z). apply Rmult_le_pos; [exact T0|apply norm_nonneg]. }
    assert (DS := direction_self (rcols A) (rcoef A) SY (init_of p A b x) k g (fun _ => eq_refl) G1).
    assert (DN : exists i, (i < rcols A)%nat /\ cd (g k) i <> 0).
    { clear -NZ DS. rewrite <- DS in NZ. clear DS. unfold dot in NZ. induction (rcols A) as [|n IH]; [exfalso; apply NZ; reflexivity|].
      destruct (Req_EM_T (cd (g k) n) 0) as [Z|N]; [|exists n; split; [lia|exact N]]. destruct IH as (i & Hi & Hn).
      - intros E. apply NZ. cbn. rewrite E, Z. ring.
      - exists i. split; [lia|exact Hn]. }
    pose proof (PD (cd (g k)) DN) as P. unfold cg_step, fdiv in G2.
    change (rsum (rcols A) (fun i => cd (g k) i * rsum (rcols A) (fun j => rcoef A i j * cd (g k) j))) with (dot (rcols A) (cd (g k)) (amul (rcols A) (rcoef A) (cd (g k)))) in P.
    destruct (Req_EM_T (dot (rcols A) (cd (g k)) (amul (rcols A) (rcoef A) (cd (g k)))) 0) as [Z|_]; [rewrite Z in P; apply (Rlt_irrefl 0 P)|].
    destruct (Req_EM_T (dot (rcols A) (cr (g k)) (cr (g k))) 0); [contradiction|discriminate].
Qed.

(** ** a concrete system: [[2,1],[1,3]] x = (1,0) *)
Definition exA : rmat := mkRM 2 2 (fun i j => match i, j with O, O => 2 | 1%nat, 1%nat => 3 | _, _ => 1 end).
Definition exb : rvec := mkRV 2 (fun i => match i with O => 1 | _ => 0 end).
Definition exx : rvec := mkRV 2 (fun _ => 5).
Example ex_hypotheses : sized exA exb exx /\ symmetric exA /\ positive_definite exA /\ 0 <= rr_tol cg_default /\ (rcols exA <= max_iter cg_default)%nat /\
  residual_norm exA exb (starting cg_default exx) = 1.
Proof.
  split; [repeat split|]. split; [|split; [|split; [|split]]].
  - intros i j Hi Hj. destruct i as [|[|]], j as [|[|]]; try reflexivity; cbn in *; lia.
  - intros v (i & Hi & Hv). cbn in Hi. cbn.
    assert (E : forall a b : R, 0 + a * (0 + 2 * a + 1 * b) + b * (0 + 1 * a + 3 * b) = (a + b) * (a + b) + a * a + 2 * (b * b)) by (intros; ring). rewrite E.
    assert (0 <= (v 0%nat + v 1%nat) * (v 0%nat + v 1%nat)) by (apply Rle_0_sqr). assert (0 <= v 0%nat * v 0%nat) by apply Rle_0_sqr. assert (0 <= v 1%nat * v 1%nat) by apply Rle_0_sqr.
    destruct i as [|[|]]; [| |lia]; [assert (0 < v 0%nat * v 0%nat) by (apply Rsqr_pos_lt; exact Hv)|assert (0 < v 1%nat * v 1%nat) by (apply Rsqr_pos_lt; exact Hv)]; lra.
  - cbn. lra.
  - cbn. lia.
  - unfold residual_norm, residual, starting. cbn. replace (0 + (1 - (0 + 2 * 0 + 1 * 0)) * (1 - (0 + 2 * 0 + 1 * 0)) + (0 - (0 + 1 * 0 + 3 * 0)) * (0 - (0 + 1 * 0 + 3 * 0))) with 1 by ring. apply sqrt_1.
Qed.

(** ** C58: the flag does not report convergence *)
Definition converged (p : cg_params) (A : rmat) (b x : rvec) (xs : rvec) : Prop :=
  residual_norm A b xs <= rr_tol p * residual_norm A b (starting p x).
(** One iteration allowed, tolerance 1/10, symmetric positive definite matrix: the call returns true
    with an answer that misses the tolerance. *)
Theorem C58_true_without_convergence_refuted :
  ~ (forall p A b x xs m, sized A b x -> conjugated_gradient p A b x = (true, Some xs, m) -> converged p A b x xs).
Proof.
  intros H. set (p := mkCG (/ 10) 20 1 false).
  assert (R0 : norm 2 (cr (init_of p exA exb exx)) = 1).
  { unfold norm, dot, init_of, cg_init. cbn. unfold amul. cbn. replace (0 + (1 - (0 + 2 * 0 + 1 * 0)) * (1 - (0 + 2 * 0 + 1 * 0)) + (0 - (0 + 1 * 0 + 3 * 0)) * (0 - (0 + 1 * 0 + 3 * 0))) with 1 by ring. apply sqrt_1. }
  assert (DAD : dot 2 (cd (init_of p exA exb exx)) (amul 2 (rcoef exA) (cd (init_of p exA exb exx))) = 2).
  { unfold dot, init_of, cg_init, amul. cbn. unfold amul. cbn. ring. }
  assert (RR : dot 2 (cr (init_of p exA exb exx)) (cr (init_of p exA exb exx)) = 1).
  { unfold dot, init_of, cg_init. cbn. unfold amul. cbn. ring. }
  assert (EX : exists s, conjugated_gradient p exA exb exx = (true, Some (mkRV 2 (cx s)), 1%nat) /\ forall i, cx s i = cx (init_of p exA exb exx) i + / 2 * cd (init_of p exA exb exx) i).
  { rewrite cg_call by (repeat split). change (cg_limit p (rcols exA)) with 1%nat. change (nr0_of p exA exb exx) with (norm 2 (cr (init_of p exA exb exx))). cbn [cg_loop].
    change (rcols exA) with 2%nat. rewrite R0. assert (G : going p (fdiv 1 1) = true).
    { unfold fdiv. destruct (Req_EM_T 1 0); [lra|]. unfold going. cbn. destruct (Rlt_dec (/ 10) (1 / 1)); [|lra]. destruct (Rlt_dec (1 / 1) 20); [reflexivity|lra]. }
    rewrite G. destruct (cg_step 2 (rcoef exA) (init_of p exA exb exx)) as [s|] eqn:E.
    - exists s. split; [reflexivity|]. apply cg_step_inv in E. cbv zeta in E. destruct E as (_ & _ & X & _). intros i. rewrite X, RR, DAD. lra.
    - exfalso. unfold cg_step, fdiv in E. cbv zeta in E. rewrite DAD, RR in E. destruct (Req_EM_T 2 0); [lra|]. destruct (Req_EM_T 1 0); [lra|]. discriminate. }
  destruct EX as (s & E & X). specialize (H p exA exb exx _ _ ltac:(repeat split) E). unfold converged in H.
  rewrite <- (nr0_residual p exA exb exx) in H. unfold nr0_of in H. change (rcols exA) with 2%nat in H. rewrite R0 in H.
  assert (Q : residual_norm exA exb (mkRV 2 (cx s)) = / 2).
  { unfold residual_norm, residual. cbn [rent rsum rcols exA exb rcoef]. rewrite !X. unfold init_of, cg_init, amul. cbn.
    match goal with |- sqrt ?t = _ => replace t with (/ 2 * / 2) by field end. apply sqrt_square. lra. }
  rewrite Q in H. cbn in H. lra.
Qed.
(** What the flag does say: the sizes agree.  Whether the answer met the tolerance is decided by
    recomputing the residual. *)
Theorem C58_flag_is_size_check_partial : forall p A b x, fst (fst (conjugated_gradient p A b x)) = true <-> sized A b x.
Proof.
  intros p A b x. split.
  - intros H. unfold conjugated_gradient in H. destruct (Nat.eqb_spec (rrows A) (rcols A)) as [H1|]; [|discriminate]. cbn in H.
    destruct (Nat.eqb_spec (rsize b) (rcols A)) as [H2|]; [|discriminate]. cbn in H. destruct (Nat.eqb_spec (rsize x) (rcols A)) as [H3|]; [|discriminate]. repeat split; assumption.
  - intros SZ. pose proof (C39_stops p A b x SZ) as C. destruct (conjugated_gradient p A b x) as [[ret out] m]. exact (proj1 C).
Qed.

(** ** C59: parameters read from Lua *)
Local Open Scope string_scope.
(** setting solver.cg.rr_tol in a Lua state that has no "sover" table *)
Definition lua_tol (t : R) : lua_state := fun path => if list_eq_dec string_dec path ["solver"; "cg"; "rr_tol"] then Some (LNum t) else None.
Theorem C59_lua_tolerance_refuted : ~ (forall l t, l ["solver"; "cg"; "rr_tol"] = Some (LNum t) -> rr_tol (cg_lua_params l) = t).
Proof. intros H. specialize (H (lua_tol 1) 1 eq_refl). cbn in H. lra. Qed.
(** The other two settings are honoured, with defaults 20 and 1000; whatever the user sets under
    "solver", the tolerance is 1e-8 unless a table named "sover" exists. *)
Theorem C59_lua_parameters_partial : forall l,
  (forall r, l ["solver"; "cg"; "rr_max"] = Some (LNum r) -> rr_max (cg_lua_params l) = r) /\
  (l ["solver"; "cg"; "rr_max"] = None -> rr_max (cg_lua_params l) = 20) /\
  (forall n, l ["solver"; "cg"; "max_iter"] = Some (LInt n) -> max_iter (cg_lua_params l) = n) /\
  (l ["solver"; "cg"; "max_iter"] = None -> max_iter (cg_lua_params l) = 1000%nat) /\
  (l ["sover"; "cg"; "rr_tol"] = None -> rr_tol (cg_lua_params l) = / 10 ^ 8) /\
  (forall A b x, conjugated_gradient_lua l A b x = conjugated_gradient (cg_lua_params l) A b x) /\ use_initial_guess (cg_lua_params l) = false.
Proof.
  intros l. unfold cg_lua_params, get_num, get_int. cbn [rr_max max_iter rr_tol use_initial_guess].
  repeat split; intros; try match goal with H : l _ = _ |- _ => rewrite H end; reflexivity.
Qed.
Print Assumptions C39_rejected. Print Assumptions C39_stops. Print Assumptions C39_exact. Print Assumptions C39_orthogonality.
Print Assumptions C39_positive_definite. Print Assumptions C58_true_without_convergence_refuted. Print Assumptions C58_flag_is_size_check_partial.
Print Assumptions C59_lua_tolerance_refuted. Print Assumptions C59_lua_parameters_partial.
