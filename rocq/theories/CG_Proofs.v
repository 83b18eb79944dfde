From Coq Require Import List Arith Bool Reals Lra Lia.
From Verif Require Import CG_Model CG_Spec.
Local Open Scope R_scope.

(** ** finite sums *)
Lemma rsum_ext n f g : (forall i, (i < n)%nat -> f i = g i) -> rsum n f = rsum n g.
Proof. induction n as [|n IH]; intros H; cbn; [reflexivity|]. rewrite IH, H by auto. reflexivity. Qed.
Lemma rsum_zero n f : (forall i, (i < n)%nat -> f i = 0) -> rsum n f = 0.
Proof. induction n as [|n IH]; intros H; cbn; [reflexivity|]. rewrite IH, H by auto. ring. Qed.
Lemma rsum_add n f g : rsum n (fun i => f i + g i) = rsum n f + rsum n g.
Proof. induction n as [|n IH]; cbn; [ring|]. rewrite IH. ring. Qed.
Lemma rsum_mul n c f : rsum n (fun i => c * f i) = c * rsum n f.
Proof. induction n as [|n IH]; cbn; [ring|]. rewrite IH. ring. Qed.
Lemma rsum_swap n m f : rsum n (fun i => rsum m (fun j => f i j)) = rsum m (fun j => rsum n (fun i => f i j)).
Proof.
  induction n as [|n IH]; cbn [rsum]; [symmetry; apply rsum_zero; reflexivity|]. rewrite IH, <- rsum_add. reflexivity.
Qed.
Lemma rsum_nonneg n f : (forall i, (i < n)%nat -> 0 <= f i) -> 0 <= rsum n f.
Proof. induction n as [|n IH]; intros H; cbn; [lra|]. pose proof (H n ltac:(lia)). assert (0 <= rsum n f) by (apply IH; auto). lra. Qed.
Lemma rsum_le n f g : (forall i, (i < n)%nat -> f i <= g i) -> rsum n f <= rsum n g.
Proof. induction n as [|n IH]; intros H; cbn; [lra|]. pose proof (H n ltac:(lia)). assert (rsum n f <= rsum n g) by (apply IH; auto). lra. Qed.
Lemma rsum_const n c : rsum n (fun _ => c) = INR n * c.
Proof. induction n as [|n IH]; cbn [rsum]; [cbn; ring|]. rewrite IH, S_INR. ring. Qed.
Lemma rsum_single n k f : (k < n)%nat -> (forall i, (i < n)%nat -> i <> k -> f i = 0) -> rsum n f = f k.
Proof.
  induction n as [|n IH]; intros Hk H; [lia|]. cbn [rsum]. destruct (Nat.eq_dec k n) as [->|N].
  - rewrite rsum_zero; [ring|]. intros i Hi. apply H; lia.
  - rewrite IH, (H n) by (try lia; intros; apply H; lia). ring.
Qed.

Section Dot.
  Context (n : nat).
  Lemma dot_ext x y x' y' : (forall i, (i < n)%nat -> x i = x' i) -> (forall i, (i < n)%nat -> y i = y' i) -> dot n x y = dot n x' y'.
  Proof. intros H H'. apply rsum_ext. intros. rewrite H, H' by assumption. reflexivity. Qed.
  Lemma dot_comm x y : dot n x y = dot n y x.
  Proof. apply rsum_ext. intros. ring. Qed.
  Lemma dot_lin_r x y z c : dot n x (fun i => y i + c * z i) = dot n x y + c * dot n x z.
  Proof. unfold dot. rewrite <- rsum_mul, <- rsum_add. apply rsum_ext. intros. ring. Qed.
  Lemma dot_sub_r x y z c : dot n x (fun i => y i - c * z i) = dot n x y - c * dot n x z.
  Proof. replace (dot n x y - c * dot n x z) with (dot n x y + (- c) * dot n x z) by ring. rewrite <- dot_lin_r. apply rsum_ext. intros. ring. Qed.
  Lemma dot_lin_l x y z c : dot n (fun i => y i + c * z i) x = dot n y x + c * dot n z x.
  Proof. rewrite dot_comm, dot_lin_r, (dot_comm x y), (dot_comm x z). reflexivity. Qed.
  Lemma dot_sub_l x y z c : dot n (fun i => y i - c * z i) x = dot n y x - c * dot n z x.
  Proof. rewrite dot_comm, dot_sub_r, (dot_comm x y), (dot_comm x z). reflexivity. Qed.
  Lemma dot_pos x : 0 <= dot n x x.
  Proof. apply rsum_nonneg. intros. nra. Qed.
  Lemma dot_zero x : dot n x x = 0 -> forall i, (i < n)%nat -> x i = 0.
  Proof.
    unfold dot. induction n as [|m IH]; intros H i Hi; [lia|]. cbn in H.
    assert (0 <= rsum m (fun i => x i * x i)) by (apply rsum_nonneg; intros; nra).
    assert (x m * x m = 0) by nra. assert (x m = 0) by nra. destruct (Nat.eq_dec i m) as [->|]; [assumption|]. apply IH; [nra|lia].
  Qed.
  Lemma norm_zero x : norm n x = 0 <-> dot n x x = 0.
  Proof. unfold norm. split; intros H; [|rewrite H; apply sqrt_0]. apply sqrt_eq_0; [apply dot_pos|exact H]. Qed.

  Context (A : nat -> nat -> R).
  Lemma amul_lin x y c i : amul n A (fun j => x j + c * y j) i = amul n A x i + c * amul n A y i.
  Proof. unfold amul. rewrite <- rsum_mul, <- rsum_add. apply rsum_ext. intros. ring. Qed.
  Lemma amul_ext x y i : (forall j, (j < n)%nat -> x j = y j) -> amul n A x i = amul n A y i.
  Proof. intros H. apply rsum_ext. intros. rewrite H by assumption. reflexivity. Qed.
  Lemma dot_sym (SY : forall i j, (i < n)%nat -> (j < n)%nat -> A i j = A j i) x y : dot n x (amul n A y) = dot n y (amul n A x).
  Proof.
    unfold dot, amul. transitivity (rsum n (fun i => rsum n (fun j => x i * (A i j * y j)))).
    - apply rsum_ext. intros. rewrite rsum_mul. reflexivity.
    - rewrite rsum_swap. apply rsum_ext. intros j Hj. rewrite <- rsum_mul. apply rsum_ext. intros i Hi. rewrite (SY i j) by assumption. ring.
  Qed.

  (** Bessel: k mutually orthogonal non-zero vectors with n entries have k <= n *)
  Lemma bessel_one (u : nat -> nat -> R) j k : (j < n)%nat ->
    (forall i l, (i < k)%nat -> (l < k)%nat -> i <> l -> dot n (u i) (u l) = 0) -> (forall i, (i < k)%nat -> dot n (u i) (u i) <> 0) ->
    rsum k (fun i => u i j * u i j / dot n (u i) (u i)) <= 1.
  Proof.
    intros Hj HO HN.
    assert (G : forall m, (m <= k)%nat -> exists w, (forall l, (m <= l)%nat -> (l < k)%nat -> dot n w (u l) = u l j) /\
      dot n w w = 1 - rsum m (fun i => u i j * u i j / dot n (u i) (u i))).
    { induction m as [|m IH]; intros Hm.
      - exists (fun i => if (i =? j)%nat then 1 else 0). split.
        + intros l _ _. unfold dot. rewrite (rsum_single n j); [rewrite Nat.eqb_refl; ring|exact Hj|]. intros i _ N. rewrite (proj2 (Nat.eqb_neq _ _) N). ring.
        + unfold dot. rewrite (rsum_single n j); [rewrite Nat.eqb_refl; cbn; ring|exact Hj|]. intros i _ N. rewrite (proj2 (Nat.eqb_neq _ _) N). ring.
      - destruct IH as (w & W1 & W2); [lia|]. set (c := u m j / dot n (u m) (u m)). exists (fun i => w i - c * u m i). pose proof (HN m ltac:(lia)) as NZ. split.
        + intros l H1 H2. rewrite dot_sub_l, W1, (HO m l) by lia. ring.
        + rewrite dot_sub_l, !dot_sub_r, W2. cbn [rsum]. rewrite (dot_comm (u m) w), (W1 m) by lia. unfold c. field. exact NZ. }
    destruct (G k (le_n _)) as (w & _ & W). pose proof (dot_pos w). lra.
  Qed.
  Lemma bessel (u : nat -> nat -> R) k : (forall i l, (i < k)%nat -> (l < k)%nat -> i <> l -> dot n (u i) (u l) = 0) -> (forall i, (i < k)%nat -> dot n (u i) (u i) <> 0) -> (k <= n)%nat.
  Proof.
    intros HO HN. apply INR_le. replace (INR k) with (rsum n (fun j => rsum k (fun i => u i j * u i j / dot n (u i) (u i)))).
    - apply Rle_trans with (rsum n (fun _ => 1)); [|rewrite rsum_const; lra]. apply rsum_le. intros j Hj. apply bessel_one; assumption.
    - rewrite rsum_swap. transitivity (rsum k (fun _ => 1)); [|rewrite rsum_const; ring]. apply rsum_ext. intros i Hi.
      transitivity (/ dot n (u i) (u i) * rsum n (fun j => u i j * u i j)).
      + rewrite <- rsum_mul. apply rsum_ext. intros. field. apply HN. exact Hi.
      + change (rsum n (fun j => u i j * u i j)) with (dot n (u i) (u i)). field. apply HN. exact Hi.
  Qed.

  (** ** one iteration *)
  Lemma cg_step_inv s s' : cg_step n A s = Some s' ->
    let al := dot n (cr s) (cr s) / dot n (cd s) (amul n A (cd s)) in
    let be := dot n (cr s') (cr s') / dot n (cr s) (cr s) in
    dot n (cd s) (amul n A (cd s)) <> 0 /\ dot n (cr s) (cr s) <> 0 /\
    (forall i, cx s' i = cx s i + al * cd s i) /\ (forall i, cr s' i = cr s i - al * amul n A (cd s) i) /\ (forall i, cd s' i = cr s' i + be * cd s i).
  Proof.
    unfold cg_step, fdiv. destruct (Req_EM_T (dot n (cd s) (amul n A (cd s))) 0); [discriminate|].
    destruct (Req_EM_T (dot n (cr s) (cr s)) 0); [discriminate|]. intros [= <-]. cbn. repeat split; auto.
  Qed.
  Lemma cg_step_residual b s s' : cg_step n A s = Some s' -> (forall i, (i < n)%nat -> cr s i = b i - amul n A (cx s) i) ->
    forall i, (i < n)%nat -> cr s' i = b i - amul n A (cx s') i.
  Proof.
    intros H I i Hi. apply cg_step_inv in H. cbv zeta in H. destruct H as (_ & _ & X & Y & _). rewrite Y, I by exact Hi.
    rewrite (amul_ext _ _ i (fun j _ => X j)), amul_lin. ring.
  Qed.
  (** the states of a run *)
  Inductive steps (s0 : cg_state) : nat -> (nat -> cg_state) -> Prop :=
  | steps_0 f : f O = s0 -> steps s0 O f
  | steps_S k f : steps s0 k f -> cg_step n A (f k) = Some (f (S k)) -> steps s0 (S k) f.

  Lemma steps_at s0 k f : steps s0 k f -> f O = s0 /\ forall i, (i < k)%nat -> cg_step n A (f i) = Some (f (S i)).
  Proof.
    induction 1 as [f H|k f H (IH1 & IH2) HS]; [split; [exact H|intros; lia]|]. split; [exact IH1|]. intros i Hi. destruct (Nat.eq_dec i k) as [->|]; [exact HS|apply IH2; lia].
  Qed.

  Lemma orthogonality (SY : forall i j, (i < n)%nat -> (j < n)%nat -> A i j = A j i) s0 k f : (forall i, cd s0 i = cr s0 i) -> steps s0 k f ->
    forall i j, (i < j)%nat -> (j <= k)%nat -> dot n (cr (f i)) (cr (f j)) = 0 /\ dot n (cd (f i)) (amul n A (cd (f j))) = 0.
  Proof.
    intros D0 H. destruct (steps_at _ _ _ H) as [F0 ST]. clear H.
    induction k as [|k IH]; intros i j Hij Hj; [lia|]. destruct (Nat.eq_dec j (S k)) as [->|]; [|apply IH; [intros; apply ST; lia|exact Hij|lia]].
    assert (IH' := IH (fun i Hi => ST i (Nat.lt_lt_succ_r _ _ Hi))). clear IH.
    pose proof (cg_step_inv _ _ (ST k ltac:(lia))) as K. cbv zeta in K. destruct K as (NA & NR & _ & R1 & D1).
    set (al := dot n (cr (f k)) (cr (f k)) / dot n (cd (f k)) (amul n A (cd (f k)))) in *.
    (* r_i · A d_k *)
    assert (RA : forall i, (i <= k)%nat -> dot n (cr (f i)) (amul n A (cd (f k))) = if (i =? k)%nat then dot n (cd (f k)) (amul n A (cd (f k))) else 0).
    { intros i0 Hi0. destruct i0 as [|i0].
      - rewrite (dot_ext (cr (f O)) _ (cd (f O)) (amul n A (cd (f k)))); [|intros; rewrite F0, D0; reflexivity|reflexivity].
        destruct (Nat.eqb_spec 0 k) as [<-|N]; [reflexivity|]. apply IH'; lia.
      - pose proof (cg_step_inv _ _ (ST i0 ltac:(lia))) as K. cbv zeta in K. destruct K as (_ & _ & _ & _ & D2).
        set (be := dot n (cr (f (S i0))) (cr (f (S i0))) / dot n (cr (f i0)) (cr (f i0))) in *.
        rewrite (dot_ext (cr (f (S i0))) _ (fun i => cd (f (S i0)) i - be * cd (f i0) i) (amul n A (cd (f k)))); [|intros; rewrite D2; ring|reflexivity].
        rewrite dot_sub_l. rewrite (proj2 (IH' i0 k ltac:(lia) ltac:(lia))). destruct (Nat.eqb_spec (S i0) k) as [->|N]; [ring|]. rewrite (proj2 (IH' (S i0) k ltac:(lia) ltac:(lia))). ring. }
    assert (RR : forall i, (i <= k)%nat -> dot n (cr (f i)) (cr (f (S k))) = 0).
    { intros i0 Hi0. rewrite (dot_ext _ (cr (f (S k))) (cr (f i0)) (fun j => cr (f k) j - al * amul n A (cd (f k)) j)); [|reflexivity|intros; apply R1].
      rewrite dot_sub_r, RA by exact Hi0. destruct (Nat.eqb_spec i0 k) as [->|N]; [unfold al; field; exact NA|]. rewrite (proj1 (IH' i0 k ltac:(lia) ltac:(lia))). ring. }
    split; [apply RR; lia|].
    set (be := dot n (cr (f (S k))) (cr (f (S k))) / dot n (cr (f k)) (cr (f k))) in *.
    transitivity (dot n (cd (f i)) (fun l => amul n A (cr (f (S k))) l + be * amul n A (cd (f k)) l)).
    { apply dot_ext; [reflexivity|]. intros l Hl. rewrite <- amul_lin. apply amul_ext. intros; apply D1. }
    rewrite dot_lin_r, (dot_sym SY (cd (f i)) (cr (f (S k)))).
    pose proof (cg_step_inv _ _ (ST i ltac:(lia))) as K. cbv zeta in K. destruct K as (NA2 & NR2 & _ & R2 & _).
    set (al2 := dot n (cr (f i)) (cr (f i)) / dot n (cd (f i)) (amul n A (cd (f i)))) in *.
    assert (AZ : al2 <> 0) by (unfold al2; unfold Rdiv; apply Rmult_integral_contrapositive_currified; [exact NR2|apply Rinv_neq_0_compat; exact NA2]).
    assert (Q : dot n (cr (f (S k))) (amul n A (cd (f i))) = (dot n (cr (f i)) (cr (f (S k))) - dot n (cr (f (S i))) (cr (f (S k)))) / al2).
    { assert (X : dot n (cr (f (S k))) (cr (f (S i))) = dot n (cr (f (S k))) (cr (f i)) - al2 * dot n (cr (f (S k))) (amul n A (cd (f i)))).
      { rewrite <- dot_sub_r. apply dot_ext; [reflexivity|]. intros; apply R2. }
      rewrite (dot_comm (cr (f i))), (dot_comm (cr (f (S i)))), X. field. exact AZ. }
    rewrite Q, (RR i) by lia. destruct (Nat.eq_dec i k) as [->|NE].
    - replace al2 with al by reflexivity. unfold be, al. field. split; assumption.
    - rewrite (RR (S i)) by lia. rewrite (proj2 (IH' i k ltac:(lia) ltac:(lia))). field. exact AZ.
  Qed.

  (** directions so far are orthogonal to the new residual, and d·r = r·r *)
  Lemma direction_residual (SY : forall i j, (i < n)%nat -> (j < n)%nat -> A i j = A j i) s0 k f : (forall i, cd s0 i = cr s0 i) -> steps s0 k f ->
    forall i j, (i < j)%nat -> (j <= k)%nat -> dot n (cd (f i)) (cr (f j)) = 0.
  Proof.
    intros D0 H. pose proof (orthogonality SY s0 k f D0 H) as OR. destruct (steps_at _ _ _ H) as [F0 ST].
    induction i as [|i IH]; intros j Hij Hj.
    - rewrite (dot_ext (cd (f O)) _ (cr (f O)) (cr (f j))); [apply OR; assumption|intros; rewrite F0; apply D0|reflexivity].
    - pose proof (cg_step_inv _ _ (ST i ltac:(lia))) as K. cbv zeta in K. destruct K as (_ & _ & _ & _ & D).
      rewrite (dot_ext (cd (f (S i))) _ _ (cr (f j)) (fun l _ => D l)) by reflexivity. rewrite dot_lin_l, (proj1 (OR (S i) j Hij Hj)), IH by lia. ring.
  Qed.
  Lemma direction_self (SY : forall i j, (i < n)%nat -> (j < n)%nat -> A i j = A j i) s0 k f : (forall i, cd s0 i = cr s0 i) -> steps s0 k f ->
    dot n (cd (f k)) (cr (f k)) = dot n (cr (f k)) (cr (f k)).
  Proof.
    intros D0 H. pose proof (direction_residual SY s0 k f D0 H) as DR. destruct (steps_at _ _ _ H) as [F0 ST]. destruct k as [|k].
    - apply dot_ext; [|reflexivity]. intros; rewrite F0; apply D0.
    - pose proof (cg_step_inv _ _ (ST k ltac:(lia))) as K. cbv zeta in K. destruct K as (_ & _ & _ & _ & D).
      rewrite (dot_ext (cd (f (S k))) _ _ (cr (f (S k))) (fun l _ => D l)) by reflexivity. rewrite dot_lin_l, (DR k (S k)) by lia. ring.
  Qed.

  (** ** the loop *)
  Lemma steps_ext s0 k f g : steps s0 k f -> (forall i, (i <= k)%nat -> g i = f i) -> steps s0 k g.
  Proof.
    induction 1 as [f H|k f H IH HS]; intros E; [constructor; rewrite E by lia; exact H|]. constructor; [apply IH; intros; apply E; lia|]. rewrite !E by lia. exact HS.
  Qed.
  Lemma steps_snoc s0 k f s : steps s0 k f -> cg_step n A (f k) = Some s -> steps s0 (S k) (fun i => if (i <=? k)%nat then f i else s).
  Proof.
    intros H E. constructor.
    - apply (steps_ext _ _ _ _ H). intros i Hi. rewrite (proj2 (Nat.leb_le _ _) Hi). reflexivity.
    - rewrite Nat.leb_refl. rewrite (proj2 (Nat.leb_gt _ _)) by lia. exact E.
  Qed.

  Context (p : cg_params) (nr0 : R).
  Definition stops (s : cg_state) : Prop := going p (fdiv (norm n (cr s)) nr0) = false.
  Lemma loop_spec s0 : forall k iter f, steps s0 iter f -> (forall i, (i < iter)%nat -> ~ stops (f i)) ->
    match cg_loop p n A nr0 k iter (f iter) with
    | Finished s m => (iter <= m <= iter + k)%nat /\ (exists g, steps s0 m g /\ g m = s /\ forall i, (i < m)%nat -> ~ stops (g i)) /\ (stops s \/ m = (iter + k)%nat)
    | Broken m => (iter < m <= iter + k)%nat /\ exists g, steps s0 (m - 1) g /\ ~ stops (g (m - 1)%nat) /\ cg_step n A (g (m - 1)%nat) = None /\ forall i, (i < m)%nat -> ~ stops (g i)
    end.
  Proof.
    induction k as [|k IH]; intros iter f H HN; cbn [cg_loop].
    - split; [lia|]. split; [exists f; auto|]. right. lia.
    - destruct (going p (fdiv (norm n (cr (f iter))) nr0)) eqn:G.
      + destruct (cg_step n A (f iter)) as [s|] eqn:E.
        * pose proof (steps_snoc _ _ _ _ H E) as H2. set (g := fun i => if (i <=? iter)%nat then f i else s) in *.
          assert (EG : g (S iter) = s) by (unfold g; rewrite (proj2 (Nat.leb_gt _ _)) by lia; reflexivity).
          assert (NG : forall i, (i < S iter)%nat -> ~ stops (g i)).
          { intros i Hi. unfold g. rewrite (proj2 (Nat.leb_le _ _)) by lia. destruct (Nat.eq_dec i iter) as [->|]; [unfold stops; congruence|apply HN; lia]. }
          specialize (IH (S iter) g H2 NG). rewrite EG in IH. destruct (cg_loop p n A nr0 k (S iter) s) as [s' m|m].
          -- destruct IH as (B & X & Y). split; [lia|]. split; [exact X|]. destruct Y; [left; assumption|right; lia].
          -- destruct IH as (B & X). split; [lia|exact X].
        * split; [lia|]. exists f. replace (S iter - 1)%nat with iter by lia. split; [exact H|]. split; [unfold stops; congruence|]. split; [exact E|].
          intros i Hi. destruct (Nat.eq_dec i iter) as [->|]; [unfold stops; congruence|apply HN; lia].
      + split; [lia|]. split; [exists f; auto|]. left. exact G.
  Qed.
End Dot.
