(** Weights, number of points and moments of the Grundmann-Moeller rule. *)
From Coq Require Import List Arith Bool Reals Lia Lra Factorial.
From Verif Require Import Common Poly_Spec Poly_Proofs GM_Model GM_Proofs GM2_Proofs.
Import ListNotations.
Local Open Scope nat_scope.

(** ** binomials *)
Lemma choose_n n : choose n n = 1 /\ forall k, n < k -> choose n k = 0.
Proof.
  induction n as [|n [A B]]; [split; [reflexivity|intros [|k] H; [lia|reflexivity]]|]. split.
  - cbn [choose]. rewrite A, B by lia. reflexivity.
  - intros [|k] H; [lia|]. cbn [choose]. rewrite !B by lia. reflexivity.
Qed.
Lemma choose_absorb n : forall k, S k * choose (S n) (S k) = S n * choose n k.
Proof.
  induction n as [|n IH]; intros k.
  - destruct k; cbn; lia.
  - destruct k as [|k].
    + cbn [choose]. rewrite (choose_0 n). pose proof (IH 0) as K. cbn [choose] in K. rewrite choose_0 in K. lia.
    + change (choose (S (S n)) (S (S k))) with (choose (S n) (S k) + choose (S n) (S (S k))).
      pose proof (IH k) as A. pose proof (IH (S k)) as B. change (choose (S n) (S k)) with (choose n k + choose n (S k)) in *.
      revert A B. generalize (choose n k), (choose n (S k)), (choose (S n) (S (S k))). intros p q y A B. lia.
Qed.
Lemma choose_fact n : forall k, k <= n -> choose n k * (fact k * fact (n - k)) = fact n.
Proof.
  induction n as [|n IH]; intros k H; [replace k with 0 by lia; reflexivity|]. destruct k as [|k]; [rewrite choose_0, Nat.sub_0_r; cbn [fact]; lia|].
  replace (S n - S k) with (n - k) by lia. pose proof (choose_absorb n k) as A. pose proof (IH k ltac:(lia)) as B.
  rewrite (fact_simpl k), (fact_simpl n), <- B.
  replace (choose (S n) (S k) * (S k * fact k * fact (n - k))) with (S k * choose (S n) (S k) * (fact k * fact (n - k))) by ring. rewrite A. ring.
Qed.
Lemma choose_sym n k : k <= n -> choose n (n - k) = choose n k.
Proof.
  intros H. pose proof (choose_fact n k H) as A. pose proof (choose_fact n (n - k) ltac:(lia)) as B. replace (n - (n - k)) with k in B by lia.
  pose proof (lt_O_fact k). pose proof (lt_O_fact (n - k)).
  assert (P : 0 < fact k * fact (n - k)) by nia. rewrite (Nat.mul_comm (fact (n - k))) in B. rewrite <- A in B. apply Nat.mul_cancel_r in B; lia.
Qed.

Lemma i4_choose_ok n k : i4_choose n k = choose n k.
Proof.
  unfold i4_choose. destruct (Nat.ltb_spec n k) as [H|H]; [symmetry; apply choose_n; exact H|].
  set (mn := Nat.min k (n - k)). set (mx := Nat.max k (n - k)).
  assert (Q : choose n k = choose (mx + mn) mn).
  { unfold mn, mx. destruct (le_lt_dec k (n - k)).
    - rewrite Nat.min_l, Nat.max_r by lia. f_equal. lia.
    - rewrite Nat.min_r, Nat.max_l by lia. replace (k + (n - k)) with n by lia. symmetry. apply choose_sym. exact H. }
  rewrite Q. destruct (Nat.eqb_spec mn 0) as [->|Hm]; [rewrite choose_0; reflexivity|].
  assert (C1 : choose (mx + 1) 1 = mx + 1).
  { clear. induction mx as [|m IH]; [reflexivity|]. cbn [Nat.add choose] in *. rewrite choose_0. rewrite IH. lia. }
  assert (G : forall c, fold_left (fun value i => value * (mx + i) / i) (seq 2 c) (mx + 1) = choose (mx + (c + 1)) (c + 1)).
  { induction c as [|c IH]; [cbn [seq fold_left Nat.add]; symmetry; exact C1|]. rewrite seq_S, fold_left_app, IH. cbn [fold_left].
    replace (2 + c) with (S (c + 1)) by lia. replace (S c + 1) with (S (c + 1)) by lia.
    replace (mx + S (c + 1)) with (S (mx + (c + 1))) by lia. rewrite (Nat.mul_comm (choose _ _)), <- choose_absorb, Nat.mul_comm. apply Nat.div_mul. lia. }
  rewrite G. replace (mn - 1 + 1) with mn by lia. reflexivity.
Qed.

(** ** how many compositions *)
Fixpoint nsm (n : nat) (f : nat -> nat) : nat := match n with 0 => 0 | S m => nsm m f + f m end.
Lemma nsm_ext n f g : (forall i, i < n -> f i = g i) -> nsm n f = nsm n g.
Proof. induction n as [|n IH]; intros H; [reflexivity|]. cbn [nsm]. rewrite IH, H; auto. Qed.
Lemma nsm_head n f : nsm (S n) f = f 0 + nsm n (fun i => f (S i)).
Proof. induction n as [|n IH]; [cbn [nsm]; lia|]. cbn [nsm] in *. rewrite IH. lia. Qed.
Lemma nsm_rev n f : nsm n (fun i => f (n - 1 - i)) = nsm n f.
Proof.
  induction n as [|n IH]; [reflexivity|]. rewrite nsm_head. cbn [nsm]. rewrite <- IH, Nat.add_comm. f_equal; [|f_equal; lia]. apply nsm_ext. intros i Hi. f_equal. lia.
Qed.
(** hockey stick *)
Lemma hockey k m : nsm (S m) (fun i => choose (k + i) k) = choose (k + m + 1) (k + 1).
Proof.
  induction m as [|m IH].
  - cbn [nsm]. rewrite Nat.add_0_r. rewrite (proj1 (choose_n k)). rewrite (proj1 (choose_n (k + 1))). reflexivity.
  - cbn [nsm] in *. rewrite IH. replace (k + S m + 1) with (S (k + m + 1)) by lia. replace (k + 1) with (S k) by lia. cbn [choose].
    replace (k + m + 1) with (k + S m) by lia. lia.
Qed.
Lemma flat_len {A} (f : nat -> list A) n s : length (flat_map f (seq s n)) = nsm n (fun i => length (f (s + i))).
Proof.
  revert s. induction n as [|n IH]; intros s; [reflexivity|]. cbn [seq flat_map]. rewrite app_length, IH, nsm_head. rewrite Nat.add_0_r. f_equal.
  apply nsm_ext. intros. rewrite Nat.add_succ_comm. reflexivity.
Qed.
Lemma enum_length k : forall m, length (enum (S k) m) = choose (k + m) k.
Proof.
  induction k as [|k IH]; intros m.
  - destruct (enum_chain 0 m) as (l & E & C). rewrite choose_0. cbn [enum] in *. rewrite flat_len.
    rewrite (nsm_ext _ _ (fun i => if i =? m then 1 else 0)).
    + assert (G : forall n, nsm n (fun i => if i =? m then 1 else 0) = if m <? n then 1 else 0).
      { induction n as [|n IHn]; [reflexivity|]. cbn [nsm]. rewrite IHn. destruct (Nat.ltb_spec m n), (Nat.eqb_spec n m), (Nat.ltb_spec m (S n)); lia. }
      rewrite G. destruct (Nat.ltb_spec m (S m)); [reflexivity|lia].
    + intros i Hi. rewrite map_length. destruct (Nat.eqb_spec (m - (0 + i)) 0), (Nat.eqb_spec i m); cbn [length]; lia.
  - change (enum (S (S k)) m) with (flat_map (fun j => map (fun l => l ++ [j]) (enum (S k) (m - j))) (seq 0 (S m))). rewrite flat_len.
    rewrite (nsm_ext _ _ (fun i => (fun j => choose (k + j) k) (S m - 1 - i))).
    + rewrite (nsm_rev (S m) (fun j => choose (k + j) k)), hockey. f_equal; lia.
    + intros i Hi. rewrite map_length. rewrite IH. f_equal. lia.
Qed.

(** ** the weights *)
Local Open Scope R_scope.
Lemma fold_mult (g : nat -> R) step l : (forall w j, In j l -> step w j = w * g j) ->
  forall w, fold_left step l w = w * fold_right (fun j p => g j * p) 1 l.
Proof.
  induction l as [|j l IH]; intros H w; cbn [fold_left fold_right]; [ring|]. rewrite H by (left; reflexivity). rewrite IH by (intros; apply H; right; assumption). ring.
Qed.
Definition pr (l : list nat) (g : nat -> R) : R := fold_right (fun j p => g j * p) 1 l.
Lemma pr_mult l f g : pr l (fun j => f j * g j) = pr l f * pr l g.
Proof. induction l as [|j l IH]; unfold pr in *; cbn [fold_right]; [ring|]. rewrite IH. ring. Qed.
Lemma pr_app l l' g : pr (l ++ l') g = pr l g * pr l' g.
Proof. induction l as [|j l IH]; unfold pr in *; cbn [app fold_right]; [ring|]. rewrite IH. ring. Qed.
Lemma pr_one l g : (forall j, In j l -> g j = 1) -> pr l g = 1.
Proof. induction l as [|j l IH]; intros H; [reflexivity|]. unfold pr in *. cbn [fold_right]. rewrite H by (left; reflexivity). rewrite IH by (intros; apply H; right; assumption). ring. Qed.
Lemma pr_ext l f g : (forall j, In j l -> f j = g j) -> pr l f = pr l g.
Proof. induction l as [|j l IH]; intros H; [reflexivity|]. unfold pr in *. cbn [fold_right]. rewrite H by (left; reflexivity). rewrite IH by (intros; apply H; right; assumption). reflexivity. Qed.
(** a factor present only up to m *)
Lemma pr_upto J m g : (m <= J)%nat -> pr (seq 1 J) (fun j => if (j <=? m)%nat then g j else 1) = pr (seq 1 m) g.
Proof.
  intros H. replace J with (m + (J - m))%nat by lia. rewrite seq_app, pr_app.
  rewrite (pr_one (seq (1 + m) (J - m))); [rewrite Rmult_1_r|].
  - apply pr_ext. intros j Hj. apply in_seq in Hj. destruct (Nat.leb_spec j m); [reflexivity|lia].
  - intros j Hj. apply in_seq in Hj. destruct (Nat.leb_spec j m); [lia|reflexivity].
Qed.
Lemma pr_fact m : pr (seq 1 m) INR = INR (fact m).
Proof. induction m as [|m IH]; [reflexivity|]. rewrite seq_S, pr_app, IH. unfold pr; cbn [fold_right]. rewrite fact_simpl, mult_INR. replace (1 + m)%nat with (S m) by lia. ring. Qed.
Lemma pr_inv_fact m : pr (seq 1 m) (fun j => / INR j) = / INR (fact m).
Proof.
  induction m as [|m IH]; [cbn; field|]. rewrite seq_S, pr_app, IH. unfold pr; cbn [fold_right]. rewrite fact_simpl, mult_INR. replace (1 + m)%nat with (S m) by lia.
  rewrite Rinv_mult. ring.
Qed.
Lemma pr_const m c : pr (seq 1 m) (fun _ => c) = c ^ m.
Proof. induction m as [|m IH]; [reflexivity|]. rewrite seq_S, pr_app, IH. unfold pr; cbn [fold_right pow]. ring. Qed.

Lemma gm_weight_ok n s i e : (i <= s)%nat -> let d := (2 * s + 1)%nat in
  gm_weight n d s i e = e * (INR (fact n) * INR (d + n - 2 * i) ^ d / 2 ^ (2 * s) / INR (fact i) / INR (fact (d + n - i))).
Proof.
  intros Hi d. unfold gm_weight. set (J := Nat.max n (Nat.max d (d + n - i))).
  rewrite (fold_mult (fun j => (if (j <=? n)%nat then INR j else 1) * ((if (j <=? d)%nat then INR (d + n - 2 * i) else 1) *
     ((if (j <=? 2 * s)%nat then / 2 else 1) * ((if (j <=? i)%nat then / INR j else 1) * (if (j <=? d + n - i)%nat then / INR j else 1)))))).
  - f_equal. fold (pr (seq 1 J) (fun j => (if (j <=? n)%nat then INR j else 1) * ((if (j <=? d)%nat then INR (d + n - 2 * i) else 1) *
     ((if (j <=? 2 * s)%nat then / 2 else 1) * ((if (j <=? i)%nat then / INR j else 1) * (if (j <=? d + n - i)%nat then / INR j else 1)))))).
    rewrite !pr_mult.
    rewrite (pr_upto J n INR) by (unfold J; lia). rewrite (pr_upto J d (fun _ => INR (d + n - 2 * i))) by (unfold J; lia).
    rewrite (pr_upto J (2 * s) (fun _ => / 2)) by (unfold J, d; lia). rewrite (pr_upto J i (fun j => / INR j)) by (unfold J, d; lia).
    rewrite (pr_upto J (d + n - i) (fun j => / INR j)) by (unfold J; lia).
    rewrite pr_fact, !pr_inv_fact, !pr_const, pow_inv. unfold Rdiv. ring.
  - intros w j _. unfold gm_wstep. destruct (j <=? n)%nat, (j <=? d)%nat, (j <=? 2 * s)%nat, (j <=? i)%nat, (j <=? d + n - i)%nat; unfold Rdiv; ring.
Qed.
