(** The combinatorial identity behind the Grundmann-Moeller weights: sequences over R, with
    D f k = f k - f (k-1) (multiplication of the generating function by 1 - t). *)
From Coq Require Import List Arith Bool Reals Lia Lra.
Import ListNotations.
Local Open Scope R_scope.

Fixpoint rs (n : nat) (f : nat -> R) : R := match n with O => 0 | S m => rs m f + f m end.
Lemma rs_ext n f g : (forall i, (i < n)%nat -> f i = g i) -> rs n f = rs n g.
Proof. induction n as [|n IH]; intros H; [reflexivity|]. cbn [rs]. rewrite IH by (intros; apply H; lia). rewrite H by lia. reflexivity. Qed.
Lemma rs_plus n f g : rs n (fun i => f i + g i) = rs n f + rs n g.
Proof. induction n as [|n IH]; [cbn; ring|]. cbn [rs]. rewrite IH. ring. Qed.
Lemma rs_scal n c f : rs n (fun i => c * f i) = c * rs n f.
Proof. induction n as [|n IH]; [cbn; ring|]. cbn [rs]. rewrite IH. ring. Qed.
Lemma rs_zero n f : (forall i, (i < n)%nat -> f i = 0) -> rs n f = 0.
Proof. intros H. rewrite (rs_ext n f (fun _ => 0)) by exact H. clear. induction n as [|n IH]; [reflexivity|]. cbn [rs]. rewrite IH. ring. Qed.
Lemma rs_head n f : rs (S n) f = f O + rs n (fun i => f (S i)).
Proof. induction n as [|n IH]; [cbn; ring|]. cbn [rs] in *. rewrite IH. ring. Qed.
Lemma rs_split n m f : rs (n + m) f = rs n f + rs m (fun i => f (n + i)%nat).
Proof. induction m as [|m IH]; [rewrite Nat.add_0_r; cbn; ring|]. rewrite Nat.add_succ_r. cbn [rs]. rewrite IH. ring. Qed.
Lemma rs_rev n f : rs n (fun i => f (n - 1 - i)%nat) = rs n f.
Proof.
  induction n as [|n IH]; [reflexivity|]. rewrite rs_head. cbn [rs]. rewrite <- IH, Rplus_comm. f_equal.
  - apply rs_ext. intros i Hi. f_equal. lia.
  - f_equal. lia.
Qed.
Lemma rs_swap n m (f : nat -> nat -> R) : rs n (fun i => rs m (f i)) = rs m (fun j => rs n (fun i => f i j)).
Proof. induction n as [|n IH]; [cbn; symmetry; apply rs_zero; reflexivity|]. cbn [rs]. rewrite IH, <- rs_plus. reflexivity. Qed.
(** terms beyond the support may be added *)
Lemma rs_more n m f : (n <= m)%nat -> (forall i, (n <= i)%nat -> f i = 0) -> rs m f = rs n f.
Proof. intros H Z. replace m with (n + (m - n))%nat by lia. rewrite rs_split, (rs_zero (m - n)); [ring|]. intros; apply Z; lia. Qed.

Definition seqR := nat -> R.
Definition shift (f : seqR) : seqR := fun k => match k with O => 0 | S j => f j end.
Definition D (f : seqR) : seqR := fun k => f k - shift f k.
Fixpoint Dn (m : nat) (f : seqR) : seqR := match m with O => f | S m => D (Dn m f) end.
Definition ext (g : seqR) (k i : nat) : R := if (i <=? k)%nat then g (k - i)%nat else 0.
Definition conv (f g : seqR) : seqR := fun k => rs (S k) (fun i => f i * g (k - i)%nat).
Definition delta : seqR := fun k => match k with O => 1 | _ => 0 end.

Lemma D_ext f g : (forall k, f k = g k) -> forall k, D f k = D g k.
Proof. intros H k. unfold D, shift. rewrite H. destruct k; [reflexivity|]. rewrite H. reflexivity. Qed.
Lemma Dn_ext m f g : (forall k, f k = g k) -> forall k, Dn m f k = Dn m g k.
Proof. intros H. induction m as [|m IH]; cbn [Dn]; [exact H|]. apply D_ext. exact IH. Qed.
Lemma Dn_D m f k : Dn m (D f) k = D (Dn m f) k.
Proof. revert k. induction m as [|m IH]; intros k; [reflexivity|]. cbn [Dn]. apply D_ext. exact IH. Qed.
Lemma Dn_add m n f k : Dn (m + n) f k = Dn m (Dn n f) k.
Proof. revert k. induction m as [|m IH]; intros k; [reflexivity|]. cbn [Nat.add Dn]. apply D_ext. exact IH. Qed.

(** summation undoes D *)
Lemma D_sum f k : rs (S k) (D f) = f k.
Proof. induction k as [|k IH]; [cbn; unfold D, shift; ring|]. cbn [rs] in *. rewrite IH. unfold D, shift. ring. Qed.

Lemma conv_ext f f' g g' : (forall k, f k = f' k) -> (forall k, g k = g' k) -> forall k, conv f g k = conv f' g' k.
Proof. intros H H' k. unfold conv. apply rs_ext. intros. rewrite H, H'. reflexivity. Qed.
Lemma conv_comm f g k : conv f g k = conv g f k.
Proof.
  unfold conv. rewrite <- rs_rev. apply rs_ext. intros i Hi. replace (S k - 1 - i)%nat with (k - i)%nat by lia.
  replace (k - (k - i))%nat with i by lia. ring.
Qed.
Lemma conv_window f g k N : (k <= N)%nat -> conv f g k = rs (S N) (fun i => f i * ext g k i).
Proof.
  intros H. unfold conv. symmetry. rewrite (rs_more (S k) (S N)); [|lia|].
  - apply rs_ext. intros i Hi. unfold ext. destruct (Nat.leb_spec i k); [reflexivity|lia].
  - intros i Hi. unfold ext. destruct (Nat.leb_spec i k); [lia|ring].
Qed.
Lemma conv_shift f g k : conv (shift f) g k = shift (conv f g) k.
Proof.
  destruct k as [|k]; [unfold conv; cbn; ring|]. unfold conv at 1. rewrite rs_head. cbn [shift]. unfold conv.
  rewrite Rmult_0_l, Rplus_0_l. apply rs_ext. intros. reflexivity.
Qed.
Lemma conv_D f g k : conv (D f) g k = D (conv f g) k.
Proof.
  unfold D at 2. rewrite <- conv_shift. unfold conv. rewrite <- Rmult_1_l with (r := rs _ (fun i => shift f i * _)).
  replace (1 * rs (S k) (fun i => shift f i * g (k - i)%nat)) with (- (-1 * rs (S k) (fun i => shift f i * g (k - i)%nat))) by ring.
  rewrite <- rs_scal. unfold Rminus. rewrite Ropp_involutive, <- rs_plus. apply rs_ext. intros i _. unfold D. ring.
Qed.
Lemma conv_Dn m f g k : conv (Dn m f) g k = Dn m (conv f g) k.
Proof.
  revert k. induction m as [|m IH]; intros k; [reflexivity|]. cbn [Dn]. rewrite conv_D. apply D_ext. exact IH.
Qed.
Lemma conv_Dn2 m n f g k : conv (Dn m f) (Dn n g) k = Dn (m + n) (conv f g) k.
Proof.
  rewrite conv_Dn, Dn_add. apply Dn_ext. intros j. rewrite conv_comm, conv_Dn. apply Dn_ext. intros i. apply conv_comm.
Qed.

(** alternating binomial sums *)
Fixpoint choose (n k : nat) : nat :=
  match n, k with _, O => 1%nat | O, S _ => 0%nat | S n, S k => (choose n k + choose n (S k))%nat end.
Lemma choose_0 n : choose n 0 = 1%nat. Proof. destruct n; reflexivity. Qed.
Lemma Dn_sum m f k : Dn m f k = rs (S k) (fun i => (-1) ^ i * INR (choose m i) * f (k - i)%nat).
Proof.
  revert k. induction m as [|m IH]; intros k.
  - cbn [Dn]. rewrite rs_head, (rs_zero k); [|intros i _; cbn [choose INR]; ring]. cbn [choose pow INR]. rewrite Nat.sub_0_r. ring.
  - cbn [Dn]. unfold D. rewrite IH, rs_head. symmetry. rewrite rs_head. rewrite !choose_0. cbn [pow INR].
    destruct k as [|k]; [cbn [shift rs]; ring|]. cbn [shift]. rewrite IH.
    rewrite (rs_ext _ (fun i => (-1) ^ S i * INR (choose (S m) (S i)) * f (S k - S i)%nat)
      (fun i => (-1) ^ S i * INR (choose m (S i)) * f (S k - S i)%nat + (-1) * ((-1) ^ i * INR (choose m i) * f (k - i)%nat))).
    + rewrite rs_plus, rs_scal. cbn [pow]. ring.
    + intros i _. cbn [choose]. rewrite plus_INR. cbn [pow]. replace (S k - S i)%nat with (k - i)%nat by lia. ring.
Qed.

(** ** The odd powers F_a(b) = (2b+1)^a and their numerators *)
Definition F (a : nat) : seqR := fun b => (2 * INR b + 1) ^ a.
Definition E (f : seqR) : seqR := fun k => (2 * INR k + 1) * f k.
Fixpoint A (a : nat) : seqR :=
  match a with
  | O => delta
  | S a => fun k => (2 * INR k + 1) * A a k + (2 * (INR a - INR k) + 3) * shift (A a) k
  end.
Lemma F_S a k : F (S a) k = E (F a) k. Proof. reflexivity. Qed.
Lemma D_E f k : D (E f) k = E (D f) k + 2 * shift f k.
Proof. unfold D, E, shift. destruct k as [|k]; [cbn [INR]; ring|]. rewrite S_INR. ring. Qed.
Lemma shift_D f k : shift (D f) k = D (shift f) k.
Proof. destruct k as [|[|k]]; unfold D, shift; try ring. Qed.
Lemma shift_ext f g : (forall k, f k = g k) -> forall k, shift f k = shift g k.
Proof. intros H [|k]; [reflexivity|apply H]. Qed.
Lemma D_lin c f g k : D (fun j => f j + c * g j) k = D f k + c * D g k.
Proof. unfold D, shift. destruct k; ring. Qed.
Lemma Dn_E m f k : Dn (S m) (E f) k = E (Dn (S m) f) k + 2 * INR (S m) * shift (Dn m f) k.
Proof.
  revert k. induction m as [|m IH]; intros k.
  - cbn [Dn]. rewrite D_E. cbn [INR]. ring.
  - change (Dn (S (S m)) (E f) k) with (D (Dn (S m) (E f)) k). rewrite (D_ext _ _ IH k).
    rewrite (D_lin (2 * INR (S m)) (E (Dn (S m) f)) (shift (Dn m f))), D_E, <- shift_D. rewrite (S_INR (S m)). cbn [Dn]. ring.
Qed.
Lemma numerators a k : Dn (S a) (F a) k = A a k.
Proof.
  revert k. induction a as [|a IH]; intros k.
  - cbn. unfold D, shift, F, delta. destruct k; cbn [pow]; ring.
  - rewrite (Dn_ext _ _ _ (F_S a)). rewrite Dn_E. unfold E. change (Dn (S (S a)) (F a) k) with (D (Dn (S a) (F a)) k).
    rewrite (D_ext _ _ IH), (shift_ext _ _ IH). unfold D. cbn [A]. rewrite !S_INR. ring.
Qed.

(** palindromic sequences of degree a *)
Definition pal (a : nat) (f : seqR) : Prop := (forall k, (a < k)%nat -> f k = 0) /\ (forall k, (k <= a)%nat -> f (a - k)%nat = f k).
Lemma pal_A a : pal a (A a).
Proof.
  induction a as [|a [Z P]].
  - split; intros k H; [destruct k; [lia|reflexivity]|]. replace k with 0%nat by lia. reflexivity.
  - split.
    + intros k H. cbn [A]. destruct k as [|k]; [lia|]. cbn [shift]. rewrite Z by lia. rewrite Z by lia. ring.
    + intros k H. cbn [A]. destruct k as [|k].
      * rewrite Nat.sub_0_r. cbn [shift]. rewrite (Z (S a)) by lia. rewrite S_INR. pose proof (P 0%nat (Nat.le_0_l _)) as P0. rewrite Nat.sub_0_r in P0.
        rewrite P0. cbn [INR]. ring.
      * replace (S a - S k)%nat with (a - k)%nat by lia. cbn [shift]. destruct (Nat.eq_dec k a) as [->|N].
        { rewrite Nat.sub_diag. cbn [shift]. rewrite (Z (S a)) by lia. rewrite S_INR. pose proof (P 0%nat (Nat.le_0_l _)) as P0. rewrite Nat.sub_0_r in P0.
          rewrite <- P0. cbn [INR]. ring. }
        { rewrite (P k) by lia. replace (a - k)%nat with (S (a - S k)) by lia. cbn [shift]. rewrite (P (S k)) by lia.
          rewrite !S_INR, minus_INR by lia. rewrite S_INR. ring. }
Qed.
Lemma pal_delta : pal 0 delta. Proof. apply (pal_A 0). Qed.

Lemma conv_support a b f g : pal a f -> forall k, (k <= a + b)%nat -> conv f g k = rs (S a) (fun i => f i * ext g k i).
Proof.
  intros [Z _] k H. rewrite (conv_window f g k (a + b)) by exact H. apply rs_more; [lia|]. intros i Hi. rewrite Z by lia. ring.
Qed.
Lemma pal_conv a b f g : pal a f -> pal b g -> pal (a + b) (conv f g).
Proof.
  intros Pf Pg. pose proof Pf as [Zf Qf]. pose proof Pg as [Zg Qg]. split.
  - intros k H. unfold conv. apply rs_zero. intros i Hi. destruct (le_lt_dec i a); [rewrite (Zg (k - i)%nat) by lia; ring|rewrite Zf by lia; ring].
  - intros k H. rewrite !(conv_support a b) by (assumption || lia).
    rewrite <- (rs_rev (S a) (fun i => f i * ext g k i)). apply rs_ext. intros i Hi.
    replace (S a - 1 - i)%nat with (a - i)%nat by lia. rewrite Qf by lia. f_equal. unfold ext.
    destruct (Nat.leb_spec i (a + b - k)), (Nat.leb_spec (a - i) k); try reflexivity.
    + replace (a + b - k - i)%nat with (b - (k - (a - i)))%nat by lia. apply Qg. lia.
    + apply Zg. lia.
    + symmetry. apply Zg. lia.
Qed.
Definition total (a : nat) (f : seqR) : R := rs (S a) f.
Lemma total_conv a b f g : pal a f -> pal b g -> total (a + b) (conv f g) = total a f * total b g.
Proof.
  intros Pf Pg. unfold total. rewrite (rs_ext _ _ (fun k => rs (S a) (fun i => f i * ext g k i))) by (intros k Hk; apply (conv_support a b); [exact Pf|lia]).
  rewrite rs_swap, Rmult_comm, <- rs_scal. apply rs_ext. intros i Hi. rewrite rs_scal, Rmult_comm. f_equal.
  replace (S (a + b)) with (i + (S (a + b) - i))%nat by lia. rewrite rs_split, (rs_zero i).
  - rewrite Rplus_0_l. rewrite (rs_ext _ _ g).
    + apply rs_more; [lia|]. intros. apply Pg. lia.
    + intros j _. unfold ext. destruct (Nat.leb_spec i (i + j)); [f_equal; lia|lia].
  - intros j Hj. unfold ext. destruct (Nat.leb_spec i j); [lia|reflexivity].
Qed.
Lemma total_A a : total a (A a) = 2 ^ a * INR (fact a).
Proof.
  induction a as [|a IH]; [cbn; ring|]. pose proof (pal_A a) as [Z _]. unfold total in *. cbn [A]. rewrite rs_plus.
  rewrite (rs_head (S a) (fun i => (2 * (INR a - INR i) + 3) * shift (A a) i)). cbn [shift].
  rewrite (rs_more (S a) (S (S a)) (fun i => (2 * INR i + 1) * A a i)); [|lia|intros i Hi; rewrite Z by lia; ring].
  rewrite Rmult_0_r, Rplus_0_l, <- rs_plus.
  rewrite (rs_ext _ _ (fun i => (2 * INR (S a)) * A a i)) by (intros i _; rewrite !S_INR; ring).
  rewrite rs_scal, IH. cbn [pow]. rewrite fact_simpl, mult_INR. ring.
Qed.
(** the first half of a palindromic sequence of odd degree *)
Lemma half s f : pal (2 * s + 1) f -> rs (S s) f = total (2 * s + 1) f / 2.
Proof.
  intros [_ P]. unfold total. replace (S (2 * s + 1)) with (S s + S s)%nat by lia. rewrite rs_split.
  replace (rs (S s) (fun i => f (S s + i)%nat)) with (rs (S s) f); [field|].
  rewrite <- (rs_rev (S s) (fun i => f (S s + i)%nat)). apply rs_ext. intros i Hi. rewrite <- (P i) by lia. f_equal. lia.
Qed.

(** ** products *)
Fixpoint cprod (l : list seqR) : seqR := match l with [] => delta | f :: r => conv f (cprod r) end.
Fixpoint nsum (l : list nat) : nat := match l with [] => 0%nat | a :: r => (a + nsum r)%nat end.
Fixpoint nfact (l : list nat) : R := match l with [] => 1 | a :: r => INR (fact a) * nfact r end.

Lemma cprod_pal al : pal (nsum al) (cprod (map A al)).
Proof. induction al as [|a al IH]; [apply pal_delta|]. cbn [map cprod nsum]. apply pal_conv; [apply pal_A|exact IH]. Qed.
Lemma cprod_total al : total (nsum al) (cprod (map A al)) = 2 ^ nsum al * nfact al.
Proof.
  induction al as [|a al IH]; [cbn; ring|]. cbn [map cprod nsum nfact]. rewrite total_conv by (apply pal_A || apply cprod_pal).
  rewrite total_A, IH, pow_add. ring.
Qed.
Lemma cprod_numer al k : Dn (nsum al + length al) (cprod (map F al)) k = cprod (map A al) k.
Proof.
  revert k. induction al as [|a al IH]; intros k; [reflexivity|]. cbn [map cprod nsum length].
  replace (a + nsum al + S (length al))%nat with (S a + (nsum al + length al))%nat by lia. rewrite <- conv_Dn2.
  apply conv_ext; [apply numerators|exact IH].
Qed.

(** the identity: |al| = 2 s + 1 over n + 1 variables *)
Theorem gm_identity s n al : length al = S n -> nsum al = (2 * s + 1)%nat ->
  rs (S s) (fun i => (-1) ^ i * INR (choose (2 * s + 1 + n) i) * cprod (map F al) (s - i)%nat) = 2 ^ (2 * s) * nfact al.
Proof.
  intros L N. rewrite <- Dn_sum. rewrite <- D_sum. change (D (Dn (2 * s + 1 + n) (cprod (map F al)))) with (Dn (S (2 * s + 1 + n)) (cprod (map F al))).
  replace (S (2 * s + 1 + n)) with (nsum al + length al)%nat by lia.
  rewrite (rs_ext _ _ _ (fun k _ => cprod_numer al k)). pose proof (cprod_pal al) as P. rewrite N in P. rewrite (half _ _ P), <- N, cprod_total, N.
  rewrite pow_add. field.
Qed.
