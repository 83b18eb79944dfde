From Coq Require Import List Arith Bool FinFun Reals Lra Lia.
From Verif Require Import Common Tensor_Model Tensor_Spec.
Import ListNotations.
Local Open Scope R_scope.

Lemma tsum_sig n f : tsum n f = sig n f. Proof. induction n as [|n IH]; cbn; [reflexivity|]. rewrite IH. reflexivity. Qed.
Lemma sig_ext n f g : (forall i, (i < n)%nat -> f i = g i) -> sig n f = sig n g.
Proof. induction n as [|n IH]; intros H; cbn; [reflexivity|]. rewrite IH, H by auto. reflexivity. Qed.
Lemma sig_zero n f : (forall i, (i < n)%nat -> f i = 0) -> sig n f = 0.
Proof. induction n as [|n IH]; intros H; cbn; [reflexivity|]. rewrite IH, H by auto. ring. Qed.
Lemma sig_add n f g : sig n (fun i => f i + g i) = sig n f + sig n g.
Proof. induction n as [|n IH]; cbn; [ring|]. rewrite IH. ring. Qed.
Lemma sig_mul n c f : sig n (fun i => c * f i) = c * sig n f.
Proof. induction n as [|n IH]; cbn; [ring|]. rewrite IH. ring. Qed.
Lemma sig_mul_r n c f : sig n (fun i => f i * c) = sig n f * c.
Proof. induction n as [|n IH]; cbn; [ring|]. rewrite IH. ring. Qed.
Lemma sig_swap n m f : sig n (fun i => sig m (fun j => f i j)) = sig m (fun j => sig n (fun i => f i j)).
Proof. induction n as [|n IH]; cbn [sig]; [symmetry; apply sig_zero; reflexivity|]. rewrite IH, <- sig_add. reflexivity. Qed.
Lemma sig_single n k f : (k < n)%nat -> (forall i, (i < n)%nat -> i <> k -> f i = 0) -> sig n f = f k.
Proof.
  induction n as [|n IH]; intros Hk H; [lia|]. cbn [sig]. destruct (Nat.eq_dec k n) as [->|N].
  - rewrite sig_zero; [ring|]. intros i Hi. apply H; lia.
  - rewrite IH, (H n) by (try lia; intros; apply H; lia). ring.
Qed.
Lemma sig_delta n k f : (k < n)%nat -> sig n (fun i => delta i k * f i) = f k.
Proof.
  intros H. rewrite (sig_single n k); [unfold delta; rewrite Nat.eqb_refl; ring|exact H|]. intros i _ N. unfold delta. rewrite (proj2 (Nat.eqb_neq _ _) N). ring.
Qed.
Lemma sig_delta' n k f : (k < n)%nat -> sig n (fun i => delta k i * f i) = f k.
Proof. intros H. rewrite <- (sig_delta n k f H). apply sig_ext. intros i _. unfold delta. rewrite Nat.eqb_sym. reflexivity. Qed.

(** ** loops *)
Fixpoint lsum {X} (g : X -> R) (l : list X) : R := match l with [] => 0 | x :: l => g x + lsum g l end.
Lemma lsum_app {X} (g : X -> R) l m : lsum g (l ++ m) = lsum g l + lsum g m.
Proof. induction l as [|x l IH]; cbn; [ring|]. rewrite IH. ring. Qed.
Lemma lsum_map {X Y} (g : Y -> R) (h : X -> Y) l : lsum g (map h l) = lsum (fun x => g (h x)) l.
Proof. induction l as [|x l IH]; cbn; [reflexivity|]. rewrite IH. reflexivity. Qed.
Lemma lsum_seq g n : lsum g (seq 0 n) = sig n g.
Proof. induction n as [|n IH]; [reflexivity|]. rewrite seq_S, lsum_app, IH. cbn. ring. Qed.
Lemma lsum_prod {X Y} (g : X * Y -> R) (l : list X) (m : list Y) : lsum g (list_prod l m) = lsum (fun x => lsum (fun y => g (x, y)) m) l.
Proof. induction l as [|x l IH]; cbn; [reflexivity|]. rewrite lsum_app, lsum_map, IH. reflexivity. Qed.
Lemma lsum_idx2 D g : lsum g (idx2 D) = sig D (fun p => sig D (fun q => g (p, q))).
Proof. unfold idx2. rewrite lsum_prod, lsum_seq. apply sig_ext. intros. apply lsum_seq. Qed.
Lemma fold_prod {X Y S} (f : S -> X * Y -> S) (l : list X) (m : list Y) a :
  fold_left f (list_prod l m) a = fold_left (fun a x => fold_left (fun a y => f a (x, y)) m a) l a.
Proof.
  revert a. induction l as [|x l IH]; intros a; cbn; [reflexivity|]. rewrite fold_left_app, IH. f_equal.
  clear. revert a. induction m as [|y m IH]; intros a; cbn; [reflexivity|]. apply IH.
Qed.
Lemma in_idx2 D i j : In (i, j) (idx2 D) <-> (i < D)%nat /\ (j < D)%nat.
Proof. unfold idx2. rewrite in_prod_iff, !in_seq. lia. Qed.
Lemma in_idx4 D i j k l : In ((i, j), (k, l)) (idx4 D) <-> (i < D)%nat /\ (j < D)%nat /\ (k < D)%nat /\ (l < D)%nat.
Proof. unfold idx4. rewrite in_prod_iff, !in_idx2. tauto. Qed.
Lemma nodup_prod {X Y} (l : list X) (m : list Y) : NoDup l -> NoDup m -> NoDup (list_prod l m).
Proof.
  intros Hl Hm. induction Hl as [|x l N Hl IH]; cbn; [constructor|].
  assert (G : forall l1 l2 : list (X * Y), NoDup l1 -> NoDup l2 -> (forall p, In p l1 -> ~ In p l2) -> NoDup (l1 ++ l2)).
  { clear. induction l1 as [|a l1 IH]; intros l2 H1 H2 H3; cbn; [exact H2|]. inversion H1; subst. constructor.
    - rewrite in_app_iff. intros [H|H]; [contradiction|]. apply (H3 a); [left; reflexivity|exact H].
    - apply IH; try assumption. intros p Hp. apply H3. right. exact Hp. }
  apply G; [apply Injective_map_NoDup; [intros a b [=]; assumption|exact Hm]|exact IH|].
  intros [a b] Hp Hq. apply in_map_iff in Hp. destruct Hp as (y & [= <- <-] & _). apply in_prod_iff in Hq. tauto.
Qed.
Lemma nodup_idx2 D : NoDup (idx2 D). Proof. apply nodup_prod; apply seq_NoDup. Qed.
Lemma nodup_idx4 D : NoDup (idx4 D). Proof. apply nodup_prod; apply nodup_idx2. Qed.

(** a loop whose body changes one entry, a different one each time *)
Lemma loop_at {X} (pos : X -> nat * nat) (F : X -> R -> R) (body : mtx -> X -> mtx) l :
  (forall A x r c, In x l -> body A x r c = if ((r =? fst (pos x)) && (c =? snd (pos x)))%nat%bool then F x (A r c) else A r c) ->
  NoDup l -> (forall x y, In x l -> In y l -> pos x = pos y -> x = y) ->
  forall x A, In x l -> fold_left body l A (fst (pos x)) (snd (pos x)) = F x (A (fst (pos x)) (snd (pos x))).
Proof.
  intros HB HN HP.
  assert (OFF : forall m A r c, (forall x, In x m -> In x l) -> (forall x, In x m -> pos x <> (r, c)) -> fold_left body m A r c = A r c).
  { induction m as [|y m IH]; intros A r c HI H; cbn; [reflexivity|]. rewrite IH; [|intros; apply HI; right; assumption|intros; apply H; right; assumption].
    rewrite HB by (apply HI; left; reflexivity). destruct (Nat.eqb_spec r (fst (pos y))) as [E1|]; [|reflexivity]. destruct (Nat.eqb_spec c (snd (pos y))) as [E2|]; [|reflexivity].
    exfalso. apply (H y); [left; reflexivity|]. rewrite E1, E2. destruct (pos y); reflexivity. }
  assert (G : forall m A x, (forall x, In x m -> In x l) -> NoDup m -> In x m -> fold_left body m A (fst (pos x)) (snd (pos x)) = F x (A (fst (pos x)) (snd (pos x)))).
  { induction m as [|y m IH]; intros A x HI ND Hx; [destruct Hx|]. inversion ND as [|? ? NI ND']; subst. cbn. destruct Hx as [->|Hx].
    - rewrite OFF; [|intros; apply HI; right; assumption|].
      + rewrite HB by (apply HI; left; reflexivity). rewrite !Nat.eqb_refl. reflexivity.
      + intros z Hz E. apply NI. replace x with z; [exact Hz|]. apply HP; [apply HI; right; exact Hz|apply HI; left; reflexivity|]. rewrite E. destruct (pos x); reflexivity.
    - rewrite IH by (try assumption; intros; apply HI; right; assumption). f_equal. rewrite HB by (apply HI; left; reflexivity).
      destruct (Nat.eqb_spec (fst (pos x)) (fst (pos y))) as [E1|]; [|reflexivity]. destruct (Nat.eqb_spec (snd (pos x)) (snd (pos y))) as [E2|]; [|reflexivity].
      exfalso. apply NI. replace y with x; [exact Hx|]. apply HP; [apply HI; right; exact Hx|apply HI; left; reflexivity|]. destruct (pos x), (pos y); cbn in *; congruence. }
  intros x A Hx. apply G; auto.
Qed.
(** a loop accumulating in one entry *)
Lemma acc_at {X} (g : X -> R) r0 c0 l : forall A r c,
  fold_left (fun ret x => fset ret r0 c0 (ret r0 c0 + g x)) l A r c = if ((r =? r0) && (c =? c0))%nat%bool then A r c + lsum g l else A r c.
Proof.
  induction l as [|x l IH]; intros A r c; cbn [fold_left lsum].
  - destruct ((r =? r0) && (c =? c0))%nat%bool; ring.
  - rewrite IH. unfold fset at 1 2. destruct (Nat.eqb_spec r r0) as [->|]; cbn [andb]; [|reflexivity]. destruct (Nat.eqb_spec c c0) as [->|]; [|reflexivity]. ring.
Qed.
Lemma pos4_inj D i j k l i' j' k' l' : (k < D)%nat -> (l < D)%nat -> (k' < D)%nat -> (l' < D)%nat ->
  (i * D + k, j * D + l)%nat = (i' * D + k', j' * D + l')%nat -> (i, j, (k, l)) = (i', j', (k', l')).
Proof.
  intros Hk Hl Hk' Hl' [= E1 E2].
  assert (Q : forall a b c d : nat, (b < D)%nat -> (d < D)%nat -> (a * D + b = c * D + d)%nat -> a = c /\ b = d).
  { clear. intros a b c d Hb Hd E. rewrite (Nat.mul_comm a), (Nat.mul_comm c) in E. exact (Nat.div_mod_unique D a c b d Hb Hd E). }
  destruct (Q _ _ _ _ Hk Hk' E1), (Q _ _ _ _ Hl Hl' E2). subst. reflexivity.
Qed.

Section T.
  Context (D : nat).
  Lemma bad_false i j k l : (i < D)%nat -> (j < D)%nat -> (k < D)%nat -> (l < D)%nat -> bad D i j k l = false.
  Proof. intros. unfold bad. rewrite !(proj2 (Nat.leb_gt _ _)) by assumption. reflexivity. Qed.
  Lemma coeff_ok T i j k l : (i < D)%nat -> (j < D)%nat -> (k < D)%nat -> (l < D)%nat -> coeff D T i j k l = Ok (rd D T i j k l).
  Proof. intros. unfold coeff. rewrite bad_false by assumption. reflexivity. Qed.
  Lemma teq_rd A B : teq D A B <-> forall i j k l, (i < D)%nat -> (j < D)%nat -> (k < D)%nat -> (l < D)%nat -> rd D A i j k l = rd D B i j k l.
  Proof.
    split; intros H i j k l.
    - intros Hi Hj Hk Hl. pose proof (H i j k l) as E. rewrite !coeff_ok in E by assumption. congruence.
    - unfold coeff. destruct (bad D i j k l) eqn:B0; [reflexivity|]. unfold bad in B0. rewrite !orb_false_iff, !Nat.leb_gt in B0. f_equal. apply H; tauto.
  Qed.
  Lemma is_tensor_rd T f : is_tensor D T f <-> forall i j k l, (i < D)%nat -> (j < D)%nat -> (k < D)%nat -> (l < D)%nat -> rd D T i j k l = f i j k l.
  Proof.
    split; intros H i j k l Hi Hj Hk Hl; specialize (H i j k l Hi Hj Hk Hl).
    - rewrite coeff_ok in H by assumption. congruence.
    - rewrite coeff_ok by assumption. congruence.
  Qed.
  (** loops over i, j, k, l writing coefficient (i,j,k,l) *)
  Lemma loop4 (body : mtx -> (nat * nat) * (nat * nat) -> mtx) (F : (nat * nat) * (nat * nat) -> R -> R) A :
    (forall A i j k l r c, (i < D)%nat -> (j < D)%nat -> (k < D)%nat -> (l < D)%nat ->
       body A ((i, j), (k, l)) r c = if ((r =? i * D + k) && (c =? j * D + l))%nat%bool then F ((i, j), (k, l)) (A r c) else A r c) ->
    forall i j k l, (i < D)%nat -> (j < D)%nat -> (k < D)%nat -> (l < D)%nat ->
    rd D (fold_left body (idx4 D) A) i j k l = F ((i, j), (k, l)) (rd D A i j k l).
  Proof.
    intros HB i j k l Hi Hj Hk Hl.
    pose (pos := fun x : (nat * nat) * (nat * nat) => (fst (fst x) * D + fst (snd x), snd (fst x) * D + snd (snd x))%nat).
    assert (G := loop_at pos F body (idx4 D)). unfold rd. apply (fun a b c => G a b c ((i, j), (k, l)) A).
    - intros B [[i0 j0] [k0 l0]] r c Hx. apply in_idx4 in Hx. apply HB; tauto.
    - apply nodup_idx4.
    - intros [[i0 j0] [k0 l0]] [[i1 j1] [k1 l1]] Hx Hy E. apply in_idx4 in Hx, Hy. apply (pos4_inj D); tauto.
    - apply in_idx4. auto.
  Qed.
  Lemma loop2 (body : mtx -> nat * nat -> mtx) (F : nat * nat -> R -> R) A :
    (forall A i j r c, (i < D)%nat -> (j < D)%nat -> body A (i, j) r c = if ((r =? i) && (c =? j))%nat%bool then F (i, j) (A r c) else A r c) ->
    forall i j, (i < D)%nat -> (j < D)%nat -> fold_left body (idx2 D) A i j = F (i, j) (A i j).
  Proof.
    intros HB i j Hi Hj. assert (G := loop_at (fun x => x) F body (idx2 D)). apply (fun a b c => G a b c (i, j) A).
    - intros B [i0 j0] r c Hx. apply in_idx2 in Hx. apply HB; tauto.
    - apply nodup_idx2.
    - auto.
    - apply in_idx2. auto.
  Qed.

  Lemma tm_prod_at T M i j : (i < D)%nat -> (j < D)%nat -> tm_prod D T M i j = sig D (fun k => sig D (fun l => rd D T i j k l * M k l)).
  Proof.
    intros Hi Hj. unfold tm_prod.
    rewrite (loop2 _ (fun '(i, j) _ => msum D (fun k l => get_block T (i * D) (j * D) k l * M k l))); [|reflexivity|exact Hi|exact Hj].
    unfold msum. rewrite tsum_sig. apply sig_ext. intros. apply tsum_sig.
  Qed.
  Lemma tm_prod_left_at T M i j : (i < D)%nat -> (j < D)%nat -> tm_prod_left D M T i j = sig D (fun k => sig D (fun l => M k l * rd D T k l i j)).
  Proof.
    intros Hi Hj. unfold tm_prod_left, idx4. rewrite fold_prod.
    rewrite (loop2 _ (fun '(i, j) x => x + lsum (fun y => M (fst y) (snd y) * rd D T (fst y) (snd y) i j) (idx2 D))); [|clear i j Hi Hj|exact Hi|exact Hj].
    - unfold mzero. rewrite lsum_idx2. cbn [fst snd]. ring.
    - intros A i j r c Hi Hj. rewrite <- acc_at. apply (f_equal (fun g => g r c)). clear.
      revert A. induction (idx2 D) as [|[k l] m IH]; intros A; cbn; [reflexivity|]. apply IH.
  Qed.
  Lemma rd_Kronecker A B i j k l : (i < D)%nat -> (j < D)%nat -> (k < D)%nat -> (l < D)%nat -> rd D (Kronecker D A B) i j k l = A i j * B k l.
  Proof.
    intros Hi Hj Hk Hl. unfold Kronecker, rd.
    assert (G : forall m X, (forall a b, In (a, b) m -> (a < D)%nat /\ (b < D)%nat) -> NoDup m ->
      fold_left (fun ret '(j, i) => set_block ret (i * D) (j * D) D D (fun k l => A i j * B k l)) m X (i * D + k)%nat (j * D + l)%nat =
      if existsb (fun x => ((fst x =? j) && (snd x =? i))%nat%bool) m then A i j * B k l else X (i * D + k)%nat (j * D + l)%nat).
    { induction m as [|[b a] m IH]; intros X HI ND; cbn [fold_left existsb fst snd]; [reflexivity|]. inversion ND as [|? ? NI ND']; subst.
      rewrite IH by (try assumption; intros; apply HI; right; assumption).
      destruct (existsb (fun x => ((fst x =? j) && (snd x =? i))%nat%bool) m) eqn:EX; [rewrite orb_true_r; reflexivity|]. rewrite orb_false_r.
      destruct (HI b a (or_introl eq_refl)) as [Hb Ha]. unfold set_block.
      destruct (Nat.eqb_spec b j) as [->|NJ], (Nat.eqb_spec a i) as [->|NI']; cbn [andb].
      - rewrite !(proj2 (Nat.leb_le _ _)), !(proj2 (Nat.ltb_lt _ _)) by lia. cbn [andb]. f_equal; f_equal; lia.
      - destruct (a * D <=? i * D + k)%nat eqn:E1; [|reflexivity]. destruct (i * D + k <? a * D + D)%nat eqn:E2; [|reflexivity].
        apply Nat.leb_le in E1. apply Nat.ltb_lt in E2. exfalso. apply NI'. nia.
      - destruct (j * D + l <? b * D + D)%nat eqn:E2; [|rewrite andb_false_r; reflexivity]. destruct (b * D <=? j * D + l)%nat eqn:E1; [|rewrite andb_false_r; reflexivity].
        apply Nat.leb_le in E1. apply Nat.ltb_lt in E2. exfalso. apply NJ. nia.
      - destruct (a * D <=? i * D + k)%nat eqn:E1; [|reflexivity]. destruct (i * D + k <? a * D + D)%nat eqn:E2; [|reflexivity].
        apply Nat.leb_le in E1. apply Nat.ltb_lt in E2. exfalso. apply NI'. nia. }
    rewrite G; [|intros a b H; apply in_idx2 in H; exact H|apply nodup_idx2].
    assert (E : existsb (fun x => ((fst x =? j) && (snd x =? i))%nat%bool) (idx2 D) = true).
    { apply existsb_exists. exists (j, i). split; [apply in_idx2; auto|]. cbn. rewrite !Nat.eqb_refl. reflexivity. }
    rewrite E. reflexivity.
  Qed.
  Lemma rd_Contracted A B i j k l : (i < D)%nat -> (j < D)%nat -> (k < D)%nat -> (l < D)%nat ->
    rd D (ContractedProduct D A B) i j k l = sig D (fun p => sig D (fun q => rd D A i j p q * rd D B p q k l)).
  Proof.
    intros Hi Hj Hk Hl. unfold ContractedProduct.
    rewrite (loop4 _ (fun '((i, j), (k, l)) x => x + lsum (fun y => rd D A i j (fst y) (snd y) * rd D B (fst y) (snd y) k l) (idx2 D))); try assumption.
    - unfold rd at 1, mzero. rewrite lsum_idx2. cbn [fst snd]. ring.
    - intros X i0 j0 k0 l0 r c _ _ _ _. rewrite <- acc_at. apply (f_equal (fun g => g r c)).
      revert X. induction (idx2 D) as [|[p q] m IH]; intros X; cbn; [reflexivity|]. apply IH.
  Qed.
  Lemma rd_Sup A B i j k l : (i < D)%nat -> (j < D)%nat -> (k < D)%nat -> (l < D)%nat -> rd D (ProductSup D A B) i j k l = A i k * B j l.
  Proof. intros. unfold ProductSup. rewrite (loop4 _ (fun '((i, j), (k, l)) _ => A i k * B j l)); try assumption; reflexivity. Qed.
  Lemma rd_Inf A B i j k l : (i < D)%nat -> (j < D)%nat -> (k < D)%nat -> (l < D)%nat -> rd D (ProductInf D A B) i j k l = A i l * B j k.
  Proof. intros. unfold ProductInf. rewrite (loop4 _ (fun '((i, j), (k, l)) _ => A i l * B j k)); try assumption; reflexivity. Qed.
  Lemma rd_transpose T i j k l : (i < D)%nat -> (j < D)%nat -> (k < D)%nat -> (l < D)%nat -> rd D (transpose D T) i j k l = rd D T k l i j.
  Proof. intros. unfold transpose. rewrite (loop4 _ (fun '((i, j), (k, l)) _ => rd D T k l i j)); try assumption; reflexivity. Qed.
  Lemma rd_Odot A B i j k l : (i < D)%nat -> (j < D)%nat -> (k < D)%nat -> (l < D)%nat -> rd D (Odot D A B) i j k l = (A i k * B j l + A i l * B j k) / 2.
  Proof. intros. unfold Odot. rewrite (loop4 _ (fun '((i, j), (k, l)) _ => (A i k * B j l + A i l * B j k) / 2)); try assumption; reflexivity. Qed.
  Lemma rd_IxI i j k l : (k < D)%nat -> (l < D)%nat -> rd D IxI i j k l = delta i j * delta k l.
  Proof.
    intros Hk Hl. unfold rd, IxI, mident, delta. destruct (Nat.eqb_spec (i * D + k) (j * D + l)) as [E|N].
    - rewrite (Nat.mul_comm i), (Nat.mul_comm j) in E. destruct (Nat.div_mod_unique D i j k l Hk Hl E) as [-> ->]. rewrite !Nat.eqb_refl. ring.
    - destruct (Nat.eqb_spec i j) as [->|]; [|ring]. destruct (Nat.eqb_spec k l) as [->|]; [|ring]. contradiction.
  Qed.
End T.
