(** C35, C36, C60: tensor algebra and packed notations. *)
From Coq Require Import List Arith Bool Reals Lra Lia.
From Verif Require Import Common Tensor_Model Tensor_Spec Tensor_Proofs.
Import ListNotations.
Local Open Scope R_scope.

Ltac idx3 i := destruct i as [|[|[|i]]]; [| | |exfalso; lia].

(** ** C36: coefficients *)
(** Reading a coefficient just written gives the value; other coefficients are unchanged; an index
    outside the dimension is refused on both sides. *)
Theorem C36_coeff_read_write : forall D T i j k l v i' j' k' l',
  match coeff_set D T i j k l v with
  | Ok T' => coeff D T' i j k l = Ok v /\
      ((i', j', k', l') <> (i, j, k, l) -> coeff D T' i' j' k' l' = coeff D T i' j' k' l')
  | Throw e => e = InvalidArgument /\ ~ ((i < D)%nat /\ (j < D)%nat /\ (k < D)%nat /\ (l < D)%nat) /\ coeff D T i j k l = Throw InvalidArgument
  | UB => False
  end.
Proof.
  intros. unfold coeff_set, coeff. destruct (bad D i j k l) eqn:B; unfold bad in B.
  - split; [reflexivity|]. split; [|reflexivity]. rewrite !orb_true_iff, !Nat.leb_le in B. lia.
  - rewrite !orb_false_iff, !Nat.leb_gt in B. destruct B as [[[Hi Hj] Hk] Hl]. split.
    + unfold fset. rewrite !Nat.eqb_refl. reflexivity.
    + intros N. destruct (bad D i' j' k' l') eqn:B'; [reflexivity|]. unfold bad in B'. rewrite !orb_false_iff, !Nat.leb_gt in B'. destruct B' as [[[Hi' Hj'] Hk'] Hl'].
      unfold fset. destruct (Nat.eqb_spec (i' * D + k') (i * D + k)) as [E1|]; [|reflexivity]. destruct (Nat.eqb_spec (j' * D + l') (j * D + l)) as [E2|]; [|reflexivity].
      exfalso. apply N. pose proof (pos4_inj D i' j' k' l' i j k l Hk' Hl' Hk Hl ltac:(congruence)). congruence.
Qed.
Theorem C36_coeff_defined : forall D T i j k l, (exists v, coeff D T i j k l = Ok v) <-> (i < D)%nat /\ (j < D)%nat /\ (k < D)%nat /\ (l < D)%nat.
Proof.
  intros. unfold coeff. destruct (bad D i j k l) eqn:B; unfold bad in B.
  - rewrite !orb_true_iff, !Nat.leb_le in B. split; [intros (v & [=])|lia].
  - rewrite !orb_false_iff, !Nat.leb_gt in B. split; [tauto|]. intros _. eexists. reflexivity.
Qed.

(** ** C36: products of matrices giving tensors, coefficient by coefficient *)
Theorem C36_products : forall D A B,
  is_tensor D (Kronecker D A B) (fun i j k l => A i j * B k l) /\
  is_tensor D (ProductSup D A B) (fun i j k l => A i k * B j l) /\
  is_tensor D (ProductInf D A B) (fun i j k l => A i l * B j k) /\
  is_tensor D (Odot D A B) (fun i j k l => (A i k * B j l + A i l * B j k) / 2) /\
  is_tensor D IxI (fun i j k l => delta i j * delta k l).
Proof.
  intros D A B. repeat split; apply is_tensor_rd; intros i j k l Hi Hj Hk Hl.
  - apply rd_Kronecker; assumption.
  - apply rd_Sup; assumption.
  - apply rd_Inf; assumption.
  - apply rd_Odot; assumption.
  - apply rd_IxI; assumption.
Qed.
(** ... and as maps on matrices: (A x B) : M = (B : M) A, A M B^T, A M^T B^T, their mean, tr(M) I *)
Theorem C36_product_maps : forall D A B M,
  meq D (tm_prod D (Kronecker D A B) M) (mscal (ddot D B M) A) /\
  meq D (tm_prod D (ProductSup D A B) M) (mmul D A (mmul D M (mtr B))) /\
  meq D (tm_prod D (ProductInf D A B) M) (mmul D A (mmul D (mtr M) (mtr B))) /\
  meq D (tm_prod D (Odot D A B) M) (mscal (1 / 2) (madd (mmul D A (mmul D M (mtr B))) (mmul D A (mmul D (mtr M) (mtr B))))) /\
  meq D (tm_prod D IxI M) (mscal (sig D (fun k => M k k)) (fun i j => delta i j)).
Proof.
  intros D A B M.
  assert (SUP : forall i j, (i < D)%nat -> (j < D)%nat -> sig D (fun k => sig D (fun l => A i k * B j l * M k l)) = mmul D A (mmul D M (mtr B)) i j).
  { intros i j Hi Hj. unfold mmul, mtr. apply sig_ext. intros k Hk. rewrite <- sig_mul. apply sig_ext. intros. ring. }
  assert (INF : forall i j, (i < D)%nat -> (j < D)%nat -> sig D (fun k => sig D (fun l => A i l * B j k * M k l)) = mmul D A (mmul D (mtr M) (mtr B)) i j).
  { intros i j Hi Hj. unfold mmul, mtr. rewrite sig_swap. apply sig_ext. intros k Hk. rewrite <- sig_mul. apply sig_ext. intros. ring. }
  repeat split; intros i j Hi Hj; rewrite tm_prod_at by assumption.
  - unfold mscal, ddot. rewrite <- sig_mul_r. apply sig_ext. intros k Hk. rewrite <- sig_mul_r. apply sig_ext. intros l Hl. rewrite rd_Kronecker by assumption. ring.
  - rewrite <- SUP by assumption. apply sig_ext. intros k Hk. apply sig_ext. intros l Hl. rewrite rd_Sup by assumption. reflexivity.
  - rewrite <- INF by assumption. apply sig_ext. intros k Hk. apply sig_ext. intros l Hl. rewrite rd_Inf by assumption. reflexivity.
  - unfold mscal, madd. rewrite <- SUP, <- INF, <- sig_add, <- sig_mul by assumption. apply sig_ext. intros k Hk. rewrite <- sig_add, <- sig_mul. apply sig_ext. intros l Hl. rewrite rd_Odot by assumption. field.
  - unfold mscal. rewrite <- sig_mul_r. apply sig_ext. intros k Hk. rewrite (sig_ext _ _ (fun l => delta k l * (M k l * delta i j))); [rewrite sig_delta' by exact Hk; reflexivity|].
    intros l Hl. rewrite rd_IxI by assumption. ring.
Qed.
(** ** C36: contractions *)
Theorem C36_contractions : forall D A B M N,
  (* A : M and M : A by coefficients, through any reading of the coefficients *)
  (forall f, is_tensor D A f -> meq D (tm_prod D A M) (fun i j => sig D (fun k => sig D (fun l => f i j k l * M k l))) /\
                               meq D (tm_prod_left D M A) (fun i j => sig D (fun k => sig D (fun l => M k l * f k l i j)))) /\
  (* (A : B) : M = A : (B : M) *)
  meq D (tm_prod D (ContractedProduct D A B) M) (tm_prod D A (tm_prod D B M)) /\
  (* transposition is an involution, exchanges the sides, and is the adjoint *)
  teq D (transpose D (transpose D A)) A /\
  meq D (tm_prod D (transpose D A) M) (tm_prod_left D M A) /\
  InnerProduct D (tm_prod D A M) N = InnerProduct D M (tm_prod D (transpose D A) N) /\
  InnerProduct D M N = ddot D M N.
Proof.
  intros D A B M N. repeat split.
  - intros i j Hi Hj. rewrite tm_prod_at by assumption. apply sig_ext. intros k Hk. apply sig_ext. intros l Hl. rewrite (proj1 (is_tensor_rd D A f) H) by assumption. reflexivity.
  - intros i j Hi Hj. rewrite tm_prod_left_at by assumption. apply sig_ext. intros k Hk. apply sig_ext. intros l Hl. rewrite (proj1 (is_tensor_rd D A f) H) by assumption. reflexivity.
  - intros i j Hi Hj. rewrite !tm_prod_at by assumption.
    rewrite (sig_ext D _ (fun k => sig D (fun l => sig D (fun p => sig D (fun q => rd D A i j p q * (rd D B p q k l * M k l)))))).
    2:{ intros k Hk. apply sig_ext. intros l Hl. rewrite rd_Contracted by assumption. rewrite <- sig_mul_r. apply sig_ext. intros p Hp. rewrite <- sig_mul_r. apply sig_ext. intros. ring. }
    rewrite (sig_ext D _ (fun k => sig D (fun p => sig D (fun l => sig D (fun q => rd D A i j p q * (rd D B p q k l * M k l)))))) by (intros; apply sig_swap).
    rewrite sig_swap. apply sig_ext. intros p Hp.
    rewrite (sig_ext D _ (fun k => sig D (fun q => sig D (fun l => rd D A i j p q * (rd D B p q k l * M k l))))) by (intros; apply sig_swap).
    rewrite sig_swap. apply sig_ext. intros q Hq. rewrite tm_prod_at by assumption. rewrite <- sig_mul. apply sig_ext. intros k Hk. rewrite <- sig_mul. reflexivity.
  - apply teq_rd. intros i j k l Hi Hj Hk Hl. rewrite !rd_transpose by assumption. reflexivity.
  - intros i j Hi Hj. rewrite tm_prod_at, tm_prod_left_at by assumption. apply sig_ext. intros k Hk. apply sig_ext. intros l Hl. rewrite rd_transpose by assumption. ring.
  - unfold InnerProduct, msum. change tsum with sig.
    transitivity (sig D (fun i => sig D (fun j => sig D (fun k => sig D (fun l => rd D A i j k l * M k l * N i j))))).
    { apply sig_ext. intros i Hi. apply sig_ext. intros j Hj. rewrite tm_prod_at by assumption. rewrite <- sig_mul_r. apply sig_ext. intros. rewrite <- sig_mul_r. reflexivity. }
    transitivity (sig D (fun k => sig D (fun l => sig D (fun i => sig D (fun j => rd D A i j k l * M k l * N i j))))).
    { transitivity (sig D (fun i => sig D (fun k => sig D (fun j => sig D (fun l => rd D A i j k l * M k l * N i j))))); [apply sig_ext; intros; apply sig_swap|].
      rewrite sig_swap. apply sig_ext. intros k Hk.
      transitivity (sig D (fun i => sig D (fun l => sig D (fun j => rd D A i j k l * M k l * N i j)))); [apply sig_ext; intros; apply sig_swap|]. rewrite sig_swap. reflexivity. }
    apply sig_ext. intros k Hk. apply sig_ext. intros l Hl. rewrite tm_prod_at by assumption. rewrite <- sig_mul. apply sig_ext. intros i Hi. rewrite <- sig_mul. apply sig_ext. intros j Hj. rewrite rd_transpose by assumption. ring.
Qed.
(** The overload that is told which single entry of the matrix is not zero agrees with the plain one
    exactly on such matrices; bad positions are refused. *)
Theorem C36_single_entry : forall D T M row col, (forall k l, (k < D)%nat -> (l < D)%nat -> (k, l) <> (row, col) -> M k l = 0) ->
  match tm_prod_one D T M row col with
  | Ok ret => meq D ret (tm_prod D T M)
  | Throw e => e = InvalidArgument /\ (D = O \/ ~ ((row < D)%nat /\ (col < D)%nat))
  | UB => False
  end.
Proof.
  intros D T M row col HZ. unfold tm_prod_one. destruct (bad D 0 0 row col) eqn:B; unfold bad in B.
  - split; [reflexivity|]. rewrite !orb_true_iff, !Nat.leb_le in B. lia.
  - rewrite !orb_false_iff, !Nat.leb_gt in B. destruct B as [[_ Hr] Hc]. intros i j Hi Hj. rewrite tm_prod_at by assumption.
    rewrite (loop2 D _ (fun '(i, j) x => x * rd D T i j row col)); [|clear i j Hi Hj|exact Hi|exact Hj].
    + rewrite (sig_single D row); [rewrite (sig_single D col); [ring|exact Hc|]|exact Hr|].
      * intros l Hl N. rewrite HZ; [ring|assumption|assumption|congruence].
      * intros k Hk N. apply sig_zero. intros l Hl. rewrite HZ; [ring|assumption|assumption|congruence].
    + intros X i j r c Hi Hj. unfold fset. destruct (Nat.eqb_spec r i) as [->|]; [|reflexivity]. destruct (Nat.eqb_spec c j) as [->|]; reflexivity.
Qed.
(** ** C36: identity tensors, for every dimension the code accepts *)
Theorem C36_identities : forall D M, (1 <= D <= 3)%nat -> exists I4 IS, IdentityTensor4 D = Some I4 /\ IdentitySymTensor4 D = Some IS /\
  is_tensor D I4 (fun i j k l => delta i k * delta j l) /\
  is_tensor D IS (fun i j k l => (delta i k * delta j l + delta i l * delta j k) / 2) /\
  meq D (tm_prod D I4 M) M /\ meq D (tm_prod D IS M) (mscal (1 / 2) (madd M (mtr M))).
Proof.
  intros D M HD. assert (G : exists I4 IS, IdentityTensor4 D = Some I4 /\ IdentitySymTensor4 D = Some IS /\
  is_tensor D I4 (fun i j k l => delta i k * delta j l) /\ is_tensor D IS (fun i j k l => (delta i k * delta j l + delta i l * delta j k) / 2)).
  { assert (D = 1 \/ D = 2 \/ D = 3)%nat as [->|[->| ->]] by lia; (eexists; eexists; split; [reflexivity|]; split; [reflexivity|]).
    - split; apply is_tensor_rd; intros i j k l Hi Hj Hk Hl; replace i with O by lia; replace j with O by lia; replace k with O by lia; replace l with O by lia; cbn; unfold delta; cbn; lra.
    - split; apply is_tensor_rd; intros i j k l Hi Hj Hk Hl; (destruct i as [|[|]]; [| |exfalso; lia]); (destruct j as [|[|]]; [| |exfalso; lia]); (destruct k as [|[|]]; [| |exfalso; lia]); (destruct l as [|[|]]; [| |exfalso; lia]);
        cbv -[Rplus Rmult Rdiv IZR]; lra.
    - split; apply is_tensor_rd; intros i j k l Hi Hj Hk Hl; idx3 i; idx3 j; idx3 k; idx3 l; cbv -[Rplus Rmult Rdiv IZR]; lra. }
  destruct G as (I4 & IS & E1 & E2 & T1 & T2). exists I4, IS. split; [exact E1|]. split; [exact E2|]. split; [exact T1|]. split; [exact T2|]. split; intros i j Hi Hj; rewrite tm_prod_at by assumption.
  - rewrite (sig_ext D _ (fun k => delta i k * M k j)); [exact (sig_delta' D i (fun k => M k j) Hi)|]. intros k Hk.
    rewrite (sig_ext D _ (fun l => delta j l * (delta i k * M k l))); [apply (sig_delta' D j (fun l => delta i k * M k l)); exact Hj|]. intros l Hl. rewrite (proj1 (is_tensor_rd D I4 _) T1) by assumption. ring.
  - rewrite (sig_ext D _ (fun k => 1 / 2 * (delta i k * M k j) + 1 / 2 * (delta j k * M k i))).
    + rewrite sig_add, !sig_mul, (sig_delta' D i (fun k => M k j)), (sig_delta' D j (fun k => M k i)) by assumption. unfold mscal, madd, mtr. ring.
    + intros k Hk. rewrite (sig_ext D _ (fun l => delta j l * (1 / 2 * (delta i k * M k l)) + delta i l * (1 / 2 * (delta j k * M k l)))).
      * rewrite sig_add, (sig_delta' D j (fun l => 1 / 2 * (delta i k * M k l))), (sig_delta' D i (fun l => 1 / 2 * (delta j k * M k l))) by assumption. reflexivity.
      * intros l Hl. rewrite (proj1 (is_tensor_rd D IS _) T2) by assumption. field.
Qed.
(** deviator and spherical part: they add up, and the deviator has no trace *)
Theorem C36_deviator : forall D M, (0 < D)%nat ->
  (forall i j, deviator D M i j + spheric D M i j = M i j) /\ sig D (fun i => deviator D M i i) = 0 /\
  (forall i j, i <> j -> deviator D M i j = M i j) /\ (forall i j, i <> j -> spheric D M i j = 0) /\ forall i, spheric D M i i = sig D (fun k => M k k) / INR D.
Proof.
  intros D M HD. unfold deviator, spheric, mident, trace. rewrite tsum_sig. assert (NZ : INR D <> 0) by (apply not_0_INR; lia). repeat split.
  - intros. ring.
  - rewrite (sig_ext D _ (fun i => M i i + (- (sig D (fun i => M i i) / INR D)) * 1)) by (intros; rewrite Nat.eqb_refl; ring).
    rewrite sig_add, sig_mul. replace (sig D (fun _ => 1)) with (INR D); [field; exact NZ|]. clear. induction D as [|D IH]; [reflexivity|]. rewrite S_INR, IH. reflexivity.
  - intros i j N. rewrite (proj2 (Nat.eqb_neq _ _) N). ring.
  - intros i j N. rewrite (proj2 (Nat.eqb_neq _ _) N). ring.
  - intros i. rewrite Nat.eqb_refl. ring.
Qed.

(** ** C36: between two and three dimensions *)
Theorem C36_plane_conversions : forall T M,
  meq 2 (convertMatrix (convertMatrix3D M)) M /\ meq 2 (convertMatrix (convertMatrix3DwithOne M)) M /\
  (forall i j, (i < 3)%nat -> (j < 3)%nat -> (i = 2%nat \/ j = 2%nat) -> convertMatrix3D M i j = 0 /\ convertMatrix3DwithOne M i j = delta i j) /\
  (forall i j k l, (i < 2)%nat -> (j < 2)%nat -> (k < 2)%nat -> (l < 2)%nat -> coeff 2 (convertTensor2 T) i j k l = coeff 3 T i j k l) /\
  meq 2 (tm_prod 2 (convertTensor2 T) M) (convertMatrix (tm_prod 3 T (convertMatrix3D M))).
Proof.
  intros T M.
  assert (C : forall i j k l, (i < 2)%nat -> (j < 2)%nat -> (k < 2)%nat -> (l < 2)%nat -> rd 2 (convertTensor2 T) i j k l = rd 3 T i j k l).
  { intros i j k l Hi Hj Hk Hl. destruct i as [|[|]]; [| |lia]; (destruct j as [|[|]]; [| |lia]); (destruct k as [|[|]]; [| |lia]); (destruct l as [|[|]]; [| |lia]); reflexivity. }
  repeat split.
  - intros i j Hi Hj. destruct i as [|[|]]; [| |lia]; (destruct j as [|[|]]; [| |lia]); reflexivity.
  - intros i j Hi Hj. destruct i as [|[|]]; [| |lia]; (destruct j as [|[|]]; [| |lia]); reflexivity.
  - idx3 i; idx3 j; try reflexivity; exfalso; lia.
  - idx3 i; idx3 j; try reflexivity; exfalso; lia.
  - intros i j k l Hi Hj Hk Hl. rewrite !coeff_ok by lia. f_equal. apply C; assumption.
  - intros i j Hi Hj. unfold convertMatrix, get_block. rewrite Nat.add_0_l, Nat.add_0_l. rewrite (tm_prod_at 2), (tm_prod_at 3) by lia. cbn [sig].
    rewrite !C by lia. unfold convertMatrix3D, set_block, mzero. cbn [Nat.leb Nat.ltb Nat.sub Nat.add andb]. ring.
Qed.
(** First Piola-Kirchhoff tangent: A_iJkL = F_iM C_MJNL F_kN + delta_ik S_JL when the second
    Piola-Kirchhoff tangent C has its major symmetry and the stress S is symmetric; the result has
    the major symmetry whatever C and S. *)
Lemma ctoa_at C S F : let val := fun i J k L => sig 3 (fun M => sig 3 (fun N => rd 3 C M J N L * F k N) * F i M) + (if (i =? k)%nat then S J L else 0) in
  forall i J k L, (i < 3)%nat -> (J < 3)%nat -> (k < 3)%nat -> (L < 3)%nat ->
  rd 3 (convertCtoA C S F) i J k L = if ((i <? k) || ((i =? k) && (J <=? L)))%nat%bool then val k L i J else val i J k L.
Proof.
  intros val.
  assert (G : forall l A i J k L, (forall a b c d, In ((a, b), (c, d)) l -> (a < 3)%nat /\ (b < 3)%nat /\ (c < 3)%nat /\ (d < 3)%nat) -> (k < 3)%nat -> (L < 3)%nat -> (i < 3)%nat -> (J < 3)%nat ->
    rd 3 (fold_left (fun A '((i, J), (k, L)) =>
      let sum := tsum 3 (fun M => tsum 3 (fun N => rd 3 C M J N L * F k N) * F i M) in
      let sum := if (i =? k)%nat then sum + S J L else sum in
      let A := fset A (i * 3 + k) (J * 3 + L) sum in fset A (k * 3 + i) (L * 3 + J) sum) l A) i J k L =
    fold_left (fun x '((a, b), (c, d)) => if ((a =? k) && (b =? L) && (c =? i) && (d =? J))%nat%bool then val k L i J
       else if ((a =? i) && (b =? J) && (c =? k) && (d =? L))%nat%bool then val i J k L else x) l (rd 3 A i J k L)).
  { induction l as [|[[a b] [c d]] l IH]; intros A i J k L HB Hk HL Hi HJ; [reflexivity|]. cbn [fold_left].
    rewrite IH by (try assumption; intros; apply HB; right; assumption). f_equal. destruct (HB a b c d (or_introl eq_refl)) as (Ha & Hb & Hc & Hd).
    cbv zeta. unfold rd at 1, fset.
    assert (VAL : (if (a =? c)%nat then tsum 3 (fun M => tsum 3 (fun N => rd 3 C M b N d * F c N) * F a M) + S b d else tsum 3 (fun M => tsum 3 (fun N => rd 3 C M b N d * F c N) * F a M)) = val a b c d).
    { unfold val. rewrite tsum_sig. rewrite (sig_ext 3 _ (fun M => sig 3 (fun N => rd 3 C M b N d * F c N) * F a M)) by (intros; rewrite tsum_sig; reflexivity). destruct (a =? c)%nat; ring. }
    rewrite VAL.
    assert (P : forall x y z w a b c d, (y < 3)%nat -> (w < 3)%nat -> (b < 3)%nat -> (d < 3)%nat ->
      ((x * 3 + y =? a * 3 + b) && (z * 3 + w =? c * 3 + d))%nat%bool = ((a =? x) && (c =? z) && (b =? y) && (d =? w))%nat%bool).
    { clear. intros. destruct (Nat.eqb_spec (x * 3 + y) (a * 3 + b)), (Nat.eqb_spec (z * 3 + w) (c * 3 + d)), (Nat.eqb_spec a x), (Nat.eqb_spec c z), (Nat.eqb_spec b y), (Nat.eqb_spec d w); try reflexivity; exfalso; lia. }
    rewrite !P by assumption.
    destruct (Nat.eqb_spec c i) as [->|]; destruct (Nat.eqb_spec d J) as [->|]; destruct (Nat.eqb_spec a k) as [->|]; destruct (Nat.eqb_spec b L) as [->|]; cbn [andb];
    try reflexivity;
    repeat match goal with |- context [Nat.eqb ?u ?v] => destruct (Nat.eqb_spec u v); subst; cbn [andb] end; try reflexivity; try congruence. }
  intros i J k L Hi HJ Hk HL. unfold convertCtoA. rewrite G by (try assumption; intros a b c d H; apply in_idx4 in H; exact H).
  clearbody val. idx3 i; idx3 J; idx3 k; idx3 L; reflexivity.
Qed.
Theorem C36_first_piola_tangent : forall C S F,
  (forall i J k L, coeff 3 (convertCtoA C S F) i J k L = coeff 3 (convertCtoA C S F) k L i J) /\
  ((forall M J N L, coeff 3 C M J N L = coeff 3 C N L M J) -> (forall J L, S J L = S L J) ->
   is_tensor 3 (convertCtoA C S F) (fun i J k L => sig 3 (fun M => sig 3 (fun N => F i M * rd 3 C M J N L * F k N)) + delta i k * S J L)).
Proof.
  intros C S F. pose proof (ctoa_at C S F) as AT. cbv zeta in AT. split.
  - intros i J k L. unfold coeff at 1 2. destruct (bad 3 i J k L) eqn:B.
    + replace (bad 3 k L i J) with true; [reflexivity|]. rewrite <- B. unfold bad. rewrite <- !orb_assoc.
      generalize (3 <=? i)%nat (3 <=? J)%nat (3 <=? k)%nat (3 <=? L)%nat. intros [] [] [] []; reflexivity.
    + replace (bad 3 k L i J) with false by (rewrite <- B; unfold bad; generalize (3 <=? i)%nat (3 <=? J)%nat (3 <=? k)%nat (3 <=? L)%nat; intros [] [] [] []; reflexivity).
      unfold bad in B. rewrite !orb_false_iff, !Nat.leb_gt in B. destruct B as [[[Hi HJ] Hk] HL]. f_equal.
      change (rd 3 (convertCtoA C S F) i J k L = rd 3 (convertCtoA C S F) k L i J). rewrite !AT by assumption.
      destruct (Nat.ltb_spec i k), (Nat.eqb_spec i k), (Nat.leb_spec J L), (Nat.ltb_spec k i), (Nat.eqb_spec k i), (Nat.leb_spec L J); cbn [orb andb]; try lia; try reflexivity.
      subst. replace L with J by lia. reflexivity.
  - intros HC HS. apply is_tensor_rd. intros i J k L Hi HJ Hk HL. rewrite AT by assumption.
    assert (CR : forall M J N L, (M < 3)%nat -> (J < 3)%nat -> (N < 3)%nat -> (L < 3)%nat -> rd 3 C M J N L = rd 3 C N L M J).
    { intros M' J' N' L' A1 A2 A3 A4. pose proof (HC M' J' N' L') as E. rewrite !coeff_ok in E by assumption. congruence. }
    assert (V : forall i J k L, (i < 3)%nat -> (J < 3)%nat -> (k < 3)%nat -> (L < 3)%nat -> sig 3 (fun M => sig 3 (fun N => rd 3 C M J N L * F k N) * F i M) + (if (i =? k)%nat then S J L else 0) =
       sig 3 (fun M => sig 3 (fun N => F i M * rd 3 C M J N L * F k N)) + delta i k * S J L).
    { intros. f_equal; [|unfold delta; destruct (_ =? _)%nat; ring]. apply sig_ext. intros M HM. rewrite <- sig_mul_r. apply sig_ext. intros. ring. }
    destruct ((i <? k) || ((i =? k) && (J <=? L)))%nat%bool; rewrite V by assumption; [|reflexivity]. f_equal.
    + rewrite sig_swap. apply sig_ext. intros M HM. apply sig_ext. intros N HN. rewrite (CR N L M J) by assumption. ring.
    + unfold delta. rewrite Nat.eqb_sym, HS. reflexivity.
Qed.
(** Mandel notation: the 6x6 matrix acts on packed symmetric matrices like the tensor on matrices
    (three dimensions; right minor symmetry T_ijkl = T_ijlk). *)
Theorem C36_mandel : forall T E K, convertTensorNotationMangel 3 T = Some K -> sym3 E ->
  (forall i j k l, coeff 3 T i j k l = coeff 3 T i j l k) ->
  exists e, convertMatrixToMgis E 6 = Ok e /\ convertMatrixToMgis (tm_prod 3 T E) 6 = Ok (apply_mtx K e).
Proof.
  intros T E K [= <-] SE ST. eexists. split; [reflexivity|]. cbn [convertMatrixToMgis]. rewrite !tm_prod_at by lia.
  assert (TR : forall i j k l, (i < 3)%nat -> (j < 3)%nat -> (k < 3)%nat -> (l < 3)%nat -> rd 3 T i j k l = rd 3 T i j l k).
  { intros i j k l A1 A2 A3 A4. pose proof (ST i j k l) as X. rewrite !coeff_ok in X by assumption. congruence. }
  assert (S2 : sqrt 2 * sqrt 2 = 2) by (apply sqrt_def; lra).
  unfold apply_mtx. cbn [length seq map].
  cbn [mandel2 mandel3 fold_left]. cbn [sig nth]. unfold fset.
  cbn [Nat.eqb andb mfac]. unfold mzero.
  assert (S01 : E 1%nat 0%nat = E 0%nat 1%nat) by apply SE. assert (S02 : E 2%nat 0%nat = E 0%nat 2%nat) by apply SE. assert (S12 : E 2%nat 1%nat = E 1%nat 2%nat) by apply SE.
  rewrite !S01, !S02, !S12.
  assert (Q : forall i j, (i < 3)%nat -> (j < 3)%nat -> rd 3 T i j 1 0 = rd 3 T i j 0 1 /\ rd 3 T i j 2 0 = rd 3 T i j 0 2 /\ rd 3 T i j 2 1 = rd 3 T i j 1 2) by (intros; repeat split; apply TR; lia).
  destruct (Q 0 0)%nat as (Q1 & Q2 & Q3); [lia|lia|]. destruct (Q 1 1)%nat as (Q4 & Q5 & Q6); [lia|lia|]. destruct (Q 2 2)%nat as (Q7 & Q8 & Q9); [lia|lia|].
  destruct (Q 0 1)%nat as (Q10 & Q11 & Q12); [lia|lia|]. destruct (Q 0 2)%nat as (Q13 & Q14 & Q15); [lia|lia|]. destruct (Q 1 2)%nat as (Q16 & Q17 & Q18); [lia|lia|].
  rewrite ?Q1, ?Q2, ?Q3, ?Q4, ?Q5, ?Q6, ?Q7, ?Q8, ?Q9, ?Q10, ?Q11, ?Q12, ?Q13, ?Q14, ?Q15, ?Q16, ?Q17, ?Q18. clear -S2.
  generalize dependent (sqrt 2). intros s S2.
  apply f_equal. repeat (apply (f_equal2 (@cons R)); [ring [S2]|]). reflexivity.
Qed.

(** ** C35: packing and unpacking *)
Definition packable (n : nat) (M : mtx) : Prop :=
  (n = 4%nat /\ sym3 M /\ plane3 M) \/ (n = 5%nat /\ plane3 M) \/ n = 9%nat.
Lemma sqrt2_nz : sqrt 2 <> 0. Proof. apply Rgt_not_eq. apply sqrt_lt_R0. lra. Qed.
Theorem C35_round_trip_partial : forall n M, packable n M -> exists v M', convertMatrixToMgis M n = Ok v /\ length v = n /\ convertMatrixFromMgis v = Ok M' /\ meq 3 M' M.
Proof.
  intros n M H. pose proof sqrt2_nz as NZ.
  destruct H as [(-> & S & P)|[(-> & P)| ->]]; (eexists; eexists; split; [reflexivity|]; split; [reflexivity|]; split; [reflexivity|]);
    intros i j Hi Hj; idx3 i; idx3 j; try destruct P as (P1 & P2 & P3 & P4); unfold fset; cbn [Nat.eqb andb]; unfold at_, mzero; cbn [nth]; try reflexivity; try (symmetry; assumption).
  - field. exact NZ.
  - rewrite (S 1%nat 0%nat). field. exact NZ.
Qed.
(** the other way round, for every vector of an accepted size but 6 *)
Theorem C35_unpack_pack_partial : forall v M, length v <> 6%nat -> convertMatrixFromMgis v = Ok M -> convertMatrixToMgis M (length v) = Ok v.
Proof.
  intros v M N6 H. pose proof sqrt2_nz as NZ. unfold convertMatrixFromMgis in H.
  do 4 (destruct v as [|? v]; [discriminate|]). destruct v as [|? v].
  { cbn [length] in *. injection H as <-. unfold fset, convertMatrixToMgis, at_. cbn [Nat.eqb andb nth]. do 4 f_equal. f_equal. field. exact NZ. }
  destruct v as [|? v]. { cbn [length] in *. injection H as <-. reflexivity. }
  destruct v as [|? v]. { cbn in N6. lia. }
  do 2 (destruct v as [|? v]; [discriminate|]). destruct v as [|? v]. { cbn [length] in *. injection H as <-. reflexivity. }
  cbn [length] in H. discriminate.
Qed.
(** Sizes other than 4, 5, 6, 9 are refused on both sides. *)
Theorem C35_sizes : forall n v M, (convertMatrixToMgis M n = Throw RuntimeError <-> ~ In n [4; 5; 6; 9]%nat) /\
  (convertMatrixFromMgis v = Throw RuntimeError <-> ~ In (length v) [4; 5; 6; 9]%nat).
Proof.
  intros n v M. unfold convertMatrixFromMgis, convertMatrixToMgis. generalize (length v). intros m. split.
  - do 10 (destruct n as [|n]; [cbn; split; [try discriminate; intros _; lia|intros H; try reflexivity; exfalso; apply H; tauto]|]). cbn. split; [intros _; lia|reflexivity].
  - do 10 (destruct m as [|m]; [cbn; split; [try discriminate; intros _; lia|intros H; try reflexivity; exfalso; apply H; tauto]|]). cbn. split; [intros _; lia|reflexivity].
Qed.
(** Size 6: unpacking a packed symmetric matrix does not give it back: entry (1,2) is lost and
    overwrites entry (0,1). *)
Theorem C35_size6_refuted : ~ (forall M v M', sym3 M -> convertMatrixToMgis M 6 = Ok v -> convertMatrixFromMgis v = Ok M' -> meq 3 M' M).
Proof.
  intros H. set (M := fun i j : nat => match i, j with 1%nat, 2%nat | 2%nat, 1%nat => 1 | _, _ => 0 end).
  assert (SM : sym3 M) by (intros i j; unfold M; destruct i as [|[|[|]]], j as [|[|[|]]]; reflexivity).
  specialize (H M _ _ SM eq_refl eq_refl 1%nat 2%nat ltac:(lia) ltac:(lia)). cbv -[IZR sqrt Rmult Rdiv] in H. lra.
Qed.
(** What size 6 does give: the diagonal and entries (1,0), (0,2), (2,0) are right, (0,1) receives
    entry (1,2), and (1,2), (2,1) are zero. *)
Theorem C35_size6_partial : forall M, sym3 M -> exists v M', convertMatrixToMgis M 6 = Ok v /\ convertMatrixFromMgis v = Ok M' /\
  (forall i, (i < 3)%nat -> M' i i = M i i) /\ M' 1%nat 0%nat = M 1%nat 0%nat /\ M' 0%nat 2%nat = M 0%nat 2%nat /\ M' 2%nat 0%nat = M 2%nat 0%nat /\
  M' 0%nat 1%nat = M 1%nat 2%nat /\ M' 1%nat 2%nat = 0 /\ M' 2%nat 1%nat = 0.
Proof.
  intros M S. pose proof sqrt2_nz as NZ. eexists. eexists. split; [reflexivity|]. split; [reflexivity|].
  unfold fset, at_, mzero; cbn [Nat.eqb andb nth]. repeat split.
  - intros i Hi. idx3 i; reflexivity.
  - rewrite (S 1%nat 0%nat). field. exact NZ.
  - field. exact NZ.
  - rewrite (S 2%nat 0%nat). field. exact NZ.
  - field. exact NZ.
Qed.
(** ** C60: the packed tangent operator and its tensor act alike *)
(** sizes 16 (symmetric plane), 25 (plane), 81 (general) *)
Definition acts_alike (n : nat) (E : mtx) (K : list R) : Prop :=
  exists e T s, convertMatrixToMgis E n = Ok e /\ convertTensorFromMgis K = Ok T /\ convertMatrixFromMgis (apply_packed K e) = Ok s /\ meq 3 (tm_prod 3 T E) s.
(** what each coefficient of the tensor is: an entry of the vector over a divisor, or zero *)
Definition slot := option (nat * divisor).
Definition sval (v : list R) (s : slot) : R := match s with Some (n, d) => at_ v n / dval d | None => 0 end.
Definition rstep (S : nat -> nat -> slot) (t : stmt) : nat -> nat -> slot :=
  match t with St i j k l e =>
    let x := match e with Vec n d => Some (n, d) | Copy a b c d => S (a * 3 + c)%nat (b * 3 + d)%nat end in
    fun r c => if ((r =? i * 3 + k) && (c =? j * 3 + l))%nat%bool then x else S r c end.
Definition resolve (p : list stmt) : nat -> nat -> slot := fold_left rstep p (fun _ _ => None).
Lemma exec_resolve v p r c : exec v p r c = sval v (resolve p r c).
Proof.
  unfold exec, resolve. assert (G : forall A S, (forall r c, A r c = sval v (S r c)) -> forall r c,
    fold_left (fun T '(St i j k l e) => fset T (i * 3 + k) (j * 3 + l) (eval v T e)) p A r c = sval v (fold_left rstep p S r c)).
  { induction p as [|[i j k l e] p IH]; intros A S H r' c'; cbn [fold_left]; [apply H|]. apply IH. intros r0 c0. unfold rstep, fset.
    destruct ((r0 =? i * 3 + k) && (c0 =? j * 3 + l))%nat%bool; [|apply H]. destruct e; cbn [eval sval]; [reflexivity|]. apply H. }
  apply G. reflexivity.
Qed.
Ltac slots := repeat match goal with |- context [resolve ?p ?a ?b] => let x := eval vm_compute in (resolve p a b) in change (resolve p a b) with x end.
Lemma at_nth v n : at_ v n = nth n v 0. Proof. reflexivity. Qed.
Ltac act S2 := unfold apply_packed; cbn [length seq map sig Nat.mul Nat.add];
  unfold rd; rewrite !exec_resolve; slots; cbn [sval dval]; unfold fset; cbn [Nat.eqb andb]; rewrite ?at_nth; cbn [nth]; unfold mzero.
Lemma acts16 E K : length K = 16%nat -> sym3 E -> plane3 E -> acts_alike 4 E K.
Proof.
  intros L S (P1 & P2 & P3 & P4). pose proof sqrt2_nz as NZ. unfold acts_alike, convertTensorFromMgis. rewrite L.
  eexists. eexists. eexists. split; [reflexivity|]. split; [reflexivity|]. split; [reflexivity|].
  assert (S2 : sqrt 2 * sqrt 2 = 2) by (apply sqrt_def; lra).
  intros i j Hi Hj. rewrite tm_prod_at by assumption. cbn [sig]. rewrite P1, P2, P3, P4. rewrite (S 1%nat 0%nat). clear -NZ S2 Hi Hj.
  idx3 i; idx3 j; act S2.
  all: generalize dependent (sqrt 2); intros; field [S2]; assumption.
Qed.
Lemma acts25 E K : length K = 25%nat -> plane3 E -> acts_alike 5 E K.
Proof.
  intros L (P1 & P2 & P3 & P4). unfold acts_alike, convertTensorFromMgis. rewrite L.
  eexists. eexists. eexists. split; [reflexivity|]. split; [reflexivity|]. split; [reflexivity|].
  intros i j Hi Hj. rewrite tm_prod_at by assumption. cbn [sig]. rewrite P1, P2, P3, P4. clear -Hi Hj.
  idx3 i; idx3 j; act I. all: field.
Qed.
(** position of entry (i,j) in the packed vector of size 9 *)
Definition pi9 (i j : nat) : nat :=
  nth (i * 3 + j) [0; 3; 5; 4; 1; 7; 6; 8; 2]%nat O.
Definition slot_is (s : slot) (n : nat) : bool := match s with Some (m, One) => (m =? n)%nat | _ => false end.
Lemma resolve81 : forallb (fun '((i, j), (k, l)) => slot_is (resolve prog81 (i * 3 + k) (j * 3 + l)) (pi9 i j * 9 + pi9 k l)) (idx4 3) = true.
Proof. vm_compute. reflexivity. Qed.
Lemma rd81 v i j k l : (i < 3)%nat -> (j < 3)%nat -> (k < 3)%nat -> (l < 3)%nat -> rd 3 (exec v prog81) i j k l = nth (pi9 i j * 9 + pi9 k l) v 0.
Proof.
  intros Hi Hj Hk Hl. pose proof resolve81 as H. rewrite forallb_forall in H. specialize (H ((i, j), (k, l)) (proj2 (in_idx4 3 i j k l) ltac:(auto))). cbn beta iota in H.
  unfold rd. rewrite exec_resolve. unfold slot_is in H. destruct (resolve prog81 (i * 3 + k) (j * 3 + l)) as [[m []]|]; try discriminate.
  apply Nat.eqb_eq in H. subst m. cbn [sval dval]. unfold at_. field.
Qed.
Lemma from9 K e i j : (i < 3)%nat -> (j < 3)%nat -> length e = 9%nat -> forall s, convertMatrixFromMgis (apply_packed K e) = Ok s ->
  s i j = sig 9 (fun b => nth (pi9 i j * 9 + b) K 0 * nth b e 0).
Proof.
  intros Hi Hj L s. unfold convertMatrixFromMgis, apply_packed. rewrite map_length, seq_length, L. cbn [seq map]. set (f := fun a : nat => sig 9 (fun b : nat => nth (a * 9 + b) K 0 * nth b e 0)). intros [= <-].
  change (fset (fset (fset (fset (fset (fset (fset (fset (fset mzero 0 0 (f O)) 1 1 (f 1%nat)) 2 2 (f 2%nat)) 0 1 (f 3%nat)) 1 0 (f 4%nat)) 0 2 (f 5%nat)) 2 0 (f 6%nat)) 1 2 (f 7%nat)) 2 1 (f 8%nat) i j = f (pi9 i j)).
  clearbody f. idx3 i; idx3 j; reflexivity.
Qed.
Lemma acts81 E K : length K = 81%nat -> acts_alike 9 E K.
Proof.
  intros L. unfold acts_alike, convertTensorFromMgis. rewrite L.
  eexists. eexists. eexists. split; [reflexivity|]. split; [reflexivity|]. split; [reflexivity|].
  intros i j Hi Hj. rewrite tm_prod_at by assumption. rewrite (from9 K [E 0 0; E 1 1; E 2 2; E 0 1; E 1 0; E 0 2; E 2 0; E 1 2; E 2 1]%nat i j Hi Hj eq_refl _ eq_refl).
  cbn [sig]. rewrite !rd81 by lia. generalize (pi9 i j * 9)%nat. intros m. unfold pi9. cbn [Nat.mul Nat.add nth]. ring.
Qed.
(** Packing the strain, applying the packed operator (stored row after row) and unpacking gives the
    same stress as converting the operator to a tensor and contracting it with the strain. *)
Theorem C60_tangent_partial : forall n E K, packable n E -> length K = (n * n)%nat ->
  exists e T s, convertMatrixToMgis E n = Ok e /\ convertTensorFromMgis K = Ok T /\ convertMatrixFromMgis (apply_packed K e) = Ok s /\ meq 3 (tm_prod 3 T E) s.
Proof.
  intros n E K [(-> & S & P)|[(-> & P)| ->]] L; [exact (acts16 E K L S P)|exact (acts25 E K L P)|exact (acts81 E K L)].
Qed.
Theorem C60_sizes : forall K, convertTensorFromMgis K = Throw RuntimeError <-> ~ In (length K) [16; 25; 36; 81]%nat.
Proof.
  intros K. unfold convertTensorFromMgis. destruct (in_dec Nat.eq_dec (length K) [16; 25; 36; 81]%nat) as [I|N].
  - split; [|intros H; contradiction]. cbn in I. destruct I as [<-|[<-|[<-|[<-|[]]]]]; discriminate.
  - split; [auto|]. intros _. cbn in N. generalize dependent (length K). intros m N.
    do 82 (destruct m as [|m]; [try reflexivity; exfalso; apply N; tauto|]). reflexivity.
Qed.
(** Size 36: the operator is read in the order (xx, yy, zz, yz, zx, xy), the matrix is packed in the
    order (xx, yy, zz, xy, xz, yz): a shear modulus on xy acts on yz. *)
Theorem C60_size36_refuted : ~ (forall K E T e, length K = 36%nat -> sym3 E -> convertTensorFromMgis K = Ok T -> convertMatrixToMgis E 6 = Ok e ->
  convertMatrixToMgis (tm_prod 3 T E) 6 = Ok (apply_packed K e)).
Proof.
  intros H. set (K := repeat 0 21 ++ [1] ++ repeat 0 14). set (E := fun i j : nat => match i, j with 0%nat, 1%nat | 1%nat, 0%nat => 1 | _, _ => 0 end).
  assert (SE : sym3 E) by (intros i j; unfold E; destruct i as [|[|]], j as [|[|]]; reflexivity).
  specialize (H K E (exec K prog36) _ eq_refl SE eq_refl eq_refl). cbn [convertMatrixToMgis] in H.
  assert (H3 := f_equal (fun o => match o with Ok l => nth 3 l 0 | _ => 0 end) H). cbn beta iota in H3.
  rewrite !tm_prod_at in H3 by lia. revert H3. cbn [sig nth]. unfold rd. rewrite !exec_resolve. slots. cbn [sval dval]. unfold apply_packed. cbn [length seq map nth sig Nat.mul Nat.add].
  unfold at_, K, E. cbn [repeat app nth]. pose proof sqrt2_nz. intros Q. assert (sqrt 2 = 0) by lra. contradiction.
Qed.
(** In the operator's own order the conversion is right except in row xy, where the factors of zz
    and zx are exchanged: it is right for operators without these two entries. *)
Definition pack_voigt (M : mtx) : list R := [M 0 0; M 1 1; M 2 2]%nat ++ [sqrt 2 * M 1%nat 2%nat; sqrt 2 * M 2%nat 0%nat; sqrt 2 * M 0%nat 1%nat].
Theorem C60_size36_partial : forall K E, length K = 36%nat -> sym3 E -> nth 32 K 0 = 0 -> nth 34 K 0 = 0 ->
  exists T, convertTensorFromMgis K = Ok T /\ pack_voigt (tm_prod 3 T E) = apply_packed K (pack_voigt E) /\ sym3 (fun i j => if ((i <? 3) && (j <? 3))%nat%bool then tm_prod 3 T E i j else 0).
Proof.
  intros K E L S Z1 Z2. pose proof sqrt2_nz as NZ. assert (S2 : sqrt 2 * sqrt 2 = 2) by (apply sqrt_def; lra).
  unfold convertTensorFromMgis. rewrite L. eexists. split; [reflexivity|].
  assert (S01 : E 1%nat 0%nat = E 0%nat 1%nat) by apply S. assert (S02 : E 2%nat 0%nat = E 0%nat 2%nat) by apply S. assert (S12 : E 2%nat 1%nat = E 1%nat 2%nat) by apply S.
  split.
  - unfold pack_voigt. cbn [app]. rewrite !tm_prod_at by lia. cbn [sig]. rewrite S01, S02, S12.
    unfold apply_packed; cbn [length seq map sig Nat.mul Nat.add]. unfold rd; rewrite !exec_resolve; slots; cbn [sval dval]; rewrite ?at_nth; cbn [nth]. rewrite Z1, Z2.
    clear -NZ S2. repeat (apply (f_equal2 (@cons R)); [generalize dependent (sqrt 2); intros; field [S2]; assumption|]). reflexivity.
  - intros i j. destruct (Nat.ltb_spec i 3), (Nat.ltb_spec j 3); cbn [andb]; try reflexivity. rewrite !tm_prod_at by assumption. cbn [sig]. rewrite S01, S02, S12. clear -NZ S2 H H0.
    idx3 i; idx3 j; unfold rd; rewrite !exec_resolve; slots; reflexivity.
Qed.

(** ** non-trivial instances *)
Definition exM : mtx := fun i j => match i, j with 0%nat, 0%nat => 2 | 0%nat, 1%nat | 1%nat, 0%nat => 3 | 2%nat, 2%nat => -1 | _, _ => 0 end.
Example ex_packable : packable 4 exM /\ packable 5 exM /\ packable 9 exM /\ exM 0%nat 1%nat <> 0.
Proof.
  assert (P : plane3 exM) by (repeat split; reflexivity). assert (S : sym3 exM) by (intros i j; destruct i as [|[|[|]]], j as [|[|[|]]]; reflexivity).
  split; [left; auto|]. split; [right; left; auto|]. split; [right; right; reflexivity|]. cbn. lra.
Qed.
(** the hypotheses of C36_mandel and C36_first_piola_tangent hold for the elasticity tensor
    lambda I x I + 2 mu I^s (here lambda = 1, mu = 1 through Odot) *)
Example ex_symmetries : (forall i j k l, coeff 3 (Odot 3 mident mident) i j k l = coeff 3 (Odot 3 mident mident) i j l k) /\
  (forall i j k l, coeff 3 (Odot 3 mident mident) i j k l = coeff 3 (Odot 3 mident mident) k l i j) /\ coeff 3 (Odot 3 mident mident) 0 1 1 0 = Ok (1 / 2).
Proof.
  assert (G : forall i j k l i' j' k' l', ((i' = i /\ j' = j /\ k' = l /\ l' = k) \/ (i' = k /\ j' = l /\ k' = i /\ l' = j)) ->
    coeff 3 (Odot 3 mident mident) i j k l = coeff 3 (Odot 3 mident mident) i' j' k' l').
  { intros i j k l i' j' k' l' H. unfold coeff. destruct (bad 3 i j k l) eqn:B, (bad 3 i' j' k' l') eqn:B'; try reflexivity; unfold bad in *; rewrite ?orb_false_iff, ?orb_true_iff, ?Nat.leb_gt, ?Nat.leb_le in *; try (exfalso; lia).
    f_equal. change (rd 3 (Odot 3 mident mident) i j k l = rd 3 (Odot 3 mident mident) i' j' k' l'). rewrite !rd_Odot by lia. unfold mident. destruct H as [(-> & -> & -> & ->)|(-> & -> & -> & ->)]; [f_equal; ring|].
    rewrite (Nat.eqb_sym k i), (Nat.eqb_sym l j), (Nat.eqb_sym k j), (Nat.eqb_sym l i). f_equal. ring. }
  split; [intros; apply G; left; auto|]. split; [intros; apply G; right; auto|]. rewrite coeff_ok, rd_Odot by lia. unfold mident. cbn [Nat.eqb]. f_equal. lra.
Qed.
Print Assumptions C35_round_trip_partial. Print Assumptions C35_unpack_pack_partial. Print Assumptions C35_sizes. Print Assumptions C35_size6_refuted. Print Assumptions C35_size6_partial.
Print Assumptions C36_coeff_read_write. Print Assumptions C36_coeff_defined. Print Assumptions C36_products. Print Assumptions C36_product_maps. Print Assumptions C36_contractions.
Print Assumptions C36_single_entry. Print Assumptions C36_identities. Print Assumptions C36_deviator. Print Assumptions C36_plane_conversions. Print Assumptions C36_first_piola_tangent. Print Assumptions C36_mandel.
Print Assumptions C60_tangent_partial. Print Assumptions C60_sizes. Print Assumptions C60_size36_refuted. Print Assumptions C60_size36_partial.
