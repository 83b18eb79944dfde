(** Proofs about the matrix bases and the tangential bases. *)
From Coq Require Import List Arith ZArith Bool Reals Lia Lra.
From Verif Require Import Common Tensor_Spec Tensor_Proofs Law2_Proofs Bases_Model Bases_Spec Bases_Proofs Bases2_Proofs Bases3_Proofs VBases_Model VBases_Spec VBases_Proofs VBases2_Proofs.
Import ListNotations.
Open Scope R_scope.

(** for each scalar value [w] matrices, the q-th with entries T q a b times the value *)
Definition blocks (d w : nat) (T : nat -> nat -> nat -> R) (phi : list R) : list mat :=
  flat_map (fun p => map (fun q => as_matrix d (fun a b => T q a b * p)) (seq 0 w)) phi.
Lemma len_blocks d w T phi : length (blocks d w T phi) = (w * length phi)%nat.
Proof. apply flat_map_length_const. intros. rewrite map_length, seq_length. reflexivity. Qed.
Lemma blocks_mats d w T phi : Forall (fun m => length m = d /\ Forall (fun r => length r = d) m) (blocks d w T phi).
Proof.
  apply Forall_forall. intros m I. apply in_flat_map in I. destruct I as (p & _ & I). apply in_map_iff in I. destruct I as (q & <- & _).
  unfold as_matrix. split; [rewrite map_length, seq_length; reflexivity|]. apply Forall_forall. intros r I. apply in_map_iff in I. destruct I as (a & <- & _).
  rewrite map_length, seq_length. reflexivity.
Qed.
Lemma flat_as_seq {B} (g : R -> list B) phi : flat_map g phi = flat_map (fun i => g (nth i phi 0)) (seq 0 (length phi)).
Proof.
  induction phi as [|p phi IH]; [reflexivity|]. cbn [flat_map length seq]. f_equal. rewrite IH. rewrite <- seq_shift, flat_map_concat_map, flat_map_concat_map, map_map. reflexivity.
Qed.
Lemma entry_as_matrix d D a b : (a < d)%nat -> (b < d)%nat -> entry (as_matrix d D) a b = D a b.
Proof. intros Ha Hb. unfold entry, as_matrix. rewrite nth_map_seq by exact Ha. rewrite nth_map_seq by exact Hb. reflexivity. Qed.
Lemma entry_blocks d w T phi i q a b : (i < length phi)%nat -> (q < w)%nat -> (a < d)%nat -> (b < d)%nat ->
  entry (nth (w * i + q) (blocks d w T phi) []) a b = T q a b * nth i phi 0.
Proof.
  intros Hi Hq Ha Hb. unfold blocks. rewrite flat_as_seq. rewrite (nth_flat _ w) by (try lia; intros; rewrite map_length, seq_length; reflexivity).
  rewrite nth_map_seq by exact Hq. apply entry_as_matrix; assumption.
Qed.
Section Blocks.
  Context (d w : nat) (T : nat -> nat -> nat -> R) (sel : nat -> nat * nat).
  Context (SD : forall q, (q < w)%nat -> (fst (sel q) < d)%nat /\ (snd (sel q) < d)%nat).
  Context (ST : forall q, (q < w)%nat -> T q (fst (sel q)) (snd (sel q)) <> 0).
  Context (SO : forall q q', (q < w)%nat -> (q' < w)%nat -> q' <> q -> T q' (fst (sel q)) (snd (sel q)) = 0).
  Lemma blocks_sum (k : nat -> R) phi q : (q < w)%nat ->
    sig (w * length phi) (fun j => k j * entry (nth j (blocks d w T phi) []) (fst (sel q)) (snd (sel q)))
    = sig (length phi) (fun i => k (w * i + q)%nat * T q (fst (sel q)) (snd (sel q)) * nth i phi 0).
  Proof.
    intros Hq. destruct (SD q Hq) as [Ha Hb]. rewrite sig_block. apply sig_ext. intros i Hi. rewrite (sig_single w q); [|exact Hq|].
    - rewrite entry_blocks by assumption. ring.
    - intros q' Hq' N. rewrite entry_blocks by assumption. rewrite SO by assumption. ring.
  Qed.
  Lemma blocks_returns (E : list (list nat)) (ref : (nat -> R) -> nat -> R) eval : (forall x, eval x = Ok (blocks d w T (map (fun e => monomial e (ref x) 0) E))) ->
    returns_matrices d (w * length E) eval.
  Proof. intros EV x. eexists. split; [apply EV|]. split; [rewrite len_blocks, map_length; reflexivity|apply blocks_mats]. Qed.
  Lemma blocks_indep dm (E : list (list nat)) (ref : (nat -> R) -> nat -> R) eval : NoDup E -> (forall a, In a E -> length a = dm) -> onto dm ref ->
    (forall x, eval x = Ok (blocks d w T (map (fun e => monomial e (ref x) 0) E))) -> mindependent d (w * length E) eval.
  Proof.
    intros NE LE ON EV k H j Hj. destruct (split_index _ _ _ Hj) as (i & q & Hi & Hq & ->). destruct (SD q Hq) as [Ha Hb].
    assert (Z : k (w * i + q)%nat * T q (fst (sel q)) (snd (sel q)) = 0).
    { apply (indep_idx dm E (fun i => k (w * i + q)%nat * T q (fst (sel q)) (snd (sel q))) NE LE); [|exact Hi]. intros y.
      destruct (onto_mono dm E ref LE ON y) as (x & _ & Hx). specialize (H x _ _ Ha Hb). unfold mcomp in H. rewrite EV in H.
      rewrite <- (map_length (fun e => monomial e (ref x) 0) E) in H at 1. rewrite blocks_sum in H by exact Hq. rewrite map_length in H. rewrite <- H.
      apply sig_ext. intros l Hl. rewrite nth_phi by exact Hl. rewrite Hx by exact Hl. reflexivity. }
    apply Rmult_integral in Z. destruct Z as [Z|Z]; [exact Z|]. exfalso. apply (ST q Hq Z).
  Qed.
  (** with the functions added by the Raviart-Thomas spaces *)
  Context (dq : nat -> nat) (DQ : forall r, (r < d)%nat -> (dq r < w)%nat /\ sel (dq r) = (r, r)).
  Lemma rtblocks_indep m bar len (B : (nat -> R) -> nat -> nat -> nat -> R) eval : d = 2%nat \/ d = 3%nat -> (forall i, (i < d)%nat -> len i <> 0) ->
    (forall x r r', (r < d)%nat -> (r' < d)%nat -> B x r' r r = if (r' =? r)%nat then x r - bar r else 0) ->
    let ref := loc d (box_frame bar len) in
    (forall x, eval x = Ok (blocks d w T (map (fun e => monomial e (ref x) 0) (EE d m)) ++ blocks d d (B x) (map (fun e => monomial e (ref x) 0) (TT d m)))) ->
    mindependent d (w * length (EE d m) + d * length (TT d m)) eval.
  Proof.
    intros Hd HL HB ref EV k H. set (n := length (EE d m)) in *.
    assert (SUM : forall x q, (q < w)%nat -> let a := fst (sel q) in let b := snd (sel q) in
      sig n (fun i => k (w * i + q)%nat * T q a b * monomial (nth i (EE d m) []) (ref x) 0)
      + sig (length (TT d m)) (fun l => sig d (fun r => k (w * n + (d * l + r))%nat * B x r a b) * monomial (nth l (TT d m) []) (ref x) 0) = 0).
    { intros x q Hq a b. destruct (SD q Hq) as [Ha Hb]. fold a in Ha. fold b in Hb. specialize (H x a b Ha Hb). unfold mcomp in H. rewrite EV in H. rewrite sig_plus in H. rewrite <- H. f_equal.
      - rewrite (sig_ext (w * n) _ (fun j => k j * entry (nth j (blocks d w T (map (fun e => monomial e (ref x) 0) (EE d m))) []) a b)).
        + unfold n. rewrite <- (map_length (fun e => monomial e (ref x) 0) (EE d m)) at 2. unfold a, b. rewrite blocks_sum by exact Hq. rewrite map_length.
          apply sig_ext. intros i Hi. rewrite nth_phi by exact Hi. reflexivity.
        + intros j Hj. rewrite app_nth1 by (rewrite len_blocks, map_length; exact Hj). reflexivity.
      - rewrite sig_block. apply sig_ext. intros l Hl. rewrite <- sig_mul_r. apply sig_ext. intros r Hr.
        rewrite app_nth2 by (rewrite len_blocks, map_length; fold n; lia). rewrite len_blocks, map_length. fold n.
        replace (w * n + (d * l + r) - w * n)%nat with (d * l + r)%nat by lia. rewrite entry_blocks by (rewrite ?map_length; assumption).
        rewrite nth_phi by exact Hl. ring. }
    assert (Z : forall r, (r < d)%nat -> forall l, (l < length (TT d m))%nat -> k (w * n + (d * l + r))%nat = 0).
    { intros r Hr. destruct (DQ r Hr) as [Hq Eq].
      apply (shift_indep d m (EE d m) (TT d m) (fun i => k (w * i + dq r)%nat * T (dq r) r r) (fun l => k (w * n + (d * l + r))%nat) r (len r / 2)).
      - apply EE_nodup, Hd.
      - intros e I. apply (EE_enum d m Hd), I.
      - apply (TT_top d m Hd).
      - intros e I. apply (TT_top d m Hd), I.
      - exact Hr.
      - specialize (HL r Hr). intros Q. apply HL. lra.
      - intros y. destruct (onto_mono d (EE d m) ref (fun a I => EE_dim d m a Hd I) (box_onto d bar len HL) y) as (x & Hrf & Hx).
        pose proof (SUM x (dq r) Hq) as S1. cbv zeta in S1. rewrite Eq in S1. cbn [fst snd] in S1. rewrite <- S1. f_equal.
        + apply sig_ext. intros i Hi. rewrite Hx by exact Hi. reflexivity.
        + apply sig_ext. intros l Hl. rewrite (sig_single d r); [|exact Hr|].
          * rewrite HB by exact Hr. rewrite Nat.eqb_refl. rewrite (mono_ext_len (nth l (TT d m) []) y (ref x) 0).
            -- rewrite <- Hrf by exact Hr. unfold ref. rewrite box_coord by exact Hr. field. apply HL, Hr.
            -- intros q Hq'. symmetry. apply Hrf. rewrite (proj1 (proj1 (proj2 (TT_top d m Hd) _) (nth_In _ [] Hl))) in Hq'. lia.
          * intros r' Hr' N. rewrite HB by assumption. destruct (Nat.eqb_spec r' r); [contradiction|ring]. }
    intros j Hj. destruct (Nat.lt_ge_cases j (w * n)) as [C|C].
    - destruct (split_index _ _ _ C) as (i & q & Hi & Hq & ->).
      assert (Z1 : k (w * i + q)%nat * T q (fst (sel q)) (snd (sel q)) = 0).
      { apply (indep_idx d (EE d m) (fun i => k (w * i + q)%nat * T q (fst (sel q)) (snd (sel q))) (EE_nodup d m Hd) (fun a I => EE_dim d m a Hd I)); [|exact Hi].
        intros y. destruct (onto_mono d (EE d m) ref (fun a I => EE_dim d m a Hd I) (box_onto d bar len HL) y) as (x & _ & Hx).
        pose proof (SUM x q Hq) as S1. cbv zeta in S1. rewrite (sig_zero (length (TT d m))) in S1.
        - rewrite Rplus_0_r in S1. rewrite <- S1. apply sig_ext. intros l Hl. rewrite Hx by exact Hl. reflexivity.
        - intros l Hl. rewrite (sig_zero d); [ring|]. intros r Hr. rewrite Z by assumption. ring. }
      apply Rmult_integral in Z1. destruct Z1 as [Z1|Z1]; [exact Z1|]. exfalso. apply (ST q Hq Z1).
    - replace j with (w * n + (j - w * n))%nat by lia. destruct (split_index d (length (TT d m)) (j - w * n)) as (l & r & Hl & Hr & ->); [lia|].
      apply Z; assumption.
  Qed.
  Lemma rtblocks_returns m F (B : (nat -> R) -> nat -> nat -> nat -> R) eval :
    (forall x, eval x = Ok (blocks d w T (map (fun e => monomial e (loc d F x) 0) (EE d m)) ++ blocks d d (B x) (map (fun e => monomial e (loc d F x) 0) (TT d m)))) ->
    returns_matrices d (w * length (EE d m) + d * length (TT d m)) eval.
  Proof.
    intros EV x. eexists. split; [apply EV|]. split; [rewrite app_length, !len_blocks, !map_length; reflexivity|]. apply Forall_app. split; apply blocks_mats.
  Qed.
End Blocks.

(** ** the tensors *)
Definition T_full (d q a b : nat) : R := if (a =? q mod d)%nat && (b =? q / d)%nat then 1 else 0.
Definition sym_pos (q : nat) : nat * nat := nth q [(0, 0); (0, 1); (1, 1); (0, 2); (1, 2); (2, 2)]%nat (0%nat, 0%nat).
Definition T_sym (q a b : nat) : R :=
  let (i, j) := sym_pos q in
  if (i =? j)%nat then (if (a =? i)%nat && (b =? j)%nat then 1 else 0)
  else if ((a =? i)%nat && (b =? j)%nat) || ((a =? j)%nat && (b =? i)%nat) then 1 / sqrt 2 else 0.
Ltac upto n i := match n with O => lia | S ?m => destruct i as [|i]; [|upto m i] end.
Lemma sqrt2_inv : 1 / sqrt 2 <> 0.
Proof. pose proof (sqrt_lt_R0 2 ltac:(lra)) as H. apply Rgt_not_eq. unfold Rdiv. rewrite Rmult_1_l. apply Rinv_0_lt_compat, H. Qed.
Lemma full_eq d phi : d = 2%nat \/ d = 3%nat -> mat_functions d (length phi) phi = Ok (blocks d (d * d) (T_full d) phi).
Proof.
  intros Hd. unfold mat_functions. rewrite (for_app' _ (fun k => map (fun q => as_matrix d (fun a b => T_full d q a b * nth k phi 0)) (seq 0 (d * d)))); [|lia|].
  - rewrite Nat.sub_0_r. unfold blocks. rewrite (flat_as_seq (fun p => map (fun q => as_matrix d (fun a b => T_full d q a b * p)) (seq 0 (d * d)))). reflexivity.
  - intros s k Hk. pose proof (vget_nth phi k 0 ltac:(lia)) as G. generalize (nth k phi 0) as p, G. clear - Hd. intros p G.
    destruct Hd as [-> | ->]; cbn [for_range Nat.sub seq fold_left bind]; unfold for_range; cbn [for_range Nat.sub seq fold_left]; rewrite ?G; cbn [bind];
      unfold mput, zero_mat, vget, vset; cbn [repeat nth_error upd bind]; rewrite <- ?app_assoc; cbn [app]; apply f_equal, f_equal;
      unfold as_matrix, T_full; cbn [Nat.mul Nat.add seq map Nat.modulo Nat.div Nat.divmod Nat.sub fst snd Nat.eqb andb]; repeat (f_equal; try ring).
Qed.
Lemma sym_eq d phi : d = 2%nat \/ d = 3%nat -> sym_functions d (length phi) phi = Ok (blocks d (if (d =? 2)%nat then 3 else 6) T_sym phi).
Proof.
  intros Hd. unfold sym_functions. set (w := if (d =? 2)%nat then 3%nat else 6%nat).
  rewrite (for_app' _ (fun k => map (fun q => as_matrix d (fun a b => T_sym q a b * nth k phi 0)) (seq 0 w))); [|lia|].
  - rewrite Nat.sub_0_r. unfold blocks. rewrite (flat_as_seq (fun p => map (fun q => as_matrix d (fun a b => T_sym q a b * p)) (seq 0 w))). reflexivity.
  - intros s k Hk. pose proof (vget_nth phi k 0 ltac:(lia)) as G. generalize (nth k phi 0) as p, G. clear - Hd. intros p G. subst w. unfold T_sym.
    generalize (1 / sqrt 2) as iv. intros iv.
    destruct Hd as [-> | ->]; unfold for_range; cbn [Nat.sub Nat.eqb seq fold_left bind]; rewrite ?G; cbn [bind];
      unfold mput, zero_mat, vget, vset; cbn [repeat nth_error upd bind]; rewrite <- ?app_assoc; cbn [app]; apply f_equal, f_equal;
      unfold as_matrix, sym_pos; cbn [seq map nth Nat.eqb andb orb]; repeat (f_equal; try ring).
Qed.

(** ** Raviart-Thomas matrices *)
Lemma flat_seq_skip {B} (g : R -> list B) (sphi : list R) beg m : (beg + m)%nat = length sphi ->
  flat_map (fun i => g (nth i sphi 0)) (seq beg m) = flat_map g (skipn beg sphi).
Proof.
  intros H. pose proof (flat_seq_nth (fun p => p) sphi beg m H) as K. rewrite flat_single, map_id in K. rewrite <- K.
  rewrite !flat_map_concat_map, map_map. reflexivity.
Qed.
Definition B_row (b : list R) (j a c : nat) : R := if (a =? j)%nat then nth c b 0 else 0.
Definition B_sym (b : list R) (r a c : nat) : R :=
  if (a =? r)%nat && (c =? r)%nat then nth r b 0 else if (a =? r)%nat then nth c b 0 / 2 else if (c =? r)%nat then nth a b 0 / 2 else 0.
Lemma row_mat_eq d j b p : d = 2%nat \/ d = 3%nat -> (j < d)%nat -> length b = d ->
  row_mat d j (map (fun bc => p * bc) b) = Ok (as_matrix d (fun a c => B_row b j a c * p)).
Proof.
  intros Hd Hj Hb. destruct Hd as [-> | ->].
  - destruct b as [|b0 [|b1 [|]]]; try discriminate Hb. upto 2%nat j;
      unfold row_mat, zero_mat, vset, as_matrix, B_row; cbn [repeat map upd seq Nat.eqb nth]; repeat (f_equal; try ring).
  - destruct b as [|b0 [|b1 [|b2 [|]]]]; try discriminate Hb. upto 3%nat j;
      unfold row_mat, zero_mat, vset, as_matrix, B_row; cbn [repeat map upd seq Nat.eqb nth]; repeat (f_equal; try ring).
Qed.
Lemma rtmat_eq d k mb sphi b : d = 2%nat \/ d = 3%nat -> length b = d -> length sphi = scalar_basis_size (k - 1) d ->
  let beg := if (2 <=? k)%nat then scalar_basis_size (k - 2) d else 0%nat in (beg <= length sphi)%nat ->
  rtmat_functions d k mb sphi b = Ok (mb ++ blocks d d (B_row b) (skipn beg sphi)).
Proof.
  intros Hd Hb Hs beg HB. unfold rtmat_functions. fold beg. rewrite <- Hs.
  rewrite (for_app' _ (fun i => map (fun q => as_matrix d (fun a c => B_row b q a c * nth i sphi 0)) (seq 0 d))); [|exact HB|].
  - unfold blocks. rewrite (flat_seq_skip (fun p => map (fun q => as_matrix d (fun a c => B_row b q a c * p)) (seq 0 d))) by lia. reflexivity.
  - intros s i Hi. rewrite (for_app' _ (fun j => [as_matrix d (fun a c => B_row b j a c * nth i sphi 0)])); [|lia|].
    + rewrite Nat.sub_0_r, flat_single. reflexivity.
    + intros s' j Hj. rewrite (vget_nth _ _ 0) by lia. cbn [bind]. rewrite row_mat_eq by (try assumption; lia). reflexivity.
Qed.
Lemma scale_outer d r b p : mat_scale p (sym_outer d r b) = as_matrix d (fun a c => B_sym b r a c * p).
Proof.
  unfold mat_scale, sym_outer, as_matrix. rewrite map_map. apply map_ext. intros a. rewrite map_map. apply map_ext. intros c. unfold B_sym.
  destruct ((a =? r)%nat && (c =? r)%nat); [ring|]. destruct (a =? r)%nat; [unfold Rdiv; ring|]. destruct (c =? r)%nat; [unfold Rdiv; ring|ring].
Qed.
Lemma rtsym_loop d k smb sphi b : length sphi = scalar_basis_size (k - 1) d ->
  let beg := if (2 <=? k)%nat then scalar_basis_size (k - 2) 2 else 0%nat in (beg <= length sphi)%nat ->
  for_range beg (scalar_basis_size (k - 1) d) (fun ret i => for_range 0 d (fun ret r =>
    do p <- vget sphi i; Ok (ret ++ [mat_scale p (sym_outer d r b)])) (Ok ret)) (Ok smb) = Ok (smb ++ blocks d d (B_sym b) (skipn beg sphi)).
Proof.
  intros Hs beg HB. rewrite <- Hs.
  rewrite (for_app' _ (fun i => map (fun q => as_matrix d (fun a c => B_sym b q a c * nth i sphi 0)) (seq 0 d))); [|exact HB|].
  - unfold blocks. rewrite (flat_seq_skip (fun p => map (fun q => as_matrix d (fun a c => B_sym b q a c * p)) (seq 0 d))) by lia. reflexivity.
  - intros s i Hi. rewrite (for_app' _ (fun j => [as_matrix d (fun a c => B_sym b j a c * nth i sphi 0)])); [|lia|].
    + rewrite Nat.sub_0_r, flat_single. reflexivity.
    + intros s' j Hj. rewrite (vget_nth _ _ 0) by lia. cbn [bind]. rewrite scale_outer. reflexivity.
Qed.
(** the classes *)
Notation sphi d deg F x := (map (fun e => monomial e (loc d F x) 0) (EE d deg)).
Notation tphi d deg F x := (map (fun e => monomial e (loc d F x) 0) (TT d deg)).
Lemma mat2_eq deg F x : fits deg 2 -> mat2_functions deg F x = Ok (blocks 2 4 (T_full 2) (sphi 2 deg F x)).
Proof.
  intros H. unfold mat2_functions. rewrite EE2 by exact H. cbn [bind]. rewrite (EE_len 2) by auto. rewrite <- (map_length (fun e => monomial e (loc 2 F x) 0)).
  apply (full_eq 2). auto.
Qed.
Lemma mat3_eq deg F x : fits deg 3 -> mat3_functions deg F x = Ok (blocks 3 9 (T_full 3) (sphi 3 deg F x)).
Proof.
  intros H. unfold mat3_functions. rewrite EE3 by exact H. cbn [bind]. rewrite (EE_len 3) by auto. rewrite <- (map_length (fun e => monomial e (loc 3 F x) 0)).
  apply (full_eq 3). auto.
Qed.
Lemma sym2_eq deg F x : fits deg 2 -> sym2_functions deg F x = Ok (blocks 2 3 T_sym (sphi 2 deg F x)).
Proof.
  intros H. unfold sym2_functions. rewrite EE2 by exact H. cbn [bind]. rewrite (EE_len 2) by auto. rewrite <- (map_length (fun e => monomial e (loc 2 F x) 0)).
  apply (sym_eq 2). auto.
Qed.
Lemma sym3_eq deg F x : fits deg 3 -> sym3_functions deg F x = Ok (blocks 3 6 T_sym (sphi 3 deg F x)).
Proof.
  intros H. unfold sym3_functions. rewrite EE3 by exact H. cbn [bind]. rewrite (EE_len 3) by auto. rewrite <- (map_length (fun e => monomial e (loc 3 F x) 0)).
  apply (sym_eq 3). auto.
Qed.
Lemma sym_size d deg : d = 2%nat \/ d = 3%nat -> fits deg d -> sym_matrix_basis_size deg d d = ((if (d =? 2)%nat then 3 else 6) * length (EE d deg))%nat.
Proof.
  intros Hd H. unfold sym_matrix_basis_size. destruct deg as [|deg]; cbn [Nat.eqb].
  - destruct Hd as [-> | ->]; reflexivity.
  - rewrite (EE_len d) by auto. destruct Hd as [-> | ->]; reflexivity.
Qed.
Lemma mat_begin d m : d = 2%nat \/ d = 3%nat -> fits m d -> (if (2 <=? S m)%nat then scalar_basis_size (S m - 2) d else 0%nat) = length (LL d m).
Proof.
  intros Hd H. destruct m as [|m]; [reflexivity|]. cbn [LL]. replace (2 <=? S (S m))%nat with true by reflexivity. replace (S (S m) - 2)%nat with m by lia.
  apply EE_len; [exact Hd|apply fits_pred, H].
Qed.
Lemma rtmat_size d m : d = 2%nat \/ d = 3%nat -> matrix_basis_size_RT (S m) d d = Ok (d * d * length (EE d m) + d * length (TT d m))%nat.
Proof. intros [-> | ->]; unfold matrix_basis_size_RT; cbn [Nat.eqb]; [rewrite rt_size2|rewrite rt_size3]; cbn [bind]; f_equal; lia. Qed.
Lemma rtsym_size d m : d = 2%nat \/ d = 3%nat -> fits m d ->
  sym_matrix_basis_size_RT (S m) d d = Ok ((if (d =? 2)%nat then 3 else 6) * length (EE d m) + d * length (TT d m))%nat.
Proof.
  intros Hd H. unfold sym_matrix_basis_size_RT. cbn [Nat.eqb]. cbv zeta. rewrite mat_begin by assumption. replace (S m - 1)%nat with m by lia.
  rewrite sym_size by assumption. rewrite (EE_len d m) by assumption. rewrite <- len_TT by exact Hd. reflexivity.
Qed.
Lemma rtmat2_eq m F bar x : fits m 2 -> rtmat2_functions (S m) F bar x = Ok (blocks 2 4 (T_full 2) (sphi 2 m F x) ++ blocks 2 2 (B_row (from_bar 2 bar x)) (tphi 2 m F x)).
Proof.
  intros H. unfold rtmat2_functions, rtmat_make. rewrite rtmat_size by auto. cbn [bind Nat.eqb]. replace (S m - 1)%nat with m by lia. rewrite mat2_eq, EE2 by exact H. cbn [bind].
  pose proof (mat_begin 2 m (or_introl eq_refl) H) as MB. pose proof (len_LL 2 m (or_introl eq_refl)) as LLE.
  rewrite rtmat_eq; [|auto|apply len_from|rewrite map_length; replace (S m - 1)%nat with m by lia; symmetry; apply (EE_len 2); auto|rewrite MB, map_length; exact LLE].
  rewrite MB, skip_mono by auto. reflexivity.
Qed.
Lemma rtmat3_eq m F bar x : fits m 3 -> rtmat3_functions (S m) F bar x = Ok (blocks 3 9 (T_full 3) (sphi 3 m F x) ++ blocks 3 3 (B_row (from_bar 3 bar x)) (tphi 3 m F x)).
Proof.
  intros H. unfold rtmat3_functions, rtmat_make. rewrite rtmat_size by auto. cbn [bind Nat.eqb]. replace (S m - 1)%nat with m by lia. rewrite mat3_eq, EE3 by exact H. cbn [bind].
  pose proof (mat_begin 3 m (or_intror eq_refl) H) as MB. pose proof (len_LL 3 m (or_intror eq_refl)) as LLE.
  rewrite rtmat_eq; [|auto|apply len_from|rewrite map_length; replace (S m - 1)%nat with m by lia; symmetry; apply (EE_len 3); auto|rewrite MB, map_length; exact LLE].
  rewrite MB, skip_mono by auto. reflexivity.
Qed.
Lemma rtsym2_eq m F bar x : fits m 2 -> rtsym2_functions (S m) F bar x = Ok (blocks 2 3 T_sym (sphi 2 m F x) ++ blocks 2 2 (B_sym (from_bar 2 bar x)) (tphi 2 m F x)).
Proof.
  intros H. unfold rtsym2_functions, rtsym_make. rewrite rtsym_size by auto. cbn [bind Nat.eqb]. replace (S m - 1)%nat with m by lia. rewrite sym2_eq, EE2 by exact H. cbn [bind].
  pose proof (mat_begin 2 m (or_introl eq_refl) H) as MB. pose proof (len_LL 2 m (or_introl eq_refl)) as LLE. unfold rtsym_functions.
  rewrite rtsym_loop; [|rewrite map_length; replace (S m - 1)%nat with m by lia; symmetry; apply (EE_len 2); auto|rewrite MB, map_length; exact LLE].
  cbn [bind]. rewrite MB, skip_mono by auto. rewrite app_length, !len_blocks, !map_length. rewrite !Nat.eqb_refl. reflexivity.
Qed.
Lemma scalar3_ge2 m : (length (EE 2 m) <= length (EE 3 m))%nat.
Proof. pose proof (len_EE2 m). pose proof (len_EE3 m). nia. Qed.
(** in 3D the added functions start at the number of monomials in two variables *)
Lemma rtsym3_eq m F bar x : fits m 3 -> fits m 2 -> rtsym3_functions (S m) F bar x =
  Ok (blocks 3 6 T_sym (sphi 3 m F x) ++ blocks 3 3 (B_sym (from_bar 3 bar x)) (skipn (length (LL 2 m)) (sphi 3 m F x))).
Proof.
  intros H H2. unfold rtsym3_functions, rtsym_make. rewrite rtsym_size by auto. cbn [bind Nat.eqb]. replace (S m - 1)%nat with m by lia. rewrite sym3_eq, EE3 by exact H. cbn [bind].
  pose proof (mat_begin 2 m (or_introl eq_refl) H2) as MB. pose proof (len_LL 2 m (or_introl eq_refl)) as LLE. pose proof (scalar3_ge2 m). unfold rtsym_functions.
  rewrite rtsym_loop; [|rewrite map_length; replace (S m - 1)%nat with m by lia; symmetry; apply (EE_len 3); auto|rewrite MB, map_length; lia].
  cbn [bind]. rewrite MB. reflexivity.
Qed.
Lemma rtsym3_low m F bar x : (m <= 1)%nat -> rtsym3_functions (S m) F bar x =
  Ok (blocks 3 6 T_sym (sphi 3 m F x) ++ blocks 3 3 (B_sym (from_bar 3 bar x)) (tphi 3 m F x)).
Proof.
  intros H. rewrite rtsym3_eq by (destruct m as [|[|m]]; [| |lia]; unfold fits; cbn; lia).
  replace (length (LL 2 m)) with (length (LL 3 m)) by (destruct m as [|[|m]]; [reflexivity|reflexivity|lia]). rewrite skip_mono by auto. reflexivity.
Qed.
Lemma rtsym3_many m F bar x : (2 <= m)%nat -> fits m 3 -> fits m 2 ->
  exists L size, rtsym3_functions (S m) F bar x = Ok L /\ sym_matrix_basis_size_RT (S m) 3 3 = Ok size /\ (size < length L)%nat.
Proof.
  intros Hm H H2. eexists. eexists. split; [apply rtsym3_eq; assumption|]. split; [apply rtsym_size; auto|].
  rewrite app_length, !len_blocks, skipn_length, !map_length. destruct m as [|m]; [lia|]. cbn [LL Nat.eqb].
  pose proof (len_TT 3 (S m) (or_intror eq_refl)) as LT. cbn [LL] in LT. rewrite LT.
  pose proof (len_EE3 (S m)). pose proof (len_EE3 m). pose proof (len_EE2 m).
  assert (length (EE 2 m) < length (EE 3 m))%nat by nia. assert (length (EE 3 m) <= length (EE 3 (S m)))%nat by nia. lia.
Qed.
(** selections *)
Definition sel_full (d q : nat) : nat * nat := ((q mod d)%nat, (q / d)%nat).
Lemma full_sel_dim d q : (d <> 0)%nat -> (q < d * d)%nat -> (fst (sel_full d q) < d)%nat /\ (snd (sel_full d q) < d)%nat.
Proof. intros N H. cbn. split; [apply Nat.mod_upper_bound, N|apply Nat.div_lt_upper_bound; assumption]. Qed.
Lemma full_sel_one d q : T_full d q (fst (sel_full d q)) (snd (sel_full d q)) <> 0.
Proof. unfold T_full, sel_full. cbn [fst snd]. rewrite !Nat.eqb_refl. cbn. lra. Qed.
Lemma full_sel_other d q q' : (d <> 0)%nat -> q' <> q -> T_full d q' (fst (sel_full d q)) (snd (sel_full d q)) = 0.
Proof.
  intros N H. unfold T_full, sel_full. cbn [fst snd]. destruct (Nat.eqb_spec (q mod d) (q' mod d)) as [E1|]; [|reflexivity].
  destruct (Nat.eqb_spec (q / d) (q' / d)) as [E2|]; [|reflexivity]. exfalso. apply H.
  rewrite (Nat.div_mod q d N), (Nat.div_mod q' d N). congruence.
Qed.
Lemma sym_sel_one q : (q < 6)%nat -> T_sym q (fst (sym_pos q)) (snd (sym_pos q)) <> 0.
Proof. intros H. pose proof sqrt2_inv. upto 6%nat q; unfold T_sym, sym_pos; cbn [nth fst snd Nat.eqb andb orb]; lra. Qed.
Lemma sym_sel_other q q' : (q < 6)%nat -> (q' < 6)%nat -> q' <> q -> T_sym q' (fst (sym_pos q)) (snd (sym_pos q)) = 0.
Proof. intros H H'. upto 6%nat q; upto 6%nat q'; intros N; try congruence; reflexivity. Qed.
Lemma sym_sel_dim2 q : (q < 3)%nat -> (fst (sym_pos q) < 2)%nat /\ (snd (sym_pos q) < 2)%nat.
Proof. intros H. upto 3%nat q; cbn; lia. Qed.
Lemma sym_sel_dim3 q : (q < 6)%nat -> (fst (sym_pos q) < 3)%nat /\ (snd (sym_pos q) < 3)%nat.
Proof. intros H. upto 6%nat q; cbn; lia. Qed.
Lemma B_row_diag d bar x r r' : (r < d)%nat -> (r' < d)%nat -> B_row (from_bar d bar x) r' r r = if (r' =? r)%nat then x r - bar r else 0.
Proof. intros H H'. unfold B_row, from_bar. rewrite nth_map_seq by exact H. rewrite Nat.eqb_sym. reflexivity. Qed.
Lemma B_sym_diag d bar x r r' : (r < d)%nat -> (r' < d)%nat -> B_sym (from_bar d bar x) r' r r = if (r' =? r)%nat then x r - bar r else 0.
Proof.
  intros H H'. unfold B_sym, from_bar. rewrite (Nat.eqb_sym r r'). destruct (Nat.eqb_spec r' r) as [->|]; cbn [andb]; [|reflexivity].
  rewrite nth_map_seq by exact H. reflexivity.
Qed.
Definition dq_full (d r : nat) : nat := (d * r + r)%nat.
Lemma dq_full_ok d r : (r < d)%nat -> (dq_full d r < d * d)%nat /\ sel_full d (dq_full d r) = (r, r).
Proof.
  intros H. unfold dq_full. split; [nia|]. unfold sel_full. f_equal; symmetry; [apply Nat.mod_unique with r|apply Nat.div_unique with r]; lia.
Qed.
Definition dq_sym (r : nat) : nat := nth r [0; 2; 5]%nat 0%nat.

(** ** tangential bases *)
Definition lower2 (n : nat) : list (nat * nat) := flat_map (fun k => map (fun i => ((k - i)%nat, i)) (seq 0 (S k))) (seq 0 n).
Lemma lower2_S n : lower2 (S n) = exps2 n. Proof. reflexivity. Qed.
Lemma lower2_LL n : map as2 (lower2 n) = LL 2 n. Proof. destruct n; reflexivity. Qed.
Definition tan_rows (bx by_ : R) (e0 e1 : nat -> R) (e : nat * nat) : mat :=
  [vec_row (fun i => e0 i * (bx ^ fst e * by_ ^ snd e)); vec_row (fun i => e1 i * (bx ^ fst e * by_ ^ snd e))].
Lemma tangent_flat n bx by_ e0 e1 st : tangent_loop n bx by_ e0 e1 st = fold_left put (flat_map (tan_rows bx by_ e0 e1) (lower2 n)) st.
Proof.
  unfold tangent_loop, lower2. rewrite fold_flat. rewrite fold_flat. apply fold_ext_in. intros st' k _. rewrite fold_map. apply fold_ext_in. intros st'' i _.
  unfold put_tangent, tan_rows. cbn [fst snd fold_left]. rewrite !ipow_pow. reflexivity.
Qed.
Lemma fold_put_id {A} (l a rest : list A) : (length l <= length rest)%nat ->
  fold_left put l (Ok (length a, a ++ rest)) = Ok (length (a ++ l), (a ++ l) ++ skipn (length l) rest).
Proof.
  revert a rest. induction l as [|v l IH]; intros a rest H; cbn [fold_left length skipn]; [rewrite !app_nil_r; reflexivity|].
  destruct rest as [|r rest]; cbn [length] in H; [lia|]. unfold put at 2. cbn [bind fst snd]. unfold vset. rewrite upd_app. cbn [bind].
  replace (a ++ v :: rest) with ((a ++ [v]) ++ rest) by (rewrite <- app_assoc; reflexivity).
  replace (S (length a)) with (length (a ++ [v])) by (rewrite app_length; cbn; lia). rewrite IH by lia. rewrite <- !app_assoc. reflexivity.
Qed.
Definition ned_row (deg : nat) (bx by_ : R) (e0 e1 : nat -> R) (i : nat) : list R :=
  vec_row (fun c => e0 c * (INR (S deg - i) * bx ^ pred (S deg - i) * by_ ^ i) + e1 c * (bx ^ (S deg - i) * (INR i * by_ ^ pred i))).
Lemma len_tan bx by_ e0 e1 l : length (flat_map (tan_rows bx by_ e0 e1) l) = (2 * length l)%nat.
Proof. apply flat_map_length_const. reflexivity. Qed.
Lemma tangential_eq deg bar e0 e1 x : fits deg 2 ->
  tangential_functions deg bar e0 e1 x = Ok (flat_map (tan_rows (face_coord bar e0 x) (face_coord bar e1 x) e0 e1) (exps2 deg)).
Proof.
  intros H. unfold tangential_functions. rewrite tangent_flat, lower2_S. unfold vector_basis_size. rewrite size2 by exact H.
  pose proof (fold_put_id (flat_map (tan_rows (face_coord bar e0 x) (face_coord bar e1 x) e0 e1) (exps2 deg)) [] (zero_rows (2 * length (exps2 deg)) 3)) as K.
  cbn [length app] in K. rewrite K by (rewrite len_tan, len_rows; lia). unfold ret_of. cbn [bind snd].
  rewrite skipn_all2 by (rewrite len_tan, len_rows; lia). rewrite app_nil_r. reflexivity.
Qed.
Lemma length_exps2_S deg : (length (exps2 (S deg)) = length (exps2 deg) + (deg + 2))%nat.
Proof. rewrite exps2_S, app_length, map_length, seq_length. lia. Qed.
Lemma nedelec_size_eq deg : fits (S deg) 2 -> nedelec_size deg = (2 * length (lower2 deg) + (deg + 2))%nat.
Proof.
  intros H. unfold nedelec_size. replace (deg + 1)%nat with (S deg) by lia. rewrite (size2 (S deg)) by exact H. apply fits_pred in H. rewrite (size2 deg) by exact H.
  rewrite length_exps2_S. replace (length (exps2 deg) + (deg + 2) - length (exps2 deg))%nat with (deg + 2)%nat by lia. f_equal. f_equal.
  destruct deg as [|m]; [vm_compute; reflexivity|]. replace (Z.of_nat (S m) - 1)%Z with (Z.of_nat m) by lia. apply fits_pred in H. rewrite u64_small.
  - change (Z.to_nat (scalar_basis_size_u (Z.of_nat m) 2)) with (scalar_basis_size m 2). rewrite size2 by exact H. reflexivity.
  - split; [lia|]. apply (fits_lt m 2); [lia|exact H].
Qed.
Definition ned_all (deg : nat) (bar e0 e1 x : nat -> R) : mat :=
  flat_map (tan_rows (face_coord bar e0 x) (face_coord bar e1 x) e0 e1) (lower2 deg)
  ++ map (ned_row deg (face_coord bar e0 x) (face_coord bar e1 x) e0 e1) (seq 0 (deg + 2)).
Lemma nedelec_eq deg bar e0 e1 x : fits (S deg) 2 -> nedelec_functions deg bar e0 e1 x = Ok (ned_all deg bar e0 e1 x).
Proof.
  intros H. unfold nedelec_functions. cbv zeta. rewrite tangent_flat. rewrite nedelec_size_eq by exact H.
  set (A := flat_map (tan_rows (face_coord bar e0 x) (face_coord bar e1 x) e0 e1) (lower2 deg)).
  rewrite (fold_ext_in _ (fun st i => put st (ned_row deg (face_coord bar e0 x) (face_coord bar e1 x) e0 e1 i))).
  2:{ intros st i _. rewrite !ipow_pow, !dpow_pow. reflexivity. }
  rewrite <- (fold_map put (ned_row deg (face_coord bar e0 x) (face_coord bar e1 x) e0 e1)). rewrite <- fold_left_app.
  replace (S (S deg)) with (deg + 2)%nat by lia.
  pose proof (fold_put_id (A ++ map (ned_row deg (face_coord bar e0 x) (face_coord bar e1 x) e0 e1) (seq 0 (deg + 2))) [] (zero_rows (2 * length (lower2 deg) + (deg + 2)) 3)) as K.
  assert (LA : length A = (2 * length (lower2 deg))%nat) by apply len_tan.
  cbn [length app] in K. rewrite K by (rewrite app_length, map_length, seq_length, len_rows; lia). unfold ret_of. cbn [bind snd].
  rewrite skipn_all2 by (rewrite app_length, map_length, seq_length, len_rows; lia). rewrite app_nil_r. reflexivity.
Qed.
Lemma face_onto bar e0 e1 : orthonormal2 e0 e1 -> onto 2 (fun x i => face_coord bar (match i with O => e0 | _ => e1 end) x).
Proof.
  intros (H0 & H1 & H2) y. exists (fun i => bar i + y 0%nat * e0 i + y 1%nat * e1 i). unfold inner in *. intros i Hi. unfold face_coord.
  destruct i as [|[|i]]; [| |lia]; cbn [sig].
  - transitivity (y 0%nat * (e0 0%nat * e0 0%nat + e0 1%nat * e0 1%nat + e0 2%nat * e0 2%nat) + y 1%nat * (e0 0%nat * e1 0%nat + e0 1%nat * e1 1%nat + e0 2%nat * e1 2%nat)); [ring|].
    rewrite H0, H2. ring.
  - transitivity (y 1%nat * (e1 0%nat * e1 0%nat + e1 1%nat * e1 1%nat + e1 2%nat * e1 2%nat) + y 0%nat * (e0 0%nat * e1 0%nat + e0 1%nat * e1 1%nat + e0 2%nat * e1 2%nat)); [ring|].
    rewrite H1, H2. ring.
Qed.
