From Coq Require Import List Arith Bool Reals Lia Lra Sorted.
From Verif Require Import Common Mesh_Model Mesh_Spec Elem_Model Elem_Proofs Uniform_Model.
Import ListNotations.

Lemma vset_at_ok {A} (l : list A) i x : i < length l -> exists l', vset_at l i x = Ok l' /\ length l' = length l /\
  nth_error l' i = Some x /\ forall j, j <> i -> nth_error l' j = nth_error l j.
Proof.
  intros H. destruct (upd_some l i x H) as [l' U]. exists l'. unfold vset_at. rewrite U.
  split; [reflexivity|]. split; [eapply upd_length; eauto|]. split; [eapply upd_nth_same; eauto|].
  intros j N. eapply upd_nth_other; eauto.
Qed.

Lemma points_loop_spec l n : forall i pts edges, length pts = i + n + 1 -> length edges = i + n ->
  (forall j, j <= i -> 0 < i -> nth_error pts j = Some (m_x_min l + m_h l * INR j)%R) ->
  (forall j, j < i -> nth_error edges j = Some (gedge_make j (j + 1))) ->
  exists pts' edges', points_loop l n i pts edges = Ok (pts', edges') /\
    length pts' = i + n + 1 /\ length edges' = i + n /\
    (0 < i + n -> forall j, j <= i + n -> nth_error pts' j = Some (m_x_min l + m_h l * INR j)%R) /\
    (forall j, j < i + n -> nth_error edges' j = Some (gedge_make j (j + 1))).
Proof.
  induction n as [|n IH]; intros i pts edges L1 L2 P E; cbn [points_loop].
  - exists pts, edges. rewrite Nat.add_0_r in *. repeat split; auto.
  - destruct (vset_at_ok pts i (m_x_min l + m_h l * INR i)%R) as (p1 & -> & La & Na & Oa); [lia|]. cbn [bind].
    destruct (vset_at_ok p1 (i + 1) (m_x_min l + m_h l * INR (i + 1))%R) as (p2 & -> & Lb & Nb & Ob); [lia|]. cbn [bind].
    destruct (vset_at_ok edges i (gedge_make i (i + 1))) as (e2 & -> & Lc & Nc & Oc); [lia|]. cbn [bind].
    destruct (IH (i + 1) p2 e2) as (p3 & e3 & R & Q1 & Q2 & Q3 & Q4); try lia.
    + intros j Hj _. destruct (Nat.eq_dec j (i + 1)) as [->|]; [exact Nb|]. rewrite Ob by lia.
      destruct (Nat.eq_dec j i) as [->|]; [exact Na|]. rewrite Oa by lia. apply P; lia.
    + intros j Hj. destruct (Nat.eq_dec j i) as [->|]; [exact Nc|]. rewrite Oc by lia. apply E; lia.
    + exists p3, e3. replace (i + S n) with (i + 1 + n) by lia. auto.
Qed.

Lemma nodes_loop_spec n : forall i nodes, length nodes = i + n -> (forall j, j < i -> nth_error nodes j = Some j) ->
  exists nodes', nodes_loop n i nodes = Ok nodes' /\ nodes' = seq 0 (i + n).
Proof.
  induction n as [|n IH]; intros i nodes L P; cbn [nodes_loop].
  - exists nodes. split; [reflexivity|]. rewrite Nat.add_0_r in *. apply nth_error_ext || idtac.
    assert (X : forall (a b : list nat), length a = length b -> (forall j, j < length a -> nth_error a j = nth_error b j) -> a = b).
    { clear. induction a as [|x a IH]; intros [|y b] L H; try discriminate; [reflexivity|]. f_equal.
      - specialize (H 0 ltac:(cbn; lia)). cbn in H. congruence.
      - apply IH; [cbn in L; lia|]. intros j Hj. apply (H (S j)). cbn; lia. }
    apply X; [now rewrite seq_length|]. intros j Hj. rewrite P by lia.
    rewrite (nth_error_nth' (seq 0 i) 0) by (rewrite seq_length; lia). now rewrite seq_nth by lia.
  - destruct (vset_at_ok nodes i i) as (n2 & -> & L2 & N2 & O2); [lia|]. cbn [bind].
    destruct (IH (i + 1) n2) as (n3 & R & Q); try lia.
    + intros j Hj. destruct (Nat.eq_dec j i) as [->|]; [exact N2|]. rewrite O2 by lia. apply P; lia.
    + exists n3. split; [exact R|]. rewrite Q. f_equal. lia.
Qed.

Lemma nth_repeat_lt {A} (x : A) n i : i < n -> nth_error (repeat x n) i = Some x.
Proof. revert i; induction n; intros [|i] H; cbn; try lia; auto. apply IHn; lia. Qed.

Lemma populate_spec l : exists s, populate_mesh l = Ok s /\
  s_nodes s = seq 0 (m_nelem l + 1) /\ length (s_points s) = m_nelem l + 1 /\
  s_edges s = map (fun i => gedge_make i (i + 1)) (seq 0 (m_nelem l)) /\
  (0 < m_nelem l -> forall i, i <= m_nelem l -> nth_error (s_points s) i = Some (m_x_min l + m_h l * INR i)%R) /\
  length (s_binfo s) = m_nelem l + 1 /\
  forall i, i <= m_nelem l -> nth_error (s_binfo s) i = Some (if (i =? 0) || (i =? m_nelem l) then bd_make 0 true else bd_default).
Proof.
  unfold populate_mesh. set (N := m_nelem l).
  destruct (points_loop_spec l N 0 (repeat 0%R (N + 1)) (repeat (mkGE [] []) N)) as (p & e & -> & L1 & L2 & P & E).
  - rewrite repeat_length. lia.
  - rewrite repeat_length. lia.
  - intros; lia.
  - intros; lia.
  - cbn [bind fst snd]. destruct (nodes_loop_spec (N + 1) 0 (repeat 0 (N + 1))) as (nd & -> & ->).
    + rewrite repeat_length. lia.
    + intros; lia.
    + cbn [bind]. destruct (vset_at_ok (repeat bd_default (N + 1)) 0 (bd_make 0 true)) as (b1 & -> & Lb & Nb & Ob); [rewrite repeat_length; lia|].
      cbn [bind]. destruct (vset_at_ok b1 (N + 1 - 1) (bd_make 0 true)) as (b2 & -> & Lc & Nc & Oc); [rewrite Lb, repeat_length; lia|].
      cbn [bind]. rewrite repeat_length in Lb. eexists. split; [reflexivity|]. cbn. replace (0 + N) with N in * by lia.
      split; [reflexivity|]. split; [exact L1|]. split.
      { assert (X : forall (a b : list gedge), length a = length b -> (forall j, j < length a -> nth_error a j = nth_error b j) -> a = b).
        { clear. induction a as [|x a IH]; intros [|y b] L H; try discriminate; [reflexivity|]. f_equal.
          - specialize (H 0 ltac:(cbn; lia)). cbn in H. congruence.
          - apply IH; [cbn in L; lia|]. intros j Hj. apply (H (S j)). cbn; lia. }
        apply X; [rewrite map_length, seq_length; lia|]. intros j Hj. rewrite E by lia. rewrite nth_error_map.
        rewrite (nth_error_nth' (seq 0 N) 0) by (rewrite seq_length; lia). rewrite seq_nth by lia. reflexivity. }
      split; [intros HN i Hi; apply P; lia|]. split; [lia|]. intros i Hi.
      replace (N + 1 - 1) with N in * by lia.
      destruct (Nat.eqb_spec i N) as [->|N1]; [rewrite orb_true_r; exact Nc|]. rewrite Oc by lia. rewrite orb_false_r.
      destruct (Nat.eqb_spec i 0) as [->|N0]; [exact Nb|]. rewrite Ob by lia. apply nth_repeat_lt. lia.
Qed.

Lemma seq_sorted n a : StronglySorted (fun x y => Nat.ltb x y = true) (seq a n).
Proof.
  revert a. induction n as [|n IH]; intros a; cbn; constructor; [apply IH|].
  apply Forall_forall. intros x Hx. apply in_seq in Hx. apply Nat.ltb_lt. lia.
Qed.
Lemma edges_sorted n a : StronglySorted (fun x y => lex_ltb x y = true) (map ge_sub (map (fun i => gedge_make i (i + 1)) (seq a n))).
Proof.
  revert a. induction n as [|n IH]; intros a; cbn [seq map]; constructor; [apply IH|].
  apply Forall_forall. intros x Hx. apply in_map_iff in Hx. destruct Hx as (g & <- & Hg).
  apply in_map_iff in Hg. destruct Hg as (i & <- & Hi). apply in_seq in Hi. unfold gedge_make. cbn [ge_sub].
  rewrite !(proj2 (Nat.ltb_lt _ _)) by lia. cbn [lex_ltb]. rewrite (proj2 (Nat.ltb_lt _ _)) by lia. reflexivity.
Qed.
