(** C41: uniform 1D meshes. *)
From Coq Require Import List Arith Bool Reals Lia Lra.
From Verif Require Import Common Mesh_Model Mesh_Spec Mesh_Proofs Elem_Model Elem_Proofs Mesh_Properties
  Uniform_Model Uniform_Spec Uniform_Proofs.
Import ListNotations.

(** C41: geometry, for x_min <= x_max and at least one element. *)
Theorem C41_uniform_partition : forall x_min x_max N, (x_min <= x_max)%R -> 0 < N ->
  exists s, populate_mesh (uloader_make x_min x_max N) = Ok s /\
    uniform_partition x_min x_max N (s_points s) (m_cells (as_mesh s)).
Proof.
  intros a b N Hab HN. destruct (populate_spec (uloader_make a b N)) as (s & E & N1 & P1 & E1 & P2 & B1 & B2).
  cbn [uloader_make m_nelem m_x_min m_h] in *. rewrite Rabs_pos_eq in P2 by lra. specialize (P2 HN).
  assert (IN : (0 < INR N)%R) by (apply lt_0_INR; exact HN).
  exists s. split; [exact E|]. cbn [as_mesh m_cells]. rewrite E1. constructor.
  - lia.
  - now rewrite !map_length, seq_length.
  - intros i Hi. rewrite !nth_error_map, (nth_error_nth' (seq 0 N) 0) by (rewrite seq_length; lia). rewrite seq_nth by lia.
    cbn [option_map plus]. unfold gedge_make. cbn [ge_sub]. rewrite (proj2 (Nat.ltb_lt _ _)) by lia. now replace (i + 1) with (S i) by lia.
  - rewrite P2 by lia. f_equal. cbn. lra.
  - rewrite P2 by lia. f_equal. field. lra.
  - intros i p q Hi. rewrite !P2 by lia. intros H1 H2. apply (f_equal (fun o => match o with Some z => z | None => 0%R end)) in H1, H2. cbv beta iota in H1, H2. rewrite <- H1, <- H2, S_INR. lra.
  - intros t Ht.
    assert (IND : forall k, k <= N -> (t <= a + (b - a) / INR N * INR k)%R -> 0 < k ->
       exists i, i < N /\ (a + (b - a) / INR N * INR i <= t <= a + (b - a) / INR N * INR (S i))%R).
    { induction k as [|k IH]; intros Hk Hle Hp; [lia|].
      destruct (Rle_dec (a + (b - a) / INR N * INR k) t) as [L|L].
      - exists k. split; [lia|]. split; [exact L|exact Hle].
      - destruct k; [exfalso; apply L; cbn; lra|]. apply IH; [lia|lra|lia]. }
    destruct (IND N) as (i & Hi & H); [lia| |lia|].
    { replace (a + (b - a) / INR N * INR N)%R with b by (field; lra). lra. }
    do 3 eexists. split; [exact Hi|]. rewrite !P2 by lia. split; [reflexivity|]. split; [reflexivity|]. exact H.
Qed.

(** C41: the storage is well-formed, so that the lookup and connectivity theorems apply, and
    exactly the two end nodes are boundary, with id 0. *)
Theorem C41_incidence_and_boundary : forall x_min x_max N, 0 < N ->
  exists s, populate_mesh (uloader_make x_min x_max N) = Ok s /\
    wf_mesh lex_ltb Nat.ltb (fun c => c) (as_mesh s) /\
    m_faces (as_mesh s) = seq 0 (N + 1) /\
    (forall i, i <= N -> is_boundary _ _ Nat.ltb (as_mesh s) i = Ok ((i =? 0) || (i =? N))) /\
    (forall i, i = 0 \/ i = N -> boundary_id_face _ _ Nat.ltb (as_mesh s) i = Ok 0).
Proof.
  intros a b N HN. destruct (populate_spec (uloader_make a b N)) as (s & E & N1 & P1 & E1 & P2 & B1 & B2).
  cbn [uloader_make m_nelem m_x_min m_h] in *. exists s. split; [exact E|].
  assert (W : wf_mesh lex_ltb Nat.ltb (fun c => c) (as_mesh s)).
  { constructor; cbn [as_mesh m_cells m_faces m_binfo].
    - rewrite N1. apply seq_sorted.
    - rewrite E1. apply edges_sorted.
    - rewrite B1, N1, seq_length. reflexivity.
    - intros c Hc. rewrite E1, map_map in Hc. apply in_map_iff in Hc. destruct Hc as (i & <- & Hi). apply in_seq in Hi.
      rewrite N1. unfold gedge_make. cbn [ge_sub]. rewrite (proj2 (Nat.ltb_lt _ _)) by lia.
      intros x [<-|[<-|[]]]; apply in_seq; lia.
    - intros c Hc. rewrite E1, map_map in Hc. apply in_map_iff in Hc. destruct Hc as (i & <- & Hi).
      unfold gedge_make. cbn [ge_sub]. rewrite (proj2 (Nat.ltb_lt _ _)) by lia.
      constructor; [intros [H|[]]; lia|]. constructor; [intros []|constructor]. }
  split; [exact W|]. split; [exact N1|].
  assert (ST : forall i, i <= N -> stored (m_faces (as_mesh s)) i i).
  { intros i Hi. unfold stored. cbn [as_mesh m_faces]. rewrite N1, (nth_error_nth' _ 0) by (rewrite seq_length; lia).
    now rewrite seq_nth by lia. }
  split.
  - intros i Hi. rewrite (is_boundary_stored Nat.ltb nat_ltb_sto (as_mesh s) (wf_faces _ _ _ _ W) i i _ (ST i Hi) (B2 i Hi)).
    destruct ((i =? 0) || (i =? N)); reflexivity.
  - intros i Hi. unfold boundary_id_face. rewrite (lookup_stored Nat.ltb nat_ltb_sto _ _ _ (wf_faces _ _ _ _ W) (ST i ltac:(lia))). cbn [bind].
    unfold boundary_id, is_boundary_id. cbn [as_mesh m_binfo]. unfold vat.
    rewrite (B2 i) by lia. cbn [bind].
    replace ((i =? 0) || (i =? N)) with true; [reflexivity|]. symmetry. apply orb_true_iff. rewrite !Nat.eqb_eq. lia.
Qed.

(** C55: with the ends swapped the mesh does not lie between them: it starts at x_min and extends
    to the right. *)
Theorem C55_ends_in_order_partial : forall x_min x_max N, 0 < N ->
  exists s, populate_mesh (uloader_make x_min x_max N) = Ok s /\
    uniform_partition x_min (x_min + Rabs (x_max - x_min)) N (s_points s) (m_cells (as_mesh s)).
Proof.
  intros a b N HN. destruct (C41_uniform_partition a (a + Rabs (b - a)) N) as (s & E & U); [pose proof (Rabs_pos (b - a)); lra|exact HN|].
  destruct (populate_spec (uloader_make a b N)) as (s' & E' & N1 & P1 & E1 & P2 & B1 & B2).
  destruct (populate_spec (uloader_make a (a + Rabs (b - a)) N)) as (s2 & E2 & N3 & P3 & E3 & P4 & B3 & B4).
  rewrite E in E2. injection E2 as <-.
  exists s'. split; [exact E'|].
  cbn [uloader_make m_nelem m_x_min m_h] in *.
  assert (EP : s_points s' = s_points s).
  { assert (X : forall (a b : list R), length a = length b -> (forall j, j < length a -> nth_error a j = nth_error b j) -> a = b).
    { clear. induction a as [|x a IH]; intros [|y b] L H; try discriminate; [reflexivity|]. f_equal.
      - specialize (H 0 ltac:(cbn; lia)). cbn in H. congruence.
      - apply IH; [cbn in L; lia|]. intros j Hj. apply (H (S j)). cbn; lia. }
    apply X; [lia|]. intros j Hj. rewrite P2, P4 by lia. f_equal. rewrite <- (Rabs_Rabsolu (b - a)) at 1. f_equal. f_equal. f_equal. f_equal. lra. }
  rewrite EP. cbn [as_mesh m_cells] in *. rewrite E1. rewrite E3 in U. exact U.
Qed.
Theorem C55_ends_in_order_refuted : exists s,
  populate_mesh (uloader_make 1 0 2) = Ok s /\ nth_error (s_points s) 2 = Some 2%R.
Proof.
  destruct (C55_ends_in_order_partial 1 0 2 ltac:(lia)) as (s & E & U). exists s. split; [exact E|].
  rewrite (up_last _ _ _ _ _ U). f_equal. replace (0 - 1)%R with (-1)%R by lra. rewrite Rabs_left; lra.
Qed.
Print Assumptions C41_uniform_partition.
Print Assumptions C41_incidence_and_boundary.
Print Assumptions C55_ends_in_order_partial.
Print Assumptions C55_ends_in_order_refuted.
Example C41_hypotheses_met : (0 <= 1)%R /\ 0 < 8.
Proof. split; [lra|lia]. Qed.
