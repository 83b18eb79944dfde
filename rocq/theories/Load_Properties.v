(** C113-C116: the mesh loaders for Netgen and DiSk++ cartesian files. *)
From Coq Require Import List Arith NArith ZArith QArith Bool Ascii Permutation Sorted Lia.
From Verif Require Import Common Mesh_Model Mesh_Spec Mesh_Proofs Elem_Model Elem_Proofs Load_Model Load_Spec Load_Proofs Load2_Proofs.
Import ListNotations.
Local Open Scope nat_scope.

(** ** C113: a Netgen file is loaded faithfully *)

(** Every boundary face of the data is a side of one of its cells. *)
Definition boundary_on_cells (d : mesh_data) : Prop :=
  forall b, In b (md_bnd d) -> exists f x, simplex (snd b) f /\ In x (md_cells d) /\ side (snd x) f.

Theorem C113_netgen_2d : forall d txt, well_shaped 2 3 2 d -> written txt (netgen_numbers d) -> boundary_on_cells d ->
  exists m, load_mesh_netgen_2d txt = Ok (true, m) /\
    same_points d (lm_points m) (lm_nodes m) /\
    holds simplex side fst (fun _ => false) lex_ltb d (lm_surfs m) (lm_edges m) (lm_binfo m) /\
    lm_sub m = repeat 0 (length (lm_surfs m)).
Proof.
  intros d txt WS WR HB. destruct (netgen2_ok d txt WS WR HB) as (m & E & H1 & H2 & _ & H3).
  exists m. unfold load_mesh_netgen_2d, load_mesh. rewrite E. auto.
Qed.

Theorem C113_netgen_3d : forall d txt, well_shaped 3 4 3 d -> written txt (netgen_numbers d) -> boundary_on_cells d ->
  distinct_cells d ->
  exists m, load_mesh_netgen_3d txt = Ok (true, m) /\
    same_points d (lm_points m) (lm_nodes m) /\
    holds simplex side fst (fun f => incidences leq tet_faces (lm_vols m) f =? 2) lex_ltb d (lm_vols m) (lm_surfs m) (lm_binfo m) /\
    sorted_unique lex_ltb (lm_edges m) /\
    (forall e, In e (lm_edges m) <-> exists x, In x (md_cells d) /\ side2 (snd x) e) /\
    length (lm_sub m) = length (lm_vols m) /\
    (forall i c s, nth_error (lm_vols m) i = Some c -> nth_error (lm_sub m) i = Some s ->
       exists x, In x (md_cells d) /\ simplex (snd x) c /\ fst x = s).
Proof.
  intros d txt WS WR HB D. destruct (netgen3_ok d txt WS WR D HB) as (m & E & H).
  exists m. unfold load_mesh_netgen_3d, load_mesh. rewrite E. auto.
Qed.

(** The loaded mesh is well formed in the sense the mesh queries (C03-C06) need. *)
Theorem C113_netgen_2d_wf : forall d txt m, well_shaped 2 3 2 d -> written txt (netgen_numbers d) -> boundary_on_cells d ->
  (forall x, In x (md_cells d) -> NoDup (snd x)) -> load_mesh_netgen_2d txt = Ok (true, m) ->
  wf_mesh lex_ltb lex_ltb tri_faces (mkMesh (lm_surfs m) (lm_edges m) (lm_binfo m)).
Proof.
  intros d txt m WS WR HB ND E. destruct (C113_netgen_2d d txt WS WR HB) as (m' & E' & _ & H & _).
  rewrite E in E'. injection E' as <-. apply (holds_wf2 d m _ H). intros x Hx. split; [apply (cells3 d WS), Hx|auto].
Qed.
Theorem C113_netgen_3d_wf : forall d txt m, well_shaped 3 4 3 d -> written txt (netgen_numbers d) -> boundary_on_cells d ->
  distinct_cells d -> (forall x, In x (md_cells d) -> NoDup (snd x)) -> load_mesh_netgen_3d txt = Ok (true, m) ->
  wf_mesh lex_ltb lex_ltb tet_faces (mkMesh (lm_vols m) (lm_surfs m) (lm_binfo m)).
Proof.
  intros d txt m WS WR HB D ND E. destruct (C113_netgen_3d d txt WS WR HB D) as (m' & E' & _ & H & _).
  rewrite E in E'. injection E' as <-. apply (holds_wf3 d m _ H). intros x Hx. split; [apply (cells4 d WS), Hx|auto].
Qed.

(** Two layouts of the same numbers are the same mesh, up to equality of rationals. *)
Theorem C113_layout_irrelevant : forall d txt1 txt2 m1 m2, well_shaped 2 3 2 d ->
  written txt1 (netgen_numbers d) -> written txt2 (netgen_numbers d) -> boundary_on_cells d ->
  load_mesh_netgen_2d txt1 = Ok (true, m1) -> load_mesh_netgen_2d txt2 = Ok (true, m2) ->
  lm_surfs m1 = lm_surfs m2 /\ lm_edges m1 = lm_edges m2 /\ lm_binfo m1 = lm_binfo m2.
Proof.
  intros d t1 t2 m1 m2 WS W1 W2 HB. unfold load_mesh_netgen_2d.
  destruct (netgen2_reads d t1 WS W1) as (p1 & F1 & ->). destruct (netgen2_reads d t2 WS W2) as (p2 & F2 & ->).
  unfold load_mesh, netgen2_populate. cbn [rw_points rw_cells rw_bnd].
  destruct (sort_uniq lex_ltb aeq (flat_map _ _)) as [edges| | ]; cbn [bind]; try discriminate.
  destruct (sort_uniq lex_ltb aeq (map _ _)) as [surfs| | ]; cbn [bind]; try discriminate.
  destruct (mark_listed edges _ _) as [[[|] bi]| | ]; cbn [bind fst snd]; try discriminate;
    intros E1 E2; injection E1 as <-; injection E2 as <-; auto.
Qed.

(** ** C114: a boundary face that no cell has *)
Definition boundary_off_cells (d : mesh_data) : Prop :=
  exists b, In b (md_bnd d) /\ forall f x, simplex (snd b) f -> In x (md_cells d) -> ~ side (snd x) f.

Theorem C114_netgen_3d_rejects_partial : forall d txt, well_shaped 3 4 3 d -> written txt (netgen_numbers d) ->
  boundary_off_cells d -> load_mesh_netgen_3d txt = Throw LogicError.
Proof.
  intros d txt WS WR HB. unfold load_mesh_netgen_3d, load_mesh. rewrite (netgen3_bad d txt WS WR HB). reflexivity.
Qed.

(** In 2D populate_mesh notices and returns false ... *)
Theorem C114_netgen_2d_populate_rejects_partial : forall d txt, well_shaped 2 3 2 d -> written txt (netgen_numbers d) ->
  boundary_off_cells d -> exists m, netgen2_populate (netgen2_read txt) = Ok (false, m).
Proof. intros d txt WS WR HB. destruct (netgen2_bad d txt WS WR HB) as (m & E & _). eauto. Qed.

(** ... but load_mesh drops the answer: every such file is reported as loaded, with a mesh that
    has no subdomain data (so asking for the subdomain of any cell throws). *)
Theorem C114_netgen_2d_rejects_refuted : forall d txt, well_shaped 2 3 2 d -> written txt (netgen_numbers d) ->
  boundary_off_cells d -> exists m, load_mesh_netgen_2d txt = Ok (true, m) /\ lm_sub m = [].
Proof.
  intros d txt WS WR HB. destruct (netgen2_bad d txt WS WR HB) as (m & E & H). exists m.
  unfold load_mesh_netgen_2d, load_mesh. rewrite E. auto.
Qed.

(** An empty file is a mesh, too. *)
Theorem C114_empty_file_accepted_refuted :
  load_mesh_netgen_2d [] = Ok (true, mkL [] [] [] [] [] [] []) /\
  load_mesh_netgen_3d [] = Ok (true, mkL [] [] [] [] [] [] []).
Proof. split; reflexivity. Qed.

(** ** C115: DiSk++ cartesian files *)
Theorem C115_cartesian_2d_partial : forall d txt, well_shaped 2 4 2 d -> written txt (cartesian_numbers d) ->
  (forall b, In b (md_bnd d) -> exists x, In x (md_cells d) /\ row_of quad_rows (snd x) (snd b)) ->
  exists m, load_mesh_cartesian_2d txt = Ok (true, m) /\ same_points d (lm_points m) (lm_nodes m) /\
    holds (fun l e => e = l) (row_of quad_rows) (fun _ => 0) (fun _ => false) lex_ltb d (lm_surfs m) (lm_edges m) (lm_binfo m).
Proof.
  intros d txt WS WR HB. destruct (quad_ok d txt WS WR HB) as (m & E & H). exists m.
  unfold load_mesh_cartesian_2d, load_mesh. rewrite E. auto.
Qed.
Theorem C115_cartesian_3d_partial : forall d txt, well_shaped 3 8 4 d -> written txt (cartesian_numbers d) -> distinct_lists d ->
  (forall b, In b (md_bnd d) -> exists x, In x (md_cells d) /\ row_of hex_rows (snd x) (snd b)) ->
  exists m, load_mesh_cartesian_3d txt = Ok (true, m) /\ same_points d (lm_points m) (lm_nodes m) /\
    holds (fun l e => e = l) (row_of hex_rows) (fun _ => 0) (fun _ => false) lex_ltb d (lm_vols m) (lm_surfs m) (lm_binfo m) /\
    sorted_unique lex_ltb (lm_edges m) /\
    forall e, In e (lm_edges m) <-> exists x, In x (md_cells d) /\ row_of hex_edge_rows (snd x) e.
Proof.
  intros d txt WS WR D HB. destruct (hex_ok d txt WS WR D HB) as (m & E & H). exists m.
  unfold load_mesh_cartesian_3d, load_mesh. rewrite E. auto.
Qed.

(** The rows are the sides of the box: one for each direction and side. *)
Theorem C115_rows_are_box_faces :
  (forall i v, i < 2 -> exists r, In r quad_rows /\ Permutation r (corners 2 i v)) /\
  (forall i v, i < 3 -> exists r, In r hex_rows /\ Permutation r (corners 3 i v)) /\
  (forall r, In r quad_rows -> exists i v, i < 2 /\ Permutation r (corners 2 i v)) /\
  (forall r, In r hex_rows -> exists i v, i < 3 /\ Permutation r (corners 3 i v)) /\
  (forall a b, In [a; b] hex_edge_rows <-> a < b /\ b < 8 /\ exists i, b = a + 2 ^ i /\ Nat.testbit a i = false).
Proof.
  split; [|split; [|split; [|split]]].
  - intros i v L. destruct i as [|[|i]]; [| |lia]; destruct v; [exists [1; 3]|exists [0; 2]|exists [2; 3]|exists [0; 1]];
      (split; [cbn; tauto|apply sx_inj; reflexivity]).
  - intros i v L. destruct i as [|[|[|i]]]; [| | |lia]; destruct v;
      [exists [1; 3; 7; 5]|exists [0; 2; 6; 4]|exists [2; 6; 7; 3]|exists [0; 4; 5; 1]|exists [4; 5; 7; 6]|exists [0; 1; 3; 2]];
      (split; [cbn; tauto|apply sx_inj; reflexivity]).
  - intros r H. cbn [In quad_rows] in H. repeat destruct H as [<-|H]; try destruct H;
      [exists 1, false|exists 0, false|exists 0, true|exists 1, true]; (split; [lia|apply sx_inj; reflexivity]).
  - intros r H. cbn [In hex_rows] in H. repeat destruct H as [<-|H]; try destruct H;
      [exists 0, false|exists 0, true|exists 2, false|exists 2, true|exists 1, false|exists 1, true];
      (split; [lia|apply sx_inj; reflexivity]).
  - intros a b. split.
    + intros H. cbn [In hex_edge_rows] in H. repeat destruct H as [E|H]; try destruct H; injection E as <- <-;
        (split; [lia|split; [lia|]]); first [exists 0; split; reflexivity|exists 1; split; reflexivity|exists 2; split; reflexivity].
    + intros (L1 & L2 & i & E & T). destruct i as [|[|[|i]]].
      * cbn in E. destruct a as [|[|[|[|[|[|[|[|a]]]]]]]]; try lia; try discriminate T; subst b; cbn; tauto.
      * change (2 ^ 1) with 2 in E. destruct a as [|[|[|[|[|[|[|[|a]]]]]]]]; try lia; try discriminate T; subst b; cbn; tauto.
      * change (2 ^ 2) with 4 in E. destruct a as [|[|[|[|[|[|[|[|a]]]]]]]]; try lia; try discriminate T; subst b; cbn; tauto.
      * exfalso. pose proof (Nat.pow_nonzero 2 i). rewrite !Nat.pow_succ_r' in E. lia.
Qed.

(** Two cells agree on a shared face when they list its corners in the same order. *)
Definition coherent (rows : list (list nat)) (d : mesh_data) : Prop :=
  forall x y f g, In x (md_cells d) -> In y (md_cells d) -> row_of rows (snd x) f -> row_of rows (snd y) g ->
    Permutation f g -> f = g.

(** For such files a face is stored once: no two stored faces have the same corners. *)
Theorem C115_faces_once_partial : forall d txt m, well_shaped 2 4 2 d -> written txt (cartesian_numbers d) ->
  (forall b, In b (md_bnd d) -> exists x, In x (md_cells d) /\ row_of quad_rows (snd x) (snd b)) ->
  coherent quad_rows d -> load_mesh_cartesian_2d txt = Ok (true, m) ->
  forall i j f g, nth_error (lm_edges m) i = Some f -> nth_error (lm_edges m) j = Some g -> Permutation f g -> i = j.
Proof.
  intros d txt m WS WR HB CO E i j f g Hi Hj P. destruct (C115_cartesian_2d_partial d txt WS WR HB) as (m' & E' & _ & H).
  rewrite E in E'. injection E' as <-. destruct H as [_ _ H3 H4 _ _ _].
  destruct (proj1 (H4 f) (nth_error_In _ _ Hi)) as (x & Hx & Rx). destruct (proj1 (H4 g) (nth_error_In _ _ Hj)) as (y & Hy & Ry).
  assert (f = g) by exact (CO x y f g Hx Hy Rx Ry P). subst g.
  exact (stored_unique lex_ltb lex_ltb_sto _ _ _ _ H3 Hi Hj).
Qed.
Theorem C115_faces_once_3d_partial : forall d txt m, well_shaped 3 8 4 d -> written txt (cartesian_numbers d) -> distinct_lists d ->
  (forall b, In b (md_bnd d) -> exists x, In x (md_cells d) /\ row_of hex_rows (snd x) (snd b)) ->
  coherent hex_rows d -> load_mesh_cartesian_3d txt = Ok (true, m) ->
  forall i j f g, nth_error (lm_surfs m) i = Some f -> nth_error (lm_surfs m) j = Some g -> Permutation f g -> i = j.
Proof.
  intros d txt m WS WR D HB CO E i j f g Hi Hj P. destruct (C115_cartesian_3d_partial d txt WS WR D HB) as (m' & E' & _ & H & _).
  rewrite E in E'. injection E' as <-. destruct H as [_ _ H3 H4 _ _ _].
  destruct (proj1 (H4 f) (nth_error_In _ _ Hi)) as (x & Hx & Rx). destruct (proj1 (H4 g) (nth_error_In _ _ Hj)) as (y & Hy & Ry).
  assert (f = g) by exact (CO x y f g Hx Hy Rx Ry P). subst g.
  exact (stored_unique lex_ltb lex_ltb_sto _ _ _ _ H3 Hi Hj).
Qed.

(** ** C116: the vertices of the elements *)
Theorem C116_vertices_exist_partial : forall d txt m, well_shaped 2 3 2 d -> written txt (netgen_numbers d) -> boundary_on_cells d ->
  in_range d -> load_mesh_netgen_2d txt = Ok (true, m) ->
  forall e, In e (lm_surfs m) \/ In e (lm_edges m) -> Forall (fun v => v < length (lm_points m)) e.
Proof.
  intros d txt m WS WR HB IR E e He. destruct (C113_netgen_2d d txt WS WR HB) as (m' & E' & (SP & _) & H & _).
  rewrite E in E'. injection E' as <-.
  assert (L : length (lm_points m) = length (md_points d)).
  { clear - SP. induction SP; cbn; congruence. }
  rewrite L. destruct H as [_ H2 _ H4 _ _ _]. apply Forall_forall. intros v Hv. destruct He as [He|He].
  - apply H2 in He as (x & Hx & P & _). apply (proj1 (Forall_forall _ _) (IR x (or_introl Hx)) v). eapply Permutation_in; [exact P|exact Hv].
  - apply H4 in He as (x & Hx & p & r & P & Q & _). apply (proj1 (Forall_forall _ _) (IR x (or_introl Hx)) v).
    eapply Permutation_in; [symmetry; exact P|]. right. eapply Permutation_in; [exact Q|exact Hv].
Qed.
Theorem C116_vertices_exist_3d_partial : forall d txt m, well_shaped 3 4 3 d -> written txt (netgen_numbers d) -> boundary_on_cells d ->
  distinct_cells d -> in_range d -> load_mesh_netgen_3d txt = Ok (true, m) ->
  forall e, In e (lm_vols m) \/ In e (lm_surfs m) \/ In e (lm_edges m) -> Forall (fun v => v < length (lm_points m)) e.
Proof.
  intros d txt m WS WR HB D IR E e He. destruct (C113_netgen_3d d txt WS WR HB D) as (m' & E' & (SP & _) & H & _ & H' & _).
  rewrite E in E'. injection E' as <-.
  assert (L : length (lm_points m) = length (md_points d)).
  { clear - SP. induction SP; cbn; congruence. }
  rewrite L. destruct H as [_ H2 _ H4 _ _ _]. apply Forall_forall. intros v Hv. destruct He as [He|[He|He]].
  - apply H2 in He as (x & Hx & P & _). apply (proj1 (Forall_forall _ _) (IR x (or_introl Hx)) v). eapply Permutation_in; [exact P|exact Hv].
  - apply H4 in He as (x & Hx & p & r & P & Q & _). apply (proj1 (Forall_forall _ _) (IR x (or_introl Hx)) v).
    eapply Permutation_in; [symmetry; exact P|]. right. eapply Permutation_in; [exact Q|exact Hv].
  - apply H' in He as (x & Hx & p & q & r & P & Q & _). apply (proj1 (Forall_forall _ _) (IR x (or_introl Hx)) v).
    eapply Permutation_in; [symmetry; exact P|]. right. right. eapply Permutation_in; [exact Q|exact Hv].
Qed.

(** ** Concrete files *)
Definition nl : ascii := ascii_of_nat 10.
Definition sp : ascii := ascii_of_nat 32.
Definition ti (n : nat) (c : ascii) : token := tk (digits [n]) (idx n) c.
Lemma ti_ok n c : n < 10 -> white c -> spells (fst (fst (ti n c))) (snd (fst (ti n c))) /\ white (snd (ti n c)).
Proof.
  intros L W. split; [|exact W]. cbn [fst snd ti tk]. replace (idx n) with (NI (value [n])).
  - apply sp_int; [|discriminate]. constructor; [exact L|constructor].
  - unfold idx, value. cbn [fold_left]. rewrite N.mul_0_r. reflexivity.
Qed.
(** an integer read as a coordinate *)
Definition tq (n : nat) (c : ascii) : token := tk (digits [n]) (NQ (inject_Z (Z.of_nat n))) c.
Lemma tq_ok n c : n < 10 -> white c -> spells (fst (fst (tq n c))) (snd (fst (tq n c))) /\ white (snd (tq n c)).
Proof.
  intros L W. split; [|exact W]. cbn [fst snd tq tk].
  change (digits [n]) with ([] ++ digits [n] ++ [] ++ [])%list.
  apply (sp_real [] false [n] [] [] [] 0%Z); [constructor|constructor; [exact L|constructor]|constructor|constructor|discriminate|].
  unfold value. cbn [app fold_left length]. rewrite N.mul_0_r, N.add_0_l, nat_N_Z. change (Qpower (10 # 1) (0 - Z.of_nat 0)) with 1%Q.
  rewrite Qmult_1_l, Qmult_1_r. reflexivity.
Qed.
Lemma nl_white : white nl. Proof. right. right. left. reflexivity. Qed.
Lemma sp_white : white sp. Proof. left. reflexivity. Qed.
Ltac tokens := apply Forall_cons_iff; split; [first [apply ti_ok|apply tq_ok]; [lia|first [apply nl_white|apply sp_white]]|].

(** the unit square cut along a diagonal *)
Definition sq_data : mesh_data :=
  mkData [[0; 0]; [1; 0]; [1; 1]; [0; 1]]%Q
         [(1, [0; 1; 2]); (2, [2; 3; 0])]
         [(1, [0; 1]); (2, [1; 2]); (3, [3; 2]); (4, [0; 3])].
Definition sq_tokens : list token :=
  [ti 4 nl; tq 0 sp; tq 0 nl; tq 1 sp; tq 0 nl; tq 1 sp; tq 1 nl; tq 0 sp; tq 1 nl;
   ti 2 nl; ti 1 sp; ti 1 sp; ti 2 sp; ti 3 nl; ti 2 sp; ti 3 sp; ti 4 sp; ti 1 nl;
   ti 4 nl; ti 1 sp; ti 1 sp; ti 2 nl; ti 2 sp; ti 2 sp; ti 3 nl; ti 3 sp; ti 4 sp; ti 3 nl; ti 4 sp; ti 1 sp; ti 4 nl].
Definition text_of (ts : list token) : text := flat_map (fun t => fst (fst t) ++ [snd t])%list ts.

Example C113_netgen_2d_nonvacuous :
  well_shaped 2 3 2 sq_data /\ written (text_of sq_tokens) (netgen_numbers sq_data) /\ boundary_on_cells sq_data /\
  (forall x, In x (md_cells sq_data) -> NoDup (snd x)) /\ in_range sq_data /\
  exists m, load_mesh_netgen_2d (text_of sq_tokens) = Ok (true, m) /\
    lm_edges m = [[0; 1]; [0; 2]; [0; 3]; [1; 2]; [2; 3]] /\
    lm_binfo m = [mkB 1 1 true false; mkB 0 0 false false; mkB 4 4 true false; mkB 2 2 true false; mkB 3 3 true false].
Proof.
  split; [|split; [|split; [|split; [|split]]]].
  - split; cbn [md_points md_cells md_bnd sq_data]; repeat constructor.
  - exact (written_tokens sq_tokens ltac:(repeat tokens; constructor)).
  - intros b Hb. cbn [md_bnd sq_data In] in Hb. repeat destruct Hb as [<-|Hb]; try destruct Hb; cbn [snd].
    + exists [0; 1], (1, [0; 1; 2]). split; [apply simplex_iff; reflexivity|]. split; [cbn; tauto|apply side_tri; cbn; tauto].
    + exists [1; 2], (1, [0; 1; 2]). split; [apply simplex_iff; reflexivity|]. split; [cbn; tauto|apply side_tri; cbn; tauto].
    + exists [2; 3], (2, [2; 3; 0]). split; [apply simplex_iff; reflexivity|]. split; [cbn; tauto|apply side_tri; cbn; tauto].
    + exists [0; 3], (2, [2; 3; 0]). split; [apply simplex_iff; reflexivity|]. split; [cbn; tauto|apply side_tri; cbn; tauto].
  - intros x Hx. cbn [md_cells sq_data In] in Hx. repeat destruct Hx as [<-|Hx]; try destruct Hx; cbn [snd];
      repeat constructor; cbn; intuition discriminate.
  - intros x Hx. cbn [md_cells md_bnd sq_data In] in Hx.
    repeat first [destruct Hx as [<-|Hx]|destruct Hx as [Hx|Hx]|destruct Hx]; cbn; repeat constructor.
  - eexists. split; [vm_compute; reflexivity|]. split; reflexivity.
Qed.

(** a tetrahedron with one of its faces on the boundary, tagged 7 *)
Definition tet_data : mesh_data :=
  mkData [[0; 0; 0]; [1; 0; 0]; [0; 1; 0]; [0; 0; 1]]%Q [(5, [3; 0; 1; 2])] [(7, [2; 0; 1])].
Definition tet_tokens : list token :=
  [ti 4 nl; tq 0 sp; tq 0 sp; tq 0 nl; tq 1 sp; tq 0 sp; tq 0 nl; tq 0 sp; tq 1 sp; tq 0 nl; tq 0 sp; tq 0 sp; tq 1 nl;
   ti 1 nl; ti 5 sp; ti 4 sp; ti 1 sp; ti 2 sp; ti 3 nl; ti 1 nl; ti 7 sp; ti 3 sp; ti 1 sp; ti 2 nl].
Example C113_netgen_3d_nonvacuous :
  well_shaped 3 4 3 tet_data /\ written (text_of tet_tokens) (netgen_numbers tet_data) /\ boundary_on_cells tet_data /\
  distinct_cells tet_data /\ (forall x, In x (md_cells tet_data) -> NoDup (snd x)) /\ in_range tet_data.
Proof.
  split; [|split; [|split; [|split; [|split]]]].
  - split; cbn [md_points md_cells md_bnd tet_data]; repeat constructor.
  - exact (written_tokens tet_tokens ltac:(repeat tokens; constructor)).
  - intros b Hb. cbn [md_bnd tet_data In] in Hb. destruct Hb as [<-|[]]. cbn [snd].
    exists [0; 1; 2], (5, [3; 0; 1; 2]). split; [apply simplex_iff; reflexivity|]. split; [cbn; tauto|apply side_tet; cbn; tauto].
  - intros [|[|i]] [|[|j]] x y Hx Hy _; try discriminate; reflexivity.
  - intros x Hx. destruct Hx as [<-|[]]. repeat constructor; cbn; intuition discriminate.
  - intros x Hx. cbn [md_cells md_bnd tet_data In] in Hx.
    repeat first [destruct Hx as [<-|Hx]|destruct Hx as [Hx|Hx]|destruct Hx]; cbn; repeat constructor.
Qed.

(** a listed face that the tetrahedron does not have; an edge that no triangle has *)
Definition bad_tet : mesh_data := mkData (md_points tet_data ++ [[1; 1; 1]])%Q (md_cells tet_data) [(7, [0; 1; 4])].
Definition bad_sq : mesh_data := mkData (md_points sq_data) (md_cells sq_data) [(1, [1; 3])].
Definition bad_sq_tokens : list token :=
  [ti 4 nl; tq 0 sp; tq 0 nl; tq 1 sp; tq 0 nl; tq 1 sp; tq 1 nl; tq 0 sp; tq 1 nl;
   ti 2 nl; ti 1 sp; ti 1 sp; ti 2 sp; ti 3 nl; ti 2 sp; ti 3 sp; ti 4 sp; ti 1 nl;
   ti 1 nl; ti 1 sp; ti 2 sp; ti 4 nl].
Definition bad_tet_tokens : list token :=
  [ti 5 nl; tq 0 sp; tq 0 sp; tq 0 nl; tq 1 sp; tq 0 sp; tq 0 nl; tq 0 sp; tq 1 sp; tq 0 nl; tq 0 sp; tq 0 sp; tq 1 nl;
   tq 1 sp; tq 1 sp; tq 1 nl;
   ti 1 nl; ti 5 sp; ti 4 sp; ti 1 sp; ti 2 sp; ti 3 nl; ti 1 nl; ti 7 sp; ti 1 sp; ti 2 sp; ti 5 nl].
Example C114_nonvacuous :
  (well_shaped 2 3 2 bad_sq /\ written (text_of bad_sq_tokens) (netgen_numbers bad_sq) /\ boundary_off_cells bad_sq) /\
  (well_shaped 3 4 3 bad_tet /\ written (text_of bad_tet_tokens) (netgen_numbers bad_tet) /\ boundary_off_cells bad_tet).
Proof.
  split; (split; [|split]).
  - split; cbn [md_points md_cells md_bnd bad_sq sq_data]; repeat constructor.
  - exact (written_tokens bad_sq_tokens ltac:(repeat tokens; constructor)).
  - exists (1, [1; 3]). split; [left; reflexivity|]. intros f x Hf Hx Hs. apply simplex_iff in Hf. subst f.
    cbn [md_cells bad_sq sq_data In] in Hx. repeat destruct Hx as [<-|Hx]; try destruct Hx;
      (apply side_tri in Hs; [|reflexivity]); cbn in Hs; repeat destruct Hs as [Hs|Hs]; try discriminate Hs; destruct Hs.
  - split; cbn [md_points md_cells md_bnd bad_tet tet_data app]; repeat constructor.
  - exact (written_tokens bad_tet_tokens ltac:(repeat tokens; constructor)).
  - exists (7, [0; 1; 4]). split; [left; reflexivity|]. intros f x Hf Hx Hs. apply simplex_iff in Hf. subst f.
    cbn [md_cells bad_tet tet_data In] in Hx. repeat destruct Hx as [<-|Hx]; try destruct Hx;
      (apply side_tet in Hs; [|reflexivity]); cbn in Hs; repeat destruct Hs as [Hs|Hs]; try discriminate Hs; destruct Hs.
Qed.

(** Two squares that share an edge but list it in opposite directions: the loader stores it twice,
    so each of the two squares has an edge of its own there, and no edge is shared. *)
Definition two_sq : mesh_data :=
  mkData [[0; 0]; [1; 0]; [0; 1]; [1; 1]; [2; 0]; [2; 1]]%Q
         [(0, [0; 1; 2; 3]); (0, [3; 1; 5; 4])] [(0, [0; 1])].
Definition two_sq_tokens : list token :=
  [ti 6 nl; tq 0 sp; tq 0 nl; tq 1 sp; tq 0 nl; tq 0 sp; tq 1 nl; tq 1 sp; tq 1 nl; tq 2 sp; tq 0 nl; tq 2 sp; tq 1 nl;
   ti 2 nl; ti 0 sp; ti 1 sp; ti 2 sp; ti 3 nl; ti 3 sp; ti 1 sp; ti 5 sp; ti 4 nl; ti 1 nl; ti 0 sp; ti 1 nl].
Theorem C115_faces_once_refuted : exists d txt m,
  well_shaped 2 4 2 d /\ written txt (cartesian_numbers d) /\
  (forall b, In b (md_bnd d) -> exists x, In x (md_cells d) /\ row_of quad_rows (snd x) (snd b)) /\
  load_mesh_cartesian_2d txt = Ok (true, m) /\
  exists i j f g, nth_error (lm_edges m) i = Some f /\ nth_error (lm_edges m) j = Some g /\ Permutation f g /\ i <> j.
Proof.
  assert (W1 : well_shaped 2 4 2 two_sq).
  { split; cbn [md_points md_cells md_bnd two_sq]; repeat constructor. }
  assert (W2 : written (text_of two_sq_tokens) (cartesian_numbers two_sq)).
  { exact (written_tokens two_sq_tokens ltac:(repeat tokens; constructor)). }
  assert (W3 : forall b, In b (md_bnd two_sq) -> exists x, In x (md_cells two_sq) /\ row_of quad_rows (snd x) (snd b)).
  { intros b [<-|[]]. exists (0, [0; 1; 2; 3]). split; [left; reflexivity|]. exists [0; 1]. split; [left; reflexivity|reflexivity]. }
  exists two_sq, (text_of two_sq_tokens). destruct (C115_cartesian_2d_partial _ _ W1 W2 W3) as (m & E & _ & H).
  exists m. split; [exact W1|]. split; [exact W2|]. split; [exact W3|]. split; [exact E|].
  destruct H as [_ _ _ H4 _ _ _].
  assert (I1 : In [1; 3] (lm_edges m)).
  { apply H4. exists (0, [0; 1; 2; 3]). split; [left; reflexivity|]. exists [1; 3]. split; [cbn; tauto|reflexivity]. }
  assert (I2 : In [3; 1] (lm_edges m)).
  { apply H4. exists (0, [3; 1; 5; 4]). split; [right; left; reflexivity|]. exists [0; 1]. split; [cbn; tauto|reflexivity]. }
  apply In_nth_error in I1 as (i & Hi). apply In_nth_error in I2 as (j & Hj).
  exists i, j, [1; 3], [3; 1]. split; [exact Hi|]. split; [exact Hj|]. split; [constructor|]. intros ->. congruence.
Qed.

(** a coherent listing of the same squares *)
Definition two_sq' : mesh_data :=
  mkData [[0; 0]; [1; 0]; [0; 1]; [1; 1]; [2; 0]; [2; 1]]%Q
         [(0, [0; 1; 2; 3]); (0, [1; 4; 3; 5])] [(0, [0; 1])].
Definition two_sq_tokens' : list token :=
  [ti 6 nl; tq 0 sp; tq 0 nl; tq 1 sp; tq 0 nl; tq 0 sp; tq 1 nl; tq 1 sp; tq 1 nl; tq 2 sp; tq 0 nl; tq 2 sp; tq 1 nl;
   ti 2 nl; ti 0 sp; ti 1 sp; ti 2 sp; ti 3 nl; ti 1 sp; ti 4 sp; ti 3 sp; ti 5 nl; ti 1 nl; ti 0 sp; ti 1 nl].
Example C115_nonvacuous : well_shaped 2 4 2 two_sq' /\ written (text_of two_sq_tokens') (cartesian_numbers two_sq') /\
  (forall b, In b (md_bnd two_sq') -> exists x, In x (md_cells two_sq') /\ row_of quad_rows (snd x) (snd b)) /\
  coherent quad_rows two_sq'.
Proof.
  split; [|split; [|split]].
  - split; cbn [md_points md_cells md_bnd two_sq']; repeat constructor.
  - exact (written_tokens two_sq_tokens' ltac:(repeat tokens; constructor)).
  - intros b [<-|[]]. exists (0, [0; 1; 2; 3]). split; [left; reflexivity|]. exists [0; 1]. split; [left; reflexivity|reflexivity].
  - intros x y f g Hx Hy Rx Ry P.
    assert (Q : sx f = sx g) by (apply sx_perm, P).
    assert (Kx : In f [[0; 1]; [0; 2]; [1; 3]; [2; 3]; [1; 4]; [4; 5]; [3; 5]]).
    { cbn [md_cells two_sq' In] in Hx. repeat destruct Hx as [<-|Hx]; try destruct Hx;
        (apply quad_rows_spec in Rx; [|reflexivity]); cbn in Rx |- *; tauto. }
    assert (Ky : In g [[0; 1]; [0; 2]; [1; 3]; [2; 3]; [1; 4]; [4; 5]; [3; 5]]).
    { cbn [md_cells two_sq' In] in Hy. repeat destruct Hy as [<-|Hy]; try destruct Hy;
        (apply quad_rows_spec in Ry; [|reflexivity]); cbn in Ry |- *; tauto. }
    clear - Q Kx Ky. cbn [In] in Kx, Ky. repeat destruct Kx as [<-|Kx]; try destruct Kx;
      repeat destruct Ky as [<-|Ky]; try destruct Ky; try reflexivity; discriminate Q.
Qed.

(** a hexahedron *)
Definition one_hex : mesh_data :=
  mkData [[0; 0; 0]; [1; 0; 0]; [0; 1; 0]; [1; 1; 0]; [0; 0; 1]; [1; 0; 1]; [0; 1; 1]; [1; 1; 1]]%Q
         [(0, [0; 1; 2; 3; 4; 5; 6; 7])] [(0, [4; 5; 7; 6])].
Definition one_hex_tokens : list token :=
  [ti 8 nl; tq 0 sp; tq 0 sp; tq 0 nl; tq 1 sp; tq 0 sp; tq 0 nl; tq 0 sp; tq 1 sp; tq 0 nl; tq 1 sp; tq 1 sp; tq 0 nl;
   tq 0 sp; tq 0 sp; tq 1 nl; tq 1 sp; tq 0 sp; tq 1 nl; tq 0 sp; tq 1 sp; tq 1 nl; tq 1 sp; tq 1 sp; tq 1 nl;
   ti 1 nl; ti 0 sp; ti 1 sp; ti 2 sp; ti 3 sp; ti 4 sp; ti 5 sp; ti 6 sp; ti 7 nl; ti 1 nl; ti 4 sp; ti 5 sp; ti 7 sp; ti 6 nl].
Example C115_3d_nonvacuous : well_shaped 3 8 4 one_hex /\ written (text_of one_hex_tokens) (cartesian_numbers one_hex) /\
  distinct_lists one_hex /\
  (forall b, In b (md_bnd one_hex) -> exists x, In x (md_cells one_hex) /\ row_of hex_rows (snd x) (snd b)) /\
  coherent hex_rows one_hex.
Proof.
  split; [|split; [|split; [|split]]].
  - split; cbn [md_points md_cells md_bnd one_hex]; repeat constructor.
  - exact (written_tokens one_hex_tokens ltac:(repeat tokens; constructor)).
  - repeat constructor. intros [].
  - intros b [<-|[]]. exists (0, [0; 1; 2; 3; 4; 5; 6; 7]). split; [left; reflexivity|]. exists [4; 5; 7; 6]. split; [cbn; tauto|reflexivity].
  - intros x y f g Hx Hy Rx Ry P.
    assert (Q : sx f = sx g) by (apply sx_perm, P).
    destruct Hx as [<-|[]]. destruct Hy as [<-|[]].
    apply hex_rows_spec in Rx; [|reflexivity]. apply hex_rows_spec in Ry; [|reflexivity].
    clear - Q Rx Ry. cbn [snd hex_surfs In] in Rx, Ry. repeat destruct Rx as [<-|Rx]; try destruct Rx;
      repeat destruct Ry as [<-|Ry]; try destruct Ry; try reflexivity; discriminate Q.
Qed.

(** A triangle with a vertex that does not exist: accepted. *)
Definition far_tri : mesh_data := mkData [[0; 0]; [1; 0]; [0; 1]]%Q [(1, [0; 1; 8])] [(1, [0; 1])].
Definition far_tokens : list token :=
  [ti 3 nl; tq 0 sp; tq 0 nl; tq 1 sp; tq 0 nl; tq 0 sp; tq 1 nl;
   ti 1 nl; ti 1 sp; ti 1 sp; ti 2 sp; ti 9 nl; ti 1 nl; ti 1 sp; ti 1 sp; ti 2 nl].
Theorem C116_vertices_exist_refuted : exists d txt m,
  well_shaped 2 3 2 d /\ written txt (netgen_numbers d) /\ boundary_on_cells d /\
  load_mesh_netgen_2d txt = Ok (true, m) /\
  exists e v, In e (lm_surfs m) /\ In v e /\ length (lm_points m) <= v.
Proof.
  assert (W1 : well_shaped 2 3 2 far_tri).
  { split; cbn [md_points md_cells md_bnd far_tri]; repeat constructor. }
  assert (W2 : written (text_of far_tokens) (netgen_numbers far_tri)).
  { exact (written_tokens far_tokens ltac:(repeat tokens; constructor)). }
  assert (W3 : boundary_on_cells far_tri).
  { intros b [<-|[]]. exists [0; 1], (1, [0; 1; 8]). split; [apply simplex_iff; reflexivity|].
    split; [left; reflexivity|apply side_tri; cbn; tauto]. }
  exists far_tri, (text_of far_tokens). destruct (C113_netgen_2d _ _ W1 W2 W3) as (m & E & (SP & _) & H & _).
  exists m. split; [exact W1|]. split; [exact W2|]. split; [exact W3|]. split; [exact E|].
  exists [0; 1; 8], 8. split; [|split; [cbn; tauto|]].
  - apply H. exists (1, [0; 1; 8]). split; [left; reflexivity|apply simplex_iff; reflexivity].
  - assert (L : length (lm_points m) = length (md_points far_tri)).
    { clear - SP. induction SP; cbn; congruence. }
    rewrite L. cbn. lia.
Qed.

Print Assumptions C113_netgen_2d.
Print Assumptions C113_netgen_3d.
Print Assumptions C113_netgen_2d_wf.
Print Assumptions C113_netgen_3d_wf.
Print Assumptions C113_layout_irrelevant.
Print Assumptions C114_netgen_3d_rejects_partial.
Print Assumptions C114_netgen_2d_populate_rejects_partial.
Print Assumptions C114_netgen_2d_rejects_refuted.
Print Assumptions C114_empty_file_accepted_refuted.
Print Assumptions C115_cartesian_2d_partial.
Print Assumptions C115_cartesian_3d_partial.
Print Assumptions C115_rows_are_box_faces.
Print Assumptions C115_faces_once_partial.
Print Assumptions C115_faces_once_3d_partial.
Print Assumptions C116_vertices_exist_partial.
Print Assumptions C116_vertices_exist_3d_partial.
Print Assumptions C115_faces_once_refuted.
Print Assumptions C116_vertices_exist_refuted.
