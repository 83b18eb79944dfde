(** C117-C121: the loaders of files with explicit connectivity *)
From Coq Require Import List Arith Bool Permutation Sorted Lia ZArith QArith Lqa.
From Verif Require Import Common Mesh_Model Mesh_Spec Mesh_Proofs Mesh2_Proofs Elem_Model Elem_Spec Elem_Proofs
  Load2_Proofs Conn_Model Conn_Spec Conn_Proofs Conn2_Proofs Conn3_Proofs.
Import ListNotations.
Local Open Scope nat_scope.

(** ** C117: the mesh has the connectivity of the file *)

(** medit (3D): every edge, face and volume of the file is stored, once, and refers to the positions
    of its parts; its points are those of the file; the descriptor of a face is that of the
    last entry that names it, and the default if there is none; containers come out sorted when the file has no
    repeated element.  (The function nevertheless returns false; load_mesh ignores that.) *)
Theorem C117_medit3d : forall d, consistent d ->
  Forall (fun g => Forall (fun m => m < length (cf_faces d)) (snd g)) (cf_grps d) ->
  exists m pe pf pv, medit3_populate (seen d) = Ok (false, m) /\
    same_mesh d (cm_edges m) (cm_faces m) (cm_vols m) pe pf pv /\
    described (length (cf_faces d)) pf (cf_grps d) (cm_binfo m) /\
    (no_repeats d -> sorted_unique lex_ltb (cm_edges m) /\ sorted_unique lex_ltb (map g_sub (cm_faces m)) /\
      sorted_unique lex_ltb (map g_sub (cm_vols m))).
Proof. intros d K. apply medit3_ok, K. Qed.
Print Assumptions C117_medit3d.

Lemma in_order_nth {A} (l : list (nat * A)) i x : in_number_order l -> nth_error (map snd l) i = Some x -> In (i, x) l.
Proof.
  intros O E. rewrite nth_error_map in E. destruct (nth_error l i) as [[j y]|] eqn:El; [|discriminate].
  cbn in E. injection E as ->. assert (j = i).
  { assert (F : nth_error (map fst l) i = Some j) by apply (map_nth_error fst _ _ El). rewrite O in F.
    assert (L : i < length l) by (apply nth_error_Some; congruence).
    rewrite (nth_error_nth' _ 0) in F by (rewrite seq_length; exact L). rewrite seq_nth in F by exact L. injection F as F. lia. }
  subst j. eapply nth_error_In; eauto.
Qed.
Lemma placed_weaken {X} n p (l : list X) (P Q : nat -> X -> Prop) : (forall i x, P i x -> Q i x) -> placed_as n p l P -> placed_as n p l Q.
Proof. intros H [A B C]. split; auto. intros i Hi. destruct (C i Hi) as (x & E & Px). eauto. Qed.

(** poly3d, when the node lists stand in the order of their numbers *)
Theorem C117_poly3d : forall f, consistent (poly_conn f) -> in_number_order (py_fpts f) -> in_number_order (py_vpts f) ->
  Forall (fun g => Forall (fun m => m < length (py_faces f)) (snd g)) (py_grps f) ->
  exists m pe pf pv, poly3_populate (poly_read f) = Ok (true, m) /\
    placed_as (length (py_edges f)) pe (cm_edges m) (edge_item (poly_conn f)) /\
    placed_as (length (py_faces f)) pf (cm_faces m) (poly_face f pe) /\
    placed_as (length (py_vols f)) pv (cm_vols m) (poly_vol f pf) /\
    described (length (py_faces f)) pf (py_grps f) (cm_binfo m) /\
    (no_repeats (poly_conn f) -> sorted_unique lex_ltb (cm_edges m) /\ sorted_unique lex_ltb (map g_sub (cm_faces m)) /\
      sorted_unique lex_ltb (map g_sub (cm_vols m))).
Proof.
  intros f K O1 O2 G. destruct (poly3_ok (poly_conn f) K G) as (m & pe & pf & pv & E & [S1 S2 S3] & D & U).
  exists m, pe, pf, pv. split; [exact E|]. split; [exact S1|]. split; [|split; [|split; [exact D|exact U]]].
  - eapply placed_weaken; [|exact S2]. intros i x (es & A & B & C). exists es. split; [exact A|]. split; [exact B|].
    apply in_order_nth; [exact O1|exact C].
  - eapply placed_weaken; [|exact S3]. intros i x (es & A & B & C). exists es. split; [exact A|]. split; [exact B|].
    apply in_order_nth; [exact O2|exact C].
Qed.
Print Assumptions C117_poly3d.

(** poly2d: the faces of the file are the cells, its groups name edges *)
Theorem C117_poly2d : forall f, consistent (poly_conn f) -> in_number_order (py_fpts f) ->
  Forall (fun g => Forall (fun m => m < length (py_edges f)) (snd g)) (py_grps f) ->
  exists m pe pf, poly2_populate (poly_read f) = Ok (true, m) /\
    placed_as (length (py_edges f)) pe (cm_edges m) (edge_item (poly_conn f)) /\
    placed_as (length (py_faces f)) pf (cm_faces m) (poly_face f pe) /\ cm_vols m = [] /\
    described (length (py_edges f)) pe (py_grps f) (cm_binfo m) /\
    (no_repeats (poly_conn f) -> sorted_unique lex_ltb (cm_edges m) /\ sorted_unique lex_ltb (map g_sub (cm_faces m))).
Proof.
  intros f K O1 G. destruct (poly2_ok (poly_conn f) K G) as (m & pe & pf & E & S1 & S2 & V & D & U).
  exists m, pe, pf. split; [exact E|]. split; [exact S1|]. split; [|split; [exact V|split; [exact D|exact U]]].
  eapply placed_weaken; [|exact S2]. intros i x (es & A & B & C). exists es. split; [exact A|]. split; [exact B|].
  apply in_order_nth; [exact O1|exact C].
Qed.
Print Assumptions C117_poly2d.

(** Two triangles 0 1 2 and 1 3 2, edges listed out of order and reversed, cell numbers swapped *)
Definition two_triangles (fpts : list (nat * list nat)) : poly_file :=
  mkPoly [(4, (3, 2)); (0, (0, 1)); (2, (2, 1)); (1, (2, 0)); (3, (1, 3))]
    [(1, [2; 3; 4]); (0, [0; 1; 2])] fpts [] [] [(7, [0; 1]); (9, [4; 1])].
Example C117_not_vacuous :
  let f := two_triangles [(0, [0; 1; 2]); (1, [1; 3; 2])] in
  consistent (poly_conn f) /\ in_number_order (py_fpts f) /\ no_repeats (poly_conn f) /\
  Forall (fun g => Forall (fun m => m < length (py_edges f)) (snd g)) (py_grps f) /\
  poly2_populate (poly_read f) =
    Ok (true, mkCM [[0; 1]; [0; 2]; [1; 2]; [1; 3]; [2; 3]] [mkG [0; 1; 2] [0; 1; 2]; mkG [2; 3; 4] [1; 3; 2]] []
      [mkB 7 7 true false; mkB 9 9 true false; mkB 0 0 false false; mkB 0 0 false false; mkB 9 9 true false]).
Proof.
  cbv zeta. split; [|split; [|split; [|split]]].
  - split; unfold numbered; cbn.
    + apply (Permutation_cons_app [0; 2; 1; 3] [] 4) || idtac.
      apply NoDup_Permutation; [repeat constructor; cbn; lia|repeat constructor; cbn; lia|]. intros x; cbn; lia.
    + apply NoDup_Permutation; [repeat constructor; cbn; lia|repeat constructor; cbn; lia|]. intros x; cbn; lia.
    + constructor.
    + intros id es [H|[H|[]]]; injection H as <- <-; repeat constructor.
    + intros id es [].
    + reflexivity.
    + reflexivity.
  - reflexivity.
  - split; cbn.
    + intros i j a b a' b' Hi Hj E. repeat (destruct Hi as [Hi|Hi]; [injection Hi as <- <- <-|]); try contradiction;
      repeat (destruct Hj as [Hj|Hj]; [injection Hj as <- <- <-|]); try contradiction; lia.
    + repeat constructor; cbn; intros K; intuition discriminate.
    + constructor.
  - repeat constructor.
  - vm_compute. reflexivity.
Qed.

(** ** C118: numbers of the node lists in poly files *)

(** The full statement drops [in_number_order] from C117.  It is false: lists are looked up by
    position.  Here the file gives every cell the vertices of its own edges, in entries that are
    numbered but not in order; the mesh gives a cell a point that none of its edges has. *)
Definition file_points_match (f : poly_file) : Prop :=
  forall i es vs v, In (i, es) (py_faces f) -> In (i, vs) (py_fpts f) -> In v vs ->
    exists e a b, In e es /\ In (e, (a, b)) (py_edges f) /\ (v = a \/ v = b).
Definition mesh_points_match (m : cmesh) : Prop :=
  forall x v, In x (cm_faces m) -> In v (g_pts x) -> exists e, In e (g_sub x) /\ In v (nth e (cm_edges m) []).
Theorem C118_poly_node_numbers_refuted :
  ~ (forall f, consistent (poly_conn f) -> numbered (py_fpts f) -> file_points_match f ->
      exists m, poly2_populate (poly_read f) = Ok (true, m) /\ mesh_points_match m).
Proof.
  intros H. destruct (H (two_triangles [(1, [1; 3; 2]); (0, [0; 1; 2])])) as (m & E & P).
  - split; unfold numbered; cbn.
    + apply NoDup_Permutation; [repeat constructor; cbn; lia|repeat constructor; cbn; lia|]. intros x; cbn; lia.
    + apply NoDup_Permutation; [repeat constructor; cbn; lia|repeat constructor; cbn; lia|]. intros x; cbn; lia.
    + constructor.
    + intros id es [K|[K|[]]]; injection K as <- <-; repeat constructor.
    + intros id es [].
    + reflexivity.
    + reflexivity.
  - unfold numbered. cbn. apply perm_swap.
  - intros i es vs v. cbn. intros [K|[K|[]]] [L|[L|[]]]; inversion K; subst; inversion L; subst; intros [<-|[<-|[<-|[]]]].
    + exists 2, 2, 1. cbn. auto 10.
    + exists 3, 1, 3. cbn. auto 10.
    + exists 2, 2, 1. cbn. auto 10.
    + exists 0, 0, 1. cbn. auto 10.
    + exists 0, 0, 1. cbn. auto 10.
    + exists 1, 2, 0. cbn. auto 10.
  - vm_compute in E. injection E as <-.
    destruct (P (mkG [0; 1; 2] [1; 3; 2]) 3) as (e & He & Hv); [left; reflexivity|cbn; auto|].
    cbn in He. destruct He as [<-|[<-|[<-|[]]]]; cbn in Hv; lia.
Qed.
Print Assumptions C118_poly_node_numbers_refuted.

(** What remains: the lists are matched by position.  Then the mesh is that of the file whose
    node lists are renumbered 0, 1, ... in the order they stand. *)
Theorem C118_poly_by_position_partial : forall f, consistent (poly_conn f) ->
  Forall (fun g => Forall (fun m => m < length (py_faces f)) (snd g)) (py_grps f) ->
  exists m pe pf pv, poly3_populate (poly_read f) = Ok (true, m) /\
    same_mesh (poly_conn f) (cm_edges m) (cm_faces m) (cm_vols m) pe pf pv.
Proof. intros f K G. destruct (poly3_ok (poly_conn f) K G) as (m & pe & pf & pv & E & S' & _). exists m, pe, pf, pv. auto. Qed.
Print Assumptions C118_poly_by_position_partial.

(** ** C119: fvca6 *)
Lemma number_numbered {A} (l : list A) : numbered (number l).
Proof.
  unfold numbered, number. assert (L : length (combine (seq 0 (length l)) l) = length l) by (rewrite combine_length, seq_length; lia).
  rewrite L. assert (G : forall (a : list nat) (b : list A), length a = length b -> map fst (combine a b) = a).
  { induction a as [|x a IH]; intros [|y b] E; try discriminate; [reflexivity|]. cbn. f_equal. apply IH. auto. }
  rewrite G by apply seq_length. reflexivity.
Qed.
Lemma number_length {A} (l : list A) : length (number l) = length l.
Proof. unfold number. rewrite combine_length, seq_length. lia. Qed.
Lemma number_in {A} (l : list A) i x : In (i, x) (number l) <-> nth_error l i = Some x.
Proof.
  unfold number. split.
  - intros H. apply In_nth_error in H as (k & H). assert (G : forall (l : list A) o k, nth_error (combine (seq o (length l)) l) k = Some (i, x) ->
      nth_error l k = Some x /\ i = o + k).
    { clear. induction l as [|y l IH]; intros o [|k] E; try discriminate.
      - cbn in E. injection E as -> ->. split; [reflexivity|lia].
      - cbn in E. destruct (IH (S o) k E) as (A1 & A2). split; [exact A1|lia]. }
    destruct (G l 0 k H) as (A1 & ->). exact A1.
  - intros H. assert (G : forall (l : list A) o k, nth_error l k = Some x -> In (o + k, x) (combine (seq o (length l)) l)).
    { clear. induction l as [|y l IH]; intros o [|k] E; try discriminate.
      - cbn in E. injection E as ->. cbn. left. f_equal. lia.
      - cbn in E |- *. right. replace (o + S k) with (S o + k) by lia. apply IH, E. }
    apply (G l 0 i H).
Qed.
Lemma pred_map (l : list (list nat)) : map (map Nat.pred) l = map (map (fun x => x - 1)) l.
Proof. apply map_ext. intros a. apply map_ext. intros x. lia. Qed.

(** the same file with the edges left alone *)
Definition raw (f : fvca6_file) : conn_file :=
  mkFile (number (f6_edges f)) (cf_faces (fvca6_conn f)) (cf_fpts (fvca6_conn f)) (cf_vols (fvca6_conn f)) (cf_vpts (fvca6_conn f)) [].
Lemma fvca6_read_raw f : fvca6_read f = seen (raw f).
Proof.
  unfold fvca6_read, seen, raw, fvca6_conn. cbn [cf_edges cf_faces cf_fpts cf_vols cf_vpts cf_grps]. rewrite !pred_map. f_equal.
  unfold number. rewrite map_length. generalize (seq 0 (length (f6_edges f))). intros s. generalize (f6_edges f). revert s.
  induction s as [|x s IH]; intros [|e l]; cbn; try reflexivity. f_equal. apply IH.
Qed.
Lemma fvca6_consistent np f : fvca6_valid np f -> consistent (raw f).
Proof.
  intros [A B C D E]. split; cbn [cf_edges cf_faces cf_fpts cf_vols cf_vpts raw fvca6_conn]; try apply number_numbered.
  - intros id es H. apply number_in in H. rewrite number_length. rewrite nth_error_map in H.
    destruct (nth_error (f6_faces f) id) as [l|] eqn:El; [|discriminate]. cbn in H. injection H as <-.
    apply nth_error_In in El. rewrite Forall_forall in B. specialize (B l El). rewrite Forall_forall in B. apply Forall_forall.
    intros x Hx. apply in_map_iff in Hx as (y & <- & Hy). specialize (B y Hy). lia.
  - intros id es H. apply number_in in H. rewrite number_length, map_length. rewrite nth_error_map in H.
    destruct (nth_error (f6_vols f) id) as [l|] eqn:El; [|discriminate]. cbn in H. injection H as <-.
    apply nth_error_In in El. rewrite Forall_forall in C. specialize (C l El). rewrite Forall_forall in C. apply Forall_forall.
    intros x Hx. apply in_map_iff in Hx as (y & <- & Hy). specialize (C y Hy). lia.
  - rewrite number_length, !map_length. apply D.
  - rewrite number_length, !map_length. apply E.
Qed.
Lemma fvca6_no_repeats f : no_repeats (fvca6_conn f) -> no_repeats (raw f).
Proof.
  intros [A B C]. split; cbn [cf_edges cf_faces cf_vols raw]; [|exact B|exact C].
  intros i j a b a' b' Hi Hj E. apply number_in in Hi, Hj. apply (A i j (a - 1) (b - 1) (a' - 1) (b' - 1)).
  - cbn [cf_edges fvca6_conn]. apply number_in. apply (map_nth_error (fun e => (fst e - 1, snd e - 1)) _ _ Hi).
  - cbn [cf_edges fvca6_conn]. apply number_in. apply (map_nth_error (fun e => (fst e - 1, snd e - 1)) _ _ Hj).
  - lia.
Qed.

(** Faces and volumes refer, from 0, to the right edges and faces and have the points of the file.
    Each edge of the file has its own position, but is stored with the vertex numbers of the file,
    which start from 1 ([edge_item (raw f)]; in [fvca6_conn f] they start from 0).
    Missing for the full statement: [edge_item (fvca6_conn f)]; see the next theorem. *)
Theorem C119_fvca6_partial : forall np f bnum, fvca6_valid np f -> no_repeats (fvca6_conn f) -> manifold (fvca6_conn f) ->
  exists m pe pf pv, fvca6_populate bnum (fvca6_read f) = Ok (true, m) /\
    placed_as (length (f6_faces f)) pf (cm_faces m) (face_item (fvca6_conn f) pe) /\
    placed_as (length (f6_vols f)) pv (cm_vols m) (vol_item (fvca6_conn f) pf) /\
    placed_as (length (f6_edges f)) pe (cm_edges m)
      (fun i e => exists a b, nth_error (f6_edges f) i = Some (a, b) /\ e = [Nat.min a b; Nat.max a b]) /\
    sorted_unique lex_ltb (cm_edges m) /\ sorted_unique lex_ltb (map g_sub (cm_faces m)) /\
    sorted_unique lex_ltb (map g_sub (cm_vols m)).
Proof.
  intros np f bnum V R M. rewrite fvca6_read_raw.
  destruct (fvca6_ok (raw f) bnum (fvca6_consistent np f V) (fvca6_no_repeats f R)) as (m & pe & pf & pv & E & [S1 S2 S3] & U & _).
  { split; [apply (mf_vols _ M)|apply (mf_faces _ M)]. }
  assert (LE : length (cf_edges (raw f)) = length (f6_edges f)) by apply number_length.
  assert (LF : length (cf_faces (raw f)) = length (f6_faces f)) by (cbn [cf_faces raw fvca6_conn]; rewrite number_length, map_length; reflexivity).
  assert (LV : length (cf_vols (raw f)) = length (f6_vols f)) by (cbn [cf_vols raw fvca6_conn]; rewrite number_length, map_length; reflexivity).
  rewrite LE in S1. rewrite LF in S2. rewrite LV in S3.
  exists m, pe, pf, pv. split; [exact E|]. split; [exact S2|]. split; [exact S3|]. split; [|exact U].
  eapply placed_weaken; [|exact S1]. intros i e (a & b & I & Ee). exists a, b. split; [|exact Ee]. apply number_in, I.
Qed.
Print Assumptions C119_fvca6_partial.

(** In every file in which the last of the [np] points lies on an edge, some stored edge refers to
    point number [np] counted from 0, which does not exist. *)
Theorem C119_fvca6_edges_refuted : forall np f bnum a b, fvca6_valid np f -> no_repeats (fvca6_conn f) -> manifold (fvca6_conn f) ->
  In (a, b) (f6_edges f) -> a = np \/ b = np ->
  exists m e, fvca6_populate bnum (fvca6_read f) = Ok (true, m) /\ In e (cm_edges m) /\ In np e.
Proof.
  intros np f bnum a b V R M I H. destruct (C119_fvca6_partial np f bnum V R M) as (m & pe & pf & pv & E & _ & _ & [_ _ S1] & _).
  apply In_nth_error in I as (i & I). destruct (S1 i) as (e & He & a' & b' & I' & Ee); [apply nth_error_Some; congruence|].
  assert (X : (a', b') = (a, b)) by congruence. injection X as -> ->. exists m, e. split; [exact E|]. split; [eapply nth_error_In; eauto|].
  subst e. destruct (Nat.min_spec a b) as [(L & ->)|(L & ->)], (Nat.max_spec a b) as [(L' & ->)|(L' & ->)]; cbn; lia.
Qed.
Print Assumptions C119_fvca6_edges_refuted.

(** one tetrahedron; faces and edges listed in any order *)
Definition one_tet : fvca6_file :=
  mkF6 [(1, 2); (4, 3); (1, 3); (1, 4); (2, 3); (2, 4)] [[1; 3; 5]; [3; 4; 2]; [1; 4; 6]; [5; 6; 2]]
       [[1; 2; 3]; [1; 3; 4]; [1; 2; 4]; [2; 3; 4]] [[4; 3; 2; 1]] [[1; 2; 3; 4]].
Example C119_not_vacuous :
  fvca6_valid 4 one_tet /\ no_repeats (fvca6_conn one_tet) /\ manifold (fvca6_conn one_tet) /\ In (4, 3) (f6_edges one_tet) /\
  fvca6_populate (fun _ _ => None) (fvca6_read one_tet) =
    Ok (true, mkCM [[1; 2]; [1; 3]; [1; 4]; [2; 3]; [2; 4]; [3; 4]]
      [mkG [0; 1; 3] [0; 1; 2]; mkG [0; 2; 4] [0; 1; 3]; mkG [1; 2; 5] [0; 2; 3]; mkG [3; 4; 5] [1; 2; 3]]
      [mkG [3; 1; 2; 0] [0; 1; 2; 3]] [mkB 0 0 true false; mkB 0 0 true false; mkB 0 0 true false; mkB 0 0 true false]).
Proof.
  split; [|split; [|split; [|split]]].
  - split; cbn; repeat constructor.
  - split; cbn.
    + intros i j a b a' b' Hi Hj E. repeat (destruct Hi as [Hi|Hi]; [injection Hi as <- <- <-|]); try contradiction;
      repeat (destruct Hj as [Hj|Hj]; [injection Hj as <- <- <-|]); try contradiction; lia.
    + repeat constructor; cbn; intros K; intuition discriminate.
    + repeat constructor; cbn; intros K; intuition discriminate.
  - split.
    + repeat constructor; cbn; lia.
    + intros i. do 8 (destruct i as [|i]; [vm_compute; lia|]). vm_compute. lia.
  - cbn. auto.
  - vm_compute. reflexivity.
Qed.

(** ** C120: sides of the unit square and cube *)

Lemma within_spec lo x hi : within lo x hi = true <-> (lo < x /\ x < hi)%Q.
Proof.
  unfold within, qltb. rewrite andb_true_iff, !negb_true_iff. split; intros (A & B); split.
  - apply Qnot_le_lt. intros H. apply Qle_bool_iff in H. congruence.
  - apply Qnot_le_lt. intros H. apply Qle_bool_iff in H. congruence.
  - destruct (Qle_bool x lo) eqn:E; [|reflexivity]. apply Qle_bool_iff in E. apply Qle_not_lt in E. contradiction.
  - destruct (Qle_bool hi x) eqn:E; [|reflexivity]. apply Qle_bool_iff in E. apply Qle_not_lt in E. contradiction.
Qed.
Lemma within_false lo x hi : within lo x hi = false -> (x <= lo \/ hi <= x)%Q.
Proof.
  intros E. destruct (Qlt_le_dec lo x) as [A|A]; [|auto]. destruct (Qlt_le_dec x hi) as [B|B]; [|auto].
  rewrite (proj2 (within_spec lo x hi) (conj A B)) in E. discriminate.
Qed.
Lemma unit_bound (x s : Q) : (0 <= s)%Q -> (x * x + s == 1)%Q -> (-1 <= x <= 1)%Q.
Proof. intros Hs H. split; nra. Qed.
Lemma unit_other (x y s : Q) : (0 <= s)%Q -> (x * x + y * y + s == 1)%Q -> (x < -99 # 100 \/ 99 # 100 < x)%Q -> (-99 # 100 <= y <= 99 # 100)%Q.
Proof. intros Hs H [K|K]; split; nra. Qed.
Lemma sq_pos (x : Q) : (0 <= x * x)%Q. Proof. nra. Qed.

Ltac split_within :=
  match goal with
  | |- context [within ?a ?b ?c] => let E := fresh "E" in destruct (within a b c) eqn:E;
      [apply within_spec in E as [? ?]|apply within_false in E as [?|?]]
  end.
Ltac side := split; [intros K; try discriminate K; repeat split; try lra|intros K; try reflexivity; exfalso; try lra].

(** The sides are told from the outward unit normal, up to 1/100: in 2D, 0 below, 1 right,
    2 above, 3 left. *)
Theorem C120_side_of_normal_2d : forall x y : Q, (x * x + y * y == 1)%Q ->
  (boundary_number2 (x, y) = Some 0 <-> (y < -99 # 100)%Q) /\ (boundary_number2 (x, y) = Some 1 <-> (99 # 100 < x)%Q) /\
  (boundary_number2 (x, y) = Some 2 <-> (99 # 100 < y)%Q) /\ (boundary_number2 (x, y) = Some 3 <-> (x < -99 # 100)%Q) /\
  (boundary_number2 (x, y) = None <-> (-99 # 100 <= x <= 99 # 100 /\ -99 # 100 <= y <= 99 # 100)%Q).
Proof.
  intros x y U. assert (Bx : (-1 <= x <= 1)%Q) by (apply (unit_bound x (y * y)); [apply sq_pos|lra]).
  assert (By : (-1 <= y <= 1)%Q) by (apply (unit_bound y (x * x)); [apply sq_pos|lra]).
  pose proof (unit_other x y 0 ltac:(lra) ltac:(lra)) as O.
  unfold boundary_number2. cbn [fst snd].
  repeat split_within; try (exfalso; lra);
    repeat match goal with H : (?a < x)%Q |- _ => revert H | H : (x < ?a)%Q |- _ => revert H end; intros;
    try (assert (Oy : (-99 # 100 <= y <= 99 # 100)%Q) by (apply O; lra)); repeat split; intros; try discriminate; try reflexivity; try lra; exfalso; lra.
Qed.
Print Assumptions C120_side_of_normal_2d.

(** in 3D: x = 0 and x = 1 are sides 2 and 5, y: 1 and 4, z: 0 and 3 *)
Theorem C120_side_of_normal_3d : forall x y z : Q, (x * x + y * y + z * z == 1)%Q ->
  (boundary_number3 (x, y, z) = Some 0 <-> (z < -99 # 100)%Q) /\ (boundary_number3 (x, y, z) = Some 3 <-> (99 # 100 < z)%Q) /\
  (boundary_number3 (x, y, z) = Some 1 <-> (y < -99 # 100)%Q) /\ (boundary_number3 (x, y, z) = Some 4 <-> (99 # 100 < y)%Q) /\
  (boundary_number3 (x, y, z) = Some 2 <-> (x < -99 # 100)%Q) /\ (boundary_number3 (x, y, z) = Some 5 <-> (99 # 100 < x)%Q) /\
  (boundary_number3 (x, y, z) = None <->
     (-99 # 100 <= x <= 99 # 100 /\ -99 # 100 <= y <= 99 # 100 /\ -99 # 100 <= z <= 99 # 100)%Q).
Proof.
  intros x y z U. pose proof (sq_pos x) as Px. pose proof (sq_pos y) as Py. pose proof (sq_pos z) as Pz.
  assert (Bx : (-1 <= x <= 1)%Q) by (apply (unit_bound x (y * y + z * z)); lra).
  assert (By : (-1 <= y <= 1)%Q) by (apply (unit_bound y (x * x + z * z)); lra).
  assert (Bz : (-1 <= z <= 1)%Q) by (apply (unit_bound z (x * x + y * y)); lra).
  pose proof (unit_other x y (z * z) Pz ltac:(lra)) as O1. pose proof (unit_other x z (y * y) Py ltac:(lra)) as O2.
  pose proof (unit_other y z (x * x) Px ltac:(lra)) as O3. clear U Px Py Pz.
  unfold boundary_number3. cbn [fst snd].
  repeat split_within; try (exfalso; lra);
    try (assert (Oy : (-99 # 100 <= y <= 99 # 100)%Q) by (apply O1; lra)); try (assert (Oz : (-99 # 100 <= z <= 99 # 100)%Q) by (apply O2; lra));
    try (assert (Oz' : (-99 # 100 <= z <= 99 # 100)%Q) by (apply O3; lra)); clear O1 O2 O3;
    repeat split; intros; try discriminate; try reflexivity; try lra; exfalso; lra.
Qed.
Print Assumptions C120_side_of_normal_3d.

(** renumber_hypercube_boundaries, on any well-formed mesh whose faces have at most two cells:
    true is returned exactly when every outer face has a side number; then each has the
    descriptor of its side; the other faces keep theirs in any case. *)
Theorem C120_renumbering : forall (C F : Type) cltb fltb faces_of (feq : forall a b : F, {a = b} + {a <> b}) bnum (m : mesh C F),
  strict_total_order fltb -> strict_total_order cltb -> wf_mesh cltb fltb faces_of m ->
  (forall f, In f (m_faces m) -> incidences feq faces_of (m_cells m) f <= 2) ->
  exists b bi', renumber C F cltb fltb faces_of bnum m = Ok (b, bi') /\ length bi' = length (m_faces m) /\
    (b = true <-> forall c f, external faces_of (m_cells m) c f -> bnum c f <> None) /\
    (forall i f, stored (m_faces m) i f -> (forall c, ~ external faces_of (m_cells m) c f) ->
       nth_error bi' i = nth_error (m_binfo m) i) /\
    (b = true -> forall i f c k, stored (m_faces m) i f -> external faces_of (m_cells m) c f -> bnum c f = Some k ->
       nth_error bi' i = Some (mkB k k true false)).
Proof. exact renumber_spec. Qed.
Print Assumptions C120_renumbering.

(** the two cells [0,1] and [1,2] of a line; the inner face has descriptor 5 and keeps it *)
Example C120_not_vacuous :
  let fo := fun c : nat => [c; c + 1] in
  let m := mkMesh [0; 1] [0; 1; 2] [mkB 0 0 false false; mkB 5 5 false false; mkB 0 0 false false] in
  wf_mesh Nat.ltb Nat.ltb fo m /\ (forall f, In f (m_faces m) -> incidences Nat.eq_dec fo (m_cells m) f <= 2) /\
  renumber nat nat Nat.ltb Nat.ltb fo (fun c f => boundary_number2 (if c =? f then ((-1)%Q, 0%Q) else (1%Q, 0%Q))) m =
    Ok (true, [mkB 3 3 true false; mkB 5 5 false false; mkB 1 1 true false]).
Proof.
  cbv zeta. split; [|split].
  - split; cbn.
    + repeat constructor.
    + repeat constructor.
    + reflexivity.
    + intros c [<-|[<-|[]]] f; cbn; lia.
    + intros c [<-|[<-|[]]]; repeat constructor; cbn; lia.
  - intros f [<-|[<-|[<-|[]]]]; vm_compute; lia.
  - vm_compute. reflexivity.
Qed.
Example C120_normals_not_vacuous : (((3 # 5) * (3 # 5) + (4 # 5) * (4 # 5) == 1)%Q) /\ boundary_number2 ((3 # 5)%Q, (4 # 5)%Q) = None /\
  boundary_number3 (0%Q, 0%Q, (-1)%Q) = Some 0.
Proof. repeat split; reflexivity. Qed.

(** ** C121: boundary faces of fvca6 meshes *)

(** A face of the file that exactly one volume lists is a boundary face, the others are not.  If the
    normals of all of them tell a side, each has the number of its side; if not, all have
    number 0. *)
Theorem C121_fvca6_boundary : forall np f bnum, fvca6_valid np f -> no_repeats (fvca6_conn f) -> manifold (fvca6_conn f) ->
  exists m pe pf pv, fvca6_populate bnum (fvca6_read f) = Ok (true, m) /\
    placed_as (length (f6_faces f)) pf (cm_faces m) (face_item (fvca6_conn f) pe) /\
    placed_as (length (f6_vols f)) pv (cm_vols m) (vol_item (fvca6_conn f) pf) /\
    length (cm_binfo m) = length (f6_faces f) /\
    forall i, i < length (f6_faces f) ->
      ((forall v, ~ outer (fvca6_conn f) i v) -> nth_error (cm_binfo m) (pf i) = Some (mkB 0 0 false false)) /\
      (forall v x y, outer (fvca6_conn f) i v -> nth_error (cm_vols m) (pv v) = Some x -> nth_error (cm_faces m) (pf i) = Some y ->
         (all_known (fvca6_conn f) (cm_faces m) (cm_vols m) pf pv bnum ->
            exists k, bnum (g_sub x) (g_sub y) = Some k /\ nth_error (cm_binfo m) (pf i) = Some (mkB k k true false)) /\
         (~ all_known (fvca6_conn f) (cm_faces m) (cm_vols m) pf pv bnum -> nth_error (cm_binfo m) (pf i) = Some (mkB 0 0 true false))).
Proof.
  intros np f bnum V R M. rewrite fvca6_read_raw.
  destruct (fvca6_ok (raw f) bnum (fvca6_consistent np f V) (fvca6_no_repeats f R)) as (m & pe & pf & pv & E & [S1 S2 S3] & U & L & B1 & B2 & B3).
  { split; [apply (mf_vols _ M)|apply (mf_faces _ M)]. }
  assert (LF : length (cf_faces (raw f)) = length (f6_faces f)) by (cbn [cf_faces raw fvca6_conn]; rewrite number_length, map_length; reflexivity).
  assert (LV : length (cf_vols (raw f)) = length (f6_vols f)) by (cbn [cf_vols raw fvca6_conn]; rewrite number_length, map_length; reflexivity).
  rewrite LF in *. rewrite LV in *. exists m, pe, pf, pv. split; [exact E|]. split; [exact S2|]. split; [exact S3|]. split; [exact L|].
  intros i Hi. split; [apply B1; exact Hi|]. intros v x y O Hx Hy. split.
  - intros A. destruct (bnum (g_sub x) (g_sub y)) as [k|] eqn:Bk.
    + exists k. split; [reflexivity|]. eapply B2; eauto.
    + exfalso. refine (A i v x y _ O Hx Hy Bk). cbn [cf_faces fvca6_conn]. rewrite number_length, map_length. exact Hi.
  - intros A. eapply B3; eauto.
Qed.
Print Assumptions C121_fvca6_boundary.

(** two tetrahedra 1234 and 2345 (numbers from 1) sharing the face 234 *)
Definition two_tets : fvca6_file :=
  mkF6 [(1, 2); (1, 3); (1, 4); (2, 3); (2, 4); (3, 4); (2, 5); (3, 5); (4, 5)]
       [[1; 2; 4]; [1; 3; 5]; [2; 3; 6]; [4; 5; 6]; [4; 7; 8]; [5; 7; 9]; [6; 8; 9]]
       [[1; 2; 3]; [1; 2; 4]; [1; 3; 4]; [2; 3; 4]; [2; 3; 5]; [2; 4; 5]; [3; 4; 5]]
       [[1; 2; 3; 4]; [4; 5; 6; 7]] [[1; 2; 3; 4]; [2; 3; 4; 5]].
Example C121_not_vacuous :
  fvca6_valid 5 two_tets /\ no_repeats (fvca6_conn two_tets) /\ manifold (fvca6_conn two_tets) /\
  outer (fvca6_conn two_tets) 0 0 /\ (forall v, ~ outer (fvca6_conn two_tets) 3 v) /\
  exists m, fvca6_populate (fun c f => Some (hd 0 f)) (fvca6_read two_tets) = Ok (true, m) /\
    cm_binfo m = map (fun k => mkB k k true false) [0; 0; 1] ++ [mkB 0 0 false false] ++ map (fun k => mkB k k true false) [3; 4; 6].
Proof.
  split; [|split; [|split; [|split; [|split]]]].
  - split; cbn; repeat constructor.
  - split; cbn.
    + intros i j a b a' b' Hi Hj E. repeat (destruct Hi as [Hi|Hi]; [injection Hi as <- <- <-|]); try contradiction;
      repeat (destruct Hj as [Hj|Hj]; [injection Hj as <- <- <-|]); try contradiction; lia.
    + repeat constructor; cbn; intros K; intuition discriminate.
    + repeat constructor; cbn; intros K; intuition discriminate.
  - split.
    + repeat constructor; cbn; lia.
    + intros i. do 8 (destruct i as [|i]; [vm_compute; lia|]). vm_compute. lia.
  - split.
    + exists [0; 1; 2; 3]. cbn. auto.
    + intros w (l & [H|[H|[]]] & I); injection H as <- <-; [reflexivity|]. cbn in I. lia.
  - intros v (_ & U). assert (A : 0 = v) by (apply U; exists [0; 1; 2; 3]; split; [cbn; auto|cbn; auto 10]). assert (B : 1 = v) by (apply U; exists [3; 4; 5; 6]; split; [cbn; auto|cbn; auto 10]). lia.
  - eexists. split; [vm_compute; reflexivity|]. vm_compute. reflexivity.
Qed.
