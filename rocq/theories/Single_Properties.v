(** Properties of the single-element meshes (C13, C90, C91). *)
From Coq Require Import List Arith Bool Sorted Permutation Lia Reals.
From Verif Require Import Common Mesh_Model Mesh_Spec Mesh_Proofs Elem_Model Elem_Spec Elem_Proofs Refine_Proofs
  Mesher_Model Mesher_Proofs Hier_Proofs Single_Model.
Import ListNotations.
Local Open Scope nat_scope.

(** ** Triangles *)
Theorem C13_triangle : forall a b c t f, let s := single_triangle a b c in
  In t (s_surfs s) -> In f (tri_faces t) -> exists i, lookup _ lex_ltb (s_edges s) f = Ok i /\ stored (s_edges s) i f.
Proof.
  intros a b c t f s Ht Hf. subst s. cbn in Ht. destruct Ht as [<-|[]]. cbn in Hf.
  destruct Hf as [<-|[<-|[<-|[]]]]; [exists 0|exists 2|exists 1]; split; reflexivity.
Qed.
Print Assumptions C13_triangle.

(** ** Tetrahedra: the surfaces are not sorted and the search for the fourth one fails *)
Theorem C13_tetra_refuted : forall a b c d, exists t f, In t (s_vols (single_tetra a b c d)) /\ In f (tet_faces t) /\
  In f (s_surfs (single_tetra a b c d)) /\ lookup _ lex_ltb (s_surfs (single_tetra a b c d)) f = Throw InvalidArgument.
Proof.
  intros a b c d. exists [0; 1; 2; 3], [0; 2; 3]. cbn. repeat split; auto 6.
Qed.
Print Assumptions C13_tetra_refuted.
Theorem C13_tetra_partial : forall a b c d t f, let s := single_tetra a b c d in
  In t (s_vols s) -> In f (tet_faces t) -> f <> [0; 2; 3] ->
  exists i, lookup _ lex_ltb (s_surfs s) f = Ok i /\ stored (s_surfs s) i f.
Proof.
  intros a b c d t f s Ht Hf N. subst s. cbn in Ht. destruct Ht as [<-|[]]. cbn in Hf.
  destruct Hf as [<-|[<-|[<-|[<-|[]]]]]; [exists 2| |exists 1|exists 0]; try (split; reflexivity).
  exfalso. apply N. reflexivity.
Qed.
Print Assumptions C13_tetra_partial.

(** ** Rectangles and boxes: the stored faces are not those that faces() lists *)
Theorem C13_rect_refuted : forall base hx hy, exists t f, In t (s_surfs (single_rect base hx hy)) /\ In f (quad_faces t) /\
  lookup _ lex_ltb (s_edges (single_rect base hx hy)) f = Throw InvalidArgument.
Proof. intros. exists [0; 1; 2; 3], [0; 2]. cbn. repeat split; auto. Qed.
Print Assumptions C13_rect_refuted.
Theorem C13_rect_partial : forall base hx hy t f, let s := single_rect base hx hy in
  In t (s_surfs s) -> In f (quad_faces t) ->
  if in_dec feq f [[0; 1]; [2; 3]] then exists i, lookup _ lex_ltb (s_edges s) f = Ok i /\ stored (s_edges s) i f
  else lookup _ lex_ltb (s_edges s) f = Throw InvalidArgument.
Proof.
  intros base hx hy t f s Ht Hf. subst s. cbn in Ht. destruct Ht as [<-|[]]. cbn in Hf.
  destruct Hf as [<-|[<-|[<-|[<-|[]]]]]; cbn.
  - exists 0. split; reflexivity.
  - reflexivity.
  - reflexivity.
  - exists 3. split; reflexivity.
Qed.
Print Assumptions C13_rect_partial.
Theorem C13_box_refuted : forall base hx hy hz, exists t f, In t (s_vols (single_box base hx hy hz)) /\ In f (box_faces t) /\
  lookup _ lex_ltb (s_surfs (single_box base hx hy hz)) f = Throw InvalidArgument.
Proof. intros. exists [0; 1; 2; 3; 4; 5; 6; 7], [0; 4; 5; 1]. cbn. repeat split; auto 8. Qed.
Print Assumptions C13_box_refuted.
Theorem C13_box_partial : forall base hx hy hz t f, let s := single_box base hx hy hz in
  In t (s_vols s) -> In f (box_faces t) ->
  if in_dec feq f [[0; 4; 5; 1]; [2; 6; 7; 3]] then lookup _ lex_ltb (s_surfs s) f = Throw InvalidArgument
  else exists i, lookup _ lex_ltb (s_surfs s) f = Ok i /\ stored (s_surfs s) i f.
Proof.
  intros base hx hy hz t f s Ht Hf. subst s. cbn in Ht. destruct Ht as [<-|[]]. cbn in Hf.
  destruct Hf as [<-|[<-|[<-|[<-|[<-|[<-|[]]]]]]]; cbn.
  - exists 2. split; reflexivity.
  - exists 3. split; reflexivity.
  - exists 0. split; reflexivity.
  - exists 5. split; reflexivity.
  - reflexivity.
  - reflexivity.
Qed.
Print Assumptions C13_box_partial.

(** ** Polygons *)
Definition mkg (k : list nat) : gedge := mkGE k k.
(** the edges in the order in which they are stored *)
Definition poly_keys (n : nat) : list (list nat) := [0; 1] :: [0; n - 1] :: map (fun i => [S i; S (S i)]) (seq 0 (n - 2)).

Lemma polygon_edge_key n i : 3 <= n -> i < n -> polygon_edge n i = mkg (if i + 1 =? n then [0; n - 1] else [i; i + 1]).
Proof.
  intros Hn Hi. unfold polygon_edge, mkg, gedge_make. destruct (Nat.eqb_spec (i + 1) n) as [E|E].
  - rewrite <- E, Nat.mod_same by lia. replace (i + 1 - 1) with i by lia. destruct (Nat.ltb_spec 0 i); [reflexivity|lia].
  - rewrite Nat.mod_small by lia. destruct (Nat.ltb_spec i (i + 1)); [reflexivity|lia].
Qed.

Lemma poly_keys_sorted n : 3 <= n -> sorted_unique lex_ltb (poly_keys n).
Proof.
  intros Hn. unfold poly_keys. constructor; [constructor|].
  - generalize (n - 2). intros m. generalize 0 as a. induction m as [|m IH]; intros a; cbn [seq map]; constructor; auto.
    apply Forall_forall. intros x Hx. apply in_map_iff in Hx as (j & <- & Hj). apply in_seq in Hj. cbn [lex_ltb].
    destruct (Nat.ltb_spec (S a) (S j)); [reflexivity|lia].
  - apply Forall_forall. intros x Hx. apply in_map_iff in Hx as (j & <- & Hj). reflexivity.
  - apply Forall_forall. intros x [<-|Hx].
    + cbn [lex_ltb]. destruct (Nat.ltb_spec 0 0); [lia|]. destruct (Nat.ltb_spec 1 (n - 1)); [reflexivity|lia].
    + apply in_map_iff in Hx as (j & <- & Hj). reflexivity.
Qed.

Lemma single_polygon_edges radius n : 3 <= n -> g_edges (single_polygon radius n) = map mkg (poly_keys n).
Proof.
  intros Hn. unfold single_polygon. destruct (Nat.ltb_spec n 3); [lia|]. cbn [g_edges].
  set (ks := map (fun i => if i + 1 =? n then [0; n - 1] else [i; i + 1]) (seq 0 n)).
  assert (E1 : map (polygon_edge n) (seq 0 n) = map mkg ks).
  { unfold ks. rewrite map_map. apply map_ext_in. intros i Hi. apply in_seq in Hi. apply polygon_edge_key; lia. }
  rewrite E1. rewrite (sort_map lex_ltb gedge_ltb mkg) by (intros; reflexivity). f_equal.
  apply (sorted_unique_ext lex_ltb lex_ltb_sto); [|apply poly_keys_sorted; exact Hn|].
  - apply sort_nodup_sorted; [apply lex_ltb_sto|]. unfold ks. apply map_nodup_on; [|apply seq_NoDup].
    intros i j Hi Hj E. apply in_seq in Hi, Hj. destruct (Nat.eqb_spec (i + 1) n), (Nat.eqb_spec (j + 1) n); try (injection E; lia); lia.
  - intros k. split.
    + intros Hk. apply (Permutation_in _ (std_sort_perm lex_ltb _)) in Hk. unfold ks in Hk. apply in_map_iff in Hk as (i & <- & Hi).
      apply in_seq in Hi. unfold poly_keys. destruct (Nat.eqb_spec (i + 1) n); [right; left; reflexivity|].
      destruct i as [|i]; [left; reflexivity|]. right; right. apply in_map_iff. exists i. split; [f_equal; f_equal; lia|apply in_seq; lia].
    + intros Hk. apply (Permutation_in _ (Permutation_sym (std_sort_perm lex_ltb _))). unfold ks. apply in_map_iff.
      destruct Hk as [<-|[<-|Hk]].
      * exists 0. split; [|apply in_seq; lia]. destruct (Nat.eqb_spec (0 + 1) n); [lia|reflexivity].
      * exists (n - 1). split; [|apply in_seq; lia]. destruct (Nat.eqb_spec (n - 1 + 1) n); [reflexivity|lia].
      * apply in_map_iff in Hk as (i & <- & Hi). apply in_seq in Hi. exists (S i). split; [|apply in_seq; lia].
        destruct (Nat.eqb_spec (S i + 1) n); [lia|]. f_equal. f_equal. lia.
Qed.

Lemma lookup_map l e : lookup gedge gedge_ltb (map mkg l) (mkg e) = lookup _ lex_ltb l e.
Proof.
  assert (G : forall fuel first len, lb_loop gedge gedge_ltb (map mkg l) (mkg e) fuel first len = lb_loop _ lex_ltb l e fuel first len).
  { induction fuel as [|f IH]; intros first len; [reflexivity|]. cbn [lb_loop]. destruct (len =? 0); [reflexivity|].
    unfold vget. rewrite nth_error_map. destruct (nth_error l (first + len / 2)) as [x|]; [|reflexivity]. cbn [option_map bind].
    change (gedge_ltb (mkg x) (mkg e)) with (lex_ltb x e). rewrite !IH. reflexivity. }
  unfold lookup, find_element_id, lower_bound. rewrite map_length, G. destruct (lb_loop _ lex_ltb l e (length l) 0 (length l)) as [i| |]; cbn [bind]; try reflexivity.
  destruct (i =? length l); [reflexivity|]. unfold vget. rewrite nth_error_map. destruct (nth_error l i) as [x|]; [|reflexivity].
  cbn [option_map bind]. change (gedge_ltb (mkg e) (mkg x)) with (lex_ltb e x). destruct (lex_ltb e x); reflexivity.
Qed.

Lemma poly_keys_length n : 3 <= n -> length (poly_keys n) = n.
Proof. intros Hn. unfold poly_keys. cbn [length]. rewrite map_length, seq_length. lia. Qed.

Lemma faces_by_id_all {F} (l : list F) : faces_by_id l (seq 0 (length l)) = Ok l.
Proof.
  assert (G : forall (rest done : list F), faces_by_id (done ++ rest) (seq (length done) (length rest)) = Ok rest).
  { induction rest as [|x rest IH]; intros done; [reflexivity|]. cbn [length seq faces_by_id].
    rewrite (vget_ok _ _ x) by (rewrite nth_error_app2, Nat.sub_diag by lia; reflexivity). cbn [bind].
    specialize (IH (done ++ [x])). rewrite app_length in IH. cbn [length] in IH. rewrite Nat.add_1_r, <- app_assoc in IH. cbn [app] in IH.
    rewrite IH. reflexivity. }
  apply (G l []).
Qed.

(** The cell of the polygon has one face per pair of consecutive vertices, and each of them can be looked up. *)
Theorem C13_polygon : forall radius n c, 3 <= n -> In c (g_surfs (single_polygon radius n)) ->
  exists fs, faces_by_id (g_edges (single_polygon radius n)) (gc_faces c) = Ok fs /\ length fs = n /\ NoDup fs /\
    (forall f, In f fs -> exists i, lookup _ gedge_ltb (g_edges (single_polygon radius n)) f = Ok i /\ stored (g_edges (single_polygon radius n)) i f) /\
    (forall i, i < n -> exists f, In f fs /\ Permutation (ge_sub f) [nth i (gc_pts c) 0; nth ((i + 1) mod n) (gc_pts c) 0]).
Proof.
  intros radius n c Hn Hc. rewrite (single_polygon_edges radius n Hn).
  unfold single_polygon in Hc. destruct (Nat.ltb_spec n 3); [lia|]. cbn [g_surfs] in Hc. destruct Hc as [<-|[]]. cbn [gc_faces gc_pts].
  exists (map mkg (poly_keys n)). pose proof (poly_keys_length n Hn) as L. pose proof (poly_keys_sorted n Hn) as Srt.
  split. { pose proof (faces_by_id_all (map mkg (poly_keys n))) as F. rewrite map_length, L in F. exact F. }
  split; [rewrite map_length; exact L|]. split.
  { apply map_nodup_on; [|apply lex_nodup; exact Srt]. intros x y _ _ E. injection E. auto. }
  split.
  - intros f Hf. apply in_map_iff in Hf as (k & <- & Hk). pose proof (index_of_nth k _ Hk) as Hi.
    exists (index_of k (poly_keys n)). rewrite lookup_map. split; [apply (lookup_stored lex_ltb lex_ltb_sto); assumption|].
    apply (map_nth_error mkg). exact Hi.
  - intros i Hi. rewrite !seq_nth by (try apply Nat.mod_upper_bound; lia). cbn [plus].
    destruct (Nat.eq_dec (i + 1) n) as [E|E].
    + exists (mkg [0; n - 1]). split; [apply in_map; right; left; reflexivity|]. cbn [mkg ge_sub].
      rewrite <- E, Nat.mod_same by lia. replace (i + 1 - 1) with i by lia. apply perm_swap.
    + rewrite Nat.mod_small by lia. exists (mkg [i; i + 1]). split; [|reflexivity]. apply in_map. unfold poly_keys.
      destruct i as [|i]; [left; reflexivity|]. right; right. apply in_map_iff. exists i.
      split; [f_equal; f_equal; lia|apply in_seq; lia].
Qed.
Print Assumptions C13_polygon.

(** An interval: the faces are the nodes. *)
Theorem C13_interval : forall a b c, In c (i_edges (single_interval a b)) ->
  faces_by_id (i_nodes (single_interval a b)) (ge_sub c) = Ok [0; 1] /\
  forall f, In f [0; 1] -> exists i, lookup _ Nat.ltb (i_nodes (single_interval a b)) f = Ok i /\ stored (i_nodes (single_interval a b)) i f.
Proof.
  intros a b c Hc. cbn in Hc. destruct Hc as [<-|[]]. split; [reflexivity|].
  intros f [<-|[<-|[]]]; [exists 0|exists 1]; split; reflexivity.
Qed.
Print Assumptions C13_interval.

(** C90: boundary queries.  Polygons and intervals: every face is a boundary face with id 0. *)
Theorem C90_polygon_boundary : forall radius n f, 3 <= n -> let g := single_polygon radius n in
  In f (g_edges g) -> let m := mkMesh (g_surfs g) (g_edges g) (g_binfo g) in
  is_boundary _ _ gedge_ltb m f = Ok true /\ boundary_id_face _ _ gedge_ltb m f = Ok 0.
Proof.
  intros radius n f Hn g Hf m. unfold m, g, is_boundary, boundary_id_face, is_boundary_id, boundary_id, is_boundary_id. cbn [m_faces m_binfo].
  unfold g in Hf. rewrite (single_polygon_edges radius n Hn) in Hf |- *. apply in_map_iff in Hf as (k & <- & Hk).
  rewrite lookup_map. pose proof (index_of_nth k _ Hk) as Hi. pose proof (index_of_lt k _ Hk) as Li. rewrite (poly_keys_length n Hn) in Li.
  rewrite (lookup_stored lex_ltb lex_ltb_sto _ _ _ (poly_keys_sorted n Hn) Hi). cbn [bind].
  assert (Eb : nth_error (g_binfo (single_polygon radius n)) (index_of k (poly_keys n)) = Some (bd_make 0 true)).
  { unfold single_polygon. destruct (Nat.ltb_spec n 3); [lia|]. cbn [g_binfo]. rewrite map_map.
    rewrite (nth_map_seq (fun _ => bd_make 0 true) n); [reflexivity|exact Li]. }
  unfold vat. rewrite Eb. split; reflexivity.
Qed.
Print Assumptions C90_polygon_boundary.
Theorem C90_interval_boundary : forall a b f, In f (i_nodes (single_interval a b)) ->
  let m := mkMesh (i_edges (single_interval a b)) (i_nodes (single_interval a b)) (i_binfo (single_interval a b)) in
  is_boundary _ _ Nat.ltb m f = Ok true /\ boundary_id_face _ _ Nat.ltb m f = Ok 0.
Proof. intros a b f Hf. cbn in Hf. destruct Hf as [<-|[<-|[]]]; split; reflexivity. Qed.
Print Assumptions C90_interval_boundary.

(** The simplicial and cartesian generators never size boundary_info: asking whether a face is on the boundary throws. *)
Theorem C90_boundary_refuted : forall a b c d base hx hy hz,
  (let s := single_triangle a b c in forall f, In f (s_edges s) ->
     is_boundary _ _ lex_ltb (mkMesh (s_surfs s) (s_edges s) (s_binfo s)) f = Throw OutOfRange) /\
  (let s := single_tetra a b c d in is_boundary _ _ lex_ltb (mkMesh (s_vols s) (s_surfs s) (s_binfo s)) [0; 1; 2] = Throw OutOfRange) /\
  (let s := single_rect base hx hy in forall f, In f (s_edges s) ->
     is_boundary _ _ lex_ltb (mkMesh (s_surfs s) (s_edges s) (s_binfo s)) f = Throw OutOfRange) /\
  (let s := single_box base hx hy hz in forall f, In f (s_surfs s) ->
     is_boundary _ _ lex_ltb (mkMesh (s_vols s) (s_surfs s) (s_binfo s)) f = Throw OutOfRange).
Proof.
  intros. split; [|split; [|split]].
  - intros s f Hf. cbn in Hf. destruct Hf as [<-|[<-|[<-|[]]]]; reflexivity.
  - reflexivity.
  - intros s f Hf. cbn in Hf. destruct Hf as [<-|[<-|[<-|[<-|[]]]]]; reflexivity.
  - intros s f Hf. cbn in Hf. destruct Hf as [<-|[<-|[<-|[<-|[<-|[<-|[]]]]]]]; reflexivity.
Qed.
Print Assumptions C90_boundary_refuted.

(** C91: the i-th face of the polygon does not join its i-th and next vertices: the edges are sorted after the ids are given. *)
Theorem C91_face_order_refuted : forall radius n, 3 <= n -> exists c f, In c (g_surfs (single_polygon radius n)) /\
  nth_error (g_edges (single_polygon radius n)) (nth 1 (gc_faces c) 0) = Some f /\ ge_sub f = [0; n - 1] /\
  nth 1 (gc_pts c) 0 = 1 /\ ~ Permutation (ge_sub f) [nth 1 (gc_pts c) 0; nth (2 mod n) (gc_pts c) 0].
Proof.
  intros radius n Hn. exists (mkGC (seq 0 n) (seq 0 n)), (mkg [0; n - 1]). cbn [gc_faces gc_pts].
  rewrite (single_polygon_edges radius n Hn). split.
  { unfold single_polygon. destruct (Nat.ltb_spec n 3); [lia|]. left. reflexivity. }
  rewrite !seq_nth by (try apply Nat.mod_upper_bound; lia). split; [reflexivity|]. split; [reflexivity|]. split; [reflexivity|].
  rewrite Nat.mod_small by lia. intros P. assert (I : In 0 [0 + 1; 0 + 2]) by (apply (Permutation_in _ P); left; reflexivity).
  cbn in I. lia.
Qed.
Print Assumptions C91_face_order_refuted.

Example polygon_5 : map ge_sub (g_edges (single_polygon 1 5)) = [[0; 1]; [0; 4]; [1; 2]; [2; 3]; [3; 4]].
Proof. reflexivity. Qed.
