(** Properties of the loaders of plane polygonal meshes: medit 2D (C122, C125) and fvca5 (C123, C124) *)
From Coq Require Import List Arith Bool Permutation Sorted Lia.
From Verif Require Import Common Mesh_Model Mesh_Spec Elem_Model Elem_Proofs Load_Spec Load2_Proofs Conn_Model Conn_Spec Plane_Model Plane_Spec Plane_Proofs.
Import ListNotations.
Local Open Scope nat_scope.

(** C122: The medit loader of plane meshes accepts a file exactly when every entry of "Edges" joins
    two consecutive corners of some polygon.  Then the edges of the mesh are, once each and sorted, the
    sides of the polygons; each polygon of the file becomes one cell, with the corners in the order of
    the file and its own sides; an edge of the mesh is a boundary edge exactly when the file lists it,
    with the number of its last entry. *)
Theorem C122_medit2d_accepts f : m2_positive f ->
  (exists m, medit2_populate f = Ok (true, m)) <->
  (forall id a b, In (id, (a, b)) (m2_bnd f) -> exists ns pid e, In (ns, pid) (m2_polys f) /\ m2_side ns e /\ joins e a b).
Proof.
  intros V. split.
  - intros (m & E) id a b Hb. set (edges := std_sort lex_ltb (first_only [] (medit2_edges f))).
    destruct (in_dec leq (make_edge (Nat.pred a, Nat.pred b)) edges) as [I|I].
    + pose proof (m2_bnd_joins f V _ Hb) as J. apply (m2_edges_spec f V) in I as (ns & pid & Hp & Hs). exists ns, pid, (make_edge (Nat.pred a, Nat.pred b)). auto.
    + exfalso. destruct (medit2_reject f V (id, (a, b)) Hb) as (m' & E').
      * intros e He J. apply I. pose proof (joins_unique _ _ _ _ J (m2_bnd_joins f V _ Hb)) as Q. cbn [fst snd] in Q. rewrite <- Q. exact He.
      * congruence.
  - intros H. destruct (medit2_ok f V) as (m & pv & E & _).
    + intros [id [a b]] Hb. destruct (H id a b Hb) as (ns & pid & e & Hp & Hs & J). exists e. split; [apply (m2_edges_spec f V); eauto|exact J].
    + eauto.
Qed.

Theorem C122_medit2d_mesh f : m2_positive f -> forall m, medit2_populate f = Ok (true, m) ->
  sorted_unique lex_ltb (pm_edges m) /\
  (forall e, In e (pm_edges m) <-> exists ns id, In (ns, id) (m2_polys f) /\ m2_side ns e) /\
  (exists pv, placed_as (length (m2_polys f)) pv (pm_cells m) (m2_item f (pm_edges m))) /\
  length (pm_binfo m) = length (pm_edges m) /\
  forall i e, nth_error (pm_edges m) i = Some e ->
    (forall b, last_entry (fun b => joins e (fst (snd b)) (snd (snd b))) (m2_bnd f) b -> nth_error (pm_binfo m) i = Some (mkB (fst b) (fst b) true false)) /\
    ((forall b, In b (m2_bnd f) -> ~ joins e (fst (snd b)) (snd (snd b))) -> nth_error (pm_binfo m) i = Some (mkB 0 0 false false)).
Proof.
  intros V m E. assert (H : exists m, medit2_populate f = Ok (true, m)) by eauto. pose proof (proj1 (C122_medit2d_accepts f V) H) as K.
  destruct (medit2_ok f V) as (m' & pv & E' & A & _ & B & C & D).
  - intros [id [a b]] Hb. destruct (K id a b Hb) as (ns & pid & e & Hp & Hs & J). exists e. split; [apply (m2_edges_spec f V); eauto|exact J].
  - rewrite E in E'. injection E' as <-. rewrite A. split; [apply m2_sorted|]. split; [intros e; apply (m2_edges_spec f V)|]. split; [eauto|]. split; [exact C|exact D].
Qed.

Theorem C122_medit2d_rejects f : m2_positive f -> forall id a b, In (id, (a, b)) (m2_bnd f) ->
  (forall ns pid e, In (ns, pid) (m2_polys f) -> m2_side ns e -> ~ joins e a b) -> exists m, medit2_populate f = Ok (false, m).
Proof.
  intros V id a b Hb N. apply (medit2_reject f V (id, (a, b)) Hb). intros e He J. apply (m2_edges_spec f V) in He as (ns & pid & Hp & Hs). apply (N ns pid e Hp Hs J).
Qed.

(** C123: A valid fvca5 file is loaded: every edge of the file is stored once, sorted; every polygon
    becomes one cell, with its corners in the order of the file, its domain number, and the edges that
    name the polygon as a neighbour.  If the file is geometrically closed these are its sides. *)
Theorem C123_fvca5_mesh bs bnum : f5_valid bs -> exists m pe pv, f5_load bnum bs = Ok (true, m) /\
  sorted_unique lex_ltb (pm_edges m) /\ sorted_unique lex_ltb (map g_sub (pm_cells m)) /\
  placed_as (length (f5_edges bs)) pe (pm_edges m) (f5_edge_item bs) /\
  length (pm_doms m) = length (pm_cells m) /\
  placed_as (length (f5_polys bs)) pv (combine (pm_cells m) (pm_doms m)) (f5_cell_item bs (pm_edges m)).
Proof. intros V. destruct (f5_load_ok bs bnum V) as (m & pe & pv & A & B & C & D & E & F & _). exists m, pe, pv. auto 10. Qed.

Theorem C123_fvca5_closed bs bnum : f5_valid bs -> f5_closed bs -> exists m pv, f5_load bnum bs = Ok (true, m) /\
  placed_as (length (f5_polys bs)) pv (combine (pm_cells m) (pm_doms m))
    (fun k c => exists ns, nth_error (f5_polys bs) k = Some (ns, snd c) /\ cell_of (pm_edges m) ns (m2_side ns) (fst c)).
Proof.
  intros V K. destruct (f5_load_ok bs bnum V) as (m & pe & pv & A & _ & _ & _ & _ & F & _). exists m, pv. split; [exact A|]. destruct F as [F1 F2 F3]. split; [exact F1|exact F2|].
  intros k Hk. destruct (F3 k Hk) as (c & Hc & I). exists c. split; [exact Hc|]. destruct I as (ns & E & I). exists ns. split; [exact E|].
  apply (f5_closed_sides bs (pm_edges m) k ns c V K); [exists ns; auto|exact E].
Qed.

(** the domain number of the cell *)
Theorem C123_fvca5_domain bs bnum : f5_valid bs -> exists m pv, f5_load bnum bs = Ok (true, m) /\ renumbering (length (f5_polys bs)) pv /\
  forall k ns id, nth_error (f5_polys bs) k = Some (ns, id) -> domain_info m (pv k) = Ok id /\
    exists c, nth_error (pm_cells m) (pv k) = Some c /\ g_pts c = map (fun v => v - 1) ns.
Proof.
  intros V. destruct (f5_load_ok bs bnum V) as (m & pe & pv & A & _ & _ & _ & _ & F & _). exists m, pv. split; [exact A|]. split; [apply F|]. intros k ns id E.
  destruct (pa_item _ _ _ _ F k) as ([c i] & Hc & ns' & E' & I); [apply nth_error_Some; congruence|]. cbn [fst snd] in *. apply combine_nth_error in Hc as [H1 H2].
  rewrite E in E'. injection E' as <- <-. split; [unfold domain_info, vat; rewrite H2; reflexivity|]. exists c. split; [exact H1|apply I].
Qed.

(** files that are refused: an edge that names a polygon not read yet makes the loader throw; an edge
    or boundary edge with index 0 or equal ends, or a boundary edge that is no edge, makes it return false *)
Theorem C123_fvca5_dangling bs bnum : f5_dangling bs -> f5_load bnum bs = Throw OutOfRange.
Proof. apply f5_dangling_throws. Qed.
Theorem C123_fvca5_bad_edge bnum pre l1 x l2 post : f5_readable (pre ++ [FEdges l1]) -> ~ ends_ok (e5_a x) (e5_b x) ->
  exists m, f5_load bnum (pre ++ FEdges (l1 ++ x :: l2) :: post) = Ok (false, m).
Proof. intros V N. eapply f5_bad_edge; eauto. Qed.
Theorem C123_fvca5_bad_boundary bnum pre l post : f5_readable pre -> Exists (fun b => ~ ends_ok (fst b) (snd b)) l ->
  exists m, f5_load bnum (pre ++ FBoundary l :: post) = Ok (false, m).
Proof. intros V N. eapply f5_bad_bnd; eauto. Qed.
Theorem C123_fvca5_unknown_boundary bs bnum a b : f5_readable bs ->
  (forall i j x y, nth_error (f5_edges bs) i = Some x -> nth_error (f5_edges bs) j = Some y -> same_ends (e5_a x) (e5_b x) (e5_a y) (e5_b y) -> i = j) ->
  In (a, b) (f5_bnds bs) -> (forall x, In x (f5_edges bs) -> ~ same_ends a b (e5_a x) (e5_b x)) -> exists m, f5_load bnum bs = Ok (false, m).
Proof. apply f5_unknown_bnd. Qed.

(** C124: boundary descriptors of a valid fvca5 file *)
Theorem C124_fvca5_boundary bs bnum : f5_valid bs -> exists m pe pv, f5_load bnum bs = Ok (true, m) /\
  placed_as (length (f5_edges bs)) pe (pm_edges m) (f5_edge_item bs) /\
  placed_as (length (f5_polys bs)) pv (combine (pm_cells m) (pm_doms m)) (f5_cell_item bs (pm_edges m)) /\
  f5_described bs (pm_cells m) pe pv bnum (pm_binfo m).
Proof. intros V. destruct (f5_load_ok bs bnum V) as (m & pe & pv & A & B & C & D & E & F & G). exists m, pe, pv. auto. Qed.

(** C125: the domain numbers of a plane medit file should be those of the cells, as they are for fvca5
    files.  They are lost: domain_info throws for every cell of every accepted file. *)
Definition medit2d_domains (f : medit2_file) (m : pmesh) : Prop :=
  exists pv, placed_as (length (m2_polys f)) pv (pm_cells m) (m2_item f (pm_edges m)) /\
    forall k ns id, nth_error (m2_polys f) k = Some (ns, id) -> domain_info m (pv k) = Ok id.
Definition two_triangles : medit2_file := mkM2 [([1; 2; 3], 5); ([2; 4; 3], 6)] [(9, (2, 1)); (8, (4, 2))].
Lemma two_triangles_positive : m2_positive two_triangles.
Proof. split; repeat constructor. Qed.
Theorem C125_medit2d_domains_refuted : ~ forall f m, m2_positive f -> medit2_populate f = Ok (true, m) -> medit2d_domains f m.
Proof.
  intros H. destruct (H two_triangles _ two_triangles_positive eq_refl) as (pv & _ & K). specialize (K 0 [1; 2; 3] 5 eq_refl). unfold domain_info in K. cbn [pm_doms] in K.
  unfold vat in K. destruct (pv 0); discriminate.
Qed.
Theorem C125_medit2d_domains_partial f m : m2_positive f -> medit2_populate f = Ok (true, m) -> forall i, domain_info m i = Throw OutOfRange.
Proof.
  intros V E i. assert (D : pm_doms m = []).
  { assert (H : exists m, medit2_populate f = Ok (true, m)) by eauto. pose proof (proj1 (C122_medit2d_accepts f V) H) as K.
    destruct (medit2_ok f V) as (m' & pv & E' & _ & D & _).
    - intros [id [a b]] Hb. destruct (K id a b Hb) as (ns & pid & e & Hp & Hs & J). exists e. split; [apply (m2_edges_spec f V); eauto|exact J].
    - congruence. }
  unfold domain_info, vat. rewrite D. destruct i; reflexivity.
Qed.

(** ** The hypotheses can be met *)
Example two_triangles_loaded : medit2_populate two_triangles =
  Ok (true, mkPM [[0; 1]; [0; 2]; [1; 2]; [1; 3]; [2; 3]] [mkG [0; 1; 2] [0; 1; 2]; mkG [2; 3; 4] [1; 3; 2]] []
    [mkB 9 9 true false; bd_default; bd_default; mkB 8 8 true false; bd_default]).
Proof. vm_compute. reflexivity. Qed.
Example two_triangles_bad : exists m, medit2_populate (mkM2 (m2_polys two_triangles) [(1, (1, 4))]) = Ok (false, m).
Proof. eexists. vm_compute. reflexivity. Qed.

Definition two_squares : list f5_block :=
  [FPolys [([1; 2; 5; 4], 7); ([2; 3; 6; 5], 8)]; FBoundary [(1, 2); (5, 2)];
   FEdges [mkE5 1 2 1 0; mkE5 2 3 2 0; mkE5 3 6 2 0; mkE5 6 5 2 0; mkE5 5 4 1 0; mkE5 4 1 0 1; mkE5 2 5 1 2]].
Ltac edge_cases := repeat match goal with H : In _ _ |- _ => cbn in H | H : _ \/ _ |- _ => destruct H as [H|H] | H : False |- _ => destruct H end.
Lemma two_squares_readable : f5_readable two_squares.
Proof.
  split.
  - cbn. unfold ends_ok. repeat constructor; cbn; lia.
  - cbn. unfold ends_ok. repeat constructor; cbn; lia.
  - intros pre l post E. destruct pre as [|b1 pre]; [discriminate|]. destruct pre as [|b2 pre]; [discriminate|]. destruct pre as [|b3 pre].
    + injection E as <- <- <- <-. cbn. repeat constructor; cbn; lia.
    + injection E as _ _ _ E. destruct pre; discriminate.
Qed.
Lemma two_squares_valid : f5_valid two_squares.
Proof.
  split; [apply two_squares_readable| | |].
  - intros i j x y. cbn. unfold same_ends.
    do 7 (destruct i as [|i]; [intros [= <-]; do 7 (destruct j as [|j]; [intros [= <-]; cbn; lia|]); destruct j; discriminate|]). destruct i; discriminate.
  - cbn. repeat constructor; [exists (mkE5 1 2 1 0)|exists (mkE5 2 5 1 2)]; cbn; unfold same_ends; intuition.
  - intros k k' Hk Hk' H. cbn in Hk, Hk', H. pose proof (H (mkE5 1 2 1 0) (or_introl eq_refl)) as H1. unfold neighbour in H1. cbn in H1. lia.
Qed.
Lemma two_squares_closed : f5_closed two_squares.
Proof.
  intros k ns id E. cbn in E. destruct k as [|[|k]]; [| |destruct k; discriminate]; injection E as <- <-; (split; [repeat constructor|]); intros a b; split.
  - intros (a' & b' & (i & Hi & E1 & E2) & S'). cbn in Hi. destruct i as [|[|[|[|i]]]]; [| | | |lia]; cbn in E1, E2; injection E1 as <-; injection E2 as <-;
    [exists (mkE5 1 2 1 0)|exists (mkE5 2 5 1 2)|exists (mkE5 5 4 1 0)|exists (mkE5 4 1 0 1)]; (split; [cbn; tauto|split; [unfold neighbour; cbn; tauto|cbn; exact S']]).
  - intros (x & Hx & N & S'). cbn in Hx. edge_cases; subst x; unfold neighbour in N; cbn in N, S'; try lia;
    [exists 1, 2|exists 5, 4|exists 4, 1|exists 2, 5]; (split; [|exact S']); [exists 0|exists 2|exists 3|exists 1]; cbn; auto with arith.
  - intros (a' & b' & (i & Hi & E1 & E2) & S'). cbn in Hi. destruct i as [|[|[|[|i]]]]; [| | | |lia]; cbn in E1, E2; injection E1 as <-; injection E2 as <-;
    [exists (mkE5 2 3 2 0)|exists (mkE5 3 6 2 0)|exists (mkE5 6 5 2 0)|exists (mkE5 2 5 1 2)]; (split; [cbn; tauto|split; [unfold neighbour; cbn; tauto|cbn; unfold same_ends in *; lia]]).
  - intros (x & Hx & N & S'). cbn in Hx. edge_cases; subst x; unfold neighbour in N; cbn in N, S'; try lia;
    [exists 2, 3|exists 3, 6|exists 6, 5|exists 5, 2]; (split; [|unfold same_ends in *; lia]); [exists 0|exists 1|exists 2|exists 3]; cbn; auto with arith.
Qed.
(** without side numbers: the listed edge 2-5 lies between the two squares and is internal, 1-2 is a boundary edge *)
Example two_squares_loaded : f5_load (fun _ _ => None) two_squares =
  Ok (true, mkPM [[0; 1]; [0; 3]; [1; 2]; [1; 4]; [2; 5]; [3; 4]; [4; 5]] [mkG [0; 1; 3; 5] [0; 1; 4; 3]; mkG [2; 3; 4; 6] [1; 2; 5; 4]] [7; 8]
    [mkB 0 0 true false; bd_default; bd_default; mkB 0 0 true true; bd_default; bd_default; bd_default]).
Proof. vm_compute. reflexivity. Qed.
(** with side numbers all outer edges become boundary edges *)
Example two_squares_numbered : f5_load (fun c e => Some (length c + hd 0 e)) two_squares =
  Ok (true, mkPM [[0; 1]; [0; 3]; [1; 2]; [1; 4]; [2; 5]; [3; 4]; [4; 5]] [mkG [0; 1; 3; 5] [0; 1; 4; 3]; mkG [2; 3; 4; 6] [1; 2; 5; 4]] [7; 8]
    [mkB 4 4 true false; mkB 4 4 true false; mkB 5 5 true false; mkB 0 0 true true; mkB 6 6 true false; mkB 7 7 true false; mkB 8 8 true false]).
Proof. vm_compute. reflexivity. Qed.
Example dangling_file : f5_dangling [FEdges [mkE5 1 2 0 0; mkE5 2 3 1 0]; FPolys [([1; 2; 3], 0)]].
Proof.
  exists [], [mkE5 1 2 0 0; mkE5 2 3 1 0], [FPolys [([1; 2; 3], 0)]], [mkE5 1 2 0 0], (mkE5 2 3 1 0), []. cbn. split; [reflexivity|]. split; [reflexivity|].
  split; [repeat split; lia|]. split; [left; lia|]. split.
  - repeat constructor; cbn; lia.
  - constructor.
  - intros pre l post E. destruct pre as [|b pre]; [injection E as <- <-; repeat constructor|]. destruct pre; discriminate.
Qed.
Example bad_ends : ~ ends_ok 0 3 /\ ~ ends_ok 3 3.
Proof. unfold ends_ok. lia. Qed.

Print Assumptions C122_medit2d_accepts.
Print Assumptions C122_medit2d_mesh.
Print Assumptions C122_medit2d_rejects.
Print Assumptions C123_fvca5_mesh.
Print Assumptions C123_fvca5_closed.
Print Assumptions C123_fvca5_domain.
Print Assumptions C123_fvca5_dangling.
Print Assumptions C123_fvca5_bad_edge.
Print Assumptions C123_fvca5_bad_boundary.
Print Assumptions C123_fvca5_unknown_boundary.
Print Assumptions C124_fvca5_boundary.
Print Assumptions C125_medit2d_domains_refuted.
Print Assumptions C125_medit2d_domains_partial.
