(** Properties C44, C47 and C73-C79: geometry of elements. *)
From Coq Require Import Reals List Lia Lra Permutation ZArith.
From Verif Require Import Common Poly_Spec Poly_Proofs Quad_Model Quad_Spec Quad_Proofs Geo_Spec Geo_Model Geo_Proofs Geo2_Proofs Geo3_Proofs Geo4_Proofs.
Import ListNotations.
Open Scope R_scope.

(** ** C47: measures of simplices *)
Lemma rabs_zero x : Rabs x = 0 -> x = 0.
Proof. intro H. destruct (Req_dec x 0) as [|N]; [assumption|]. exfalso. exact (Rabs_no_R0 x N H). Qed.
Lemma rabs_half x : Rabs x / 2 = 0 <-> x = 0.
Proof. split; [intro H; apply rabs_zero; lra|intros ->; rewrite Rabs_R0; field]. Qed.

(** the area of a plane triangle is the integral of 1 over it; it does not
    depend on the order of the vertices nor on a translation, vanishes exactly
    for aligned vertices, and cutting the triangle from a vertex gives two
    triangles whose areas add up *)
Theorem C47_triangle p0 p1 p2 : let A := area_triangle_kahan 2 p0 p1 p2 in
  0 <= A /\
  (A = 0 <-> collinear 2 p0 p1 p2) /\
  (forall I, is_int_triangle p0 p1 p2 (fun _ => 1) I <-> I = A) /\
  (forall q0 q1 q2, Permutation [p0; p1; p2] [q0; q1; q2] -> area_triangle_kahan 2 q0 q1 q2 = A) /\
  (forall v, area_triangle_kahan 2 (shift v p0) (shift v p1) (shift v p2) = A) /\
  (forall t, 0 <= t <= 1 -> let m := on_segment t p0 p1 in
     area_triangle_kahan 2 p0 m p2 = t * A /\ area_triangle_kahan 2 m p1 p2 = (1 - t) * A) /\
  (let m01 := on_segment (1 / 2) p0 p1 in let m12 := on_segment (1 / 2) p1 p2 in let m02 := on_segment (1 / 2) p0 p2 in
     area_triangle_kahan 2 p0 m01 m02 = A / 4 /\ area_triangle_kahan 2 p1 m12 m01 = A / 4 /\
     area_triangle_kahan 2 p2 m02 m12 = A / 4 /\ area_triangle_kahan 2 m01 m12 m02 = A / 4).
Proof.
  cbv zeta. repeat match goal with |- _ /\ _ => split end.
  - rewrite kahan2. pose proof (Rabs_pos (cross2 p0 p1 p2)). lra.
  - rewrite kahan2, rabs_half. apply cross2_collinear.
  - intro I. rewrite kahan2. assert (E := int_triangle_affine p0 p1 p2 0 0 1 I). unfold aff in E.
    replace (Rabs (cross2 p0 p1 p2) / 6 * _) with (Rabs (cross2 p0 p1 p2) / 2) in E by field. rewrite <- E.
    split; apply is_int_triangle_ext; intro; ring.
  - intros q0 q1 q2 P. symmetry. apply (perm3_sym (area_triangle_kahan 2)); [| |exact P]; intros; rewrite !kahan2; f_equal.
    + rewrite <- Rabs_Ropp. f_equal. unfold cross2. ring.
    + rewrite <- Rabs_Ropp. f_equal. unfold cross2. ring.
  - intro v. rewrite !kahan2, cross2_shift. reflexivity.
  - intros t Ht. rewrite !kahan2.
    replace (cross2 p0 (on_segment t p0 p1) p2) with (t * cross2 p0 p1 p2) by (unfold cross2, on_segment; ring).
    replace (cross2 (on_segment t p0 p1) p1 p2) with ((1 - t) * cross2 p0 p1 p2) by (unfold cross2, on_segment; ring).
    rewrite !Rabs_mult, (Rabs_pos_eq t), (Rabs_pos_eq (1 - t)) by lra. split; field.
  - rewrite !kahan2. replace (cross2 p0 _ _) with (1 / 4 * cross2 p0 p1 p2) by (unfold cross2, on_segment; field).
    rewrite Rabs_mult, (Rabs_pos_eq (1 / 4)) by lra. field.
  - rewrite !kahan2. replace (cross2 p1 _ _) with (1 / 4 * cross2 p0 p1 p2) by (unfold cross2, on_segment; field).
    rewrite Rabs_mult, (Rabs_pos_eq (1 / 4)) by lra. field.
  - rewrite !kahan2. replace (cross2 p2 _ _) with (1 / 4 * cross2 p0 p1 p2) by (unfold cross2, on_segment; field).
    rewrite Rabs_mult, (Rabs_pos_eq (1 / 4)) by lra. field.
  - rewrite !kahan2. replace (cross2 (on_segment _ _ _) _ _) with (1 / 4 * cross2 p0 p1 p2) by (unfold cross2, on_segment; field).
    rewrite Rabs_mult, (Rabs_pos_eq (1 / 4)) by lra. field.
Qed.

Lemma cross3_scale k a b c a' b' c' : cross3_sq a' b' c' = k * k * cross3_sq a b c -> 0 <= k -> sqrt (cross3_sq a' b' c') = k * sqrt (cross3_sq a b c).
Proof. intros -> H. rewrite sqrt_mult by (try apply cross3_nonneg; apply Rle_0_sqr || nra). rewrite sqrt_square by exact H. reflexivity. Qed.

(** the same for triangles of space *)
Theorem C47_triangle_in_space p0 p1 p2 : let A := area_triangle_kahan 3 p0 p1 p2 in
  0 <= A /\
  (A = 0 <-> collinear 3 p0 p1 p2) /\
  (forall I, is_int_triangle3 p0 p1 p2 (fun _ => 1) I <-> I = A) /\
  (forall q0 q1 q2, Permutation [p0; p1; p2] [q0; q1; q2] -> area_triangle_kahan 3 q0 q1 q2 = A) /\
  (forall v, area_triangle_kahan 3 (shift v p0) (shift v p1) (shift v p2) = A) /\
  (forall t, 0 <= t <= 1 -> let m := on_segment t p0 p1 in
     area_triangle_kahan 3 p0 m p2 = t * A /\ area_triangle_kahan 3 m p1 p2 = (1 - t) * A).
Proof.
  cbv zeta. repeat match goal with |- _ /\ _ => split end.
  - rewrite kahan3. pose proof (sqrt_pos (cross3_sq p0 p1 p2)). lra.
  - rewrite kahan3, <- cross3_collinear. pose proof (cross3_nonneg p0 p1 p2). split; intro H'.
    + apply sqrt_eq_0; lra.
    + rewrite H', sqrt_0. field.
  - intro I. rewrite kahan3. assert (H : is_int_simplex 2 1 (fun _ => 1) (1 / 2)).
    { replace (1 / 2) with (1 / 2 + 0 / 6 + 0 / 6) by field. refine (is_int_simplex_ext 2 1 _ _ _ _ (int_simplex2_affine 1 0 0)). intro; ring. }
    split.
    + intros (J & HJ & ->). rewrite (is_int_simplex_unique 2 1 _ _ _ HJ H). field.
    + intros ->. exists (1 / 2). split; [exact H|field].
  - intros q0 q1 q2 P. symmetry. apply (perm3_sym (area_triangle_kahan 3)); [| |exact P]; intros; rewrite !kahan3; do 2 f_equal; unfold cross3_sq; ring.
  - intro v. rewrite !kahan3. do 2 f_equal. unfold cross3_sq, shift. ring.
  - intros t Ht. rewrite !kahan3.
    rewrite (cross3_scale t p0 p1 p2 p0 (on_segment t p0 p1) p2) by (try lra; unfold cross3_sq, on_segment; ring).
    rewrite (cross3_scale (1 - t) p0 p1 p2 (on_segment t p0 p1) p1 p2) by (try lra; unfold cross3_sq, on_segment; ring). split; field.
Qed.

(** the volume of a tetrahedron *)
Theorem C47_tetrahedron p0 p1 p2 p3 : let V := volume_tetrahedron_kahan p0 p1 p2 p3 in
  0 <= V /\
  (V = 0 <-> coplanar p0 p1 p2 p3) /\
  (forall I, is_int_tetra p0 p1 p2 p3 (fun _ => 1) I <-> I = V) /\
  (forall q0 q1 q2 q3, Permutation [p0; p1; p2; p3] [q0; q1; q2; q3] -> volume_tetrahedron_kahan q0 q1 q2 q3 = V) /\
  (forall v, volume_tetrahedron_kahan (shift v p0) (shift v p1) (shift v p2) (shift v p3) = V) /\
  (forall t, 0 <= t <= 1 -> let m := on_segment t p0 p1 in
     volume_tetrahedron_kahan p0 m p2 p3 = t * V /\ volume_tetrahedron_kahan m p1 p2 p3 = (1 - t) * V).
Proof.
  cbv zeta. repeat match goal with |- _ /\ _ => split end.
  - rewrite volume_triple. pose proof (Rabs_pos (triple p0 p1 p2 p3)). lra.
  - rewrite volume_triple, <- triple_coplanar. split; [intro H; apply rabs_zero; lra|intros ->; rewrite Rabs_R0; field].
  - intro I. rewrite volume_triple. pose proof (int_simplex3_const 1) as H. split.
    + intros (J & HJ & ->). rewrite (is_int_simplex_unique 3 1 _ _ _ HJ H). field.
    + intros ->. exists (1 / 6). split; [exact H|field].
  - intros q0 q1 q2 q3 P. symmetry. apply (perm4_sym volume_tetrahedron_kahan); [| | |exact P]; intros; rewrite !volume_triple; f_equal;
      rewrite <- Rabs_Ropp; f_equal; unfold triple; ring.
  - intro v. rewrite !volume_triple. do 2 f_equal. unfold triple, shift. ring.
  - intros t Ht. rewrite !volume_triple.
    replace (triple p0 (on_segment t p0 p1) p2 p3) with (t * triple p0 p1 p2 p3) by (unfold triple, on_segment; ring).
    replace (triple (on_segment t p0 p1) p1 p2 p3) with ((1 - t) * triple p0 p1 p2 p3) by (unfold triple, on_segment; ring).
    rewrite !Rabs_mult, (Rabs_pos_eq t), (Rabs_pos_eq (1 - t)) by lra. split; field.
Qed.

(** measure(msh, cl): the absolute value of the signed quantity; the signed
    variant has the sign of the orientation when the simplex is not degenerate *)
Theorem C47_measure p0 p1 p2 p3 :
  measure_triangle false p0 p1 p2 = Some (area_triangle_kahan 2 p0 p1 p2) /\
  measure_tetra false p0 p1 p2 p3 = Some (volume_tetrahedron_kahan p0 p1 p2 p3) /\
  (~ collinear 2 p0 p1 p2 -> measure_triangle true p0 p1 p2 = Some (cross2 p0 p1 p2 / 2)) /\
  (~ coplanar p0 p1 p2 p3 -> measure_tetra true p0 p1 p2 p3 = Some (triple p0 p1 p2 p3 / 6)).
Proof.
  split; [reflexivity|]. split; [reflexivity|]. split; intro N.
  - assert (T : cross2 p0 p1 p2 <> 0) by (intro H; apply N, cross2_collinear, H).
    unfold measure_triangle. cbv zeta. rewrite kahan2.
    assert (E : psubt p1 p0 0%nat * psubt p2 p0 1%nat - psubt p2 p0 0%nat * psubt p1 p0 1%nat = cross2 p0 p1 p2) by (unfold psubt, cross2; ring).
    rewrite E. destruct (Req_EM_T _ 0) as [|_]; [contradiction|]. f_equal. field. now apply Rabs_no_R0.
  - assert (T : triple p0 p1 p2 p3 <> 0) by (intro H; apply N, triple_coplanar, H).
    unfold measure_tetra. cbv zeta. rewrite volume_triple.
    assert (E : dot 3 (psubt p1 p0) (vcross (psubt p2 p0) (psubt p3 p0)) = triple p0 p1 p2 p3) by (unfold psubt, triple, vcross; cbn [dot pt3]; ring).
    rewrite E. destruct (Req_EM_T _ 0) as [|_]; [exfalso; lra|]. f_equal. replace (Rabs (triple p0 p1 p2 p3 / 6)) with (Rabs (triple p0 p1 p2 p3) / 6) by (unfold Rdiv; rewrite Rabs_mult, (Rabs_pos_eq (/ 6)) by lra; reflexivity). field. now apply Rabs_no_R0.
Qed.

(** barycenters are vertex averages, whatever the order of the vertices, and
    follow translations *)
Theorem C47_barycenter pts : pts <> [] -> exists b, barycenter pts = Ok b /\
  (forall k, b k = sumR (map (fun q => q k) pts) / INR (length pts)) /\
  (forall pts', Permutation pts pts' -> exists b', barycenter pts' = Ok b' /\ forall k, b' k = b k) /\
  (forall v, exists b', barycenter (map (shift v) pts) = Ok b' /\ forall k, b' k = b k + v k).
Proof.
  intro N. destruct (barycenter_mean pts N) as (b & E & M). exists b. split; [exact E|]. split; [exact M|]. split.
  - intros pts' P. destruct (barycenter_mean pts') as (b' & E' & M'). { intros ->. apply N. now apply Permutation_nil, Permutation_sym. }
    exists b'. split; [exact E'|]. intro k. rewrite M, M'. f_equal; [|now rewrite (Permutation_length P)].
    apply sumR_perm, Permutation_map. now symmetry.
  - intro v. destruct (barycenter_mean (map (shift v) pts)) as (b' & E' & M'). { destruct pts; [congruence|discriminate]. }
    exists b'. split; [exact E'|]. intro k. rewrite M, M', map_map, map_length.
    assert (L : INR (length pts) <> 0) by (apply not_0_INR; destruct pts; [congruence|discriminate]).
    assert (S : forall l : list pt, sumR (map (fun x => shift v x k) l) = sumR (map (fun q => q k) l) + INR (length l) * v k).
    { induction l as [|x l IH]; [cbn; ring|]. cbn [map sumR length]. rewrite IH, S_INR. unfold shift. ring. }
    rewrite S. generalize dependent (sumR (map (fun q => q k) pts)). generalize dependent (INR (length pts)). intros. field. assumption.
Qed.
Print Assumptions C47_triangle.
Print Assumptions C47_triangle_in_space.
Print Assumptions C47_tetrahedron.
Print Assumptions C47_measure.
Print Assumptions C47_barycenter.
Example C47_triangle_ex : area_triangle_kahan 2 (pt2 0 0) (pt2 4 0) (pt2 1 3) = 6 /\ ~ collinear 2 (pt2 0 0) (pt2 4 0) (pt2 1 3).
Proof.
  assert (C : cross2 (pt2 0 0) (pt2 4 0) (pt2 1 3) = 12) by (unfold cross2; cbn; ring).
  split; [rewrite kahan2, C, Rabs_pos_eq by lra; field|]. rewrite <- cross2_collinear, C. lra.
Qed.
Example C47_tetra_ex : volume_tetrahedron_kahan (pt3 0 0 0) (pt3 0 0 3) (pt3 0 2 0) (pt3 1 0 0) = 1 /\
  measure_tetra true (pt3 0 0 0) (pt3 0 0 3) (pt3 0 2 0) (pt3 1 0 0) = Some (-1).
Proof.
  assert (C : triple (pt3 0 0 0) (pt3 0 0 3) (pt3 0 2 0) (pt3 1 0 0) = -6) by (unfold triple; cbn; ring).
  split; [rewrite volume_triple, C, Rabs_left by lra; field|].
  destruct (C47_measure (pt3 0 0 0) (pt3 0 0 3) (pt3 0 2 0) (pt3 1 0 0)) as (_ & _ & _ & H). rewrite H; [rewrite C; f_equal; field|].
  rewrite <- triple_coplanar, C. lra.
Qed.
Example C47_barycenter_ex : exists b, barycenter [pt2 0 0; pt2 3 0; pt2 0 6] = Ok b /\ b 0%nat = 1 /\ b 1%nat = 2.
Proof.
  destruct (C47_barycenter [pt2 0 0; pt2 3 0; pt2 0 6]) as (b & E & M & _); [discriminate|]. exists b. split; [exact E|].
  rewrite !M. cbn. split; field.
Qed.

(** ** C44: the point-in-cell test *)
(** tetrahedra of positive orientation: exactly the points of the closed cell *)
Theorem C44_tetra_partial a b c d q : 0 < triple a b c d -> is_inside_tetra a b c d q = true <-> in_tetra a b c d q.
Proof. apply inside_pos. Qed.
(** negative orientation: exactly the interior points *)
Theorem C44_tetra_negative_partial a b c d q : triple a b c d < 0 -> is_inside_tetra a b c d q = true <-> in_open_tetra a b c d q.
Proof. apply inside_neg. Qed.
(** so boundary points of negatively oriented tetrahedra are rejected *)
Theorem C44_tetra_refuted : exists a b c d q, triple a b c d <> 0 /\ in_tetra a b c d q /\ is_inside_tetra a b c d q = false.
Proof.
  exists (pt3 0 0 0), (pt3 0 1 0), (pt3 1 0 0), (pt3 0 0 1), (pt3 0 0 0).
  assert (T : triple (pt3 0 0 0) (pt3 0 1 0) (pt3 1 0 0) (pt3 0 0 1) = -1) by (unfold triple; cbn; ring).
  split; [lra|]. split.
  - exists 1, 0, 0, 0. repeat split; try lra; intros i Hi; destruct i as [|[|[|i]]]; cbn; try lra; lia.
  - destruct (is_inside_tetra _ _ _ _ _) eqn:E; [|reflexivity]. exfalso. apply inside_neg in E; [|lra].
    destruct E as (la & lb & lc & ld & A & B & C & D & S & H). specialize (H 0%nat ltac:(lia)). cbn in H. lra.
Qed.
(** plane cells: every point is reported inside *)
Theorem C44_polygon_refuted : (forall pts q, is_inside_polygon pts q = true) /\
  exists pts q, convex_polygon pts /\ is_inside_polygon pts q = true /\ exists a b, In (a, b) (edges pts) /\ cross2 a b q < 0.
Proof.
  split; [apply inside_polygon_true|]. exists [pt2 0 0; pt2 1 0; pt2 0 1], (pt2 5 (-5)). split; [|split; [apply inside_polygon_true|]].
  - split; [cbn; lia|]. intros a b I. cbn in I. repeat (destruct I as [I|I]; [injection I as <- <-|]); try contradiction; (split; [cbn; lra|]);
      intros c Ic; cbn in Ic; repeat (destruct Ic as [<-|Ic]); try contradiction; unfold cross2; cbn; lra.
  - exists (pt2 0 0), (pt2 1 0). split; [cbn; auto|]. unfold cross2; cbn; lra.
Qed.
Print Assumptions C44_tetra_partial.
Print Assumptions C44_tetra_negative_partial.
Print Assumptions C44_tetra_refuted.
Print Assumptions C44_polygon_refuted.
Example C44_ex : is_inside_tetra (pt3 0 0 0) (pt3 1 0 0) (pt3 0 1 0) (pt3 0 0 1) (pt3 (1 / 2) (1 / 2) 0) = true /\
  is_inside_tetra (pt3 0 0 0) (pt3 1 0 0) (pt3 0 1 0) (pt3 0 0 1) (pt3 1 1 1) = false.
Proof.
  assert (T : 0 < triple (pt3 0 0 0) (pt3 1 0 0) (pt3 0 1 0) (pt3 0 0 1)) by (unfold triple; cbn; lra).
  split.
  - apply (inside_pos _ _ _ _ _ T). exists 0, (1 / 2), (1 / 2), 0. repeat split; try lra; intros i Hi; destruct i as [|[|[|i]]]; cbn; try lra; lia.
  - destruct (is_inside_tetra _ _ _ _ _) eqn:E; [|reflexivity]. exfalso. apply (inside_pos _ _ _ _ _ T) in E.
    destruct E as (la & lb & lc & ld & A & B & C & D & S & H). pose proof (H 0%nat ltac:(lia)). pose proof (H 1%nat ltac:(lia)). cbn in *. lra.
Qed.

(** ** C73: measure of polygonal cells *)
(** for every convex polygon of positive area, whatever the order and direction
    of its faces: the signed area, which is the integral of 1 *)
Theorem C73_polygon_measure_partial pts faces : convex_polygon pts -> 0 < signed_area pts -> edges_as_faces faces pts ->
  measure_polygon pts faces = Some (signed_area pts) /\
  forall I, is_int_triangles (fan pts) (fun _ => 1) I <-> I = signed_area pts.
Proof. intros C A (es & P & F). split; [eapply measure_convex; eauto|]. intro I. now apply int_triangles_one. Qed.
Theorem C73_translation v pts : signed_area (map (shift v) pts) = signed_area pts.
Proof. apply signed_area_shift. Qed.

Definition lshape : list pt := [pt2 0 0; pt2 3 0; pt2 3 1; pt2 1 1; pt2 1 3; pt2 0 3].
Lemma lshape_area : signed_area lshape = 5.
Proof. unfold signed_area, lshape. cbn. field. Qed.
Lemma lshape_bary : exists c, polygon_barycenter lshape = Some c /\ c 0%nat = 11 / 10 /\ c 1%nat = 11 / 10.
Proof.
  unfold polygon_barycenter. rewrite polygon_sums_edges, lshape_area. destruct (Req_EM_T 5 0) as [E|_]; [lra|].
  eexists; split; [reflexivity|]. unfold lshape, edge_det. cbn. split; field.
Qed.
Lemma normal2_left_val c e f : 0 < cross2 e f c -> exists n, normal2 c e f = Some n /\ n 0%nat = (f 1%nat - e 1%nat) / norm 2 (psubt f e) /\ n 1%nat = - (f 0%nat - e 0%nat) / norm 2 (psubt f e).
Proof.
  intro H. destruct (normal2_spec c e f H) as [(n & E & V) _]. exists n. split; [exact E|]. rewrite !V by lia. unfold outer2, pscale, Rdiv. cbn [pt2]. split; ring.
Qed.
Lemma normal2_right_val c e f : cross2 e f c < 0 -> exists n, normal2 c e f = Some n /\ n 0%nat = - (f 1%nat - e 1%nat) / norm 2 (psubt f e) /\ n 1%nat = (f 0%nat - e 0%nat) / norm 2 (psubt f e).
Proof.
  intro H. destruct (normal2_spec c f e) as [_ (n & E & V)]; [rewrite cross2_flip; lra|]. exists n. split; [exact E|]. rewrite !V by lia.
  assert (NE : norm 2 (psubt e f) = norm 2 (psubt f e)) by (rewrite !norm2_psubt, <- norm2_neg; f_equal; f_equal; ring).
  unfold outer2, pscale, Rdiv. rewrite NE. cbn [pt2]. split; ring.
Qed.
Lemma norm2_x x y v : v * v = x * x + y * y -> 0 <= v -> norm 2 (psubt (pt2 x y) (pt2 0 0)) = v.
Proof. intros H P. unfold norm, psubt. cbn [dot pt2]. replace (_ + _ + _) with (v * v) by lra. now apply sqrt_square. Qed.
(** a simple polygon, not convex, of area 5: the code returns 1 *)
Theorem C73_nonconvex_refuted : signed_area lshape = 5 /\ edges_as_faces (edges lshape) lshape /\ measure_polygon lshape (edges lshape) = Some 1.
Proof.
  split; [apply lshape_area|]. split.
  - exists (edges lshape). split; [apply Permutation_refl|]. generalize (edges lshape). induction l; constructor; [now left|assumption].
  - destruct lshape_bary as (c & E & C0 & C1). unfold measure_polygon. rewrite E. unfold lshape. cbn [edges app combine fold_left fst snd].
    assert (ST : forall e f tot v a b, cross2 e f c = v -> v <> 0 -> norm 2 (psubt f e) = a -> a <> 0 ->
       b = (if Rlt_dec 0 v then 1 else -1) * ((e 0%nat + f 0%nat) * (f 1%nat - e 1%nat) - (e 1%nat + f 1%nat) * (f 0%nat - e 0%nat)) / 4 ->
       match normal2 c e f with Some n =>
          Some (tot + norm 2 (psubt f e) * (pscale (/ 2) (padd e f) 0%nat * n 0%nat / 2 + pscale (/ 2) (padd e f) 1%nat * n 1%nat / 2)) | None => None end = Some (tot + b)).
    { intros e f tot v a b HC HV HN HA ->. destruct (Rlt_dec 0 v) as [L|L].
      - destruct (normal2_left_val c e f) as (n & EN & N0 & N1); [lra|]. rewrite EN. cbv zeta. rewrite N0, N1, HN. unfold pscale, padd. f_equal. field. exact HA.
      - destruct (normal2_right_val c e f) as (n & EN & N0 & N1); [lra|]. rewrite EN. cbv zeta. rewrite N0, N1, HN. unfold pscale, padd. f_equal. field. exact HA. }
    assert (NM : forall e f v, v * v = (f 0%nat - e 0%nat) ^ 2 + (f 1%nat - e 1%nat) ^ 2 -> 0 <= v -> norm 2 (psubt f e) = v).
    { intros e f v H P. unfold norm, psubt. cbn [dot]. replace (_ + _ + _) with (v * v) by lra. now apply sqrt_square. }
    rewrite (ST (pt2 0 0) (pt2 3 0) 0 (33 / 10) 3 0); [|unfold cross2; cbn [pt2]; rewrite C0, C1; field|lra|apply NM; cbn [pt2]; lra|lra|cbn [pt2]; destruct (Rlt_dec 0 (33 / 10)); lra].
    rewrite (ST (pt2 3 0) (pt2 3 1) (0 + 0) (19 / 10) 1 (3 / 2)); [|unfold cross2; cbn [pt2]; rewrite C0, C1; field|lra|apply NM; cbn [pt2]; lra|lra|cbn [pt2]; destruct (Rlt_dec 0 (19 / 10)); lra].
    rewrite (ST (pt2 3 1) (pt2 1 1) _ (- (1 / 5)) 2 (- 1)); [|unfold cross2; cbn [pt2]; rewrite C0, C1; field|lra|apply NM; cbn [pt2]; lra|lra|cbn [pt2]; destruct (Rlt_dec 0 (- (1 / 5))); lra].
    rewrite (ST (pt2 1 1) (pt2 1 3) _ (- (1 / 5)) 2 (- 1)); [|unfold cross2; cbn [pt2]; rewrite C0, C1; field|lra|apply NM; cbn [pt2]; lra|lra|cbn [pt2]; destruct (Rlt_dec 0 (- (1 / 5))); lra].
    rewrite (ST (pt2 1 3) (pt2 0 3) _ (19 / 10) 1 (3 / 2)); [|unfold cross2; cbn [pt2]; rewrite C0, C1; field|lra|apply NM; cbn [pt2]; lra|lra|cbn [pt2]; destruct (Rlt_dec 0 (19 / 10)); lra].
    rewrite (ST (pt2 0 3) (pt2 0 0) _ (33 / 10) 3 0); [|unfold cross2; cbn [pt2]; rewrite C0, C1; field|lra|apply NM; cbn [pt2]; lra|lra|cbn [pt2]; destruct (Rlt_dec 0 (33 / 10)); lra].
    f_equal. field.
Qed.
Print Assumptions C73_polygon_measure_partial.
Print Assumptions C73_translation.
Print Assumptions C73_nonconvex_refuted.
Definition pentagon : list pt := [pt2 0 0; pt2 4 0; pt2 5 2; pt2 2 5; pt2 (-1) 2].
Lemma pentagon_convex : convex_polygon pentagon /\ signed_area pentagon = 19.
Proof.
  split; [|unfold signed_area, pentagon; cbn; field]. split; [cbn; lia|]. intros a b I. cbn in I.
  repeat (destruct I as [I|I]; [injection I as <- <-|]); try contradiction; (split; [cbn; lra|]);
    intros c Ic; cbn in Ic; repeat (destruct Ic as [<-|Ic]); try contradiction; unfold cross2; cbn; lra.
Qed.
Example C73_ex : measure_polygon pentagon (map (fun e => (snd e, fst e)) (rev (edges pentagon))) = Some 19.
Proof.
  destruct pentagon_convex as [C A]. destruct (C73_polygon_measure_partial pentagon (map (fun e => (snd e, fst e)) (rev (edges pentagon)))) as [E _].
  - exact C.
  - lra.
  - exists (rev (edges pentagon)). split; [symmetry; apply Permutation_rev|]. generalize (rev (edges pentagon)). induction l; constructor; [now right|assumption].
  - rewrite E, A. reflexivity.
Qed.

(** ** C74: barycenter of polygonal cells *)
(** it is the centre of mass: area times the k-th coordinate is the integral of
    x_k over the polygon *)
Theorem C74_polygon_centroid pts : convex_polygon pts -> 0 < signed_area pts -> exists c, polygon_barycenter pts = Some c /\
  (forall k I, (k < 2)%nat -> is_int_triangles (fan pts) (fun x => x k) I <-> I = signed_area pts * c k) /\
  (forall a b, In (a, b) (edges pts) -> 0 < cross2 a b c).
Proof.
  intros C A. destruct (polygon_bary pts) as (c & E & _); [lra|]. exists c. split; [exact E|]. split.
  - intros k I K. destruct (int_triangles_coord pts k I C K A) as (c' & E' & H). rewrite E in E'. injection E' as <-. exact H.
  - intros a b I. destruct (centroid_left pts a b C A I) as (c' & E' & H). rewrite E in E'. injection E' as <-. exact H.
Qed.
(** any polygon whose signed area is not zero, convex or not: translations *)
Theorem C74_translation v pts : signed_area pts <> 0 -> exists c c', polygon_barycenter pts = Some c /\ polygon_barycenter (map (shift v) pts) = Some c' /\
  forall k, (k < 2)%nat -> c' k = c k + v k.
Proof. apply polygon_bary_shift. Qed.
Print Assumptions C74_polygon_centroid.
Print Assumptions C74_translation.
Example C74_ex : exists c, polygon_barycenter pentagon = Some c /\ forall a b, In (a, b) (edges pentagon) -> 0 < cross2 a b c.
Proof. destruct pentagon_convex as [C A]. destruct (C74_polygon_centroid pentagon C) as (c & E & _ & H); [lra|]. now exists c. Qed.

(** the triangles made of an edge and the vertex average cover the area *)
Theorem C74_triangulation pts : convex_polygon pts ->
  sumR (map (fun t => let '(a, b, c) := t in area_triangle_kahan 2 a b c) (triangulate_convex_polygon pts)) = signed_area pts /\
  (forall k I, (k < 2)%nat -> is_int_triangles (triangulate_convex_polygon pts) (fun x => x k) I <-> is_int_triangles (fan pts) (fun x => x k) I).
Proof.
  intro C. assert (P : forall a b c, In (a, b, c) (triangulate_convex_polygon pts) -> 0 <= cross2 a b c).
  { intros a b c I. rewrite triangulate_edges in I. apply in_map_iff in I. destruct I as ([e f] & E & I). injection E as <- <- <-. now apply center_left. }
  split.
  - apply (Rmult_eq_reg_l 6); [|lra]. rewrite <- sumR_scal, signed_area_fan, <- moments_fan, <- (hmom_shift_origin 0 0 1 (polygon_center pts)), triangulate_edges, !map_map.
    f_equal. apply map_ext_in. intros [a b] I. cbn [fst snd]. rewrite kahan2, Rabs_pos_eq by now apply center_left. unfold tmom, aff. field.
  - intros k I K. assert (G : exists al be, forall x, x k = aff al be 0 x).
    { unfold aff. destruct k as [|[|k]]; [exists 1, 0|exists 0, 1|lia]; intro x; ring. }
    destruct G as (al & be & G).
    assert (X : forall l, is_int_triangles l (fun x => x k) I <-> is_int_triangles l (aff al be 0) I) by (intro l; split; apply is_int_triangles_ext; intro x; [|symmetry]; apply G).
    rewrite !X, !is_int_triangles_affine; [|intros; eapply fan_cross_nonneg; eauto|exact P].
    rewrite triangulate_edges, map_map, hmom_shift_origin, moments_fan. reflexivity.
Qed.
Print Assumptions C74_triangulation.

(** ** C75: outward normals *)
Lemma dot_sprod2 u v : dot 2 u v = sprod 2 u v.
Proof. unfold sprod. cbn. ring. Qed.
Lemma dot_sprod3 u v : dot 3 u v = sprod 3 u v.
Proof. unfold sprod. cbn. ring. Qed.
Lemma good_outward e f n cell : good_normal2 e f n (fun x => In x cell) -> outward_normal 2 cell [e; f] n.
Proof.
  intros (U & O & V). rewrite dot_sprod2 in U. split; [exact U|]. unfold sprod in *. cbn in *. unfold psubt in *. split.
  - intros p q [<-|[<-|[]]] [<-|[<-|[]]]; lra.
  - intros p x [<-|[<-|[]]] I; specialize (V x I); lra.
Qed.
(** plane cells whose barycenter is the vertex average (triangles, rectangles)
    and which lie on one side of the line of the face *)
Theorem C75_normal_2d cell b e f : barycenter cell = Ok b ->
  ((forall x, In x cell -> 0 <= cross2 e f x) \/ (forall x, In x cell -> cross2 e f x <= 0)) -> (exists x, In x cell /\ cross2 e f x <> 0) ->
  exists n, normal2 b e f = Some n /\ outward_normal 2 cell [e; f] n.
Proof. intros B S X. destruct (normal2_cell cell b e f B S X) as (n & E & G). exists n. split; [exact E|]. now apply good_outward. Qed.
(** convex polygonal cells *)
Theorem C75_normal_polygon pts c e fc : convex_polygon pts -> 0 < signed_area pts -> polygon_barycenter pts = Some c -> In e (edges pts) -> same_edge fc e ->
  exists n, normal2 c (fst fc) (snd fc) = Some n /\ outward_normal 2 pts [fst fc; snd fc] n.
Proof. intros C A B I S. destruct e as [e f]. destruct (normal2_polygon pts c e f fc C A B I S) as (n & E & G). exists n. split; [exact E|]. now apply good_outward. Qed.
(** cells of space lying on one side of the (plane) face *)
Theorem C75_normal_3d cell face cb fb f0 f1 f2 : barycenter cell = Ok cb -> barycenter face = Ok fb ->
  (forall x, In x face -> triple f0 f1 f2 x = 0) ->
  ((forall x, In x cell -> 0 <= triple f0 f1 f2 x) \/ (forall x, In x cell -> triple f0 f1 f2 x <= 0)) ->
  (exists x, In x cell /\ triple f0 f1 f2 x <> 0) ->
  exists n, normal3 cb fb f0 f1 f2 = Some n /\ outward_normal 3 cell face n /\
    forall p x, In p face -> In x cell -> triple f0 f1 f2 x <> 0 -> sprod 3 n (fun i => x i - p i) < 0.
Proof.
  intros B Fb HF HS X. destruct (normal3_cell cell face cb fb f0 f1 f2 B Fb HF HS X) as (n & E & U & O & V & W).
  exists n. split; [exact E|].
  assert (D : forall p x, In p face -> sprod 3 n (fun i => x i - p i) = dot 3 n (psubt x f0)).
  { intros p x I. specialize (O p I). rewrite <- dot_sprod3. cbn [dot] in *. unfold psubt in *. lra. }
  split; [split; [|split]|].
  - now rewrite <- dot_sprod3.
  - intros p q Ip Iq. rewrite D by exact Ip. now apply O.
  - intros p x Ip Ix. rewrite D by exact Ip. now apply V.
  - intros p x Ip Ix T. rewrite D by exact Ip. destruct (Rle_lt_or_eq_dec _ _ (V x Ix)) as [|Z]; [assumption|]. exfalso. apply T, W; assumption.
Qed.
(** a cell which is not convex: the normal to the face (3,1)-(1,1) of the
    L-shaped cell points inside *)
Theorem C73_inward_normal_refuted : exists c n, polygon_barycenter lshape = Some c /\ In (pt2 3 1, pt2 1 1) (edges lshape) /\
  normal2 c (pt2 3 1) (pt2 1 1) = Some n /\ n 0%nat = 0 /\ n 1%nat = -1.
Proof.
  destruct lshape_bary as (c & E & C0 & C1). exists c. destruct (normal2_right_val c (pt2 3 1) (pt2 1 1)) as (n & EN & N0 & N1).
  { unfold cross2. cbn [pt2]. rewrite C0, C1. lra. }
  exists n. split; [exact E|]. split; [cbn; auto|]. split; [exact EN|].
  assert (NM : norm 2 (psubt (pt2 1 1) (pt2 3 1)) = 2). { unfold norm, psubt. cbn [dot pt2]. replace (_ + _ + _) with (2 * 2) by ring. apply sqrt_square. lra. }
  rewrite N0, N1, NM. cbn [pt2]. split; field.
Qed.
Print Assumptions C75_normal_2d.
Print Assumptions C75_normal_polygon.
Print Assumptions C75_normal_3d.
Print Assumptions C73_inward_normal_refuted.
Example C75_ex3 : let cell := [pt3 0 0 0; pt3 1 0 0; pt3 0 1 0; pt3 0 0 1] in let face := [pt3 1 0 0; pt3 0 1 0; pt3 0 0 1] in
  exists cb fb n, barycenter cell = Ok cb /\ barycenter face = Ok fb /\ normal3 cb fb (pt3 1 0 0) (pt3 0 1 0) (pt3 0 0 1) = Some n /\ outward_normal 3 cell face n.
Proof.
  cbv zeta. destruct (C47_barycenter [pt3 0 0 0; pt3 1 0 0; pt3 0 1 0; pt3 0 0 1]) as (cb & B & _); [discriminate|].
  destruct (C47_barycenter [pt3 1 0 0; pt3 0 1 0; pt3 0 0 1]) as (fb & F & _); [discriminate|]. exists cb, fb.
  destruct (C75_normal_3d _ _ cb fb (pt3 1 0 0) (pt3 0 1 0) (pt3 0 0 1) B F) as (n & E & O & _).
  - intros x I. cbn in I. repeat (destruct I as [<-|I]); try contradiction; unfold triple; cbn; ring.
  - right. intros x I. cbn in I. repeat (destruct I as [<-|I]); try contradiction; unfold triple; cbn; lra.
  - exists (pt3 0 0 0). split; [now left|]. unfold triple; cbn; lra.
  - now exists n.
Qed.

(** ** C76: convexity test *)
Theorem C76_accepts_convex pts : convex_polygon pts -> is_convex pts = true.
Proof. apply is_convex_of_convex. Qed.
Theorem C76_quadrangle a b c d : is_convex [a; b; c; d] = true <-> convex_ccw a b c d.
Proof. apply is_convex_quad. Qed.
(** a five-pointed star is reported convex *)
Definition star : list pt := [pt2 2 0; pt2 (-1) 2; pt2 0 (-2); pt2 1 2; pt2 (-2) 0].
Theorem C76_star_refuted : is_convex star = true /\ ~ convex_polygon star.
Proof.
  split.
  - unfold is_convex, star, cyc, psubt. cbn.
    repeat match goal with |- context [Rlt_dec ?x 0] => destruct (Rlt_dec x 0); [exfalso; lra|] end. reflexivity.
  - intros [_ C]. destruct (C (pt2 2 0) (pt2 (-1) 2)) as [_ H]; [cbn; auto|]. specialize (H (pt2 1 2) ltac:(cbn; auto)). unfold cross2 in H. cbn in H. lra.
Qed.
Print Assumptions C76_accepts_convex.
Print Assumptions C76_quadrangle.
Print Assumptions C76_star_refuted.
Example C76_ex : is_convex pentagon = true /\ is_convex [pt2 0 0; pt2 4 0; pt2 1 1; pt2 0 4] = false.
Proof.
  split; [apply C76_accepts_convex, pentagon_convex|]. destruct (is_convex _) eqn:E; [|reflexivity]. exfalso. apply C76_quadrangle in E.
  unfold convex_ccw, cross2 in E. cbn in E. lra.
Qed.

(** ** C77: diameters and bounding boxes *)
Lemma norm_edist D p q : norm D (psubt p q) = edist D p q.
Proof.
  unfold norm, edist. f_equal. unfold psubt.
  assert (S : forall l x, sumR (l ++ [x]) = sumR l + x) by (intros l x; rewrite sumR_app; cbn; ring).
  induction D as [|D IH]; [reflexivity|]. rewrite seq_S, map_app. cbn [map]. rewrite S, <- IH. rewrite Nat.add_0_l. cbn [dot]. ring.
Qed.
(** the diameter is the largest distance between two vertices: no distance is
    larger, it is attained, and it does not depend on the order of the vertices *)
Theorem C77_diameter D pts : pts <> [] ->
  (forall p q, In p pts -> In q pts -> edist D p q <= diameter D pts) /\
  (exists p q, In p pts /\ In q pts /\ diameter D pts = edist D p q) /\
  (forall pts', Permutation pts pts' -> diameter D pts' = diameter D pts).
Proof.
  intro N. destruct (diameter_max D pts) as [A B]. destruct (B N) as (p & q & Ip & Iq & E). repeat split.
  - intros x y Ix Iy. rewrite <- norm_edist. auto.
  - exists p, q. rewrite <- norm_edist. auto.
  - intros pts' P. assert (N' : pts' <> []) by (intros ->; apply N; now apply Permutation_nil, Permutation_sym).
    destruct (diameter_max D pts') as [A' B']. destruct (B' N') as (p' & q' & Ip' & Iq' & E').
    apply Rle_antisym.
    + rewrite E'. apply A; (eapply Permutation_in; [symmetry; exact P|assumption]).
    + rewrite E. apply A'; (eapply Permutation_in; [exact P|assumption]).
Qed.
(** diameters(): width along each axis; the bounding box and its centre *)
Theorem C77_bounding_box pts k : pts <> [] -> exists lo hi bb dbb,
  (forall q, In q pts -> lo <= q k <= hi) /\ (exists q, In q pts /\ q k = lo) /\ (exists q, In q pts /\ q k = hi) /\
  diameters pts k = hi - lo /\ bb_barycenter pts = Ok bb /\ bb k = (lo + hi) / 2 /\
  diameter_boundingbox pts = Ok dbb /\ dbb k = hi - lo.
Proof.
  intro N. destruct pts as [|p t]; [congruence|]. destruct (box_extrema p t k) as (lo & hi & L & H & B & (a & Ia & Ea) & (b & Ib & Eb)).
  exists lo, hi. eexists; eexists. split; [exact B|]. split; [now exists a|]. split; [now exists b|]. split; [|split; [reflexivity|split; [|split; [reflexivity|]]]].
  - destruct (diameters_max k (p :: t)) as [M M']. destruct (M' N) as (x & y & Ix & Iy & E). pose proof (M b a Ib Ia) as Q. rewrite Ea, Eb in Q.
    assert (lo <= hi) by (pose proof (B a Ia); lra). rewrite Rabs_pos_eq in Q by lra. apply Rle_antisym; [|exact Q]. rewrite E.
    pose proof (B x Ix). pose proof (B y Iy). apply Rabs_le. lra.
  - cbv beta. rewrite L, H. reflexivity.
  - cbv beta. rewrite (fold_ext _ (fun m q => Rmax m (q k))), H. 2: { intros m q. unfold Rmax. destruct (Rlt_dec m (q k)), (Rle_dec m (q k)); lra. }
    rewrite (fold_ext _ (fun m q => Rmin m (q k))), L. 2: { intros m q. unfold Rmin. destruct (Rlt_dec (q k) m), (Rle_dec m (q k)); lra. }
    apply Rabs_pos_eq. pose proof (B a Ia). lra.
Qed.
Print Assumptions C77_diameter.
Print Assumptions C77_bounding_box.
Example C77_ex : diameter 2 [pt2 0 0; pt2 3 0; pt2 3 4] = 5.
Proof.
  assert (V : forall p q v, v * v = (p 0%nat - q 0%nat) ^ 2 + (p 1%nat - q 1%nat) ^ 2 -> 0 <= v -> norm 2 (psubt p q) = v).
  { intros p q v H P. unfold norm, psubt. cbn [dot]. replace (_ + _ + _) with (v * v) by lra. now apply sqrt_square. }
  unfold diameter. cbn [diameter_from fold_left]. unfold max_with.
  rewrite (V (pt2 0 0) (pt2 3 0) 3), (V (pt2 0 0) (pt2 3 4) 5), (V (pt2 3 0) (pt2 3 4) 4) by (cbn; lra).
  unfold Rmax. repeat destruct (Rle_dec _ _); lra.
Qed.

(** ** C78: local axes of a cell *)
Theorem C78_local_axes p0 p1 p2 p3 : ~ coplanar p0 p1 p2 p3 -> exists v0 v1 v2, element_local_axes3 p0 p1 p2 p3 = Some (v0, v1, v2) /\
  sprod 3 v0 v1 = 0 /\ sprod 3 v0 v2 = 0 /\ sprod 3 v1 v2 = 0 /\
  triple (fun _ => 0) v0 v1 v2 = triple p0 p1 p2 p3.
Proof.
  intro N. destruct (axes3_spec p0 p1 p2 p3 N) as (v0 & v1 & v2 & E & A & B & C & D). exists v0, v1, v2.
  rewrite <- !dot_sprod3. repeat split; auto. rewrite <- D. unfold triple, vcross. cbn [dot pt3]. ring.
Qed.
Print Assumptions C78_local_axes.
Example C78_ex : ~ coplanar (pt3 0 0 0) (pt3 2 0 0) (pt3 1 1 0) (pt3 1 1 1).
Proof. rewrite <- triple_coplanar. unfold triple; cbn. lra. Qed.

(** ** C79: triangles with rational coordinates *)
(** the unsigned measure is twice the area *)
Theorem C79_rational_refuted : (forall p0 p1 p2, measure_triangle_rational false p0 p1 p2 = 2 * area_triangle_kahan 2 p0 p1 p2) /\
  exists p0 p1 p2, measure_triangle_rational false p0 p1 p2 <> area_triangle_kahan 2 p0 p1 p2.
Proof.
  assert (G : forall p0 p1 p2, measure_triangle_rational false p0 p1 p2 = 2 * area_triangle_kahan 2 p0 p1 p2).
  { intros p0 p1 p2. rewrite kahan2. unfold measure_triangle_rational. cbv zeta.
    replace (psubt p1 p0 0%nat * psubt p2 p0 1%nat - psubt p2 p0 0%nat * psubt p1 p0 1%nat) with (cross2 p0 p1 p2) by (unfold psubt, cross2; ring). field. }
  split; [exact G|]. exists (pt2 0 0), (pt2 4 0), (pt2 1 3). rewrite G. destruct C47_triangle_ex as [-> _]. lra.
Qed.
(** what remains true: it vanishes exactly for degenerate triangles, and the
    signed variant is twice the oriented area *)
Theorem C79_rational_partial p0 p1 p2 : (measure_triangle_rational false p0 p1 p2 = 0 <-> collinear 2 p0 p1 p2) /\
  measure_triangle_rational true p0 p1 p2 = cross2 p0 p1 p2.
Proof.
  split.
  - destruct C79_rational_refuted as [G _]. rewrite G. destruct (C47_triangle p0 p1 p2) as (_ & H & _). rewrite <- H. split; intro; lra.
  - unfold measure_triangle_rational, psubt, cross2. cbv zeta. ring.
Qed.
Print Assumptions C79_rational_refuted.
Print Assumptions C79_rational_partial.
