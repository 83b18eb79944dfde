(** Measures and faces (C194) and quadratures (C195) of the cells of cartesian meshes. *)
From Coq Require Import Reals List Arith Lra Lia Permutation.
From Verif Require Import Common Poly_Spec Quad_Model Quad_Spec Poly_Proofs Quad_Proofs Quad2_Proofs Quad_Properties Geo_Spec Geo_Model Shape_Spec
  Polyh_Spec Polyh_Proofs Polyh_Properties Cart_Model Cart_Spec Cart_Proofs.
Import ListNotations.
Local Open Scope R_scope.

(** ** C194 *)
(** the faces are the sides of the parallelogram; measure is its area exactly when it is a rectangle *)
Theorem C194_rectangle : forall cell o u v, rect_cell cell o u v -> exists p0 p1 p2 p3, cell = [p0; p1; p2; p3] /\
  edges_as_faces (cart_faces2 cell) [p0; p1; p3; p2] /\ Rabs (signed_area [p0; p1; p3; p2]) = Rabs (det2 u v) /\
  Rabs (det2 u v) <= measure_cart2 cell /\
  (measure_cart2 cell = Rabs (det2 u v) <-> sprod 2 u v = 0) /\
  forall f, In f (cart_faces2 cell) -> measure_cart_edge f = edist 2 (fst f) (snd f).
Proof.
  intros cell o u v B. destruct (rect_corners _ _ _ _ B) as (p0 & p1 & p2 & p3 & -> & H). exists p0, p1, p2, p3. split; [reflexivity|].
  assert (M : measure_cart2 [p0; p1; p2; p3] = sqrt (u 0%nat * u 0%nat + u 1%nat * u 1%nat) * sqrt (v 0%nat * v 0%nat + v 1%nat * v 1%nat)).
  { unfold measure_cart2, at_pt. cbn [nth]. rewrite (norm2_side p1 p0 u), (norm2_side p2 p0 v) by (intros i Hi; destruct (H i Hi) as (? & ? & ? & ?); lra). reflexivity. }
  split; [|split; [|split; [|split]]].
  - unfold cart_faces2, at_pt. cbn [nth]. exists [(p0, p1); (p2, p0); (p1, p3); (p3, p2)]. split.
    + cbn [edges combine app]. apply perm_skip. etransitivity; [apply perm_swap|]. apply perm_skip. apply perm_swap.
    + repeat constructor; solve [left; reflexivity|right; reflexivity].
  - f_equal. unfold signed_area, det2. cbn [edges combine app map fst snd sumR]. destruct (H 0%nat ltac:(lia)) as (-> & -> & -> & ->), (H 1%nat ltac:(lia)) as (-> & -> & -> & ->). field.
  - rewrite M. rewrite lagrange2, abs_sqrt. unfold det2. apply sqrt_le_1_alt. pose proof (pow2_ge_0 (u 0%nat * v 0%nat + u 1%nat * v 1%nat)). lra.
  - rewrite M. unfold det2. rewrite area_iff. unfold sprod. cbn. split; intros E; lra.
  - intros f If. unfold measure_cart_edge. rewrite norm2_eq. unfold edist, psubt. f_equal. cbn. ring.
Qed.
(** a 3D cell: the six faces close up, and the volume they enclose is the determinant of the sides *)
Theorem C194_faces : forall cell o u v w, box_cell cell o u v w -> exists flags, length flags = 6%nat /\
  closed_surface (combine flags (cart_faces3 cell)) /\
  (forall x, polyhedron_volume x (combine flags (cart_faces3 cell)) = det3 u v w) /\
  (orthogonal3 u v w -> forall f, In f (cart_faces3 cell) -> measure_cart_face f = sqrt (sprod 3 (area_vector f) (area_vector f))).
Proof.
  intros cell o u v w B. destruct (box_corners _ _ _ _ _ B) as (p0 & p1 & p2 & p3 & p4 & p5 & p6 & p7 & -> & H).
  exists [false; true; false; true; false; true]. split; [reflexivity|]. unfold cart_faces3, at_pt. cbn [nth combine]. split; [|split].
  - unfold closed_surface. clear. find_perm.
  - intros x. destruct (H 0%nat ltac:(lia)) as (A0 & A1 & A2 & A3 & A4 & A5 & A6 & A7), (H 1%nat ltac:(lia)) as (B0 & B1 & B2 & B3 & B4 & B5 & B6 & B7), (H 2%nat ltac:(lia)) as (D0 & D1 & D2 & D3 & D4 & D5 & D6 & D7).
    unfold polyhedron_volume. cbn [map sumR]. unfold cone_volume. cbn [fst snd nth]. rewrite !sprod3'. unfold area_vector, poly_area2, wedge, sgn, det3. cbn [edges combine app map fst snd sumR].
    rewrite A0, A1, A2, A3, A4, A5, A6, A7, B0, B1, B2, B3, B4, B5, B6, B7, D0, D1, D2, D3, D4, D5, D6, D7. field.
  - intros (UV & VW & WU) f [<-|[<-|[<-|[<-|[<-|[<-|[]]]]]]].
    1-2: apply (face_measure _ _ _ _ v w); [|exact VW].
    3-4: apply (face_measure _ _ _ _ u v); [|exact UV].
    5-6: apply (face_measure _ _ _ _ w u); [|exact WU].
    all: intros i Hi; destruct (H i Hi) as (? & ? & ? & ? & ? & ? & ? & ?); repeat split; lra.
Qed.
(** measure is never less than the volume, and is the volume exactly for cells with right angles *)
Theorem C194_volume : forall cell o u v w, box_cell cell o u v w ->
  Rabs (det3 u v w) <= measure_cart3 cell /\
  (orthogonal3 u v w -> measure_cart3 cell = Rabs (det3 u v w)) /\
  (nonzero3 u -> nonzero3 v -> nonzero3 w -> measure_cart3 cell = Rabs (det3 u v w) -> orthogonal3 u v w).
Proof.
  intros cell o u v w B. rewrite (measure_cart3_sides _ _ _ _ _ B), abs_sqrt. split; [|split].
  - apply sqrt_le_1_alt, hadamard_le.
  - intros O. now rewrite (orthogonal_det u v w O).
  - intros Nu Nv Nw E. apply (hadamard_iff u v w Nu Nv Nw). symmetry. apply sqrt_inj; [|apply pow2_ge_0|exact E]. auto using sprod3_nonneg, Rmult_le_pos.
Qed.

(** ** C195 *)
(** the points are put into the order of the tensor rules: plane, space, faces *)
Theorem C195_plane : forall cell o u v degree, rect_cell cell o u v -> 0 <= det2 u v -> exists p0 p1 p2 p3, cell = [p0; p1; p2; p3] /\
  ((40 <= degree)%nat -> integrate_cart2 cell degree = Throw InvalidArgument) /\
  ((degree < 40)%nat -> exists r, integrate_cart2 cell degree = Ok r /\
    forall p I, pvars 2 p -> (pdeg p <= degree)%nat -> is_int_quad p0 p1 p3 p2 (peval p) I ->
      Rabs (qsum r (peval p) - I) <= 5 * quad_eps * (det2 u v / 4) * pmag p (pgram_radius p0 p1 p2)).
Proof.
  intros cell o u v degree B D. destruct (rect_corners _ _ _ _ B) as (p0 & p1 & p2 & p3 & -> & H). exists p0, p1, p2, p3. split; [reflexivity|]. unfold integrate_cart2, at_pt. cbn [nth].
  assert (E : cross2 p0 p1 p2 = det2 u v) by (unfold cross2, det2; destruct (H 0%nat ltac:(lia)) as (-> & -> & -> & _), (H 1%nat ltac:(lia)) as (-> & -> & -> & _); ring).
  split; [exact (proj1 (C28_rule degree p0 p1 p3 p2))|]. intros L. rewrite <- E. apply C28_tensorized_parallelogram; [exact L| |rewrite E; exact D].
  intros i Hi. destruct (H i Hi) as (-> & -> & -> & ->). ring.
Qed.
Theorem C195_space : forall cell o u v w degree, box_cell cell o u v w -> exists p0 p1 p2 p3 p4 p5 p6 p7, cell = [p0; p1; p2; p3; p4; p5; p6; p7] /\
  ((40 <= degree)%nat -> integrate_cart3 cell degree = Throw InvalidArgument) /\
  ((degree < 40)%nat -> exists r, integrate_cart3 cell degree = Ok r /\
    forall q I, pvars 3 q -> (pdeg q <= degree)%nat -> is_int_ppiped p0 p1 p2 p4 (peval q) I ->
      Rabs (qsum r (peval q) - I) <= 20 * quad_eps * (Rabs (det3 u v w) / 8) * pmag q (ppiped_radius p0 p1 p2 p4)).
Proof.
  intros cell o u v w degree B. destruct (box_corners _ _ _ _ _ B) as (p0 & p1 & p2 & p3 & p4 & p5 & p6 & p7 & -> & H).
  exists p0, p1, p2, p3, p4, p5, p6, p7. split; [reflexivity|]. unfold integrate_cart3. cbn [at_pt nth].
  change (at_pt [p0; p1; p2; p3; p4; p5; p6; p7] 0) with p0. change (at_pt [p0; p1; p2; p3; p4; p5; p6; p7] 1) with p1. change (at_pt [p0; p1; p2; p3; p4; p5; p6; p7] 2) with p2. change (at_pt [p0; p1; p2; p3; p4; p5; p6; p7] 3) with p3.
  change (at_pt [p0; p1; p2; p3; p4; p5; p6; p7] 4) with p4. change (at_pt [p0; p1; p2; p3; p4; p5; p6; p7] 5) with p5. change (at_pt [p0; p1; p2; p3; p4; p5; p6; p7] 6) with p6. change (at_pt [p0; p1; p2; p3; p4; p5; p6; p7] 7) with p7.
  pose proof (C70_hexahedron degree (at_pt [p0; p1; p3; p2; p4; p5; p7; p6])) as (T & C). split; [exact T|]. intros L.
  destruct (C L) as (r & E & X).
  - intros i Hi. unfold at_pt. cbn [nth]. destruct (H i Hi) as (-> & -> & -> & -> & -> & -> & -> & ->). repeat split; ring.
  - exists r. split; [exact E|]. intros q I V Dg HI. specialize (X q I V Dg HI). unfold at_pt in X. cbn [nth] in X.
    replace (det3 u v w) with (triple p0 p1 p2 p4); [exact X|]. unfold triple, det3.
    destruct (H 0%nat ltac:(lia)) as (-> & -> & -> & _ & -> & _), (H 1%nat ltac:(lia)) as (-> & -> & -> & _ & -> & _), (H 2%nat ltac:(lia)) as (-> & -> & -> & _ & -> & _). ring.
Qed.
(** the faces of a cell with right angles are integrated over the face *)
Theorem C195_face : forall cell o u v w degree f, box_cell cell o u v w -> orthogonal3 u v w -> In f (cart_faces3 cell) -> exists a b c d, f = [a; b; c; d] /\
  ((40 <= degree)%nat -> integrate_cart_face f degree = Throw InvalidArgument) /\
  ((degree < 40)%nat -> exists r, integrate_cart_face f degree = Ok r /\
    forall p I, pvars 3 p -> (pdeg p <= degree)%nat -> is_int_pgram3 a b d (peval p) I ->
      Rabs (qsum r (peval p) - I) <= 5 * quad_eps * (sqrt (cross3_sq a b d) / 4) * pmag p (pgram_radius a b d)).
Proof.
  intros cell o u v w degree f B (UV & VW & WU) If. destruct (box_corners _ _ _ _ _ B) as (p0 & p1 & p2 & p3 & p4 & p5 & p6 & p7 & -> & H).
  assert (G : forall a b c d s t, (forall i, (i < 3)%nat -> b i - a i = s i /\ d i - a i = t i /\ c i - a i = s i + t i) -> sprod 3 s t = 0 ->
    ((40 <= degree)%nat -> integrate_cart_face [a; b; c; d] degree = Throw InvalidArgument) /\
    ((degree < 40)%nat -> exists r, integrate_cart_face [a; b; c; d] degree = Ok r /\
    forall p I, pvars 3 p -> (pdeg p <= degree)%nat -> is_int_pgram3 a b d (peval p) I ->
      Rabs (qsum r (peval p) - I) <= 5 * quad_eps * (sqrt (cross3_sq a b d) / 4) * pmag p (pgram_radius a b d))).
  { intros a b c d s t K O. unfold integrate_cart_face, at_pt. cbn [nth]. destruct (C70_face degree a b c d) as (T & C). split; [exact T|]. intros L. apply C; [exact L| |].
    - intros i Hi. destruct (K i Hi) as (? & ? & ?). lra.
    - transitivity (sprod 3 s t); [|exact O]. rewrite sprod3'. cbn [dot]. unfold psubt. destruct (K 0%nat ltac:(lia)) as (-> & -> & _), (K 1%nat ltac:(lia)) as (-> & -> & _), (K 2%nat ltac:(lia)) as (-> & -> & _). ring. }
  unfold cart_faces3, at_pt in If. cbn [nth] in If.
  destruct If as [<-|[<-|[<-|[<-|[<-|[<-|[]]]]]]]; (eexists _, _, _, _; split; [reflexivity|]).
  1-2: apply (G _ _ _ _ v w); [|exact VW].
  3-4: apply (G _ _ _ _ u v); [|exact UV].
  5-6: apply (G _ _ _ _ w u); [|exact WU].
  all: intros i Hi; destruct (H i Hi) as (? & ? & ? & ? & ? & ? & ? & ?); repeat split; lra.
Qed.
(** the weights of the rule of a cell with right angles add up to measure, up to the tables *)
Lemma cube3_one : is_int_cube 3 (fun _ => 1) 8.
Proof.
  cbn [is_int_cube]. exists (fun _ => 4). split.
  - intros s. exists (fun _ => 2). split.
    + intros s'. exists (fun _ => 1). split; [reflexivity|]. exists (fun x => x). split; [|lra]. intros x. apply derivable_pt_lim_id.
    + exists (fun x => 2 * x). split; [|lra]. intros x. pose proof (derivable_pt_lim_scal id 2 x 1 (derivable_pt_lim_id x)) as D. rewrite Rmult_1_r in D. exact D.
  - exists (fun x => 4 * x). split; [|lra]. intros x. pose proof (derivable_pt_lim_scal id 4 x 1 (derivable_pt_lim_id x)) as D. rewrite Rmult_1_r in D. exact D.
Qed.
Theorem C195_weights : forall cell o u v w degree, box_cell cell o u v w -> orthogonal3 u v w -> (degree < 40)%nat ->
  exists r, integrate_cart3 cell degree = Ok r /\ Rabs (sumR (map snd r) - measure_cart3 cell) <= 20 * quad_eps * (measure_cart3 cell / 8).
Proof.
  intros cell o u v w degree B O L. destruct (C195_space cell o u v w degree B) as (p0 & p1 & p2 & p3 & p4 & p5 & p6 & p7 & Ec & _ & C).
  destruct (C L) as (r & E & X). exists r. split; [exact E|]. destruct (C194_volume cell o u v w B) as (_ & M & _). specialize (M O).
  assert (Tr : triple p0 p1 p2 p4 = det3 u v w).
  { destruct (box_corners _ _ _ _ _ B) as (q0 & q1 & q2 & q3 & q4 & q5 & q6 & q7 & Eq & H). rewrite Ec in Eq. injection Eq as <- <- <- <- <- <- <- <-. unfold triple, det3.
    destruct (H 0%nat ltac:(lia)) as (-> & -> & -> & _ & -> & _), (H 1%nat ltac:(lia)) as (-> & -> & -> & _ & -> & _), (H 2%nat ltac:(lia)) as (-> & -> & -> & _ & -> & _). ring. }
  specialize (X (PC 1) (measure_cart3 cell) I ltac:(cbn; lia)).
  assert (Q : qsum r (peval (PC 1)) = sumR (map snd r)) by (clear; induction r as [|[x wt] r IH]; cbn [qsum map snd sumR peval]; [reflexivity|]; cbn [peval] in IH; rewrite IH; ring).
  rewrite Q in X. rewrite M in X |- *. eapply Rle_trans; [apply X|].
  - exists 8. split; [exact cube3_one|]. rewrite Tr. field.
  - cbn [pmag]. rewrite Rabs_R1. lra.
Qed.

(** ** concrete cases: the box of make_single_element_mesh, and a sheared cell *)
Example C194_unit : box_cell [pt3 1 2 3; pt3 3 2 3; pt3 1 5 3; pt3 3 5 3; pt3 1 2 7; pt3 3 2 7; pt3 1 5 7; pt3 3 5 7] (pt3 1 2 3) (pt3 2 0 0) (pt3 0 3 0) (pt3 0 0 4) /\
  orthogonal3 (pt3 2 0 0) (pt3 0 3 0) (pt3 0 0 4) /\ det3 (pt3 2 0 0) (pt3 0 3 0) (pt3 0 0 4) = 24 /\
  rect_cell [pt2 1 2; pt2 3 2; pt2 1 5; pt2 3 5] (pt2 1 2) (pt2 2 0) (pt2 0 3) /\ det2 (pt2 2 0) (pt2 0 3) = 6.
Proof.
  split; [|split; [|split; [|split]]].
  - split; [reflexivity|]. intros bu bv bw i Hi. destruct bu, bv, bw, i as [|[|[|i]]]; try lia; cbn; lra.
  - repeat split; unfold sprod; cbn; lra.
  - unfold det3. cbn. lra.
  - split; [reflexivity|]. intros bu bv i Hi. destruct bu, bv, i as [|[|i]]; try lia; cbn; lra.
  - unfold det2. cbn. lra.
Qed.
Example C194_shear : let u := pt3 1 0 0 in let v := pt3 1 1 0 in let w := pt3 0 0 1 in
  let cell := [pt3 0 0 0; pt3 1 0 0; pt3 1 1 0; pt3 2 1 0; pt3 0 0 1; pt3 1 0 1; pt3 1 1 1; pt3 2 1 1] in
  box_cell cell (pt3 0 0 0) u v w /\ det3 u v w = 1 /\ measure_cart3 cell = sqrt 2.
Proof.
  cbv zeta.
  assert (B : box_cell [pt3 0 0 0; pt3 1 0 0; pt3 1 1 0; pt3 2 1 0; pt3 0 0 1; pt3 1 0 1; pt3 1 1 1; pt3 2 1 1] (pt3 0 0 0) (pt3 1 0 0) (pt3 1 1 0) (pt3 0 0 1)).
  { split; [reflexivity|]. intros bu bv bw i Hi. destruct bu, bv, bw, i as [|[|[|i]]]; try lia; cbn; lra. }
  split; [exact B|]. split; [unfold det3; cbn; lra|]. rewrite (measure_cart3_sides _ _ _ _ _ B). f_equal. unfold sprod. cbn. lra.
Qed.

Print Assumptions C194_rectangle.
Print Assumptions C194_faces.
Print Assumptions C194_volume.
Print Assumptions C195_plane.
Print Assumptions C195_space.
Print Assumptions C195_face.
Print Assumptions C195_weights.
