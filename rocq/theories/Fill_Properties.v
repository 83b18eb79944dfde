(** The tetrahedra of a strictly convex polyhedral cell are the cell (C192), the triangles of a plane convex face are the face (C193). *)
From Coq Require Import Reals List Arith Lra Lia Permutation.
From Verif Require Import Common Poly_Spec Quad_Model Quad_Spec Geo_Spec Geo_Model Geo_Proofs Geo2_Proofs
  Shape_Spec Shape_Properties GM_Model Polyh_Model Polyh_Spec Polyh_Proofs Polyh_Properties Fill_Proofs.
Import ListNotations.
Local Open Scope R_scope.

Lemma split_cuts pts l : (3 <= length pts)%nat -> split_in_raw_triangles pts = Ok l -> cuts pts l.
Proof. exact (split_cases pts l). Qed.
Lemma splits_cut fs ls : (forall f, In f fs -> (3 <= length f)%nat) -> Forall2 (fun f l => split_in_raw_triangles f = Ok l) fs ls -> Forall2 cuts fs ls.
Proof. intros H F. induction F as [|f l fs ls E F IH]; constructor; [apply split_cuts; [apply H; now left|exact E]|apply IH; intros g I; apply H; now right]. Qed.

(** ** C192 *)
(** a point is on the inner side of all the faces exactly when it is in one of the tetrahedra *)
Theorem C192_cell_fill : forall cell fs, strictly_convex cell fs -> length cell <> 4%nat ->
  exists rss, split_in_raw_tetrahedra cell (map snd fs) = Ok rss /\
  forall x, in_cell fs x <-> exists a b c d, In (a, b, c, d) rss /\ in_tetra a b c d x.
Proof.
  intros cell fs SC L4. pose proof SC as ((N & F & _) & _).
  destruct (split_tets cell (map snd fs) N L4 (faces_three cell fs F)) as (bar & ls & E & F2' & T). pose proof (splits_cut _ _ (faces_three cell fs F) F2') as F2. exists (map (cone bar) (concat ls)). split; [exact T|].
  intros x. rewrite (in_cell_gap cell fs x SC). split.
  - intros X. destruct (cell_fill cell fs x bar ls SC E F2 X) as (a & b & c & I & In4). exists bar, a, b, c. split; [|exact In4]. apply in_map_iff. exists (a, b, c). split; [reflexivity|exact I].
  - intros (a & b & c & d & I & In4). apply in_map_iff in I as ([[u v] w] & [= <- <- <- <-] & I). exact (cell_only cell fs x bar ls u v w SC E F2 I In4).
Qed.
(** the vertices belong to the cell, and so do the points of every quadrature *)
Theorem C192_points : forall cell fs degree r x w, strictly_convex cell fs -> length cell <> 4%nat ->
  integrate_cell cell (map snd fs) degree = Ok r -> In (x, w) r -> in_cell fs x.
Proof.
  intros cell fs degree r x w SC L4 E I. pose proof SC as ((N & F & _) & _). destruct (C192_cell_fill cell fs SC L4) as (rss & T & H). unfold integrate_cell in E. destruct (Nat.eqb_spec degree 0) as [_|D].
  - destruct (barycenter_mean cell N) as (bar & Eb & _). rewrite Eb in E. cbn [bind] in E. destruct (measure_cell cell (map snd fs)); cbn [bind] in E; [|discriminate|discriminate].
    injection E as <-. destruct I as [[= <- <-]|[]]. apply (in_cell_gap cell fs bar SC). intros f If. left. exact (bar_inside cell fs bar f SC Eb If).
  - destruct (Nat.ltb (length cell) 4); [discriminate|]. unfold integrate_polyhedron in E. rewrite T in E. cbn [bind] in E.
    destruct (fold_gm_in degree rss (Ok []) r x w E I) as [(L & [= <-] & [])|X]. apply H. exact X.
Qed.

(** ** C193 *)
Theorem C193_face_fill : forall n pts, convex_face n pts -> proper_polygon pts -> exists l, split_in_raw_triangles pts = Ok l /\
  forall y, in_polygon pts y <-> exists a b c, In (a, b, c) l /\ in_triangle3 a b c y.
Proof.
  intros n pts C Pr. pose proof C as (L & _). destruct (split_ok pts L) as (l & E). exists l. split; [exact E|]. intros y. rewrite (polygon_kap n pts y C Pr). pose proof (plane_from n pts C Pr) as Pl. split.
  - intros (H1 & H2). exact (face_fill n pts l y C Pr Pl (split_cuts pts l L E) H1 H2).
  - intros (a & b & c & I & In3). exact (face_only n pts l y a b c C Pl (split_cuts pts l L E) I In3).
Qed.

(** ** concrete cases *)
Ltac pt_ne H := exfalso; let a := fresh in let b := fresh in let c := fresh in
  pose proof (f_equal (fun e : pt * pt => fst e 0%nat + 10 * fst e 1%nat + 100 * fst e 2%nat) H) as a;
  pose proof (f_equal (fun e : pt * pt => snd e 0%nat + 10 * snd e 1%nat + 100 * snd e 2%nat) H) as b; cbn in a, b; lra.
Ltac proper_check := let a := fresh in let b := fresh in let I := fresh in
  intros a b I; cbn in I; repeat (destruct I as [I|I]; [|]); try contradiction; injection I as <- <-;
  match goal with |- exists c, In c ?l /\ _ =>
    let rec go t := lazymatch t with ?x :: ?t' => first [exists x; split; [cbn; tauto|unfold cross3_sq; cbn; lra]|go t'] end in let l1 := eval cbn [snd] in l in go l1 end.
Ltac bent_pair := match goal with |- exists p q r c, In p (snd (_, ?x :: ?y :: ?z :: _)) /\ _ /\ _ /\ In c (snd (_, ?l)) /\ _ =>
    let rec go t := lazymatch t with ?u :: ?t' => first [exists x, y, z, u; repeat split; try (cbn; tauto); unfold triple; cbn; lra|go t'] end in let l1 := eval cbn [snd] in l in go l1 end.
Ltac bent_same I J := exfalso; cbn in I, J; repeat (destruct I as [I|I]; [|]); try contradiction; injection I as <- <-; repeat (destruct J as [J|J]; [|]); try contradiction; pt_ne J.
Example C192_prism : strictly_convex prism prism_fs /\ length prism <> 4%nat /\ in_cell prism_fs (pt3 1 1 1) /\ ~ in_cell prism_fs (pt3 2 2 1).
Proof.
  split; [|split; [discriminate|]].
  - split; [exact (proj1 C188_prism)|]. split; [discriminate|]. split; [|split].
    + intros f p I J. cbn in I. destruct I as [<-|[<-|[<-|[<-|[<-|[]]]]]]; cbn in J |- *; tauto.
    + intros f I. cbn in I. destruct I as [<-|[<-|[<-|[<-|[<-|[]]]]]]; proper_check.
    + intros f g a b If Ig I J. cbn in If, Ig.
      destruct If as [<-|[<-|[<-|[<-|[<-|[]]]]]]; destruct Ig as [<-|[<-|[<-|[<-|[<-|[]]]]]]; first [bent_pair | bent_same I J].
  - split.
    + intros f I p J. cbn in I. destruct I as [<-|[<-|[<-|[<-|[<-|[]]]]]]; cbn in J; repeat (destruct J as [<-|J]; [|]); try contradiction;
      rewrite sprod3; unfold ndot, area_vector, poly_area2, wedge, sgn; cbn; lra.
    + intros H. specialize (H (false, [pt3 0 4 0; pt3 3 0 0; pt3 3 0 2; pt3 0 4 2]) ltac:(cbn; tauto) (pt3 3 0 0) ltac:(cbn; tauto)).
      rewrite sprod3 in H. unfold ndot, area_vector, poly_area2, wedge, sgn in H. cbn in H. lra.
Qed.
Example C193_square : let sq := [pt3 0 0 0; pt3 3 0 0; pt3 3 0 2; pt3 0 0 2] in
  convex_face (pt3 0 (-1) 0) sq /\ proper_polygon sq /\ in_polygon sq (pt3 1 0 1) /\ ~ in_polygon sq (pt3 4 0 1) /\ ~ in_polygon sq (pt3 1 1 1).
Proof.
  cbv zeta. split; [exact C191_square|]. split; [proper_check|]. split; [split|split].
  - intros p J. cbn in J. repeat (destruct J as [<-|J]; [|]); try contradiction; rewrite sprod3; unfold ndot, area_vector, poly_area2, wedge; cbn; lra.
  - intros a b I. cbn in I. repeat (destruct I as [I|I]; [|]); try contradiction; injection I as <- <-; unfold area_vector, poly_area2, tri_area2, wedge; cbn; lra.
  - intros (_ & H). specialize (H (pt3 3 0 0) (pt3 3 0 2) ltac:(cbn; tauto)). unfold area_vector, poly_area2, tri_area2, wedge in H. cbn in H. lra.
  - intros (H & _). specialize (H (pt3 0 0 0) ltac:(cbn; tauto)). rewrite sprod3 in H. unfold ndot, area_vector, poly_area2, wedge in H. cbn in H. lra.
Qed.

Print Assumptions C192_cell_fill.
Print Assumptions C192_points.
Print Assumptions C193_face_fill.
