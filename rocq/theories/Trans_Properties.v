(** Theorems about mesh::transform. *)
From Coq Require Import Reals List Lia Lra Permutation.
From Verif Require Import Common Poly_Spec HHO_Spec Quad_Model Quad_Spec Quad_Proofs Geo_Spec Geo_Model Geo_Proofs Geo2_Proofs Geo3_Proofs Geo4_Proofs Geo_Properties Trans_Spec Trans_Model.
From Verif Require HHO_Proofs.
Import ListNotations.
Open Scope R_scope.

(** ** C208 *)
(** the points of an element are the images of the points of the mesh with its numbers, and it has points exactly if all numbers are
    those of points *)
Theorem C208_points : forall tr points ids qs, points_of_elem (transform tr points) ids = Ok qs <->
  Forall2 (fun i q => exists p, nth_error points i = Some p /\ q = tr p) ids qs.
Proof.
  intros tr points ids. unfold points_of_elem, transform. rewrite map_length. induction ids as [|i ids IH]; intros qs; cbn [forallb map].
  - split; [intros E; injection E as <-; constructor|intros F; inversion F; reflexivity].
  - destruct (Nat.ltb i (length points)) eqn:E; cbn [andb].
    + apply Nat.ltb_lt in E. destruct (nth_error points i) as [p|] eqn:N; [|apply nth_error_None in N; lia].
      assert (Q : nth i (map tr points) (fun _ => 0) = tr p) by (apply nth_error_nth, map_nth_error, N). rewrite Q. clear Q.
      destruct (forallb _ ids) eqn:B; split; intros F.
      * injection F as <-. constructor; [exists p; split; [exact N|reflexivity]|apply IH; reflexivity].
      * inversion F as [|i' q ids' qs' (p' & N' & ->) F' E1 E2]; subst. rewrite N in N'. injection N' as <-. apply IH in F'. injection F' as <-. reflexivity.
      * discriminate.
      * inversion F as [|i' q ids' qs' P F' E1 E2]; subst. apply IH in F'. discriminate.
    + apply Nat.ltb_ge in E. apply nth_error_None in E. split; intros F; [discriminate|].
      inversion F as [|i' q ids' qs' (p' & N' & _) F' E1 E2]; subst. rewrite E in N'. discriminate.
Qed.
(** every element has the images of its points, in the same order *)
Theorem C208_image : forall tr points ids, points_of_elem (transform tr points) ids =
  match points_of_elem points ids with Ok ps => Ok (map tr ps) | Throw e => Throw e | UB => UB end.
Proof.
  intros tr points ids. unfold points_of_elem, transform. rewrite map_length.
  destruct (forallb _ ids) eqn:E; [|reflexivity]. f_equal. rewrite map_map. apply map_ext_in. intros i Hi.
  rewrite forallb_forall in E. specialize (E i Hi). apply Nat.ltb_lt in E.
  rewrite (nth_indep (map tr points) _ (tr (fun _ => 0))) by (rewrite map_length; exact E). apply map_nth.
Qed.
Lemma cross2_affine M v a b c : cross2 (affine 2 M v a) (affine 2 M v b) (affine 2 M v c) = det2 M * cross2 a b c.
Proof. unfold cross2, affine, det2. cbn [sg]. ring. Qed.
Lemma triple_affine M v a b c d : triple (affine 3 M v a) (affine 3 M v b) (affine 3 M v c) (affine 3 M v d) = det3 M * triple a b c d.
Proof. unfold triple, affine, det3. cbn [sg]. ring. Qed.
(** an affine map multiplies the measures of triangles and tetrahedra by the size of its determinant *)
Theorem C208_triangle : forall M v points a b c p0 p1 p2, points_of_elem points [a; b; c] = Ok [p0; p1; p2] ->
  exists q0 q1 q2, points_of_elem (transform (affine 2 M v) points) [a; b; c] = Ok [q0; q1; q2] /\
  area_triangle_kahan 2 q0 q1 q2 = Rabs (det2 M) * area_triangle_kahan 2 p0 p1 p2.
Proof.
  intros M v points a b c p0 p1 p2 H. exists (affine 2 M v p0), (affine 2 M v p1), (affine 2 M v p2). rewrite C208_image, H. split; [reflexivity|].
  rewrite !kahan2, cross2_affine, Rabs_mult. field.
Qed.
Theorem C208_tetrahedron : forall M v points a b c d p0 p1 p2 p3, points_of_elem points [a; b; c; d] = Ok [p0; p1; p2; p3] ->
  exists q0 q1 q2 q3, points_of_elem (transform (affine 3 M v) points) [a; b; c; d] = Ok [q0; q1; q2; q3] /\
  volume_tetrahedron_kahan q0 q1 q2 q3 = Rabs (det3 M) * volume_tetrahedron_kahan p0 p1 p2 p3.
Proof.
  intros M v points a b c d p0 p1 p2 p3 H. exists (affine 3 M v p0), (affine 3 M v p1), (affine 3 M v p2), (affine 3 M v p3). rewrite C208_image, H. split; [reflexivity|].
  rewrite !volume_triple, triple_affine, Rabs_mult. field.
Qed.
(** the barycenter (mean of the points) follows every affine map, in every dimension *)
Lemma fold_padd l : forall p i, fold_left padd l p i = p i + sumR (map (fun q : pt => q i) l).
Proof. induction l as [|q l IH]; intros p i; cbn [fold_left map sumR]; [lra|]. rewrite IH. unfold padd. lra. Qed.
Lemma sum_affine D M v i l : sumR (map (fun q : pt => q i) (map (affine D M v) l)) = sg D (fun j => M i j * sumR (map (fun q : pt => q j) l)) + INR (length l) * v i.
Proof.
  induction l as [|q l IH].
  - cbn [map sumR length INR]. rewrite (HHO_Proofs.sg_ext D _ (fun j => 0 * 0)) by (intros; ring). rewrite HHO_Proofs.sg_scal. ring.
  - cbn [map sumR]. rewrite IH. cbn [length]. rewrite S_INR. unfold affine at 1.
    rewrite (HHO_Proofs.sg_ext D (fun j => M i j * (q j + _)) (fun j => M i j * q j + M i j * sumR (map (fun q : pt => q j) l))) by (intros; ring).
    rewrite HHO_Proofs.sg_plus. ring.
Qed.
Theorem C208_barycenter : forall D M v points ids ps, points_of_elem points ids = Ok ps -> ids <> [] ->
  exists qs c c', points_of_elem (transform (affine D M v) points) ids = Ok qs /\
  barycenter ps = Ok c /\ barycenter qs = Ok c' /\ (forall i, c' i = affine D M v c i) /\
  forall i, INR (length ids) * c' i = sumR (map (fun p => affine D M v p i) ps).
Proof.
  intros D M v points ids ps H N. rewrite C208_image, H. exists (map (affine D M v) ps).
  destruct ps as [|p t]. { exfalso. unfold points_of_elem in H. destruct (forallb _ ids); [|discriminate]. destruct ids; [now apply N|discriminate]. }
  set (n := INR (length (p :: t))).
  exists (pscale (/ n) (fold_left padd t p)), (pscale (/ n) (fold_left padd (map (affine D M v) t) (affine D M v p))).
  split; [reflexivity|]. split; [reflexivity|]. split.
  { unfold n. rewrite <- (map_length (affine D M v) (p :: t)). reflexivity. }
  assert (L : n <> 0) by (apply not_0_INR; discriminate). split; [|intros i; replace (length ids) with (length (p :: t))].
  2: { fold n. unfold pscale. rewrite fold_padd, map_map. cbn [map sumR]. field. exact L. }
  2: { unfold points_of_elem in H. destruct (forallb _ ids); [|discriminate]. injection H as H. rewrite <- H, map_length. reflexivity. }
  intros i. unfold pscale at 1. rewrite fold_padd. pose proof (sum_affine D M v i (p :: t)) as S. fold n in S. cbn [map sumR] in S. rewrite S. clear S.
  unfold affine. rewrite Rmult_plus_distr_l, <- HHO_Proofs.sg_scal. f_equal; [|field; exact L].
  apply HHO_Proofs.sg_ext. intros j _. unfold pscale. rewrite fold_padd. ring.
Qed.
Lemma norm_sg D (a b : pt) : norm D (psubt a b) = sqrt (sg D (fun i => (a i - b i) ^ 2)).
Proof. unfold norm. f_equal. induction D as [|D IH]; cbn [dot sg]; [reflexivity|]. rewrite IH. unfold psubt. ring. Qed.
Lemma sg_sq D (a b : pt) : 0 <= sg D (fun i => (a i - b i) ^ 2).
Proof. induction D as [|D IH]; cbn [sg]; [lra|]. pose proof (pow2_ge_0 (a D - b D)). lra. Qed.
(** a similarity of ratio h multiplies the diameters by h *)
Lemma diam_fold D f h p l : 0 <= h -> (forall a b, norm D (psubt (f a) (f b)) = h * norm D (psubt a b)) -> forall d,
  fold_left (fun d q => max_with d (norm D (psubt (f p) q))) (map f l) (h * d) = h * fold_left (fun d q => max_with d (norm D (psubt p q))) l d.
Proof.
  intros Hh S. induction l as [|q l IH]; intros d; cbn [map fold_left]; [reflexivity|]. rewrite <- IH. f_equal. unfold max_with. rewrite S, RmaxRmult by exact Hh. reflexivity.
Qed.
Lemma diam_from D f h l : 0 <= h -> (forall a b, norm D (psubt (f a) (f b)) = h * norm D (psubt a b)) -> forall d,
  diameter_from D (map f l) (h * d) = h * diameter_from D l d.
Proof. intros Hh S. induction l as [|q l IH]; intros d; cbn [map diameter_from]; [reflexivity|]. rewrite (diam_fold D f h) by assumption. apply IH. Qed.
Theorem C208_diameter : forall D h f points ids ps, 0 <= h ->
  (forall a b : pt, sg D (fun i => (f a i - f b i) ^ 2) = h ^ 2 * sg D (fun i => (a i - b i) ^ 2)) ->
  points_of_elem points ids = Ok ps -> ids <> [] -> exists qs, points_of_elem (transform f points) ids = Ok qs /\
  diameter D qs = h * diameter D ps /\
  (forall p q, In p ps -> In q ps -> h * edist D p q <= diameter D qs) /\
  (exists p q, In p ps /\ In q ps /\ diameter D qs = h * edist D p q).
Proof.
  intros D h f points ids ps Hh S H N. rewrite C208_image, H. exists (map f ps). split; [reflexivity|].
  assert (E : diameter D (map f ps) = h * diameter D ps).
  { unfold diameter. rewrite <- (Rmult_0_r h) at 1.
    apply diam_from; [exact Hh|]. intros a b. rewrite !norm_sg, S, sqrt_mult; [|apply pow2_ge_0|apply sg_sq]. rewrite sqrt_pow2 by exact Hh. reflexivity. }
  assert (NP : ps <> []). { intros ->. unfold points_of_elem in H. destruct (forallb _ ids); [|discriminate]. destruct ids; [now apply N|discriminate]. }
  destruct (C77_diameter D ps NP) as (U & (p & q & Ip & Iq & A) & _). split; [exact E|]. rewrite E. split.
  - intros x y Ix Iy. apply Rmult_le_compat_l; [exact Hh|apply U; assumption].
  - exists p, q. rewrite A. auto.
Qed.
(** polygonal cells: a map that keeps the orientation keeps convexity and multiplies the measure by its determinant *)
Lemma area_affine M v pts : signed_area (map (affine 2 M v) pts) = det2 M * signed_area pts.
Proof.
  apply (Rmult_eq_reg_l 6); [|lra]. rewrite <- Rmult_assoc, (Rmult_comm 6 (det2 M)), Rmult_assoc, !signed_area_fan, fan_map, map_map. generalize (fan pts). intros l.
  induction l as [|[[a b] c] l IH]; cbn [map sumR]; [ring|]. rewrite IH, Rmult_plus_distr_l. f_equal. unfold tmom, aff. rewrite cross2_affine. ring.
Qed.
Lemma convex_affine M v pts : 0 < det2 M -> convex_polygon pts -> convex_polygon (map (affine 2 M v) pts).
Proof.
  intros HD (L & C). split; [rewrite map_length; exact L|]. intros a b I. rewrite edges_map in I. apply in_map_iff in I. destruct I as ([e f] & E & I).
  cbn [fst snd] in E. injection E as <- <-. destruct (C e f I) as (N & P). split.
  - destruct (Req_dec (affine 2 M v e 0%nat) (affine 2 M v f 0%nat)) as [E0|E0]; [|left; exact E0]. right. intros E1. unfold affine in E0, E1. cbn [sg] in E0, E1.
    set (x := e 0%nat - f 0%nat). set (y := e 1%nat - f 1%nat).
    assert (A0 : M 0%nat 0%nat * x + M 0%nat 1%nat * y = 0) by (unfold x, y; lra). assert (A1 : M 1%nat 0%nat * x + M 1%nat 1%nat * y = 0) by (unfold x, y; lra).
    assert (X : det2 M * x = 0). { unfold det2. replace (_ * x) with (M 1%nat 1%nat * (M 0%nat 0%nat * x + M 0%nat 1%nat * y) - M 0%nat 1%nat * (M 1%nat 0%nat * x + M 1%nat 1%nat * y)) by ring. rewrite A0, A1. ring. }
    assert (Y : det2 M * y = 0). { unfold det2. replace (_ * y) with (M 0%nat 0%nat * (M 1%nat 0%nat * x + M 1%nat 1%nat * y) - M 1%nat 0%nat * (M 0%nat 0%nat * x + M 0%nat 1%nat * y)) by ring. rewrite A0, A1. ring. }
    apply Rmult_integral in X. apply Rmult_integral in Y. destruct X as [X|X]; [lra|]. destruct Y as [Y|Y]; [lra|]. unfold x, y in X, Y. destruct N as [N|N]; apply N; lra.
  - intros c Hc. apply in_map_iff in Hc. destruct Hc as (c' & <- & Hc). rewrite cross2_affine. apply Rmult_le_pos; [lra|apply P, Hc].
Qed.
Theorem C208_polygon_partial : forall M v pts faces, 0 < det2 M -> convex_polygon pts -> 0 < signed_area pts -> edges_as_faces faces pts ->
  let f := affine 2 M v in let faces' := map (fun e => (f (fst e), f (snd e))) faces in
  is_convex (map f pts) = true /\
  exists m, measure_polygon pts faces = Some m /\ measure_polygon (map f pts) faces' = Some (det2 M * m).
Proof.
  intros M v pts faces HD HC HA HE f faces'. pose proof (convex_affine M v pts HD HC) as HC'. fold f in HC'. split; [apply C76_accepts_convex, HC'|].
  exists (signed_area pts). split; [apply (C73_polygon_measure_partial pts faces HC HA HE)|].
  assert (EA : signed_area (map f pts) = det2 M * signed_area pts) by apply area_affine.
  rewrite <- EA. apply (C73_polygon_measure_partial (map f pts) faces' HC').
  - rewrite EA. apply Rmult_lt_0_compat; assumption.
  - destruct HE as (es & PE & F2). exists (map (fun e => (f (fst e), f (snd e))) es). split.
    + rewrite edges_map. apply Permutation_map, PE.
    + unfold faces'. clear -F2. induction F2 as [|x y l l' S F IH]; cbn [map]; constructor; [|exact IH].
      destruct S as [->| ->]; [left; reflexivity|right; reflexivity].
Qed.
(** a reflection leaves the points of polygonal cells in clockwise order: a square is then not convex for is_convex *)
Definition sqr : list pt := [pt2 0 0; pt2 1 0; pt2 1 1; pt2 0 1].
Definition mirror : mtx := fun i j => if Nat.eqb i j then (if Nat.eqb i 0 then -1 else 1) else 0.
Theorem C208_reflection_refuted : ~ (forall M v pts, det2 M <> 0 -> convex_polygon pts -> is_convex (map (affine 2 M v) pts) = true).
Proof.
  intros H. assert (D : det2 mirror <> 0) by (unfold det2, mirror; cbn; lra).
  assert (C : convex_polygon sqr).
  { split; [cbn; lia|]. intros a b I. cbn in I. repeat (destruct I as [I|I]; [injection I as <- <-; split; [cbn; lra|intros c Hc; cbn in Hc; repeat (destruct Hc as [<-|Hc]; [unfold cross2; cbn; lra|]); destruct Hc]|]). destruct I. }
  specialize (H mirror (fun _ => 0) sqr D C). apply C76_quadrangle in H. unfold convex_ccw, cross2, affine, mirror in H. cbn in H. lra.
Qed.

(** the hypotheses hold for the square and the map (x, y) -> (2 x + y, y) + (1, 0): the area doubles *)
Definition shear : mtx := fun i j => match i, j with O, O => 2 | O, _ => 1 | _, O => 0 | _, _ => 1 end.
Example C208_square : exists m, measure_polygon sqr (edges sqr) = Some m /\
  measure_polygon (map (affine 2 shear (pt2 1 0)) sqr) (map (fun e => (affine 2 shear (pt2 1 0) (fst e), affine 2 shear (pt2 1 0) (snd e))) (edges sqr)) = Some (2 * m).
Proof.
  assert (D : det2 shear = 2) by (unfold det2, shear; ring).
  cut (exists m, measure_polygon sqr (edges sqr) = Some m /\
    measure_polygon (map (affine 2 shear (pt2 1 0)) sqr) (map (fun e => (affine 2 shear (pt2 1 0) (fst e), affine 2 shear (pt2 1 0) (snd e))) (edges sqr)) = Some (det2 shear * m)).
  { intros (m & A & B). exists m. split; [exact A|]. rewrite D in B. exact B. }
  apply C208_polygon_partial.
  - rewrite D. lra.
  - split; [cbn; lia|]. intros a b I. cbn in I. repeat (destruct I as [I|I]; [injection I as <- <-; split; [cbn; lra|intros c Hc; cbn in Hc; repeat (destruct Hc as [<-|Hc]; [unfold cross2; cbn; lra|]); destruct Hc]|]). destruct I.
  - unfold signed_area, sqr. cbn. lra.
  - exists (edges sqr). split; [apply Permutation_refl|]. generalize (edges sqr). induction l; constructor; [now left|assumption].
Qed.
Example C208_cell : exists q0 q1 q2, points_of_elem (transform (affine 2 shear (pt2 1 0)) sqr) [0; 1; 2]%nat = Ok [q0; q1; q2] /\ area_triangle_kahan 2 q0 q1 q2 = 1.
Proof.
  destruct (C208_triangle shear (pt2 1 0) sqr 0 1 2 (pt2 0 0) (pt2 1 0) (pt2 1 1) eq_refl) as (q0 & q1 & q2 & E & A). exists q0, q1, q2. split; [exact E|].
  rewrite A, kahan2. replace (cross2 _ _ _) with 1 by (unfold cross2; cbn; ring). replace (det2 shear) with 2 by (unfold det2, shear; ring).
  rewrite !Rabs_right by lra. field.
Qed.
(** a quarter turn with ratio 3 triples the diameters, and the barycenter of the square follows it *)
Definition turn3 : mtx := fun i j => match i, j with O, 1%nat => -3 | 1%nat, O => 3 | _, _ => 0 end.
Example C208_turn : exists qs, points_of_elem (transform (affine 2 turn3 (pt2 1 0)) sqr) [0; 1; 2; 3]%nat = Ok qs /\ diameter 2 qs = 3 * diameter 2 sqr.
Proof.
  destruct (C208_diameter 2 3 (affine 2 turn3 (pt2 1 0)) sqr [0; 1; 2; 3]%nat sqr) as (qs & A & B & _); [lra| |reflexivity|discriminate|exists qs; split; assumption].
  intros a b. unfold affine, turn3. cbn [sg]. ring.
Qed.
Example C208_center : exists qs c c', points_of_elem (transform (affine 2 turn3 (pt2 1 0)) sqr) [0; 1; 2; 3]%nat = Ok qs /\
  barycenter sqr = Ok c /\ barycenter qs = Ok c' /\ (forall i, c' i = affine 2 turn3 (pt2 1 0) c i) /\
  forall i, 4 * c' i = sumR (map (fun p => affine 2 turn3 (pt2 1 0) p i) sqr).
Proof.
  destruct (C208_barycenter 2 turn3 (pt2 1 0) sqr [0; 1; 2; 3]%nat sqr eq_refl) as (qs & c & c' & A & B & C & E & F); [discriminate|].
  exists qs, c, c'. repeat split; try assumption. intros i. rewrite <- F. cbn [length]. rewrite !S_INR. cbn [INR]. ring.
Qed.
Print Assumptions C208_barycenter.
Print Assumptions C208_diameter.
Print Assumptions C208_image.
Print Assumptions C208_points.
Print Assumptions C208_triangle.
Print Assumptions C208_tetrahedron.
Print Assumptions C208_polygon_partial.
Print Assumptions C208_reflection_refuted.
