(** Model of the geometric queries (geometry/, common/simplicial_formula.hpp,
    quadratures/bits/raw_simplices.hpp).  Coordinates are real numbers instead of
    floating-point numbers; a point of dimension D is a function of which only
    the components below D are used (see Quad_Model). *)
From Coq Require Import Reals List Lra.
From Verif Require Import Common Poly_Spec Quad_Model.
Import ListNotations.
Open Scope R_scope.

(** std::sort on an array of three numbers, as insertion sort *)
Fixpoint insertR (x : R) (l : list R) : list R :=
  match l with
  | [] => [x]
  | y :: t => if Rle_dec x y then x :: l else y :: insertR x t
  end.
Fixpoint sortR (l : list R) : list R := match l with [] => [] | x :: t => insertR x (sortR t) end.

(** simplicial_formula.hpp:47-63 *)
Definition area_triangle_kahan (D : nat) (p0 p1 p2 : pt) : R :=
  let l10 := norm D (psubt p1 p0) in
  let l20 := norm D (psubt p2 p0) in
  let l21 := norm D (psubt p2 p1) in
  let length := sortR [l10; l20; l21] in
  let a := nth 2 length 0 in let b := nth 1 length 0 in let c := nth 0 length 0 in
  1 / 4 * sqrt ((a + (b + c)) * (c - (a - b)) * (c + (a - b)) * (a + (b - c))).

(** Eigen's cross product of two 3-vectors *)
Definition vcross (u v : pt) : pt := pt3 (u 1%nat * v 2%nat - u 2%nat * v 1%nat)
  (u 2%nat * v 0%nat - u 0%nat * v 2%nat) (u 0%nat * v 1%nat - u 1%nat * v 0%nat).

(** simplicial_formula.hpp:122-132 *)
Definition volume_tetrahedron_kahan (p0 p1 p2 p3 : pt) : R :=
  let v0 := psubt p1 p0 in let v1 := psubt p2 p0 in let v2 := psubt p3 p0 in
  Rabs (dot 3 v0 (vcross v1 v2)) / 6.

(** simplicial_formula.hpp:80-109: the vertex with the largest angle and the two
    edges leaving it *)
Definition integration_basis (D : nat) (p0 p1 p2 : pt) : pt * pt * pt :=
  let pts := fun i => nth (i mod 3) [p0; p1; p2] p0 in
  let cosine i :=
    let v0 := psubt (pts (i + 1)%nat) (pts i) in let v1 := psubt (pts (i + 2)%nat) (pts i) in
    dot D (pscale (/ norm D v0) v0) (pscale (/ norm D v1) v1) in
  let step st i := if Rlt_dec (cosine i) (snd st) then (i, cosine i) else st in
  let node := fst (fold_left step [0; 1; 2]%nat (0%nat, 1)) in
  (pts node, psubt (pts (node + 1)%nat) (pts node), psubt (pts (node + 2)%nat) (pts node)).

(** geometry_simplicial.hpp:322-346: triangle cell of the plane; [None] is the
    NaN produced by 0/0 when the signed area of a degenerate cell is asked for *)
Definition measure_triangle (signed_volume : bool) (p0 p1 p2 : pt) : option R :=
  let area := area_triangle_kahan 2 p0 p1 p2 in
  if signed_volume then
    let d0 := psubt p1 p0 in let d1 := psubt p2 p0 in
    let area2 := d0 0%nat * d1 1%nat - d1 0%nat * d0 1%nat in
    if Req_EM_T area2 0 then None else Some (area2 / Rabs area2 * area)
  else Some area.
(** geometry_simplicial.hpp:347-371: same, with rational coordinates *)
Definition measure_triangle_rational (signed_volume : bool) (p0 p1 p2 : pt) : R :=
  let d0 := psubt p1 p0 in let d1 := psubt p2 p0 in
  let area := d0 0%nat * d1 1%nat - d1 0%nat * d0 1%nat in
  if signed_volume then area else Rabs area.
(** geometry_simplicial.hpp:249-272 *)
Definition measure_tetra (signed_volume : bool) (p0 p1 p2 p3 : pt) : option R :=
  let vol := volume_tetrahedron_kahan p0 p1 p2 p3 in
  if signed_volume then
    let v0 := psubt p1 p0 in let v1 := psubt p2 p0 in let v2 := psubt p3 p0 in
    let vol2 := dot 3 v0 (vcross v1 v2) / 6 in
    if Req_EM_T vol2 0 then None else Some (vol2 / Rabs vol2 * vol)
  else Some vol.

(** geometry_all.hpp:117-124: barycenter of an element given by its points;
    front() of an empty vector is undefined *)
Definition barycenter (pts : list pt) : outcome pt :=
  match pts with
  | [] => UB
  | p :: t => Ok (pscale (/ INR (length pts)) (fold_left padd t p))
  end.

(** geometry_all.hpp:157-170: loops over the pairs i < j *)
Definition max_with (d : R) (x : R) : R := Rmax x d.
Fixpoint diameter_from (D : nat) (pts : list pt) (diam : R) : R :=
  match pts with
  | [] => diam
  | p :: t => diameter_from D t (fold_left (fun d q => max_with d (norm D (psubt p q))) t diam)
  end.
Definition diameter (D : nat) (pts : list pt) : R := diameter_from D pts 0.
(** geometry_all.hpp:174-194: component [k] of diameters *)
Fixpoint diameters_from (pts : list pt) (k : nat) (w : R) : R :=
  match pts with
  | [] => w
  | p :: t => diameters_from t k (fold_left (fun d q => Rmax d (Rabs (p k - q k))) t w)
  end.
Definition diameters (pts : list pt) (k : nat) : R := diameters_from pts k 0.
(** geometry_all.hpp:197-215 *)
Definition bb_barycenter (pts : list pt) : outcome pt :=
  match pts with
  | [] => UB
  | p :: t => Ok (fun k => (fold_left (fun m q => Rmin m (q k)) t (p k) + fold_left (fun m q => Rmax m (q k)) t (p k)) / 2)
  end.
(** geometry_all.hpp:226-273 with the default axes; an element has at least one
    point, so the initial +-max() values are overwritten by the first point *)
Definition diameter_boundingbox (pts : list pt) : outcome pt :=
  match pts with
  | [] => UB
  | p :: t => Ok (fun k => Rabs (fold_left (fun m q => if Rlt_dec m (q k) then q k else m) t (p k)
                                 - fold_left (fun m q => if Rlt_dec (q k) m then q k else m) t (p k)))
  end.

(** geometry_all.hpp:285-311: note pts[i % pts.size()] *)
Definition is_inside_polygon (pts : list pt) (q : pt) : bool :=
  forallb (fun i =>
    let p0 := nth i pts q in
    let p1 := nth (i mod length pts) pts q in
    if Rlt_dec ((q 1%nat - p0 1%nat) * (p1 0%nat - p0 0%nat) - (q 0%nat - p0 0%nat) * (p1 1%nat - p0 1%nat)) 0
    then false else true)
    (seq 0 (length pts)).

(** geometry_simplicial.hpp:389-421 *)
Definition is_inside_tetra (p0 p1 p2 p3 q : pt) : bool :=
  let v0 := psubt p1 p0 in let v1 := psubt p2 p0 in let v2 := psubt p2 p1 in
  let v3 := psubt p3 p0 in let v4 := psubt p3 p1 in
  let t0 := dot 3 (vcross v3 v0) (psubt q p0) in
  let t1 := dot 3 (vcross v0 v1) (psubt q p0) in
  let t2 := dot 3 (vcross v4 v2) (psubt q p1) in
  let t3 := dot 3 (vcross v1 v3) (psubt q p0) in
  let count t := if Rlt_dec t 0 then (-1)%Z else 1%Z in
  let c := (count t0 + count t1 + count t2 + count t3)%Z in
  (Z.eqb c 4 || Z.eqb c (-4))%bool.

(** geometry_all.hpp:346-369: normal to the face f0 f1 of a plane cell whose
    barycenter is [cell_bar]; dividing by a zero norm gives [None] (NaN) *)
Definition normal2 (cell_bar f0 f1 : pt) : option pt :=
  let v := psubt f1 f0 in
  let n := pt2 (- v 1%nat) (v 0%nat) in
  let face_bar := pscale (/ 2) (padd f0 f1) in
  let outward_vector := psubt face_bar cell_bar in
  if Req_EM_T (norm 2 n) 0 then None
  else if Rlt_dec (dot 2 n outward_vector) 0 then Some (pscale (/ norm 2 n) (pscale (-1) n))
  else Some (pscale (/ norm 2 n) n).
(** geometry_all.hpp:406-431: normal to a face of a cell in space; [face_bar] is
    the barycenter of the face *)
Definition normal3 (cell_bar face_bar f0 f1 f2 : pt) : option pt :=
  let v0 := psubt f1 f0 in let v1 := psubt f2 f1 in
  let n := vcross v0 v1 in
  let outward_vector := psubt face_bar cell_bar in
  if Req_EM_T (norm 3 n) 0 then None
  else if Rlt_dec (dot 3 n outward_vector) 0 then Some (pscale (/ norm 3 n) (pscale (-1) n))
  else Some (pscale (/ norm 3 n) n).

(** geometry_generic.hpp:126-151; [cyc pts i] is pts[i % pts.size()] *)
Definition cyc (pts : list pt) (i : nat) : pt := nth (i mod length pts) pts (fun _ => 0).
Definition is_convex (pts : list pt) : bool :=
  if Nat.eqb (length pts) 3 then true
  else forallb (fun i =>
         let p0 := cyc pts i in let p1 := cyc pts (i + 1) in let p2 := cyc pts (i + 2) in
         let v0 := psubt p1 p0 in let v1 := psubt p2 p1 in
         if Rlt_dec (v0 0%nat * v1 1%nat - v0 1%nat * v1 0%nat) 0 then false else true)
         (seq 0 (length pts)).

(** geometry_generic.hpp:225-251: barycenter of a polygonal cell; [None] is the
    division by a zero area *)
Definition edge_det (p q : pt) : R := p 0%nat * q 1%nat - q 0%nat * p 1%nat.
Definition polygon_sums (pts : list pt) : R * R * R :=
  fold_left (fun acc i => let '(Cx, Cy, A) := acc in
      let p0 := nth i pts (fun _ => 0) in let p1 := cyc pts (i + 1) in
      let d := edge_det p0 p1 in
      (Cx + (p0 0%nat + p1 0%nat) * d, Cy + (p0 1%nat + p1 1%nat) * d, A + 1 / 2 * d))
    (seq 0 (length pts)) (0, 0, 0).
Definition polygon_barycenter (pts : list pt) : option pt :=
  let '(Cx, Cy, A) := polygon_sums pts in
  if Req_EM_T A 0 then None else Some (pt2 (Cx / (6 * A)) (Cy / (6 * A))).

(** geometry_generic.hpp:207-223: measure of a polygonal cell with the given
    points and faces *)
Definition measure_polygon (pts : list pt) (faces : list (pt * pt)) : option R :=
  match polygon_barycenter pts with
  | None => None
  | Some cell_bar =>
      fold_left (fun acc fc => match acc, normal2 cell_bar (fst fc) (snd fc) with
          | Some tot, Some n =>
              let bar := pscale (/ 2) (padd (fst fc) (snd fc)) in
              let meas := norm 2 (psubt (snd fc) (fst fc)) in
              Some (tot + meas * (bar 0%nat * n 0%nat / 2 + bar 1%nat * n 1%nat / 2))
          | _, _ => None
          end) faces (Some 0)
  end.

(** geometry_generic_triangulations.hpp:101-123 (and quad_phys_generic.hpp:48-58,
    with the center first) *)
Definition polygon_center (pts : list pt) : pt := pscale (/ INR (length pts)) (fold_left padd pts (fun _ => 0)).
Definition triangulate_convex_polygon (pts : list pt) : list (pt * pt * pt) :=
  map (fun i => (nth i pts (fun _ => 0), cyc pts (i + 1), polygon_center pts)) (seq 0 (length pts)).

(** geometry_generic.hpp:185-198: area of a polygonal face in space *)
Definition measure_face3 (pts : list pt) : R :=
  fold_left (fun acc i => acc + area_triangle_kahan 3 (nth 0 pts (fun _ => 0)) (nth i pts (fun _ => 0)) (nth (i + 1) pts (fun _ => 0)))
    (seq 1 (length pts - 2)) 0.

(** raw_simplices.hpp:193-224 *)
Definition split_in_raw_triangles (pts : list pt) : outcome (list (pt * pt * pt)) :=
  let p i := nth i pts (fun _ => 0) in
  if Nat.eqb (length pts) 3 then Ok [(p 0%nat, p 1%nat, p 2%nat)]
  else if Nat.eqb (length pts) 4 then Ok [(p 0%nat, p 1%nat, p 2%nat); (p 2%nat, p 3%nat, p 0%nat)]
  else do bar <- barycenter pts;
       Ok (map (fun i => (bar, p i, cyc pts (i + 1))) (seq 0 (length pts))).

(** geometry_hexahedral.hpp:252-262, 296-306: rectangles and edges *)
Definition measure_cartesian2 (p0 p1 p2 : pt) : R := norm 2 (psubt p1 p0) * norm 2 (psubt p2 p0).
Definition measure_cartesian_face3 (p0 p1 p3 : pt) : R := norm 3 (psubt p1 p0) * norm 3 (psubt p3 p0).
(** geometry_simplicial.hpp:378-387: edges *)
Definition measure_edge (D : nat) (p0 p1 : pt) : R := norm D (psubt p1 p0).

(** geometry_all.hpp:622-645: Gram-Schmidt on the first three edges; [None] when
    a division by zero occurs *)
Definition element_local_axes3 (p0 p1 p2 p3 : pt) : option (pt * pt * pt) :=
  let u0 := psubt p1 p0 in let u1 := psubt p2 p0 in let u2 := psubt p3 p0 in
  let v0 := u0 in
  if Req_EM_T (dot 3 v0 v0) 0 then None else
  let v1 := psubt u1 (pscale (dot 3 u1 v0 / dot 3 v0 v0) v0) in
  if Req_EM_T (dot 3 v1 v1) 0 then None else
  let v2 := psubt (psubt u2 (pscale (dot 3 u2 v0 / dot 3 v0 v0) v0)) (pscale (dot 3 u2 v1 / dot 3 v1 v1) v1) in
  Some (v0, v1, v2).
(** geometry_all.hpp:591-610: plane elements *)
Definition element_local_axes2 (pts : list pt) : option (pt * pt) :=
  let p i := nth i pts (fun _ => 0) in
  let diam := diameter 2 pts in
  let v0 := psubt (p 1%nat) (p 0%nat) in let v1 := psubt (p 2%nat) (p 0%nat) in
  if Req_EM_T (dot 2 v0 v0) 0 then None else
  let v1 := psubt v1 (pscale (dot 2 v1 v0 / dot 2 v0 v0) v0) in
  let scale := 2 * norm 2 v0 / diam in
  Some (pscale (/ scale) v0, pscale (/ scale) v1).
