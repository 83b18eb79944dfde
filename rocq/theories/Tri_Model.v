(** Triangle quadratures from tables.

    Models libdiskpp/include/diskpp/quadratures/bits/quad_raw_triangle.hpp
    (dunavant, triangle_gauss).

    Simplifications: the scalar type is exact (R); the printed decimals of the
    tables are read as exact rationals; [std::vector] is a list; [reserve] is
    dropped.  [triquad] (triquad.hpp), which triangle_gauss calls above degree
    30, is a parameter. *)
From Coq Require Import List Arith QArith Reals Qreals.
From Verif Require Import Common Poly_Spec Quad_Model Geo_Model Tri_Tables.
Import ListNotations.
Local Open Scope R_scope.

(** quad_raw_triangle.hpp:305: p0*l0 + p1*l1 + p2*l2 *)
Definition bary3 (p0 p1 p2 : pt) (l0 l1 l2 : R) : pt :=
  padd (padd (pscale l0 p0) (pscale l1 p1)) (pscale l2 p2).

(** quad_raw_triangle.hpp:303-331: the points contributed by one table entry;
    entries whose [perms] is none of 1, 3, 6 contribute nothing *)
Definition dunavant_entry (p0 p1 p2 : pt) (area : R) (dp : dunavant_point) : list (pt * R) :=
  let l0 := Q2R (dp_l0 dp) in let l1 := Q2R (dp_l1 dp) in let l2 := Q2R (dp_l2 dp) in
  let w := Q2R (dp_weight dp) in
  match dp_perms dp with
  | 1%nat => [ (bary3 p0 p1 p2 l0 l1 l2, w * area) ]
  | 3%nat => [ (bary3 p0 p1 p2 l0 l1 l2, w * area); (bary3 p0 p1 p2 l1 l2 l0, w * area);
               (bary3 p0 p1 p2 l1 l0 l2, w * area) ]
  | 6%nat => [ (bary3 p0 p1 p2 l0 l1 l2, w * area); (bary3 p0 p1 p2 l0 l2 l1, w * area);
               (bary3 p0 p1 p2 l1 l0 l2, w * area); (bary3 p0 p1 p2 l1 l2 l0, w * area);
               (bary3 p0 p1 p2 l2 l0 l1, w * area); (bary3 p0 p1 p2 l2 l1 l0, w * area) ]
  | _ => []
  end.

(** quad_raw_triangle.hpp:287-339.  [D] is the dimension of the points; the
    [assert] of line 296 is compiled out; indexing past the terminator is UB. *)
Definition dunavant (D degree : nat) (p0 p1 p2 : pt) : outcome (list (pt * R)) :=
  let max_degree := length dunavant_rules in
  if Nat.ltb max_degree degree then Throw InvalidArgument
  else
    let rule_num := if Nat.eqb degree 0 then 0%nat else (degree - 1)%nat in
    let area := area_triangle_kahan D p0 p1 p2 in
    do tab <- vget dunavant_rules rule_num;
    Ok (flat_map (dunavant_entry p0 p1 p2 area) tab).

(** quad_raw_triangle.hpp:2600-2651 *)
Definition triangle_gauss (triquad : nat -> pt -> pt -> pt -> list (pt * R)) (D degree : nat) (p0 p1 p2 : pt)
  : outcome (list (pt * R)) :=
  let max_degree := length triangle_gauss_rules in
  if Nat.ltb degree max_degree then
    let rule_num := if Nat.eqb degree 0 then 0%nat else (degree - 1)%nat in
    let area := area_triangle_kahan D p0 p1 p2 in
    let v0 := psubt p1 p0 in
    let v1 := psubt p2 p0 in
    do tab <- vget triangle_gauss_rules rule_num;
    Ok (map (fun gp => (padd (padd p0 (pscale (Q2R (tg_l0 gp)) v0)) (pscale (Q2R (tg_l1 gp)) v1),
                        2 * Q2R (tg_weight gp) * area)) tab)
  else Ok (triquad degree p0 p1 p2).
