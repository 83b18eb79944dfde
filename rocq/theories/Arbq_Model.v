(** The default tetrahedron quadrature.

    Models libdiskpp/include/diskpp/quadratures/bits/quad_raw_tetra.hpp (arbq)
    and libdiskpp/contrib/jburkardt/src/tetrahedron_arbq_rule.cpp
    (tetrahedron_arbq, tetrahedron_arbq_size).

    Simplifications: the scalar type is exact (R); printed decimals are exact
    rationals and expressions built only from them are evaluated in Q; the
    interleaved array pts[3*pn+j] is a list of rows; the degree is below 2^31
    (it is converted to int). *)
From Coq Require Import List Arith QArith Reals Qreals.
From Verif Require Import Common Poly_Spec Quad_Model GM_Model Arbq_Tables.
Import ListNotations.

(** The library calls exit(1) on an unsupported degree: the process ends. *)
Inductive arbq_result := Exit | Rule (r : list (pt * R)).

(** tetrahedron_arbq_rule.cpp:3765-3768 *)
Definition n_save : list nat := [1; 4; 6; 11; 14; 23; 31; 44; 57; 74; 95; 122; 146; 177; 214]%nat.
(** tetrahedron_arbq_rule.cpp:3727-3781 *)
Definition tetrahedron_arbq_size (degree : nat) : option nat :=
  if (Nat.ltb degree 1 || Nat.ltb 15 degree)%bool then None else nth_error n_save (degree - 1).

Local Open Scope Q_scope.
(** quad_raw_tetra.hpp:36-40 *)
Definition arbq_A : list (list Q) :=
  [ [ 0.500000000000000; - 0.288675134594813; - 0.204124145231932 ];
    [ 0; 0.577350269189626; - 0.204124145231932 ];
    [ 0; 0; 0.612372435695795 ] ].
(** quad_raw_tetra.hpp:42 *)
Definition arbq_b : list Q := [ - 1; - 0.577350269189626; - 0.408248290463863 ].
(** quad_raw_tetra.hpp:44 *)
Definition inv_arbq_vol : Q := 1.060660171779821.
(** quad_raw_tetra.hpp:73-79: qpr[i] *)
Definition arbq_qpr (row : arbq_row) (i : nat) : Q :=
  let '(x, y, z, w) := row in
  let a := nth i arbq_A [] in
  nth 0 a 0 * (x - nth 0 arbq_b 0) + nth 1 a 0 * (y - nth 1 arbq_b 0) + nth 2 a 0 * (z - nth 2 arbq_b 0).
(** tetrahedron_arbq_rule.cpp:3575: r8vec_sum *)
Definition arbq_wsum (t : list arbq_row) : Q := fold_right (fun r s => snd r + s) 0 t.
Local Close Scope Q_scope.
Local Open Scope R_scope.
(** tetrahedron_arbq_rule.cpp:3576-3581: the weight after normalisation *)
Definition arbq_weight (t : list arbq_row) (row : arbq_row) : R :=
  let volume := sqrt 8 / 3 in
  Q2R (snd row) * volume / Q2R (arbq_wsum t).

(** quad_raw_tetra.hpp:48-86.  Fewer table rows than points, or the other way
    round, would be reads out of bounds; C93_sizes shows it does not happen. *)
Definition arbq (degree : nat) (p0 p1 p2 p3 : pt) : arbq_result :=
  let rule := if Nat.eqb degree 0 then 1%nat else degree in
  match tetrahedron_arbq_size rule with
  | None => Exit
  | Some point_num =>
      let v0 := psubt p1 p0 in let v1 := psubt p2 p0 in let v2 := psubt p3 p0 in
      let tvol := tetra_volume v0 v1 v2 in
      let t := nth (rule - 1) arbq_rules [] in
      Rule (map (fun row =>
        (comb (comb (comb p0 (Q2R (arbq_qpr row 0)) v0) (Q2R (arbq_qpr row 1)) v1) (Q2R (arbq_qpr row 2)) v2,
         arbq_weight t row * Q2R inv_arbq_vol * tvol)) (firstn point_num t))
  end.
