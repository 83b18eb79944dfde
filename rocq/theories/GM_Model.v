(** Model of the Grundmann-Moeller rules: contrib/jburkardt/src/simplex_gm_rule.cpp and
    quadratures/bits/quad_raw_triangle.hpp, quad_raw_tetra.hpp (both under libdiskpp/).
    [int] is nat (no overflow), [double] is R (no rounding). *)
From Coq Require Import List Arith Bool Reals.
From Verif Require Import Common Poly_Spec Quad_Model Geo_Model.
Import ListNotations.
Local Open Scope nat_scope.

(** simplex_gm_rule.cpp:100-131, the variables a, h, t and *more *)
Record comp := mkC { c_a : list nat; c_h : nat; c_t : nat; c_more : bool }.
(** 129: *more = ( a[k-1] != n ) *)
Definition comp_end (n k : nat) (a : list nat) (h t : nat) : outcome comp :=
  do v <- vget a (k - 1); Ok (mkC a h t (negb (v =? n))).
Definition comp_next (n k : nat) (c : comp) : outcome comp :=
  if negb (c_more c) then
    (* 104-113: the whole array is overwritten *)
    match k with 0 => UB | S k' => comp_end n k (n :: repeat 0 k') 0 n end
  else
    let h := if 1 <? c_t c then 0 else c_h c in       (* 116-119 *)
    let h := h + 1 in
    do t <- vget (c_a c) (h - 1);
    do a <- vset (c_a c) (h - 1) 0;
    do a <- vset a 0 (t - 1);                         (* a[h-1] is positive here: see comp_ok *)
    do v <- vget a h;
    do a <- vset a h (v + 1);
    comp_end n k a h t.

(** a quadrature point of the reference simplex: its weight and its coordinates *)
Definition gmpoint := (list R * R)%type.
(** 257-273: the points of the i-th group; [cap] is the number of free entries left in w (and x): writing more is out of bounds.
    den is d + n - 2 * i.  Returns the points written. *)
Fixpoint gm_points (cap : nat) (bsum dim_num den : nat) (weight : R) (c : comp) : outcome (list gmpoint) :=
  match cap with
  | 0 => UB
  | S cap =>
      do c <- comp_next bsum (dim_num + 1) c;
      let x := map (fun dim => (INR (2 * nth (dim + 1) (c_a c) 0 + 1)%nat / INR den)%R) (seq 0 dim_num) in
      if c_more c then do r <- gm_points cap bsum dim_num den weight c; Ok ((x, weight) :: r)
      else Ok [(x, weight)]
  end.

(** 223-247: one turn of the loop over j; the divisions are never by zero *)
Definition gm_wstep (n d s i : nat) (weight : R) (j : nat) : R :=
  let weight := if j <=? n then (weight * INR j)%R else weight in
  let weight := if j <=? d then (weight * INR (d + n - 2 * i)%nat)%R else weight in
  let weight := if j <=? 2 * s then (weight / 2)%R else weight in
  let weight := if j <=? i then (weight / INR j)%R else weight in
  if j <=? d + n - i then (weight / INR j)%R else weight.
Definition gm_weight (n d s i : nat) (one_pm : R) : R :=
  let j_hi := Nat.max n (Nat.max d (d + n - i)) in
  fold_left (gm_wstep n d s i) (seq 1 j_hi) one_pm.

(** 217-274: the groups i, i + 1, ..., i + todo - 1 *)
Fixpoint gm_groups (todo cap : nat) (n s i : nat) (one_pm : R) : outcome (list gmpoint) :=
  match todo with
  | 0 => Ok []
  | S todo =>
      let d := 2 * s + 1 in
      do g <- gm_points cap (s - i) n (d + n - 2 * i) (gm_weight n d s i one_pm) (mkC [] 0 0 false);
      do r <- gm_groups todo (cap - length g) n s (i + 1) (- one_pm)%R;
      Ok (g ++ r)
  end.
(** 134-273 *)
Definition gm_rule_set (rule dim_num point_num : nat) : outcome (list gmpoint) :=
  gm_groups (S rule) point_num dim_num rule 0 1%R.

(** 456-523; n - k is negative exactly when n < k *)
Definition i4_choose (n k : nat) : nat :=
  if n <? k then 0
  else
    let mn := Nat.min k (n - k) in
    if mn =? 0 then 1
    else let mx := Nat.max k (n - k) in
         fold_left (fun value i => value * (mx + i) / i) (seq 2 (mn - 1)) (mx + 1).
(** 393-448 *)
Definition gm_rule_size (rule dim_num : nat) : nat := i4_choose (dim_num + rule + 1) rule.

(** the caller allocates gm_rule_size entries; entries that are not written stay 0 *)
Definition gm_filled (rule dim : nat) : outcome (list gmpoint) :=
  let point_num := gm_rule_size rule dim in
  do l <- gm_rule_set rule dim point_num;
  Ok (l ++ repeat (repeat 0%R dim, 0%R) (point_num - length l)).

(** quad_raw_triangle.hpp:2670, quad_raw_tetra.hpp:99 *)
Definition gm_rule_of (degree : nat) : nat := if degree mod 2 =? 0 then degree / 2 else (degree - 1) / 2.

Definition comb (p : pt) (r : R) (v : pt) : pt := padd p (pscale r v).
(** quad_raw_triangle.hpp:2665-2696 *)
Definition grundmann_moeller_2 (degree : nat) (p0 p1 p2 : pt) : outcome (list (pt * R)) :=
  do l <- gm_filled (gm_rule_of degree) 2;
  let v0 := psubt p1 p0 in let v1 := psubt p2 p0 in
  let tarea := area_triangle_kahan 2 p0 p1 p2 in
  Ok (map (fun q => (comb (comb p0 (nth 0 (fst q) 0%R) v0) (nth 1 (fst q) 0%R) v1, (snd q * tarea)%R)) l).
(** quad_raw_tetra.hpp:30-35 *)
Definition tetra_volume (v0 v1 v2 : pt) : R :=
  (Rabs (v0 0%nat * (v1 1%nat * v2 2%nat - v1 2%nat * v2 1%nat) + v0 1%nat * (v1 2%nat * v2 0%nat - v1 0%nat * v2 2%nat) + v0 2%nat * (v1 0%nat * v2 1%nat - v1 1%nat * v2 0%nat)) / 6)%R.
(** quad_raw_tetra.hpp:92-128 *)
Definition grundmann_moeller_3 (degree : nat) (p0 p1 p2 p3 : pt) : outcome (list (pt * R)) :=
  do l <- gm_filled (gm_rule_of degree) 3;
  let v0 := psubt p1 p0 in let v1 := psubt p2 p0 in let v2 := psubt p3 p0 in
  let tvol := tetra_volume v0 v1 v2 in
  Ok (map (fun q => (comb (comb (comb p0 (nth 0 (fst q) 0%R) v0) (nth 1 (fst q) 0%R) v1) (nth 2 (fst q) 0%R) v2, (snd q * tvol)%R)) l).
