(** Vocabulary for the relaxation of a triangular mesh.  Nothing here refers to the program. *)
From Coq Require Import List Arith Reals.
Import ListNotations.
Open Scope R_scope.

Definition p2 := (R * R)%type.
Definition dist2 (p q : p2) : R := (fst p - fst q) * (fst p - fst q) + (snd p - snd q) * (snd p - snd q).
Definition dist (p q : p2) : R := sqrt (dist2 p q).
(** the points of a triangle *)
Definition tri := (nat * nat * nat)%type.
(** the energy of a placement [q] of the points when the springs, one for each side of each triangle, are as stiff as
    the sides are long in the placement [p] *)
Definition energy (p q : nat -> p2) (cells : list tri) : R :=
  fold_right (fun c s => let '(a, b, c) := c in
    dist (p a) (p b) * dist2 (q a) (q b) + dist (p b) (p c) * dist2 (q b) (q c) + dist (p a) (p c) * dist2 (q a) (q c) + s) 0 cells.
(** the same when the springs to a point that is fixed ([bd]) hold the other point where it was in the placement [p] *)
Definition spring (bd : nat -> bool) (p q : nat -> p2) (a b : nat) : R :=
  dist (p a) (p b) *
  (if bd a then if bd b then 0 else dist2 (q b) (p b) else if bd b then dist2 (q a) (p a) else dist2 (q a) (q b)).
Definition energy_own (bd : nat -> bool) (p q : nat -> p2) (cells : list tri) : R :=
  fold_right (fun c s => let '(a, b, c) := c in spring bd p q a b + spring bd p q b c + spring bd p q a c + s) 0 cells.
