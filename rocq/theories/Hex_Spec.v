(** What a polygonal mesh of a square is, independently of the generator. *)
From Coq Require Import List Arith ZArith Reals.
Import ListNotations.
Local Open Scope nat_scope.

(** the polygon goes from vertex [a] to vertex [b] along one of its sides *)
Definition goes (p : list (nat * nat)) (a b : nat * nat) : Prop :=
  exists i, i < length p /\ nth_error p i = Some a /\ nth_error p ((i + 1) mod length p) = Some b.
Definition has_side (p : list (nat * nat)) (a b : nat * nat) : Prop := goes p a b \/ goes p b a.

(** sides of the square [0,n]^2: 0 bottom, 1 right, 2 top, 3 left *)
Definition on_side (n s : nat) (p : nat * nat) : Prop :=
  match s with 0 => snd p = 0 | 1 => fst p = n | 2 => snd p = n | 3 => fst p = 0 | _ => False end.

(** twice the signed area (shoelace formula) *)
Definition cross (a b : nat * nat) : Z := (Z.of_nat (fst a) * Z.of_nat (snd b) - Z.of_nat (fst b) * Z.of_nat (snd a))%Z.
Fixpoint shoelace (first : nat * nat) (p : list (nat * nat)) : Z :=
  match p with
  | [] => 0%Z
  | [a] => cross a first
  | a :: ((b :: _) as r) => (cross a b + shoelace first r)%Z
  end.
Definition area2 (p : list (nat * nat)) : Z := match p with [] => 0%Z | a :: _ => shoelace a p end.

(** every turn is to the left *)
Definition turn (a b c : nat * nat) : Z :=
  ((Z.of_nat (fst b) - Z.of_nat (fst a)) * (Z.of_nat (snd c) - Z.of_nat (snd b))
   - (Z.of_nat (snd b) - Z.of_nat (snd a)) * (Z.of_nat (fst c) - Z.of_nat (fst b)))%Z.
Definition convex_ccw (p : list (nat * nat)) : Prop :=
  forall a b c, goes p a b -> goes p b c -> (0 < turn a b c)%Z.

(** the same in the unit square; a point is given by its coordinates 0 and 1 *)
Definition on_unit_side (s : nat) (p : nat -> R) : Prop :=
  match s with 0 => p 1 = 0%R | 1 => p 0 = 1%R | 2 => p 1 = 1%R | 3 => p 0 = 0%R | _ => False end.
Definition r_cross (a b : nat -> R) : R := (a 0%nat * b 1%nat - b 0%nat * a 1%nat)%R.
Fixpoint r_shoelace (first : nat -> R) (p : list (nat -> R)) : R :=
  match p with
  | [] => 0%R
  | [a] => r_cross a first
  | a :: ((b :: _) as r) => (r_cross a b + r_shoelace first r)%R
  end.
Definition r_area (p : list (nat -> R)) : R := match p with [] => 0%R | a :: _ => (r_shoelace a p / 2)%R end.
