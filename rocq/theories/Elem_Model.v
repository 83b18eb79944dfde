(** Model of the element classes (geometry/element_*.hpp) and of sort_uniq
    (loaders/loader_utils.hpp).  Point and sub-element identifiers are natural numbers. *)
From Coq Require Import List Arith Bool.
From Verif Require Import Common.
Import ListNotations.

(** std::sort (used at element_simplicial.hpp:59 and loader_utils.hpp:157).  The C++ algorithm is
    not modelled step by step: any sort returns the ordered permutation, computed here by insertion. *)
Fixpoint sort_insert {E} (ltb : E -> E -> bool) (x : E) (l : list E) : list E :=
  match l with
  | [] => [x]
  | y :: r => if ltb y x then y :: sort_insert ltb x r else x :: l
  end.
Fixpoint std_sort {E} (ltb : E -> E -> bool) (l : list E) : list E :=
  match l with [] => [] | x :: r => sort_insert ltb x (std_sort ltb r) end.

(** operator< of std::array / std::vector (std::lexicographical_compare), used by
    element_simplicial.hpp:67-70, element_hexahedral.hpp:68-71, element_generic.hpp:186-189, 288-291. *)
Fixpoint lex_ltb (a b : list nat) : bool :=
  match a, b with
  | _, [] => false
  | [], _ :: _ => true
  | x :: a', y :: b' => if x <? y then true else if y <? x then false else lex_ltb a' b'
  end.

(** operator== of std::array (element_simplicial.hpp:72-75, element_hexahedral.hpp:73-76) *)
Fixpoint arr_eqb (a b : list nat) : bool :=
  match a, b with
  | [], [] => true
  | x :: a', y :: b' => (x =? y) && arr_eqb a' b'
  | _, _ => false
  end.

(** std::copy of an initializer list into an array of [n] entries: a longer list writes past the
    end, a shorter one leaves entries uninitialised (they are then read).  Both are [UB]. *)
Definition copy_to_array (n : nat) (l : list nat) : outcome (list nat) :=
  if length l =? n then Ok l else UB.

(** element_simplicial.hpp:56-60; [n] is priv::howmany<DIM,CODIM>::nodes *)
Definition simplicial_make (n : nat) (l : list nat) : outcome (list nat) :=
  do a <- copy_to_array n l; Ok (std_sort Nat.ltb a).

(** element_hexahedral.hpp:58-61: no sort *)
Definition cartesian_make (n : nat) (l : list nat) : outcome (list nat) := copy_to_array n l.

(** std::equal with three iterators, element_generic.hpp:191-195 and 293-297: the second range is assumed to be
    at least as long as the first. *)
Fixpoint generic_eqb (a b : list nat) : outcome bool :=
  match a, b with
  | [], _ => Ok true
  | _ :: _, [] => UB
  | x :: a', y :: b' => if x =? y then generic_eqb a' b' else Ok false
  end.

(** std::unique (called at loader_utils.hpp:158): [last] is the last element kept. *)
Section Unique.
  Context {E : Type} (eqb : E -> E -> outcome bool).
  Fixpoint unique_from (last : E) (l : list E) : outcome (list E) :=
    match l with
    | [] => Ok [last]
    | x :: r =>
        do b <- eqb last x;
        if b then unique_from last r
        else do r' <- unique_from x r; Ok (last :: r')
    end.
  Definition std_unique (l : list E) : outcome (list E) :=
    match l with [] => Ok [] | x :: r => unique_from x r end.
End Unique.

(** loader_utils.hpp:153-160 *)
Definition sort_uniq {E} (ltb : E -> E -> bool) (eqb : E -> E -> outcome bool) (v : list E) : outcome (list E) :=
  std_unique eqb (std_sort ltb v).

(** geometry_simplicial.hpp:167-185 (triangle) and 140-157 (tetrahedron), faces(): each face is
    built by the (sorting) element constructor. *)
Definition tri_faces (t : list nat) : list (list nat) :=
  match t with
  | [a; b; c] => [std_sort Nat.ltb [a; b]; std_sort Nat.ltb [b; c]; std_sort Nat.ltb [a; c]]
  | _ => []
  end.
Definition tet_faces (t : list nat) : list (list nat) :=
  match t with
  | [a; b; c; d] => [std_sort Nat.ltb [b; c; d]; std_sort Nat.ltb [a; c; d];
                     std_sort Nat.ltb [a; b; d]; std_sort Nat.ltb [a; b; c]]
  | _ => []
  end.

(** element_generic.hpp:250-269: edge of a generic mesh, (ordered node ids, point ids as given) *)
Record gedge := mkGE { ge_sub : list nat; ge_pts : list nat }.
Definition gedge_make (n0 n1 : nat) : gedge :=
  mkGE (if n0 <? n1 then [n0; n1] else [n1; n0]) [n0; n1].
Definition gedge_ltb (a b : gedge) : bool := lex_ltb (ge_sub a) (ge_sub b).           (* 288-291 *)
Definition gedge_eqb (a b : gedge) : outcome bool := generic_eqb (ge_sub a) (ge_sub b). (* 293-297 *)
