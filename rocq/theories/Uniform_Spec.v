(** What a uniform partition of [a,b] into n cells is. *)
From Coq Require Import List Reals.
Import ListNotations.
Local Open Scope R_scope.

(** coordinates [x] of the nodes and [cells] as pairs of node numbers *)
Record uniform_partition (a b : R) (n : nat) (x : list R) (cells : list (list nat)) : Prop := {
  up_nodes : length x = S n;
  up_cells : length cells = n;
  (* cell i joins nodes i and i+1 *)
  up_chain : forall i, (i < n)%nat -> nth_error cells i = Some [i; S i];
  up_first : nth_error x 0 = Some a;
  up_last : nth_error x n = Some b;
  (* all cells have the same length (b-a)/n, oriented left to right *)
  up_equal : forall i p q, (i < n)%nat -> nth_error x i = Some p -> nth_error x (S i) = Some q -> q - p = (b - a) / INR n;
  (* every point between a and b lies in a cell *)
  up_cover : forall t, a <= t <= b -> exists i p q, (i < n)%nat /\ nth_error x i = Some p /\ nth_error x (S i) = Some q /\ p <= t <= q
}.
