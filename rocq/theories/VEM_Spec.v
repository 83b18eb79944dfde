(** Vocabulary for the virtual element method on a polygon: nodes on the boundary, unknowns of a function.
    Nothing here refers to the program. *)
From Coq Require Import List Arith Reals.
From Verif Require Import Poly_Spec HHO_Spec.
Import ListNotations.
Open Scope R_scope.

Definition node0 : pt * R := (fun _ => 0, 0).
(** mean value over a cell *)
Definition cell_mean (P : polytope) (p : pexp) : R := po_int P p / po_int P (PC 1).
(** [l] are the nodes and weights of a rule with k + 1 points on the face [f], exact for degree 2 k - 1 *)
Definition lobatto (k : nat) (f : facet) (l : list (pt * R)) : Prop :=
  length l = S k /\ forall p, (pdeg p <= 2 * k - 1)%nat -> qsum l (peval p) = fa_int f p.
(** the faces follow each other: the last node of a face is the first node of the next one *)
Definition closed_chain (nodes : list (list (pt * R))) : Prop :=
  nodes <> [] /\ forall e, (e < length nodes)%nat -> forall i,
    fst (last (nth e nodes []) node0) i = fst (hd node0 (nth ((e + 1) mod length nodes) nodes [])) i.

(** The unknowns of a function [p]: its values at the nodes, each face without its last node, then its mean values
    against the functions [m] *)
Definition unknowns (k : nat) (P : polytope) (nodes : list (list (pt * R))) (m : nat -> pexp) (p : pexp) (d : nat) : R :=
  let nb := (length nodes * k)%nat in
  if (d <? nb)%nat then peval p (fst (nth (d mod k) (nth (d / k) nodes []) node0))
  else cell_mean P (PMul (m (d - nb)%nat) p).

(** The integral over the boundary of the normal derivative of [w] times the function with the values [u] at the
    nodes: the node iq of the face e has the unknown (e k + iq) modulo the number of nodes *)
Fixpoint node_sum (nb d : nat) (l : list (pt * R)) (g : pt -> R) (u : nat -> R) : R :=
  match l with [] => 0 | (x, w) :: t => w * g x * u (d mod nb)%nat + node_sum nb (S d) t g u end.
Fixpoint boundary_sum (k nb d : nat) (fs : list facet) (nodes : list (list (pt * R))) (w : pexp) (u : nat -> R) : R :=
  match fs, nodes with
  | f :: fs, l :: nodes => node_sum nb d l (peval (flux 2 delta (fa_normal f) w)) u + boundary_sum k nb (d + k) fs nodes w u
  | _, _ => 0
  end.
(** [c] are the coefficients of the Laplacian of [w] on the functions [m] *)
Definition laplacian_coeffs (P : polytope) (n : nat) (m : nat -> pexp) (w : pexp) (c : nat -> R) : Prop :=
  forall x, po_on P x -> peval (divk 2 delta w) x = peval (lincomb n c m) x.
(** Green's formula for a function of which only the unknowns [u] are known: the integral of grad w . grad u *)
Definition green (k : nat) (P : polytope) (nodes : list (list (pt * R))) (n : nat) (w : pexp) (c u : nat -> R) : R :=
  let nb := (length nodes * k)%nat in
  boundary_sum k nb 0 (po_facets P) nodes w u - po_int P (PC 1) * sg n (fun l => c l * u (nb + l)%nat).
(** energy of two polynomials *)
Definition energy (P : polytope) (p q : pexp) : R := po_int P (graddot 2 p (fun c => pdiff c q)).
(** the set contains a triangle that is not flat *)
Definition fat (on : pt -> Prop) : Prop := exists ax ay bx by' cx cy : R,
  (bx - ax) * (cy - ay) - (by' - ay) * (cx - ax) <> 0 /\
  forall s t x, 0 <= s -> 0 <= t -> s + t <= 1 ->
    x 0%nat = ax + s * (bx - ax) + t * (cx - ax) -> x 1%nat = ay + s * (by' - ay) + t * (cy - ay) ->
    (forall i, (2 <= i)%nat -> x i = 0) -> on x.
