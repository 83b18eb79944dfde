(** Vocabulary for the HHO operators of Maxwell's equations: vector product, curl, tangential functions.  Nothing here
    refers to the program. *)
From Coq Require Import List Arith Reals.
From Verif Require Import Poly_Spec HHO_Spec VHHO_Spec.
Import ListNotations.
Open Scope R_scope.

(** the next two coordinates, in cyclic order *)
Definition nx (a : nat) : nat := match a with O => 1 | S O => 2 | _ => 0 end.
Definition nxx (a : nat) : nat := nx (nx a).
(** V x n for a constant vector n; n x (V x n), the tangential part of V when n is a unit vector; the curl of V *)
Definition pcross (V : tf) (n : pt) : tf := fun a => psubp (pscal (n (nxx a)) (V (nx a))) (pscal (n (nx a)) (V (nxx a))).
Definition ptang (V : tf) (n : pt) : tf := fun a => psubp (pscal (n (nx a)) (pcross V n (nxx a))) (pscal (n (nxx a)) (pcross V n (nx a))).
Definition curlv (V : tf) : tf := fun a => psubp (pdiff (nx a) (V (nxx a))) (pdiff (nxx a) (V (nx a))).
(** [w] is tangent to the face [f] *)
Definition tangent (f : facet) (w : tf) : Prop := forall x, fa_on f x -> sg 3 (fun a => fa_normal f a * peval (w a) x) = 0.
Definition unit_normal (f : facet) : Prop := sg 3 (fun a => fa_normal f a * fa_normal f a) = 1.
(** [r] is the projection of [V] on the tangential functions of degree [k] of the face *)
Definition l2tan (f : facet) (k : nat) (V r : tf) : Prop :=
  vdeg 3 r k /\ tangent f r /\ forall w, vdeg 3 w k -> tangent f w -> fa_int f (vdot 3 w r) = fa_int f (vdot 3 w V).
(** every face carries the projection of [V] *)
Fixpoint tprojs (k : nat) (fs : list facet) (us : list (option tf)) (V : tf) : Prop :=
  match fs, us with
  | [], [] => True
  | f :: fs, Some u :: us => l2tan f k V u /\ tprojs k fs us V
  | _, _ => False
  end.
(** [r] is the projection of [V] on the space spanned on the face by the functions B 0, ..., B (n - 1) *)
Definition l2span (f : facet) (n : nat) (B : nat -> tf) (V r : tf) : Prop :=
  (exists k, forall a x, (a < 3)%nat -> fa_on f x -> peval (r a) x = peval (vlin n k B a) x) /\
  forall j, (j < n)%nat -> fa_int f (vdot 3 (B j) r) = fa_int f (vdot 3 (B j) V).
(** h U + k V *)
Definition vcombo (h : R) (U : tf) (k : R) (V : tf) : tf := fun a => PAdd (pscal h (U a)) (pscal k (V a)).
(** sum over the marked faces *)
Fixpoint vsum_on (fs : list facet) (on : list bool) (us vs : list (option tf)) (g : facet -> tf -> tf -> R) : R :=
  match fs, on, us, vs with
  | f :: fs, b :: on, Some u :: us, Some v :: vs => (if b then g f u v else 0) + vsum_on fs on us vs g
  | _, _, _, _ => 0
  end.
