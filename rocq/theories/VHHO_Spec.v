(** Vocabulary for the HHO operators on vectors and matrices: functions with several components, their products,
    derivatives and projections.  Nothing here refers to the program. *)
From Coq Require Import List Arith Reals.
From Verif Require Import Poly_Spec HHO_Spec.
Import ListNotations.
Open Scope R_scope.

(** a function with several components, numbered from 0; the entry (a, b) of a [d] x [d] matrix is component d a + b *)
Definition tf := nat -> pexp.
Definition vdot (m : nat) (U V : tf) : pexp := psum m (fun a => PMul (U a) (V a)).
Definition vlin (n : nat) (c : nat -> R) (B : nat -> tf) : tf := fun a => lincomb n c (fun j => B j a).
(** gradient, divergence, product with the normal *)
Definition pgrad (p : pexp) : tf := fun a => pdiff a p.
Definition pdivv (d : nat) (V : tf) : pexp := psum d (fun a => pdiff a (V a)).
Definition vnrm (d : nat) (n : pt) (V : tf) : pexp := psum d (fun a => pscal (n a) (V a)).
(** matrices: a row, the gradient of a vector, symmetric part *)
Definition mrow (d : nat) (T : tf) (a : nat) : tf := fun b => T (d * a + b)%nat.
Definition mgrad (d : nat) (V : tf) : tf := fun e => pdiff (e mod d) (V (e / d)%nat).
Definition msymp (d : nat) (T : tf) : tf := fun e => pscal (1 / 2) (PAdd (T e) (T (d * (e mod d) + e / d)%nat)).
Definition msymmetric (d : nat) (T : tf) : Prop := forall a b x, (a < d)%nat -> (b < d)%nat -> peval (T (d * a + b)%nat) x = peval (T (d * b + a)%nat) x.
(** a constant matrix applied to a vector *)
Definition mapply (d : nat) (K : mtx) (V : tf) : tf := fun a => psum d (fun b => pscal (K a b) (V b)).

Definition vdeg (m : nat) (U : tf) (k : nat) : Prop := forall a, (a < m)%nat -> deg_le (U a) k.
Definition vvars (d m : nat) (U : tf) : Prop := forall a, (a < m)%nat -> pvars d (U a).
(** [r] is the L2 projection of [q] on the functions whose components have degree [k] *)
Definition l2vec (I : pexp -> R) (m k : nat) (q r : tf) : Prop :=
  vdeg m r k /\ forall w, vdeg m w k -> I (vdot m w r) = I (vdot m w q).
(** the same among the symmetric matrices *)
Definition l2sym (I : pexp -> R) (d k : nat) (q r : tf) : Prop :=
  vdeg (d * d) r k /\ msymmetric d r /\
  forall w, vdeg (d * d) w k -> msymmetric d w -> I (vdot (d * d) w r) = I (vdot (d * d) w q).
(** the coefficients of component [a] of a vector: those of the components alternate *)
Definition comp (d a : nat) (u : nat -> R) : nat -> R := fun i => u (d * i + a)%nat.
(** the vector functions on the faces, sums over the faces and projections of a vector, as in HHO_Spec *)
Fixpoint vface_funs (off : nat) (bs : list (option (nat * (nat -> tf)))) (u : nat -> R) : list (option tf) :=
  match bs with
  | [] => []
  | None :: t => None :: vface_funs off t u
  | Some (n, b) :: t => Some (vlin n (fun j => u (off + j)%nat) b) :: vface_funs (off + n) t u
  end.
Fixpoint vfsum2 (fs : list facet) (us : list (option tf)) (f : facet -> tf -> R) : R :=
  match fs, us with
  | x :: t, Some u :: v => f x u + vfsum2 t v f
  | _ :: t, None :: v => vfsum2 t v f
  | _, _ => 0
  end.
Fixpoint vface_dofs (bs : list (option (nat * (nat -> tf)))) : nat :=
  match bs with [] => 0 | None :: t => vface_dofs t | Some (n, _) :: t => n + vface_dofs t end.
Fixpoint vprojs (m : nat) (fs : list facet) (ds : list (option nat)) (us : list (option tf)) (q : tf) : Prop :=
  match fs, ds, us with
  | [], [], [] => True
  | f :: fs, Some k :: ds, Some u :: us => l2vec (fa_int f) m k q u /\ vprojs m fs ds us q
  | _ :: fs, None :: ds, None :: us => vprojs m fs ds us q
  | _, _, _ => False
  end.
(** sum over the faces without unknowns *)
Fixpoint fmiss (fs : list facet) (ds : list (option nat)) (g : facet -> R) : R :=
  match fs, ds with
  | f :: fs, None :: ds => g f + fmiss fs ds g
  | _ :: fs, Some _ :: ds => fmiss fs ds g
  | _, _ => 0
  end.
(** a matrix applied to the normal; difference of two functions *)
Definition mnrm (d : nat) (n : pt) (T : tf) : tf := fun a => vnrm d n (mrow d T a).
Definition vsub (U V : tf) : tf := fun a => psubp (U a) (V a).
(** [Q] holds of every face that carries unknowns *)
Fixpoint von_facets (fs : list facet) (us : list (option tf)) (Q : facet -> tf -> Prop) : Prop :=
  match fs, us with
  | f :: fs, Some u :: us => Q f u /\ von_facets fs us Q
  | _ :: fs, None :: us => von_facets fs us Q
  | _, _ => True
  end.
