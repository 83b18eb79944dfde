(** Vocabulary for the symmetric reconstruction of vectors: rotations, jumps of vectors on the faces.  Nothing here
    refers to the program. *)
From Coq Require Import List Arith Reals.
From Verif Require Import Poly_Spec HHO_Spec VHHO_Spec.
Import ListNotations.
Open Scope R_scope.

(** entry (a, b) of the rotation of a vector (twice the skew part of its gradient) *)
Definition rotp (a b : nat) (V : tf) : pexp := psubp (pdiff b (V a)) (pdiff a (V b)).
(** symmetric part of the gradient *)
Definition strain (d : nat) (V : tf) : tf := msymp d (mgrad d V).
Definition vaddf (U V : tf) : tf := fun a => PAdd (U a) (V a).
(** [rs] are the projections on the faces, each with its degree, of the difference of [q] and the vector of the face *)
Fixpoint vjumps (m : nat) (fs : list facet) (ds : list (option nat)) (us : list (option tf)) (q : tf) (rs : list (option tf)) : Prop :=
  match fs, ds, us, rs with
  | [], [], [], [] => True
  | f :: fs, Some k :: ds, Some u :: us, Some r :: rs => l2vec (fa_int f) m k (vsub q u) r /\ vjumps m fs ds us q rs
  | _ :: fs, None :: ds, None :: us, None :: rs => vjumps m fs ds us q rs
  | _, _, _, _ => False
  end.
Fixpoint vfsum3 (fs : list facet) (us vs : list (option tf)) (g : facet -> tf -> tf -> R) : R :=
  match fs, us, vs with
  | f :: fs, Some u :: us, Some v :: vs => g f u v + vfsum3 fs us vs g
  | _ :: fs, None :: us, None :: vs => vfsum3 fs us vs g
  | _, _, _ => 0
  end.
(** [slv] solves the symmetric systems that determine their solution *)
Definition solves_sym (slv : nat -> mtx -> (nat -> R) -> nat -> R) : Prop :=
  forall n A b, (forall i j, (i < n)%nat -> (j < n)%nat -> A i j = A j i) ->
    (forall x, (forall i, (i < n)%nat -> sg n (fun j => A i j * x j) = 0) -> forall j, (j < n)%nat -> x j = 0) ->
    forall i, (i < n)%nat -> sg n (fun j => A i j * slv n A b j) = b i.
