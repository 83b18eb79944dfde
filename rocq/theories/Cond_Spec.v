(** Linear systems, exact solvers. *)
From Coq Require Import Arith.
From Verif Require Import LinAlg.

Section Spec.
  Context {K : cring}.
  (** two vectors of size n with the same entries *)
  Definition eqv (n : nat) (x y : vec K) : Prop := vsize x = n /\ vsize y = n /\ forall i, i < n -> vent x i = vent y i.
  (** x solves A x = b *)
  Definition solves (A : mat K) (x b : vec K) : Prop :=
    mcols A = vsize x /\ mrows A = vsize b /\
    forall i, i < mrows A -> sumn (mcols A) (fun j => cmul (ment A i j) (vent x j)) = vent b i.
  (** An exact factorisation: whenever it succeeds on a square matrix, solve(b) is the one and only
      solution, for every b. *)
  Definition exact_factorisation (ldlt : mat K -> option (vec K -> vec K)) : Prop :=
    forall A s, mrows A = mcols A -> ldlt A = Some s ->
    forall b, vsize b = mrows A -> solves A (s b) b /\ forall x, solves A x b -> eqv (mrows A) x (s b).
  (** cell unknowns above face unknowns *)
  Definition stack (t f : vec K) : vec K :=
    mkVec (vsize t + vsize f) (fun i => if Nat.ltb i (vsize t) then vent t i else vent f (i - vsize t)).
  (** right-hand side with zero face part *)
  Definition extend (b : vec K) (n : nat) : vec K := mkVec n (fun i => if Nat.ltb i (vsize b) then vent b i else c0).
End Spec.
