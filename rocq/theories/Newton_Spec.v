(** Specification of the nonlinear time loop in terms of single Newton computations. *)
From Coq Require Import List Arith.
From Verif Require Import Common Time_Model Newton_Model.
Import ListNotations.

Section Spec.
  Context {A : arith} {X I B St : Type}.
  Variable o_init : time_step A -> X -> I.
  Variable o_assemble : I -> world B St -> (B * St) * outcome I.
  Variable o_conv : I -> nat -> outcome bool.
  Variable o_update : I -> outcome I.
  Variable o_save : I -> X.
  Variable iter_max : nat.

  (** [accepted x b s log x' b' s']: starting from unknowns [x], material state [b] and
      stabilisation [s], the Newton computations of the steps of [log] converge one after the
      other, each starting from the state left by the previous one, and end in [x' b' s']. *)
  Inductive accepted : X -> B -> St -> list (time_step A * X) -> X -> B -> St -> Prop :=
  | acc_nil x b s : accepted x b s [] x b s
  | acc_snoc x b s log x1 b1 s1 st x2 w w' :
      accepted x b s log x1 b1 s1 ->
      b_prev w = b1 -> s_prev w = s1 ->
      newton_compute A X I B St o_init o_assemble o_conv o_update o_save iter_max st x1 w
        = Ok (Some x2, w') ->
      accepted x b s (log ++ [(st, x2)]) x2 (b_curr w') (s_next w').

  (** Iterates of one Newton computation: [iterate st x w i it w']: the [i]-th assembled
      iteration object is [it], after [i+1] assemblies none of which converged before. *)
  Inductive iterate (st : time_step A) (x : X) (w : world B St) : nat -> I -> world B St -> Prop :=
  | it_first p it1 : o_assemble (o_init st x) w = (p, Ok it1) ->
      iterate st x w 0 it1 (after_assembly B St w p)
  | it_next i it w1 it2 p it3 : iterate st x w i it w1 -> o_conv it i = Ok false ->
      o_update it = Ok it2 -> o_assemble it2 w1 = (p, Ok it3) ->
      iterate st x w (S i) it3 (after_assembly B St w1 p).
End Spec.

(** Maximal number of Newton computations for one initial step with [L] levels of splitting:
    the nodes of a full binary tree. *)
Definition tree_nodes (L : nat) : nat := 2 ^ (L + 1) - 1.
