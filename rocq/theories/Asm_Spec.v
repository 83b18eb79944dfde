(** Specification of assembly: the full system over all faces, free unknowns, elimination. *)
From Coq Require Import List Arith Bool.
From Verif Require Import LinAlg.
Import ListNotations.

(** Number of free (non-Dirichlet) faces before face [i]. *)
Fixpoint rank (dir : nat -> bool) (i : nat) : nat :=
  match i with O => 0 | S i => rank dir i + (if dir i then 0 else 1) end.

Section Spec.
  Context {K : cring}.
  Local Open Scope k_scope.
  (** x where the condition holds, 0 elsewhere *)
  Definition only (b : bool) (x : K) : K := if b then x else 0.

  (** One local contribution: the global numbers of the faces of the cell, in the local order, and
      the local matrix and right-hand side. *)
  Record contribution := mkC { c_faces : list nat; c_lhs : mat K; c_rhs : vec K }.
  Definition c_dofs (nb : nat) (c : contribution) : nat := (length (c_faces c) * nb)%nat.
  (** Global number (all faces counted) of local unknown [p]: unknown p mod nb of local face p / nb *)
  Definition global (nb : nat) (c : contribution) (p : nat) : nat := (nth (p / nb) (c_faces c) 0 * nb + p mod nb)%nat.
  (** entry (I,J) of the full matrix and entry I of the full right-hand side *)
  Definition full_mat (nb : nat) (cs : list contribution) (I J : nat) : K :=
    suml (map (fun c => sumn (c_dofs nb c) (fun p => sumn (c_dofs nb c) (fun q =>
      only ((global nb c p =? I) && (global nb c q =? J)) (ment (c_lhs c) p q)))) cs).
  Definition full_rhs (nb : nat) (cs : list contribution) (I : nat) : K :=
    suml (map (fun c => sumn (c_dofs nb c) (fun p => only (global nb c p =? I) (vent (c_rhs c) p))) cs).
  (** position of a free unknown in the assembled system *)
  Definition position (dir : nat -> bool) (nb I : nat) : nat := (rank dir (I / nb) * nb + I mod nb)%nat.
  Definition free (dir : nat -> bool) (nb I : nat) : bool := negb (dir (I / nb)).
  (** shapes that fit: square local matrix, right-hand side of the same size *)
  Definition fits (nb : nat) (c : contribution) : Prop :=
    mrows (c_lhs c) = c_dofs nb c /\ mcols (c_lhs c) = c_dofs nb c /\ vsize (c_rhs c) = c_dofs nb c.
End Spec.
Arguments contribution : clear implicits.

Section Spec2.
  Context {K : cring}.
  Local Open Scope k_scope.
  (** [A], [b] are the full system of the contributions [cs] over [n] faces with [nb] unknowns each,
      restricted to the free unknowns, with the Dirichlet unknowns (values [d]) eliminated. *)
  Record assembled (dir : nat -> bool) (n nb : nat) (d : nat -> K) (cs : list (contribution K)) (A : mat K) (b : vec K) : Prop := {
    as_rows : mrows A = (nb * rank dir n)%nat;
    as_cols : mcols A = (nb * rank dir n)%nat;
    as_size : vsize b = (nb * rank dir n)%nat;
    as_mat : forall I J, (I < n * nb)%nat -> (J < n * nb)%nat -> free dir nb I = true -> free dir nb J = true ->
      ment A (position dir nb I) (position dir nb J) = full_mat nb cs I J;
    as_rhs : forall I, (I < n * nb)%nat -> free dir nb I = true ->
      vent b (position dir nb I) = full_rhs nb cs I - sumn (n * nb) (fun J => if free dir nb J then 0 else full_mat nb cs I J * d J)
  }.
End Spec2.

(** What an answer to "is this face Dirichlet" says about face number [i]. *)
Definition dirichlet_number {F} (answer : F -> option bool) (faces : list F) (i : nat) : bool :=
  match nth_error faces i with
  | Some f => match answer f with Some b => b | None => false end
  | None => false
  end.
(** Value prescribed at unknown [I], from the values prescribed on each face. *)
Definition prescribed {K : cring} {F} (value : F -> nat -> K) (faces : list F) (nb I : nat) : K :=
  match nth_error faces (I / nb) with Some f => value f (I mod nb) | None => c0 end.
(** The faces [fs] carry the numbers [ids]. *)
Definition numbered {F} (faces : list F) (ids : list nat) (fs : list F) : Prop :=
  Forall2 (fun i f => nth_error faces i = Some f) ids fs.
(** A call assemble(cl, lhs, rhs) makes contribution [c]. *)
Definition contributes {K : cring} {C F} (faces : list F) (faces_of : C -> list F) (nb : nat)
    (call : C * mat K * vec K) (c : contribution K) : Prop :=
  let '(cl, l, r) := call in
  numbered faces (c_faces c) (faces_of cl) /\ c_lhs c = l /\ c_rhs c = r /\ fits nb c.
