(** What a user of the vector assemblers does: calls between construction and finalize, and Newton
    iterations.  These are compositions of the calls modelled in VAsm_Model. *)
From Coq Require Import List Arith Bool.
From Verif Require Import Common LinAlg Mesh_Model BC_Model Degree_Model Asm_Model Asm_Spec VAsm_Model VAsm_Spec.
Import ListNotations.

Section Runs.
  Context {K : cring} {C F Sc P V : Type} (fltb : F -> F -> bool) (faces_of : C -> list F).
  Context (smul : Sc -> V -> V) (dim : nat) (sbs : nat -> nat) (project load : F -> nat -> (P -> V) -> nat -> K).
  (** one call *)
  Definition mech_do (m : mesh C F) (bnd : bc Sc P V) (sol : option (list (vec K))) (c : (vcall K C)) (a : vasm K) : outcome (vasm K) :=
    match c with
    | VAssemble cl l r => mech_assemble fltb faces_of smul dim sbs project m bnd cl l r sol a
    | VNeumann => mech_neumann fltb smul dim sbs load m bnd a
    end.
  Definition prim_do (m : mesh C F) (bnd : bc Sc P V) (sol : option (list (vec K))) (c : (vcall K C)) (a : vasm K) : outcome (vasm K) :=
    match c with
    | VAssemble cl l r => prim_assemble fltb faces_of smul dim sbs project m bnd cl l r sol a
    | VNeumann => prim_neumann fltb smul dim sbs load m bnd a
    end.
  (** calls, then finalize *)
  Definition mech_session (m : mesh C F) (bnd : bc Sc P V) (sol : option (list (vec K))) (calls : list (vcall K C)) (a : vasm K) : outcome (vasm K) :=
    do a <- floop (mech_do m bnd sol) calls a; mech_finalize a.
  Definition prim_session (m : mesh C F) (bnd : bc Sc P V) (sol : option (list (vec K))) (calls : list (vcall K C)) (a : vasm K) : outcome (vasm K) :=
    do a <- floop (prim_do m bnd sol) calls a; prim_finalize a.
  (** Newton iterations (newton_step.hpp): each clears the system, assembles with the current face
      values and finalizes *)
  Definition mech_newton (m : mesh C F) (bnd : bc Sc P V) (its : list (list (vec K) * list (vcall K C))) (a : vasm K) : outcome (vasm K) :=
    floop (fun it a => mech_session m bnd (Some (fst it)) (snd it) (zero_rhs a)) its a.
  Definition prim_newton (m : mesh C F) (bnd : bc Sc P V) (its : list (list (vec K) * list (vcall K C))) (a : vasm K) : outcome (vasm K) :=
    floop (fun it a => prim_session m bnd (Some (fst it)) (snd it) (prim_initialize a)) its a.
End Runs.
