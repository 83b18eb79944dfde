(** Specification for the scalar primal assembler and the Stokes assemblers. *)
From Coq Require Import List Arith Bool.
From Verif Require Import Common LinAlg Mesh_Model BC_Model BC_Spec Asm_Spec.
Import ListNotations.

(** what a user calls on scalar_primal_hho_assembler between initialize and finalize *)
Inductive sp_call {K : cring} {C : Type} := SAssemble (cl : C) (l : mat K) (r : vec K) | SNeumann | SRobin.
Arguments sp_call : clear implicits.
Definition is_assemble {K C} (c : sp_call K C) : Prop := match c with SAssemble _ _ _ => True | _ => False end.

(** no face is covered by two Dirichlet registrations *)
Definition registered_once {C F Sc P V} (m : mesh C F) (ops : list (bc_op Sc P V)) : Prop :=
  forall d, In d (m_binfo m) -> times Dirichlet d ops <= 1.

(** value of unknown [I] once the solution [x] of the assembled system is completed by the prescribed values [d] *)
Definition completed {K : cring} (dir : nat -> bool) (nb : nat) (d : nat -> K) (x : vec K) (I : nat) : K :=
  if free dir nb I then vent x (position dir nb I) else d I.
(** the unknowns of the faces [ids], [nb] each *)
Definition unknowns_of_faces (nb : nat) (ids : list nat) : list nat := flat_map (fun i => seq (i * nb) nb) ids.

(** ** The Stokes problem *)
(** The unknowns, counting those of all faces: [cA] velocity unknowns per cell, then [fA] per face,
    then [cB] pressure unknowns per cell, then one multiplier. *)
Section Layout.
  Context (cA fA cB nc nf : nat).
  Definition cell_unknowns (i : nat) : list nat := seq (i * cA) cA.
  Definition face_unknowns_of (j : nat) : list nat := seq (nc * cA + j * fA) fA.
  Definition pressure_unknowns (i : nat) : list nat := seq (nc * cA + nf * fA + i * cB) cB.
  Definition multiplier : nat := nc * cA + nf * fA + nc * cB.
  Definition all_unknowns : nat := multiplier + 1.
  (** the unknowns of a velocity on cell [i] with faces [ids] *)
  Definition velocity_unknowns (i : nat) (ids : list nat) : list nat := cell_unknowns i ++ flat_map face_unknowns_of ids.
  (** the face an unknown belongs to *)
  Definition face_of_unknown (I : nat) : option (nat * nat) :=
    if (nc * cA <=? I) && (I <? nc * cA + nf * fA) then Some ((I - nc * cA) / fA, (I - nc * cA) mod fA) else None.
  (** unknown [I] belongs to a face satisfying [dirf] *)
  Definition on_face (dirf : nat -> bool) (I : nat) : bool := match face_of_unknown I with Some (j, _) => dirf j | None => false end.
  (** the value of unknown [I], from the values [v j i] of the unknowns of the faces *)
  Definition face_value {K : cring} (v : nat -> nat -> K) (I : nat) : K := match face_of_unknown I with Some (j, i) => v j i | None => c0 end.
End Layout.

Section Saddle.
  Context {K : cring}.
  Local Open Scope k_scope.
  (** the matrix [A Bt 0; B 0 mu; 0 mut 0] with blocks of sizes [a], [b], 1 *)
  Definition saddle (a b : nat) (A B : mat K) (mu : nat -> K) : mat K :=
    mkMat (a + b + 1) (a + b + 1) (fun p q =>
      if (p <? a)%nat then
        if (q <? a)%nat then ment A p q else if (q <? a + b)%nat then ment B (q - a) p else 0
      else if (p <? a + b)%nat then
        if (q <? a)%nat then ment B (p - a) q else if (q <? a + b)%nat then 0 else mu (p - a)%nat
      else
        if ((a <=? q) && (q <? a + b))%nat then mu (q - a)%nat else 0).
  (** the first [r] entries of [v], then zeros *)
  Definition padded (n r : nat) (v : vec K) : vec K := mkVec n (fun p => if (p <? r)%nat then vent v p else 0).
End Saddle.

(** What assembling cell [cl] with velocity block [A], divergence block [B], pressure integrals [mu]
    and load [v], of which the first [r] entries count, contributes. *)
Definition stokes_contributes {K : cring} {C F} (cA fA cB : nat) (m : mesh C F) (faces_of : C -> list F) (mu : C -> nat -> K)
    (cl : C) (A B : mat K) (v : vec K) (r : nat -> nat) (c : contribution K) : Prop :=
  exists i ids, nth_error (m_cells m) i = Some cl /\ numbered (m_faces m) ids (faces_of cl) /\
    let nc := length (m_cells m) in let nf := length (m_faces m) in
    let a := cA + length ids * fA in
    c = mkC (velocity_unknowns cA fA nc i ids ++ pressure_unknowns cA fA cB nc nf i ++ [multiplier cA fA cB nc nf])
            (saddle a cB A B (mu cl)) (padded (a + cB + 1) (r a) v) /\
    mrows A = a /\ mcols A = a /\ mrows B = cB /\ mcols B = a /\ r a <= vsize v.
(** What assembling the load [v] alone contributes. *)
Definition load_contributes {K : cring} {C F} (cA fA : nat) (m : mesh C F) (faces_of : C -> list F) (cl : C) (v : vec K) (c : contribution K) : Prop :=
  exists i ids, nth_error (m_cells m) i = Some cl /\ numbered (m_faces m) ids (faces_of cl) /\
    let a := cA + length ids * fA in
    c = mkC (velocity_unknowns cA fA (length (m_cells m)) i ids) (mkMat a a (fun _ _ => c0)) v /\ vsize v = a.
