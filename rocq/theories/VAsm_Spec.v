(** Specification of the vector assemblers: which unknowns are prescribed, their values, and how the
    unknowns of all faces are counted.  The assembled system itself is specified by [assembled] of
    Asm_Spec, every unknown of every face being treated there as a face of its own (nb = 1). *)
From Coq Require Import List Arith Bool.
From Verif Require Import Common LinAlg Mesh_Model BC_Model BC_Spec Degree_Model Asm_Spec.
Import ListNotations.

(** A condition of type [t] prescribes component [c] of the field (0 = x, 1 = y, 2 = z). *)
Definition imposes (t c : nat) : bool :=
  (t =? DIRICHLET) || (t =? CLAMPED) ||
  ((t =? DX) || (t =? DXDY) || (t =? DXDZ)) && (c =? 0) ||
  ((t =? DY) || (t =? DXDY) || (t =? DYDZ)) && (c =? 1) ||
  ((t =? DZ) || (t =? DXDZ) || (t =? DYDZ)) && (c =? 2).
(** The types of Dirichlet conditions that make sense in dimension [dim]. *)
Definition known (dim t : nat) : Prop :=
  In t [DIRICHLET; CLAMPED; DX; DY; DXDY] \/ dim = 3 /\ In t [DZ; DXDZ; DYDZ].

(** Counting the unknowns of all faces one after the other: [ns] lists the numbers of unknowns of
    the faces; unknown [k] of face [i] has number [start ns i + k]. *)
Definition start (ns : list nat) (i : nat) : nat := list_sum (firstn i ns).
(** the face and the position on that face of unknown number [I] *)
Fixpoint locate (ns : list nat) (I : nat) : nat * nat :=
  match ns with
  | [] => (0, I)
  | n :: ns => if I <? n then (0, I) else (S (fst (locate ns (I - n))), snd (locate ns (I - n)))
  end.
(** the numbers of the unknowns of the faces [ids], in that order *)
Definition unknowns (ns ids : list nat) : list nat := flat_map (fun i => seq (start ns i) (nth i ns 0)) ids.

(** Number of unknowns of a face of degree information [d]: all components of all scalar functions. *)
Definition face_unknowns (dim : nat) (sbs : nat -> nat) (d : degree_info) : nat :=
  if has_unknowns d then dim * sbs (di_degree d) else 0.

Section Spec.
  Context {K : cring} {C F Sc P V : Type} (smul : Sc -> V -> V) (one : Sc) (dim : nat) (project : F -> nat -> (P -> V) -> nat -> K).
  Context (m : mesh C F) (ops : list (bc_op Sc P V)).
  Local Open Scope k_scope.

  (** The last Dirichlet condition registered for face [i]. *)
  Definition condition (i : nat) : option (registration P V) :=
    match nth_error (m_binfo m) i with Some d => last_reg Dirichlet d ops None | None => None end.
  (** Unknown [k] of face [i] is prescribed: the component varies fastest. *)
  Definition fixed_at (i k : nat) : bool :=
    match condition i with Some r => imposes (r_type r) (k mod dim) | None => false end.
  Definition fixed (ns : list nat) (I : nat) : bool := fixed_at (fst (locate ns I)) (snd (locate ns I)).
  (** Prescribed value: zero for a clamped face, otherwise the coefficient of the projection, on the
      face and with its degree, of the registered function times the last factor. *)
  Definition given_at (deg : list degree_info) (i k : nat) : K :=
    match condition i, nth_error (m_faces m) i, nth_error deg i with
    | Some (mkReg _ _ t _ (Some fn)), Some f, Some d =>
        if t =? CLAMPED then 0 else project f (di_degree d) (fun p => smul (last_factor ops one) (fn p)) k
    | _, _, _ => 0
    end.
  Definition given (deg : list degree_info) (ns : list nat) (I : nat) : K := given_at deg (fst (locate ns I)) (snd (locate ns I)).
End Spec.

(** Current face values (nonlinear problems): entry [k] of the vector of face [i]. *)
Definition current {K : cring} (sol : list (vec K)) (ns : list nat) (I : nat) : K :=
  match nth_error sol (fst (locate ns I)) with Some v => vent v (snd (locate ns I)) | None => c0 end.

(** A call assemble(cl, lhs, rhs) contributes [c]: the unknowns of the faces of the cell, the local
    matrix and the local right-hand side. *)
Definition contributes_v {K : cring} {C F} (faces : list F) (faces_of : C -> list F) (ns : list nat)
    (call : C * mat K * vec K) (c : contribution K) : Prop :=
  let '(cl, l, r) := call in
  (exists ids, numbered faces ids (faces_of cl) /\ c_faces c = unknowns ns ids) /\ c_lhs c = l /\ c_rhs c = r /\ fits 1 c.

(** The Neumann loads: one contribution for each face whose last Neumann condition gives a function:
    no matrix, and the load, with the degree of the face, of that function times the last factor. *)
Definition neumann_terms {K : cring} {C F Sc P V} (smul : Sc -> V -> V) (one : Sc) (load : F -> nat -> (P -> V) -> nat -> K)
    (m : mesh C F) (ops : list (bc_op Sc P V)) (deg : list degree_info) (ns : list nat) : list (contribution K) :=
  flat_map (fun i =>
    match nth_error (m_faces m) i, nth_error (m_binfo m) i, nth_error deg i with
    | Some f, Some b, Some d =>
      match last_reg Neumann b ops None with
      | Some (mkReg _ _ _ _ (Some fn)) =>
        [mkC (unknowns ns [i]) (mkMat (nth i ns 0) (nth i ns 0) (fun _ _ => c0))
             (mkVec (nth i ns 0) (load f (di_degree d) (fun p => smul (last_factor ops one) (fn p))))]
      | _ => []
      end
    | _, _, _ => []
    end) (seq 0 (length (m_faces m))).

Section Spec2.
  Context {K : cring} {C F Sc P V : Type} (faces_of : C -> list F).
  Context (smul : Sc -> V -> V) (one : Sc) (dim : nat) (sbs : nat -> nat) (project load : F -> nat -> (P -> V) -> nat -> K).

  (** every Dirichlet condition in force makes sense in this dimension *)
  Definition supported (m : mesh C F) (ops : list (bc_op Sc P V)) : Prop := forall i r, condition m ops i = Some r -> known dim (r_type r).
  (** faces with a Dirichlet condition in force have unknowns *)
  Definition dirichlet_has_unknowns (m : mesh C F) (ops : list (bc_op Sc P V)) (deg : list degree_info) : Prop :=
    forall i d, nth_error deg i = Some d -> condition m ops i <> None -> has_unknowns d = true.
  (** contact faces with unknowns are registered as SIGNORINI_FACE, without Dirichlet condition *)
  Definition contact_plain (m : mesh C F) (ops : list (bc_op Sc P V)) (deg : list degree_info) : Prop :=
    forall i b d r, nth_error (m_binfo m) i = Some b -> nth_error deg i = Some d -> has_unknowns d = true ->
      last_reg Contact b ops None = Some r -> r_type r = SIGNORINI_FACE /\ condition m ops i = None.
  (** no face has both a Dirichlet and a Neumann condition *)
  Definition neumann_apart (m : mesh C F) (ops : list (bc_op Sc P V)) : Prop :=
    forall i b, nth_error (m_binfo m) i = Some b -> last_reg Neumann b ops None <> None -> condition m ops i = None.

  (** degrees and numbers of unknowns *)
  Definition uniform (m : mesh C F) (k : nat) : list degree_info := repeat (di_make k) (length (m_faces m)).
  Definition sizes (deg : list degree_info) : list nat := map (face_unknowns dim sbs) deg.

  (** what a user does between construction and finalize *)
  Inductive vcall : Type := VAssemble (cl : C) (l : mat K) (r : vec K) | VNeumann.
  (** the contributions of a call *)
  Definition vadds (m : mesh C F) (ops : list (bc_op Sc P V)) (deg : list degree_info) (c : vcall) (cs : list (contribution K)) : Prop :=
    match c with
    | VAssemble cl l r => exists c, cs = [c] /\ contributes_v (m_faces m) faces_of (sizes deg) (cl, l, r) c
    | VNeumann => cs = neumann_terms smul one load m ops deg (sizes deg)
    end.
  Definition cells_only (calls : list vcall) : Prop := ~ In VNeumann calls.

  (** The face values belonging to a vector [x] of unknowns: the prescribed values where prescribed,
      otherwise the entry of [x]; and, for a correction of the current values [sol], the correction. *)
  Definition value (m : mesh C F) (ops : list (bc_op Sc P V)) (deg : list degree_info) (x : vec K) (I : nat) : K :=
    if fixed dim m ops (sizes deg) I then given smul one project m ops deg (sizes deg) I else vent x (rank (fixed dim m ops (sizes deg)) I).
  Definition increment (m : mesh C F) (ops : list (bc_op Sc P V)) (deg : list degree_info) (sol : list (vec K)) (x : vec K) (I : nat) : K :=
    if fixed dim m ops (sizes deg) I then csub (given smul one project m ops deg (sizes deg) I) (current sol (sizes deg) I) else vent x (rank (fixed dim m ops (sizes deg)) I).
End Spec2.
Arguments vcall : clear implicits. Arguments VAssemble {K C}. Arguments VNeumann {K C}.
