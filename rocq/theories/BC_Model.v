(** Model of boundary_conditions/boundary_conditions.hpp (class BoundaryConditions).
    User functions of the four kinds share one abstract type [P -> V] (in the code the contact
    functions are scalar valued); scaling by the factor is the abstract [smul]. *)
From Coq Require Import List Arith Bool.
From Verif Require Import Common Mesh_Model.
Import ListNotations.

(** enumerators, 38-68 *)
Definition DIRICHLET := 0.  Definition CLAMPED := 1. Definition DX := 2.   Definition DY := 3.
Definition DZ := 4.         Definition DXDY := 5.    Definition DXDZ := 6. Definition DYDZ := 7.
Definition NOTHING := 8.    Definition NEUMANN := 9. Definition FREE := 10.
Definition ROBIN := 11.     Definition WHATEVER := 12.
Definition SIGNORINI := 13. Definition SIGNORINI_FACE := 14. Definition SIGNORINI_CELL := 15.
Definition NO_CONTACT := 16.

Section BC.
  Variables C F Sc P V : Type.
  Variable fltb : F -> F -> bool.
  Variable faces_of : C -> list F.
  Variable smul : Sc -> V -> V.
  Definition func := P -> V.

  (** 198-207: the tuple (has condition, type, boundary id, function id); function id -1 is [None] *)
  Record entry := mkE { e_set : bool; e_type : nat; e_id : nat; e_func : option nat }.
  (** one kind of condition: table 203-207, functions 192-195, counter 209 *)
  Record kst := mkK { k_tab : list entry; k_fun : list func; k_cnt : nat }.
  Record bc := mkBC { b_dir : kst; b_neu : kst; b_rob : kst; b_con : kst; b_factor : Sc }.

  (** 239-246 *)
  Definition bc_make (one : Sc) (m : mesh C F) : bc :=
    let n := length (m_faces m) in
    mkBC (mkK (repeat (mkE false NOTHING 0 (Some 0)) n) [] 0)
         (mkK (repeat (mkE false FREE 0 (Some 0)) n) [] 0)
         (mkK (repeat (mkE false WHATEVER 0 (Some 0)) n) [] 0)
         (mkK (repeat (mkE false NO_CONTACT 0 None) n) [] 0)
         one.

  (** search_faces, 214-234 *)
  Fixpoint search_loop (m : mesh C F) (b_id : nat) (fs : list F) : outcome (list nat) :=
    match fs with
    | [] => Ok []
    | f :: r =>
        do i <- lookup F fltb (m_faces m) f;
        do j <- boundary_id C F m i;
        do l <- search_loop m b_id r;
        Ok (if j =? b_id then i :: l else l)
    end.
  Definition search_faces (m : mesh C F) (b_id : nat) : outcome (list nat) :=
    do b <- boundary_faces C F fltb m; search_loop m b_id b.

  (** the loops [for (face_id : list_faces) { table.at(face_id) = e; counter++; }] *)
  Fixpoint reg_faces (ids : list nat) (e : entry) (tab : list entry) (cnt : nat) : outcome (list entry * nat) :=
    match ids with
    | [] => Ok (tab, cnt)
    | i :: r => do tab' <- vset_at tab i e; reg_faces r e tab' (S cnt)
    end.

  (** the same over the faces themselves, 283-292 *)
  Fixpoint lookup_all (m : mesh C F) (fs : list F) : outcome (list nat) :=
    match fs with
    | [] => Ok []
    | f :: r => do i <- lookup F fltb (m_faces m) f; do l <- lookup_all m r; Ok (i :: l)
    end.

  (** registration with a function: the function is pushed first, its index is the old size *)
  Definition reg_func (m : mesh C F) (t id : nat) (fn : func) (k : kst) : outcome kst :=
    let bcf_id := length (k_fun k) in
    do l <- search_faces m id;
    do tc <- reg_faces l (mkE true t id (Some bcf_id)) (k_tab k) (k_cnt k);
    Ok (mkK (fst tc) (k_fun k ++ [fn]) (snd tc)).

  Definition addContactBC (m : mesh C F) (t id : nat) (s : bc) : outcome bc :=       (* 248-258 *)
    do l <- search_faces m id;
    do tc <- reg_faces l (mkE true t id None) (k_tab (b_con s)) (k_cnt (b_con s));
    Ok (mkBC (b_dir s) (b_neu s) (b_rob s) (mkK (fst tc) (k_fun (b_con s)) (snd tc)) (b_factor s)).
  Definition addContactBC_func (m : mesh C F) (t id : nat) (fn : func) (s : bc) : outcome bc :=  (* 260-275 *)
    do k <- reg_func m t id fn (b_con s); Ok (mkBC (b_dir s) (b_neu s) (b_rob s) k (b_factor s)).
  (** 277-293 (type DIRICHLET, reported id 0); looking up all faces first and registering them
      afterwards is the same as interleaving, as lookups do not depend on the table *)
  Definition addDirichletEverywhere (m : mesh C F) (fn : func) (s : bc) : outcome bc :=
    let k := b_dir s in
    let bcf_id := length (k_fun k) in
    do b <- boundary_faces C F fltb m;
    do l <- lookup_all m b;
    do tc <- reg_faces l (mkE true DIRICHLET 0 (Some bcf_id)) (k_tab k) (k_cnt k);
    Ok (mkBC (mkK (fst tc) (k_fun k ++ [fn]) (snd tc)) (b_neu s) (b_rob s) (b_con s) (b_factor s)).
  Definition addRobinBC (m : mesh C F) (t id : nat) (fn : func) (s : bc) : outcome bc :=     (* 295-310 *)
    do k <- reg_func m t id fn (b_rob s); Ok (mkBC (b_dir s) (b_neu s) k (b_con s) (b_factor s)).
  Definition addDirichletBC (m : mesh C F) (t id : nat) (fn : func) (s : bc) : outcome bc := (* 312-326 *)
    do k <- reg_func m t id fn (b_dir s); Ok (mkBC k (b_neu s) (b_rob s) (b_con s) (b_factor s)).
  Definition addNeumannBC (m : mesh C F) (t id : nat) (fn : func) (s : bc) : outcome bc :=   (* 328-342 *)
    do k <- reg_func m t id fn (b_neu s); Ok (mkBC (b_dir s) k (b_rob s) (b_con s) (b_factor s)).
  (** multiplyAllFunctionsByAFactor, 344-348 *)
  Definition set_factor (x : Sc) (s : bc) : bc := mkBC (b_dir s) (b_neu s) (b_rob s) (b_con s) x.

  (** counters, 350-377 *)
  Definition nb_faces_dirichlet (s : bc) := k_cnt (b_dir s).
  Definition nb_faces_neumann (s : bc) := k_cnt (b_neu s).
  Definition nb_faces_robin (s : bc) := k_cnt (b_rob s).
  Definition nb_faces_contact (s : bc) := k_cnt (b_con s).
  Definition nb_faces_boundary (s : bc) :=
    k_cnt (b_dir s) + k_cnt (b_neu s) + k_cnt (b_rob s) + k_cnt (b_con s).

  (** queries by index: [std::get<n>(table.at(i))] *)
  Definition q_set (k : kst) (i : nat) : outcome bool := do e <- vat (k_tab k) i; Ok (e_set e).
  Definition q_type (k : kst) (i : nat) : outcome nat := do e <- vat (k_tab k) i; Ok (e_type e).
  Definition q_id (k : kst) (i : nat) : outcome nat := do e <- vat (k_tab k) i; Ok (e_id e).
  (** queries by face: first lookup the index *)
  Definition by_face {A} (m : mesh C F) (q : nat -> outcome A) (f : F) : outcome A :=
    do i <- lookup F fltb (m_faces m) f; q i.

  (** 379-424 *)
  Definition is_dirichlet_face m f s := by_face m (q_set (b_dir s)) f.
  Definition is_neumann_face m f s := by_face m (q_set (b_neu s)) f.
  Definition is_robin_face m f s := by_face m (q_set (b_rob s)) f.
  Definition is_contact_face m f s := by_face m (q_set (b_con s)) f.
  (** 426-472 *)
  Definition dirichlet_boundary_type m f s := by_face m (q_type (b_dir s)) f.
  Definition neumann_boundary_type m f s := by_face m (q_type (b_neu s)) f.
  Definition robin_boundary_type m f s := by_face m (q_type (b_rob s)) f.
  Definition contact_boundary_type m f s := by_face m (q_type (b_con s)) f.
  (** 474-508 *)
  Definition dirichlet_boundary_id m f s := by_face m (q_id (b_dir s)) f.
  Definition neumann_boundary_id m f s := by_face m (q_id (b_neu s)) f.
  Definition robin_boundary_id m f s := by_face m (q_id (b_rob s)) f.
  (** 510-514 (by index) and 517-521 (by face: calls robin_boundary_id) *)
  Definition contact_boundary_id_idx (i : nat) (s : bc) := q_id (b_con s) i.
  Definition contact_boundary_id m f s := by_face m (q_id (b_rob s)) f.

  (** 663-725: throws std::logic_error if the face has no such condition, else factor * f *)
  Definition q_func (factor : Sc) (k : kst) (i : nat) : outcome func :=
    do b <- q_set k i;
    if negb b then Throw LogicError
    else do e <- vat (k_tab k) i;
         match e_func e with
         | None => UB  (* not reachable: only contact entries carry -1 *)
         | Some fid => do fn <- vat (k_fun k) fid; Ok (fun p => smul factor (fn p))
         end.
  Definition dirichlet_boundary_func m f s := by_face m (q_func (b_factor s) (b_dir s)) f.
  Definition neumann_boundary_func m f s := by_face m (q_func (b_factor s) (b_neu s)) f.
  Definition robin_boundary_func m f s := by_face m (q_func (b_factor s) (b_rob s)) f.
  (** 733-754: no factor; throws if there is no function *)
  Definition q_contact_func (k : kst) (i : nat) : outcome func :=
    do b <- q_set k i;
    if negb b then Throw LogicError
    else do e <- vat (k_tab k) i;
         match e_func e with
         | None => Throw LogicError
         | Some fid => vat (k_fun k) fid
         end.
  Definition contact_boundary_func m f s := by_face m (q_contact_func (b_con s)) f.

  (** cell_has_*_faces, 523-585: faces_id(msh, cl) are the looked-up faces of the cell *)
  Fixpoint any_face (q : nat -> outcome bool) (ids : list nat) : outcome bool :=
    match ids with
    | [] => Ok false
    | i :: r => do b <- q i; if b then Ok true else any_face q r
    end.
  Definition cell_has (k : bc -> kst) (m : mesh C F) (c : C) (s : bc) : outcome bool :=
    do ids <- lookup_all m (faces_of c); any_face (q_set (k s)) ids.
  (** howmany_contact_faces, 587-602 *)
  Fixpoint count_set (q : nat -> outcome bool) (ids : list nat) : outcome nat :=
    match ids with
    | [] => Ok 0
    | i :: r => do b <- q i; do n <- count_set q r; Ok (if b then S n else n)
    end.
  Definition howmany_contact_faces (m : mesh C F) (c : C) (s : bc) : outcome nat :=
    do ids <- lookup_all m (faces_of c); count_set (q_set (b_con s)) ids.
  (** faces_without_contact 610-625, faces_with_unknowns 627-643, faces_with_contact 645-661 *)
  Fixpoint filter_type (m : mesh C F) (keep : nat -> bool) (s : bc) (fs : list F) : outcome (list F) :=
    match fs with
    | [] => Ok []
    | f :: r => do t <- contact_boundary_type m f s; do l <- filter_type m keep s r;
                Ok (if keep t then f :: l else l)
    end.
  Definition faces_without_contact m c s := filter_type m (fun t => t =? NO_CONTACT) s (faces_of c).
  Definition faces_with_unknowns m c s := filter_type m (fun t => negb (t =? SIGNORINI_CELL)) s (faces_of c).
  Definition faces_with_contact m c s := filter_type m (fun t => negb (t =? NO_CONTACT)) s (faces_of c).

  (** A client's history of calls. *)
  Inductive bc_op :=
  | AddContact (t id : nat)
  | AddContactF (t id : nat) (fn : func)
  | AddDirichletAll (fn : func)
  | AddRobin (t id : nat) (fn : func)
  | AddDirichlet (t id : nat) (fn : func)
  | AddNeumann (t id : nat) (fn : func)
  | SetFactor (x : Sc).
  Definition bc_step (m : mesh C F) (op : bc_op) (s : bc) : outcome bc :=
    match op with
    | AddContact t id => addContactBC m t id s
    | AddContactF t id fn => addContactBC_func m t id fn s
    | AddDirichletAll fn => addDirichletEverywhere m fn s
    | AddRobin t id fn => addRobinBC m t id fn s
    | AddDirichlet t id fn => addDirichletBC m t id fn s
    | AddNeumann t id fn => addNeumannBC m t id fn s
    | SetFactor x => Ok (set_factor x s)
    end.
  Fixpoint bc_run (m : mesh C F) (ops : list bc_op) (s : bc) : outcome bc :=
    match ops with
    | [] => Ok s
    | op :: r => do s' <- bc_step m op s; bc_run m r s'
    end.
End BC.

Arguments mkK {P V}. Arguments k_tab {P V}. Arguments k_fun {P V}. Arguments k_cnt {P V}.
Arguments mkBC {Sc P V}. Arguments b_dir {Sc P V}. Arguments b_neu {Sc P V}. Arguments b_rob {Sc P V}.
Arguments b_con {Sc P V}. Arguments b_factor {Sc P V}.
Arguments AddContact {Sc P V}. Arguments AddContactF {Sc P V}. Arguments AddDirichletAll {Sc P V}.
Arguments AddRobin {Sc P V}. Arguments AddDirichlet {Sc P V}. Arguments AddNeumann {Sc P V}. Arguments SetFactor {Sc P V}.
