(** Model of the condensed assemblers: diffusion_condensed_assembler
    (methods/implementation_hho/assembler_hho.hpp 45-525), basic_condensed_assembler
    (methods/hho_assemblers.hpp 22-207) and discontinuous_galerkin_assembler
    (methods/implementation_dg/assembler.hpp 17-86).
    Scalars form a commutative ring.  Local matrices and the L2 projections of the Dirichlet data
    (project_function) are inputs.  Eigen's unchecked accesses outside a vector or matrix are UB. *)
From Coq Require Import List Arith Bool.
From Verif Require Import Common LinAlg Mesh_Model BC_Model.
Import ListNotations.

Section Sparse.
  Context {K : cring}.
  (** Eigen::Triplet *)
  Record triplet := mkTr { t_row : nat; t_col : nat; t_val : K }.
  (** SparseMatrix::setFromTriplets: duplicates are summed; positions outside the matrix are UB *)
  Definition from_triplets (n : nat) (ts : list triplet) : outcome (mat K) :=
    if forallb (fun t => (t_row t <? n) && (t_col t <? n)) ts
    then Ok (mkMat n n (fun i j =>
           suml (map t_val (filter (fun t => (t_row t =? i) && (t_col t =? j)) ts))))
    else UB.
  (** v(i) += x *)
  Definition vec_add (v : vec K) (i : nat) (x : K) : outcome (vec K) :=
    if i <? vsize v then Ok (mkVec (vsize v) (fun k => if k =? i then cadd (vent v k) x else vent v k)) else UB.
  (** v(i) *)
  Definition vec_get (v : vec K) (i : nat) : outcome K := if i <? vsize v then Ok (vent v i) else UB.
End Sparse.
Arguments triplet : clear implicits.

(** a loop over a list, threading a state *)
Fixpoint floop {A St} (step : A -> St -> outcome St) (l : list A) (s : St) : outcome St :=
  match l with [] => Ok s | a :: l => do s' <- step a s; floop step l s' end.
(** collecting one value per element *)
Fixpoint fmap {A B} (f : A -> outcome B) (l : list A) : outcome (list B) :=
  match l with [] => Ok [] | a :: l => do b <- f a; do r <- fmap f l; Ok (b :: r) end.

(** ** The numbering, assembler_hho.hpp 104-121 (= 138-155, and hho_assemblers.hpp 78-91) *)
Record tables := mkTab { compress_table : list nat; expand_table : list nat }.
(** std::count_if *)
Fixpoint count_if {F} (p : F -> outcome bool) (l : list F) : outcome nat :=
  match l with [] => Ok 0 | f :: l => do b <- p f; do n <- count_if p l; Ok (if b then S n else n) end.
(** the loop over i; [fs] are the faces from i on *)
Fixpoint number_faces {F} (isdir : F -> outcome bool) (fs : list F) (i co : nat) (t : tables) : outcome tables :=
  match fs with
  | [] => Ok t
  | fc :: fs =>
    do b <- isdir fc;
    if negb b then
      do c <- vset_at (compress_table t) i co;
      do e <- vset_at (expand_table t) co i;
      number_faces isdir fs (i + 1) (co + 1) (mkTab c e)
    else number_faces isdir fs (i + 1) co t
  end.

Section Assembler.
  Context {K : cring} {F : Type}.
  Local Open Scope k_scope.

  (** the fields; [use_bnd] records the constructor used *)
  Record asm := mkAsm {
    tab : tables; use_bnd : bool; num_all_faces : nat; num_dirichlet_faces : nat; num_other_faces : nat;
    fbs : nat; system_size : nat; triplets : list (triplet K); LHS : mat K; RHS : vec K }.

  (** constructors 97-128 and 130-163: [isdir] is is_boundary resp. bnd.is_dirichlet_face;
      [fbs] is scalar_basis_size(face_degree, dim-1) *)
  Definition asm_make (isdir : F -> outcome bool) (ub : bool) (faces : list F) (fbs : nat) : outcome asm :=
    let na := length faces in
    do nd <- count_if isdir faces;
    let no := (na - nd)%nat in
    do t <- number_faces isdir faces 0 0 (mkTab (repeat 0%nat na) (repeat 0%nat no));
    let sz := (fbs * no)%nat in
    Ok (mkAsm t ub na nd no fbs sz [] (mkMat sz sz (fun _ _ => 0)) (mkVec sz (fun _ => 0))).

  (** assembly_index, 45-73 *)
  Record assembly_index := mkIdx { idx : nat; assem : bool }.
  Definition as_size_t (a : assembly_index) : outcome nat := if negb (assem a) then Throw LogicError else Ok (idx a).

  (** 185-203 (= 240-259): the map from local to global unknowns and the Dirichlet data;
      [pos] is faces_id/offset of a face, [proj] the projected Dirichlet data of a face *)
  Fixpoint build_map (a : asm) (pos : F -> outcome nat) (isdir : F -> outcome bool) (proj : F -> outcome (nat -> K)) (fcs : list F)
    : outcome (list (assembly_index * K)) :=
    match fcs with
    | [] => Ok []
    | fc :: fcs =>
      do face_offset <- pos fc;
      do c <- vat (compress_table (tab a)) face_offset;
      let face_LHS_offset := (c * fbs a)%nat in
      do dirichlet <- isdir fc;
      do d <- (if dirichlet then proj fc else Ok (fun _ => 0));
      do rest <- build_map a pos isdir proj fcs;
      Ok (map (fun i => (mkIdx (face_LHS_offset + i) (negb dirichlet), d i)) (seq 0 (fbs a)) ++ rest)
    end.

  (** 205-218 (= 262-277) *)
  Definition asm_col (lhs : mat K) (m : list (assembly_index * K)) (i gi : nat) (j : nat) (st : list (triplet K) * vec K)
    : outcome (list (triplet K) * vec K) :=
    do aj <- vget m j;
    if assem (fst aj) then
      do gj <- as_size_t (fst aj); Ok (fst st ++ [mkTr gi gj (ment lhs i j)], snd st)
    else
      do r <- vec_add (snd st) gi (- (ment lhs i j * snd aj)); Ok (fst st, r).
  Definition asm_row (lhs : mat K) (rhs : vec K) (m : list (assembly_index * K)) (i : nat) (st : list (triplet K) * vec K)
    : outcome (list (triplet K) * vec K) :=
    do ai <- vget m i;
    if negb (assem (fst ai)) then Ok st else
    do gi <- as_size_t (fst ai);
    do st <- floop (asm_col lhs m i gi) (seq 0 (mcols lhs)) st;
    do ri <- vec_get rhs i;
    do r <- vec_add (snd st) gi ri;
    Ok (fst st, r).
  Definition assemble_with (pos : F -> outcome nat) (isdir : F -> outcome bool) (proj : F -> outcome (nat -> K))
      (fcs : list F) (lhs : mat K) (rhs : vec K) (a : asm) : outcome asm :=
    do m <- build_map a pos isdir proj fcs;
    do st <- floop (asm_row lhs rhs m) (seq 0 (mrows lhs)) (triplets a, RHS a);
    Ok (mkAsm (tab a) (use_bnd a) (num_all_faces a) (num_dirichlet_faces a) (num_other_faces a) (fbs a) (system_size a)
          (fst st) (LHS a) (snd st)).

  (** finalize, 505-512 *)
  Definition finalize (a : asm) : outcome asm :=
    do l <- from_triplets (system_size a) (triplets a);
    Ok (mkAsm (tab a) (use_bnd a) (num_all_faces a) (num_dirichlet_faces a) (num_other_faces a) (fbs a) (system_size a)
          [] l (RHS a)).

  (** take_local_solution 411-446 and take_local_data 460-503: one block of fbs values per face,
      read from the projection or from the solution (a block outside the vector is UB) *)
  Fixpoint take_local (a : asm) (pos : F -> outcome nat) (isdir : F -> outcome bool) (proj : F -> outcome (nat -> K)) (solution : vec K)
      (fcs : list F) : outcome (list K) :=
    match fcs with
    | [] => Ok []
    | fc :: fcs =>
      do dirichlet <- isdir fc;
      do b <- (if dirichlet then do d <- proj fc; Ok (map d (seq 0 (fbs a)))
               else
                 do face_offset <- pos fc;
                 do c <- vat (compress_table (tab a)) face_offset;
                 let face_SOL_offset := (c * fbs a)%nat in
                 if (face_SOL_offset + fbs a <=? vsize solution)%nat
                 then Ok (map (fun i => vent solution (face_SOL_offset + i)%nat) (seq 0 (fbs a))) else UB);
      do rest <- take_local a pos isdir proj solution fcs;
      Ok (b ++ rest)
    end.
  (** num_assembled_faces, 514-518 *)
  Definition num_assembled_faces (a : asm) : nat := num_other_faces a.

  (** ** The public interface on a mesh *)
  Context {C : Type} (cltb : C -> C -> bool) (fltb : F -> F -> bool) (faces_of : C -> list F).

  (** constructor 97-128, assemble 166-219, take_local_solution 411-446: Dirichlet = boundary *)
  Definition diffusion_asm (m : mesh C F) (fbs : nat) : outcome asm :=
    asm_make (is_boundary C F fltb m) false (m_faces m) fbs.
  Definition diffusion_assemble (m : mesh C F) (cl : C) (lhs : mat K) (rhs : vec K) (proj : F -> nat -> K) (a : asm) : outcome asm :=
    if use_bnd a then Throw InvalidArgument
    else assemble_with (lookup F fltb (m_faces m)) (is_boundary C F fltb m) (fun f => Ok (proj f)) (faces_of cl) lhs rhs a.
  Definition diffusion_take_local (m : mesh C F) (cl : C) (solution : vec K) (proj : F -> nat -> K) (a : asm) : outcome (list K) :=
    take_local a (offset F fltb (m_faces m)) (is_boundary C F fltb m) (fun f => Ok (proj f)) solution (faces_of cl).

  (** constructor 130-163, assemble 223-278, take_local_data 460-503: Dirichlet = registered;
      [project] is project_function(msh, fc, degree, function) *)
  Context {Sc P V : Type} (smul : Sc -> V -> V) (project : F -> (P -> V) -> nat -> K).
  Definition isdir_bnd (m : mesh C F) (bnd : bc Sc P V) (f : F) : outcome bool := is_dirichlet_face C F Sc P V fltb m f bnd.
  Definition proj_bnd (m : mesh C F) (bnd : bc Sc P V) (f : F) : outcome (nat -> K) :=
    do g <- dirichlet_boundary_func C F Sc P V fltb smul m f bnd; Ok (project f g).
  Definition diffusion_asm_bnd (m : mesh C F) (bnd : bc Sc P V) (fbs : nat) : outcome asm :=
    asm_make (isdir_bnd m bnd) true (m_faces m) fbs.
  Definition diffusion_assemble_bnd (m : mesh C F) (bnd : bc Sc P V) (cl : C) (lhs : mat K) (rhs : vec K) (a : asm) : outcome asm :=
    if negb (use_bnd a) then Throw InvalidArgument
    else assemble_with (offset F fltb (m_faces m)) (isdir_bnd m bnd) (proj_bnd m bnd) (faces_of cl) lhs rhs a.
  Definition diffusion_take_local_bnd (m : mesh C F) (bnd : bc Sc P V) (cl : C) (solution : vec K) (a : asm) : outcome (list K) :=
    take_local a (offset F fltb (m_faces m)) (isdir_bnd m bnd) (proj_bnd m bnd) solution (faces_of cl).

  (** push_back of the triplets (gi+i, gj+j, M i j) in a double loop over i, j < n *)
  Definition push_block (gi gj n : nat) (M : nat -> nat -> K) (ts : list (triplet K)) : list (triplet K) :=
    ts ++ flat_map (fun i => map (fun j => mkTr (gi + i) (gj + j) (M i j)) (seq 0 n)) (seq 0 n).
  (** RHS(base + i) += v(i) for i < n *)
  Definition add_block (base n : nat) (v : nat -> K) (r : vec K) : outcome (vec K) :=
    floop (fun i r => vec_add r (base + i) (v i)) (seq 0 n) r.
  Definition with_sys (a : asm) (ts : list (triplet K)) (r : vec K) : asm :=
    mkAsm (tab a) (use_bnd a) (num_all_faces a) (num_dirichlet_faces a) (num_other_faces a) (fbs a) (system_size a) ts (LHS a) r.

  (** impose_neumann_boundary_conditions, 280-330; [load] is make_rhs(msh, bfc, fb, function).
      The faces are those the boundary iterator visits. *)
  Context (load : F -> (P -> V) -> nat -> K) (mass : F -> nat -> nat -> K).
  Definition neumann_step (m : mesh C F) (bnd : bc Sc P V) (bfc : F) (a : asm) : outcome asm :=
    do face_id <- lookup F fltb (m_faces m) bfc;
    do n <- q_set P V (b_neu bnd) face_id;
    if n then
      do d <- q_set P V (b_dir bnd) face_id;
      if d then Throw InvalidArgument else
      do r <- q_set P V (b_rob bnd) face_id;
      if r then Throw InvalidArgument else
      do c <- vat (compress_table (tab a)) face_id;
      do g <- q_func Sc P V smul (b_factor bnd) (b_neu bnd) face_id;
      do R <- add_block (c * fbs a) (fbs a) (load bfc g) (RHS a);
      Ok (with_sys a (triplets a) R)
    else Ok a.
  Definition impose_neumann (m : mesh C F) (bnd : bc Sc P V) (a : asm) : outcome asm :=
    if negb (use_bnd a) then Throw InvalidArgument else
    if (0 <? nb_faces_neumann Sc P V bnd)%nat then
      do bfs <- boundary_faces C F fltb m; floop (neumann_step m bnd) bfs a
    else Throw InvalidArgument.

  (** impose_robin_boundary_conditions, 333-408; [mass] is make_mass_matrix(msh, bfc, fb).  The
      updates of RHS and of the triplets, interleaved in the code, do not depend on each other. *)
  Definition robin_step (m : mesh C F) (bnd : bc Sc P V) (bfc : F) (a : asm) : outcome asm :=
    do face_id <- lookup F fltb (m_faces m) bfc;
    do r <- q_set P V (b_rob bnd) face_id;
    if r then
      do n <- q_set P V (b_neu bnd) face_id;
      if n then do t <- q_type P V (b_neu bnd) face_id; if (t =? NEUMANN)%nat then Throw InvalidArgument else Throw LogicError else
      do d <- q_set P V (b_dir bnd) face_id;
      if d then do t <- q_type P V (b_dir bnd) face_id; if (t =? DIRICHLET)%nat then Throw InvalidArgument else Throw LogicError else
      do c <- vat (compress_table (tab a)) face_id;
      do g <- q_func Sc P V smul (b_factor bnd) (b_rob bnd) face_id;
      do R <- add_block (c * fbs a) (fbs a) (load bfc g) (RHS a);
      Ok (with_sys a (push_block (c * fbs a) (c * fbs a) (fbs a) (mass bfc) (triplets a)) R)
    else Ok a.
  Definition impose_robin (m : mesh C F) (bnd : bc Sc P V) (a : asm) : outcome asm :=
    if negb (use_bnd a) then Throw InvalidArgument else
    if (0 <? nb_faces_robin Sc P V bnd)%nat then
      do bfs <- boundary_faces C F fltb m; floop (robin_step m bnd) bfs a
    else Ok a.

  (** ** basic_condensed_assembler, methods/hho_assemblers.hpp 22-207: the fields of [asm] and
      dirichlet_faces *)
  Record basm := mkBAsm { b_asm : asm; dirichlet_faces : list bool }.
  (** boundary_info(f), mesh.hpp 590-595, and the test of lines 47 and 72 *)
  Definition outer_face (m : mesh C F) (f : F) : outcome bool :=
    do i <- lookup F fltb (m_faces m) f; do d <- vat (m_binfo m) i; Ok (bd_is_b d && negb (bd_is_int d)).
  (** is_dirichlet, 44-53 *)
  Definition basic_is_dirichlet (m : mesh C F) (df : list bool) (f : F) : outcome bool :=
    if (length df =? 0)%nat then outer_face m f else do i <- lookup F fltb (m_faces m) f; vget df i.
  (** 77-97 (= 105-125) *)
  Definition basic_make (m : mesh C F) (fbs : nat) (df : list bool) : outcome basm :=
    let na := length (m_faces m) in
    let nd := count_occ bool_dec df true in
    let no := (na - nd)%nat in
    do t <- number_faces (basic_is_dirichlet m df) (m_faces m) 0 0 (mkTab (repeat 0%nat na) (repeat 0%nat no));
    let sz := (fbs * no)%nat in
    Ok (mkBAsm (mkAsm t false na nd no fbs sz [] (mkMat sz sz (fun _ _ => 0)) (mkVec sz (fun _ => 0))) df).
  (** constructors 62-98 and 100-126 *)
  Definition basic_asm (m : mesh C F) (fbs : nat) : outcome basm :=
    do df <- fmap (outer_face m) (m_faces m); basic_make m fbs df.
  Definition basic_asm_vec (m : mesh C F) (fbs : nat) (dirichlet : list bool) : outcome basm := basic_make m fbs dirichlet.

  (** assemble, 128-175 *)
  Definition basic_col (b : basm) (lhs : mat K) (ids : list nat) (lnum_i gnum_i lnum_j : nat) (ts : list (triplet K)) : outcome (list (triplet K)) :=
    let n := fbs (b_asm b) in
    do id_j <- vget ids lnum_j;
    do dj <- vget (dirichlet_faces b) id_j;
    if dj then Ok ts
    else do gnum_j <- vget (compress_table (tab (b_asm b))) id_j;
         Ok (push_block (gnum_i * n) (gnum_j * n) n (fun i j => ment lhs (lnum_i * n + i)%nat (lnum_j * n + j)%nat) ts).
  Definition basic_row (b : basm) (lhs : mat K) (rhs : vec K) (ids : list nat) (lnum_i : nat) (st : list (triplet K) * vec K)
    : outcome (list (triplet K) * vec K) :=
    let n := fbs (b_asm b) in
    do id_i <- vget ids lnum_i;
    do di <- vget (dirichlet_faces b) id_i;
    if di then Ok st else
    do gnum_i <- vget (compress_table (tab (b_asm b))) id_i;
    do ts <- floop (basic_col b lhs ids lnum_i gnum_i) (seq 0 (length ids)) (fst st);
    do r <- (if (lnum_i * n + n <=? vsize rhs)%nat then add_block (gnum_i * n) n (fun i => vent rhs (lnum_i * n + i)%nat) (snd st) else UB);
    Ok (ts, r).
  Definition basic_assemble (m : mesh C F) (cl : C) (lhs : mat K) (rhs : vec K) (b : basm) : outcome basm :=
    do ids <- fmap (lookup F fltb (m_faces m)) (faces_of cl);
    do st <- floop (basic_row b lhs rhs ids) (seq 0 (length ids)) (triplets (b_asm b), RHS (b_asm b));
    Ok (mkBAsm (with_sys (b_asm b) (fst st) (snd st)) (dirichlet_faces b)).
  (** finalize, 207-212 *)
  Definition basic_finalize (b : basm) : outcome basm := do a <- finalize (b_asm b); Ok (mkBAsm a (dirichlet_faces b)).
  (** take_local_solution, 177-201; solution.segment outside the vector is UB *)
  Definition basic_block (b : basm) (solution : vec K) (id : nat) : outcome (list K) :=
    do d <- vget (dirichlet_faces b) id;
    if d then Ok (repeat 0 (fbs (b_asm b)))
    else do c <- vat (compress_table (tab (b_asm b))) id;
         let o := (c * fbs (b_asm b))%nat in
         if (o + fbs (b_asm b) <=? vsize solution)%nat
         then Ok (map (fun i => vent solution (o + i)%nat) (seq 0 (fbs (b_asm b)))) else UB.
  Definition basic_take_local (m : mesh C F) (cl : C) (solution : vec K) (b : basm) : outcome (list K) :=
    do ids <- fmap (lookup F fltb (m_faces m)) (faces_of cl);
    do bs <- fmap (basic_block b solution) ids;
    Ok (concat bs).
End Assembler.
Arguments asm : clear implicits.
Arguments basm : clear implicits.

(** ** discontinuous_galerkin_assembler and discontinuous_galerkin_eigenvalue_assembler,
    methods/implementation_dg/assembler.hpp 17-76 and 85-148 *)
Section DG.
  Context {K : cring} {C F : Type} (cltb : C -> C -> bool).
  Local Open Scope k_scope.
  Record dg := mkDG { dg_cbs : nat; dg_syssz : nat; dg_trip : list (triplet K); dg_LHS : mat K; dg_RHS : vec K }.
  (** 38-46 *)
  Definition dg_make (m : mesh C F) (cbs : nat) : dg :=
    let n := (cbs * length (m_cells m))%nat in
    mkDG cbs n [] (mkMat n n (fun _ _ => 0)) (mkVec n (fun _ => 0)).
  (** 48-58 *)
  Definition dg_assemble_pair (m : mesh C F) (clp clm : C) (A : mat K) (s : dg) : outcome dg :=
    do oi <- offset C cltb (m_cells m) clp;
    do oj <- offset C cltb (m_cells m) clm;
    Ok (mkDG (dg_cbs s) (dg_syssz s) (push_block (dg_cbs s * oi) (dg_cbs s * oj) (dg_cbs s) (ment A) (dg_trip s)) (dg_LHS s) (dg_RHS s)).
  (** 60-71; [b] must have cbs entries (Eigen checks sizes of += only by assertion) *)
  Definition dg_assemble_cell (m : mesh C F) (cl : C) (A : mat K) (b : vec K) (s : dg) : outcome dg :=
    do o <- offset C cltb (m_cells m) cl;
    do R <- (if (vsize b =? dg_cbs s)%nat then add_block (dg_cbs s * o) (dg_cbs s) (vent b) (dg_RHS s) else UB);
    Ok (mkDG (dg_cbs s) (dg_syssz s) (push_block (dg_cbs s * o) (dg_cbs s * o) (dg_cbs s) (ment A) (dg_trip s)) (dg_LHS s) R).
  (** 73-78 *)
  Definition dg_finalize (s : dg) : outcome dg :=
    do l <- from_triplets (dg_syssz s) (dg_trip s);
    Ok (mkDG (dg_cbs s) (dg_syssz s) [] l (dg_RHS s)).
  (** one call *)
  Inductive dg_call := DgPair (clp clm : C) (A : mat K) | DgCell (cl : C) (A : mat K) (b : vec K).
  Definition dg_step (m : mesh C F) (c : dg_call) (s : dg) : outcome dg :=
    match c with DgPair p q A => dg_assemble_pair m p q A s | DgCell c A b => dg_assemble_cell m c A b s end.
  Definition dg_run (m : mesh C F) (cbs : nat) (calls : list dg_call) : outcome dg :=
    do s <- floop (dg_step m) calls (dg_make m cbs); dg_finalize s.

  (** the eigenvalue assembler: two triplet lists *)
  Record dge := mkDGE { dge_cbs : nat; dge_syssz : nat; tr_K : list (triplet K); tr_M : list (triplet K); gK : mat K; gM : mat K }.
  Definition dge_make (m : mesh C F) (cbs : nat) : dge :=
    let n := (cbs * length (m_cells m))%nat in
    mkDGE cbs n [] [] (mkMat n n (fun _ _ => 0)) (mkMat n n (fun _ _ => 0)).
  Inductive dge_call := DgeK (clp clm : C) (A : mat K) | DgeM (cl : C) (A : mat K).
  Definition dge_step (m : mesh C F) (c : dge_call) (s : dge) : outcome dge :=
    match c with
    | DgeK clp clm A =>
      do oi <- offset C cltb (m_cells m) clp;
      do oj <- offset C cltb (m_cells m) clm;
      Ok (mkDGE (dge_cbs s) (dge_syssz s) (push_block (dge_cbs s * oi) (dge_cbs s * oj) (dge_cbs s) (ment A) (tr_K s)) (tr_M s) (gK s) (gM s))
    | DgeM cl A =>
      do o <- offset C cltb (m_cells m) cl;
      Ok (mkDGE (dge_cbs s) (dge_syssz s) (tr_K s) (push_block (dge_cbs s * o) (dge_cbs s * o) (dge_cbs s) (ment A) (tr_M s)) (gK s) (gM s))
    end.
  Definition dge_run (m : mesh C F) (cbs : nat) (calls : list dge_call) : outcome dge :=
    do s <- floop (dge_step m) calls (dge_make m cbs);
    do k <- from_triplets (dge_syssz s) (tr_K s);
    do mm <- from_triplets (dge_syssz s) (tr_M s);
    Ok (mkDGE (dge_cbs s) (dge_syssz s) [] [] k mm).
End DG.
