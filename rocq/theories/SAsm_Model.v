(** Model of methods/implementation_hho/assembler_hho.hpp: scalar_primal_hho_assembler (2371-2709),
    stokes_assembler (532-923) and stokes_assembler_alg (933-1244).
    Scalars form a commutative ring.  Local matrices, the L2 projections of the Dirichlet data
    (project_function), loads (make_rhs), mass matrices and the integrals of the pressure basis are
    inputs.  Eigen's unchecked accesses outside a vector or matrix are UB.  An assembly_index whose
    unknown is prescribed is [None]: it is converted to a number only after the test assemble(). *)
From Coq Require Import List Arith Bool.
From Verif Require Import Common LinAlg Mesh_Model BC_Model Degree_Model Asm_Model VAsm_Model.
Import ListNotations.

Section Terms.
  Context {K : cring}.
  Local Open Scope k_scope.
  (** asm_map and dirichlet_data side by side *)
  Definition amap := list (option nat * K).
  (** what a call contributes: triplets and additions to the right-hand side *)
  Definition terms := (list (triplet K) * list (nat * K))%type.

  (** the loop over the columns of a row: 2491-2497 (the product is (-lhs(i,j)) * dirichlet_data(j)) *)
  Definition sp_col (lhs : mat K) (m : amap) (i gi j : nat) (st : terms) : outcome terms :=
    do aj <- vget m j;
    match fst aj with
    | Some gj => Ok (fst st ++ [mkTr gi gj (ment lhs i j)], snd st)
    | None => Ok (fst st, snd st ++ [(gi, - ment lhs i j * snd aj)])
    end.
  (** 2486-2500 *)
  Definition sp_row (lhs : mat K) (rhs : vec K) (m : amap) (i : nat) (st : terms) : outcome terms :=
    do ai <- vget m i;
    match fst ai with
    | None => Ok st
    | Some gi =>
      do st <- floop (sp_col lhs m i gi) (seq 0 (mcols lhs)) st;
      do ri <- vec_get rhs i;
      Ok (fst st, snd st ++ [(gi, ri)])
    end.
  (** Stokes: 698-704 (= 798-804 = 1102-1108); the updates RHS(gi) -= are listed in order *)
  Definition st_col (lhs : mat K) (m : amap) (i gi j : nat) (st : terms) : outcome terms :=
    do aj <- vget m j;
    match fst aj with
    | Some gj => Ok (fst st ++ [mkTr gi gj (ment lhs i j)], snd st)
    | None => Ok (fst st, snd st ++ [(gi, - (ment lhs i j * snd aj))])
    end.
  (** 693-705 (= 1097-1109), and 791-805 where [rhs] is given *)
  Definition st_row (lhs : mat K) (rhs : option (vec K)) (m : amap) (i : nat) (st : terms) : outcome terms :=
    do ai <- vget m i;
    match fst ai with
    | None => Ok st
    | Some gi =>
      do st <- match rhs with
               | None => Ok st
               | Some r => do ri <- vec_get r i; Ok (fst st, snd st ++ [(gi, ri)])
               end;
      floop (st_col lhs m i gi) (seq 0 (mcols lhs)) st
    end.
  (** the pressure rows and their transposes: 707-721 (= 807-821 = 1111-1125) *)
  Definition st_b_col (lhs : mat K) (m : amap) (boff i j : nat) (st : terms) : outcome terms :=
    do aj <- vget m j;
    let gi := (boff + i)%nat in
    match fst aj with
    | Some gj => Ok (fst st ++ [mkTr gi gj (ment lhs i j); mkTr gj gi (ment lhs i j)], snd st)
    | None => Ok (fst st, snd st ++ [(gi, - (ment lhs i j * snd aj))])
    end.
  Definition st_b_row (lhs : mat K) (m : amap) (boff i : nat) (st : terms) : outcome terms :=
    floop (st_b_col lhs m boff i) (seq 0 (mcols lhs)) st.
  (** the multiplier: 723-737 (= 823-837 = 1127-1141); [mult] holds cbs_B integrals *)
  Definition st_mult (cb boff moff : nat) (mult : nat -> K) : list (triplet K) :=
    flat_map (fun i => [mkTr (boff + i) moff (mult i); mkTr moff (boff + i) (mult i)]) (seq 0 cb).
End Terms.
Arguments amap : clear implicits.
Arguments terms : clear implicits.

Section SAsm.
  Context {K : cring} {C F Sc P V : Type} (cltb : C -> C -> bool) (fltb : F -> F -> bool) (faces_of : C -> list F) (smul : Sc -> V -> V).
  Local Open Scope k_scope.

  (** ** scalar_primal_hho_assembler *)
  Record spasm := mkSP { sp_tab : list nat; sp_fbs : nat; sp_size : nat; sp_trip : list (triplet K); sp_duos : list (nat * K);
    sp_LHS : mat K; sp_RHS : vec K }.
  Definition with_sp (a : spasm) (ts : list (triplet K)) (ds : list (nat * K)) (l : mat K) (r : vec K) : spasm :=
    mkSP (sp_tab a) (sp_fbs a) (sp_size a) ts ds l r.
  (** constructor 2398-2426: the number of unknowns comes from the counter of the boundary
      conditions; the numbering from is_dirichlet_face.  If the counter exceeds the number of faces
      the sizes wrap around; what follows is not modelled further (UB).  The test that both numbers
      agree is an assert. *)
  Definition sp_make (m : mesh C F) (fbs : nat) (bnd : bc Sc P V) : outcome spasm :=
    let na := length (m_faces m) in
    let nd := nb_faces_dirichlet Sc P V bnd in
    if (na <? nd)%nat then UB else
    let no := (na - nd)%nat in
    do r <- number_from (fun id => do b <- q_set P V (b_dir bnd) id; Ok (if b then 0%nat else 1%nat)) (seq 0 na) 0;
    let sz := (fbs * no)%nat in
    Ok (mkSP (fst r) fbs sz [] [] (mkMat sz sz (fun _ _ => 0)) (mkVec sz (fun _ => 0))).
  (** initialize 2429-2447 *)
  Definition sp_initialize (a : spasm) : spasm :=
    with_sp a (sp_trip a) (sp_duos a) (mkMat (sp_size a) (sp_size a) (fun _ _ => 0)) (mkVec (sp_size a) (fun _ => 0)).

  (** project_function(msh, fc, face_degree, function, odi), make_rhs(msh, fc, basis, function, odi),
      make_mass_matrix(msh, fc, basis) *)
  Context (project load : F -> (P -> V) -> nat -> K) (mass : F -> nat -> nat -> K).
  (** the projected Dirichlet data of face number id, 2475-2483 (the face is the one numbered id) *)
  Definition sp_data (m : mesh C F) (bnd : bc Sc P V) (id : nat) : outcome (nat -> K) :=
    do g <- q_func Sc P V smul (b_factor bnd) (b_dir bnd) id;
    do fc <- vget (m_faces m) id;
    Ok (project fc g).
  (** 2457-2484 *)
  Fixpoint sp_map (m : mesh C F) (bnd : bc Sc P V) (a : spasm) (ids : list nat) : outcome (amap K) :=
    match ids with
    | [] => Ok []
    | id :: ids =>
      do c <- vat (sp_tab a) id;
      do dirichlet <- q_set P V (b_dir bnd) id;
      do d <- (if dirichlet then sp_data m bnd id else Ok (fun _ => 0));
      do rest <- sp_map m bnd a ids;
      Ok (map (fun i => (if dirichlet then None else Some (c * sp_fbs a + i)%nat, d i)) (seq 0 (sp_fbs a)) ++ rest)
    end.
  (** assemble 2450-2501 *)
  Definition sp_assemble (m : mesh C F) (bnd : bc Sc P V) (cl : C) (lhs : mat K) (rhs : vec K) (a : spasm) : outcome spasm :=
    do ids <- fmap (lookup F fltb (m_faces m)) (faces_of cl);
    do mp <- sp_map m bnd a ids;
    do st <- floop (sp_row lhs rhs mp) (seq 0 (mrows lhs)) (sp_trip a, sp_duos a);
    Ok (with_sp a (fst st) (snd st) (sp_LHS a) (sp_RHS a)).
  (** finalize 2504-2513 *)
  Definition sp_finalize (a : spasm) : outcome spasm :=
    do l <- from_triplets (sp_size a) (sp_trip a);
    do R <- add_duos (sp_duos a) (sp_RHS a);
    Ok (with_sp a [] [] l R).
  (** solution.segment(compress_offset, fbs) *)
  Definition segment (v : vec K) (o n : nat) : outcome (list K) :=
    if (o + n <=? vsize v)%nat then Ok (map (fun i => vent v (o + i)%nat) (seq 0 n)) else UB.
  (** the values on one face: take_local_solution 2571-2581 *)
  Definition sp_values (m : mesh C F) (bnd : bc Sc P V) (sol : vec K) (a : spasm) (id : nat) : outcome (list K) :=
    do dirichlet <- q_set P V (b_dir bnd) id;
    if dirichlet then do d <- sp_data m bnd id; Ok (map d (seq 0 (sp_fbs a)))
    else do c <- vat (sp_tab a) id; segment sol (c * sp_fbs a) (sp_fbs a).
  (** take_local_solution 2556-2584 *)
  Definition sp_take_local (m : mesh C F) (bnd : bc Sc P V) (cl : C) (sol : vec K) (a : spasm) : outcome (list K) :=
    do ids <- fmap (lookup F fltb (m_faces m)) (faces_of cl);
    do l <- fmap (sp_values m bnd sol a) ids; Ok (concat l).
  (** expand_solution 2522-2553: compress_table.at is read for every face; ret.segment(id * fbs) *)
  Definition sp_expand (m : mesh C F) (bnd : bc Sc P V) (sol : vec K) (a : spasm) : outcome (vec K) :=
    floop (fun bfc ret =>
      do id <- lookup F fltb (m_faces m) bfc;
      do c <- vat (sp_tab a) id;
      do dirichlet <- q_set P V (b_dir bnd) id;
      do l <- (if dirichlet then do g <- q_func Sc P V smul (b_factor bnd) (b_dir bnd) id; Ok (map (project bfc g) (seq 0 (sp_fbs a)))
               else segment sol (c * sp_fbs a) (sp_fbs a));
      set_block (id * sp_fbs a) l ret) (m_faces m) (mkVec (sp_fbs a * length (m_faces m)) (fun _ => 0)).
  (** impose_neumann_boundary_conditions 2587-2633 *)
  Definition sp_neumann_step (m : mesh C F) (bnd : bc Sc P V) (bfc : F) (a : spasm) : outcome spasm :=
    do id <- lookup F fltb (m_faces m) bfc;
    do n <- q_set P V (b_neu bnd) id;
    if negb n then Ok a else
    do d <- q_set P V (b_dir bnd) id;
    if d then Throw InvalidArgument else
    do r <- q_set P V (b_rob bnd) id;
    if r then Throw InvalidArgument else
    do c <- vat (sp_tab a) id;
    do g <- q_func Sc P V smul (b_factor bnd) (b_neu bnd) id;
    Ok (with_sp a (sp_trip a) (sp_duos a ++ map (fun i => (c * sp_fbs a + i, load bfc g i)%nat) (seq 0 (sp_fbs a))) (sp_LHS a) (sp_RHS a)).
  Definition sp_neumann (m : mesh C F) (bnd : bc Sc P V) (a : spasm) : outcome spasm :=
    if (0 <? nb_faces_neumann Sc P V bnd)%nat then
      do bfs <- boundary_faces C F fltb m; floop (sp_neumann_step m bnd) bfs a
    else Ok a.
  (** impose_robin_boundary_conditions 2636-2699; the additions and the triplets are independent *)
  Definition sp_robin_step (m : mesh C F) (bnd : bc Sc P V) (bfc : F) (a : spasm) : outcome spasm :=
    do id <- lookup F fltb (m_faces m) bfc;
    do r <- q_set P V (b_rob bnd) id;
    if negb r then Ok a else
    do n <- q_set P V (b_neu bnd) id;
    if n then do t <- q_type P V (b_neu bnd) id; if (t =? NEUMANN)%nat then Throw InvalidArgument else Throw LogicError else
    do d <- q_set P V (b_dir bnd) id;
    if d then do t <- q_type P V (b_dir bnd) id; if (t =? DIRICHLET)%nat then Throw InvalidArgument else Throw LogicError else
    do c <- vat (sp_tab a) id;
    do g <- q_func Sc P V smul (b_factor bnd) (b_rob bnd) id;
    let o := (c * sp_fbs a)%nat in
    Ok (with_sp a (push_block o o (sp_fbs a) (mass bfc) (sp_trip a))
          (sp_duos a ++ map (fun i => (o + i, load bfc g i)%nat) (seq 0 (sp_fbs a))) (sp_LHS a) (sp_RHS a)).
  Definition sp_robin (m : mesh C F) (bnd : bc Sc P V) (a : spasm) : outcome spasm :=
    if (0 <? nb_faces_robin Sc P V bnd)%nat then
      do bfs <- boundary_faces C F fltb m; floop (sp_robin_step m bnd) bfs a
    else Ok a.

  (** ** stokes_assembler and stokes_assembler_alg *)
  (** the dimension, scalar_basis_size(k, dim-1), the sizes of the cell velocity and of the pressure
      basis, the face degree; the face velocity has dim * sbs k unknowns *)
  Context (dim : nat) (sbs : nat -> nat) (cA cB k : nat).
  Definition fA : nat := (dim * sbs k)%nat.
  (** the fields that change; [st_DIR] (RHS_DIRICHLET) is used by stokes_assembler_alg only *)
  Record stokes := mkST { st_tab : tables; st_no : nat; st_size : nat; st_trip : list (triplet K);
    st_LHS : mat K; st_RHS : vec K; st_DIR : vec K }.
  Definition with_st (a : stokes) (ts : list (triplet K)) (l : mat K) (r d : vec K) : stokes :=
    mkST (st_tab a) (st_no a) (st_size a) ts l r d.
  Definition zeros (n : nat) : vec K := mkVec n (fun _ => 0).
  (** constructors 585-628 and 987-1031; the last loop only sums, but it can throw *)
  Definition st_make (m : mesh C F) (bnd : bc Sc P V) : outcome stokes :=
    let na := length (m_faces m) in
    let nc := length (m_cells m) in
    do nd <- count_if (isdir_bnd fltb m bnd) (m_faces m);
    let no := (na - nd)%nat in
    do t <- number_faces (isdir_bnd fltb m bnd) (m_faces m) 0 0 (mkTab (repeat 0%nat na) (repeat 0%nat no));
    let sz := (cA * nc + fA * no + cB * nc + 1)%nat in
    do _ <- fmap (fun id => dirichlet_imposed_dofs dim sbs bnd id k) (seq 0 na);
    Ok (mkST t no sz [] (mkMat sz sz (fun _ _ => 0)) (zeros sz) (zeros sz)).
  (** project_function with the quadrature degree raised by [odi] *)
  Context (vproject : nat -> F -> (P -> V) -> nat -> K) (mult : C -> nat -> K).
  (** the faces: 668-689 (= 765-786 = 1068-1093, where the number is looked up with find_element_id
      and the error reported in the same way); [odi] is None in assemble_rhs 1161-1172, which needs
      no data *)
  Fixpoint st_faces (m : mesh C F) (bnd : bc Sc P V) (a : stokes) (odi : option nat) (fcs : list F) : outcome (amap K) :=
    match fcs with
    | [] => Ok []
    | fc :: fcs =>
      do fo <- offset F fltb (m_faces m) fc;
      do c <- vat (compress_table (st_tab a)) fo;
      let off := (cA * length (m_cells m) + c * fA)%nat in
      do id <- lookup F fltb (m_faces m) fc;
      do dirichlet <- q_set P V (b_dir bnd) id;
      do d <- (match odi with
               | Some q => if dirichlet then do g <- q_func Sc P V smul (b_factor bnd) (b_dir bnd) id; Ok (vproject q fc g)
                           else Ok (fun _ => 0)
               | None => Ok (fun _ => 0) end);
      do rest <- st_faces m bnd a odi fcs;
      Ok (map (fun i => (if dirichlet then None else Some (off + i)%nat, d i)) (seq 0 fA) ++ rest)
    end.
  Definition st_map (m : mesh C F) (bnd : bc Sc P V) (a : stokes) (odi : option nat) (co : nat) (fcs : list F) : outcome (amap K) :=
    do r <- st_faces m bnd a odi fcs;
    Ok (map (fun i => (Some (co * cA + i)%nat, 0)) (seq 0 cA) ++ r).
  (** B_offset and mult_offset, 661 and 731 *)
  Definition b_offset (m : mesh C F) (a : stokes) (co : nat) : nat := (cA * length (m_cells m) + fA * st_no a + cB * co)%nat.
  Definition mult_offset (m : mesh C F) (a : stokes) : nat := (cA * length (m_cells m) + fA * st_no a + cB * length (m_cells m))%nat.
  (** the terms of a cell, 654-737; [rhs] is given in assemble_alg *)
  Definition st_terms (m : mesh C F) (bnd : bc Sc P V) (odi : nat) (cl : C) (lA lB : mat K) (rhs : option (vec K)) (a : stokes)
    : outcome (nat * terms K) :=
    do co <- offset C cltb (m_cells m) cl;
    do mp <- st_map m bnd a (Some odi) co (faces_of cl);
    do st <- floop (st_row lA rhs mp) (seq 0 (mrows lA)) ([], []);
    do st <- floop (st_b_row lB mp (b_offset m a co)) (seq 0 (mrows lB)) st;
    Ok (co, (fst st ++ st_mult cB (b_offset m a co) (mult_offset m a) (mult cl), snd st)).
  (** assemble 647-741: the projection uses quadrature raised by the face degree; only the cell part
      of [rhs] is added, as a block *)
  Definition st_assemble (m : mesh C F) (bnd : bc Sc P V) (cl : C) (lA lB : mat K) (rhs : vec K) (a : stokes) : outcome stokes :=
    do r <- st_terms m bnd k cl lA lB None a;
    do R <- add_duos (snd (snd r)) (st_RHS a);
    do R <- (if (cA <=? vsize rhs)%nat then add_block (fst r * cA) cA (vent rhs) R else UB);
    Ok (with_st a (st_trip a ++ fst (snd r)) (st_LHS a) R (st_DIR a)).
  (** assemble_alg 744-841 *)
  Definition st_assemble_alg (m : mesh C F) (bnd : bc Sc P V) (cl : C) (lA lB : mat K) (rhs : vec K) (a : stokes) : outcome stokes :=
    do r <- st_terms m bnd 2 cl lA lB (Some rhs) a;
    do R <- add_duos (snd (snd r)) (st_RHS a);
    Ok (with_st a (st_trip a ++ fst (snd r)) (st_LHS a) R (st_DIR a)).
  (** finalize 844-848, initialize 639-644 *)
  Definition st_finalize (a : stokes) : outcome stokes :=
    do l <- from_triplets (st_size a) (st_trip a); Ok (with_st a [] l (st_RHS a) (st_DIR a)).
  Definition st_initialize (a : stokes) : stokes :=
    with_st a (st_trip a) (mkMat (st_size a) (st_size a) (fun _ _ => 0)) (zeros (st_size a)) (st_DIR a).
  (** stokes_assembler_alg: initialize_lhs 1034-1039, initialize_rhs 1042-1046 *)
  Definition alg_initialize_lhs (a : stokes) : stokes :=
    with_st a (st_trip a) (mkMat (st_size a) (st_size a) (fun _ _ => 0)) (st_RHS a) (zeros (st_size a)).
  Definition alg_initialize_rhs (a : stokes) : stokes := with_st a (st_trip a) (st_LHS a) (zeros (st_size a)) (st_DIR a).
  (** assemble_lhs 1049-1145 *)
  Definition alg_assemble_lhs (m : mesh C F) (bnd : bc Sc P V) (cl : C) (lA lB : mat K) (a : stokes) : outcome stokes :=
    do r <- st_terms m bnd 2 cl lA lB None a;
    do D <- add_duos (snd (snd r)) (st_DIR a);
    Ok (with_st a (st_trip a ++ fst (snd r)) (st_LHS a) (st_RHS a) D).
  (** assemble_rhs 1147-1183 *)
  Definition alg_rhs_row (rhs : vec K) (mp : amap K) (i : nat) (R : vec K) : outcome (vec K) :=
    do ai <- vget mp i;
    match fst ai with None => Ok R | Some gi => do ri <- vec_get rhs i; vec_add R gi ri end.
  Definition alg_assemble_rhs (m : mesh C F) (bnd : bc Sc P V) (cl : C) (rhs : vec K) (a : stokes) : outcome stokes :=
    do co <- offset C cltb (m_cells m) cl;
    do mp <- st_map m bnd a None co (faces_of cl);
    do R <- floop (alg_rhs_row rhs mp) (seq 0 (vsize rhs)) (st_RHS a);
    Ok (with_st a (st_trip a) (st_LHS a) R (st_DIR a)).
  (** finalize_lhs 1186-1190, finalize_rhs 1193-1196 *)
  Definition alg_finalize_lhs (a : stokes) : outcome stokes := st_finalize a.
  Definition alg_finalize_rhs (a : stokes) : stokes :=
    with_st a (st_trip a) (st_LHS a) (mkVec (st_size a) (fun i => vent (st_RHS a) i + vent (st_DIR a) i)) (st_DIR a).

  (** take_velocity 862-890 (= 1205-1233) *)
  Definition st_face_values (m : mesh C F) (bnd : bc Sc P V) (sol : vec K) (a : stokes) (fc : F) : outcome (list K) :=
    do id <- lookup F fltb (m_faces m) fc;
    do dirichlet <- q_set P V (b_dir bnd) id;
    if dirichlet then do g <- q_func Sc P V smul (b_factor bnd) (b_dir bnd) id; Ok (map (vproject 2 fc g) (seq 0 fA))
    else do fo <- offset F fltb (m_faces m) fc;
         do c <- vat (compress_table (st_tab a)) fo;
         segment sol (cA * length (m_cells m) + c * fA) fA.
  Definition take_velocity (m : mesh C F) (bnd : bc Sc P V) (cl : C) (sol : vec K) (a : stokes) : outcome (list K) :=
    do co <- offset C cltb (m_cells m) cl;
    do c <- segment sol (co * cA) cA;
    do l <- fmap (st_face_values m bnd sol a) (faces_of cl);
    Ok (c ++ concat l).
  (** take_pressure 893-900 (= 1236-1243) *)
  Definition take_pressure (m : mesh C F) (cl : C) (sol : vec K) (a : stokes) : outcome (list K) :=
    do co <- offset C cltb (m_cells m) cl; segment sol (b_offset m a co) cB.
  (** global_face_offset 903-922 *)
  Definition global_face_offset (m : mesh C F) (fc : F) (a : stokes) : outcome nat :=
    do fo <- offset F fltb (m_faces m) fc;
    do c <- vat (compress_table (st_tab a)) fo; Ok (cA * length (m_cells m) + c * fA)%nat.
End SAsm.
Arguments spasm : clear implicits.
Arguments stokes : clear implicits.
