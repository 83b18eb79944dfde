(** Model of the assemblers for vector-valued face unknowns, methods/implementation_hho/assembler_hho.hpp:
    assembler_mechanics (1254-2360), vector_primal_hho_assembler (2717-3948) and
    vector_mechanics_hho_assembler (3974-4785; its members are those of vector_primal_hho_assembler
    for nonlinear problems, line for line).
    Scalars form a commutative ring.  Local matrices, the L2 projections of the Dirichlet data
    (project_function) and the loads of the Neumann data (make_rhs) are inputs.  Eigen's unchecked
    accesses outside a vector or matrix are UB.  The unknowns of a face of degree k are the
    vector_basis_size(k, dim-1, dim) = dim * scalar_basis_size(k, dim-1) coefficients, the component
    varying fastest.  Only the variant without FILL_COLMAJOR is modelled. *)
From Coq Require Import List Arith Bool.
From Verif Require Import Common LinAlg Mesh_Model BC_Model Degree_Model Asm_Model.
Import ListNotations.

(** ** The switches over the type of a Dirichlet condition *)
(** what happens to one component of a block of [dim] unknowns: the value is imposed
    (0xDEADBEEF / assemble = false), or the next number is given out (face_offset + ind_sol++) *)
Inductive slot := Fixed | Unknown.
Definition d3 {A} (dim : nat) (l : list A) : list A := if dim =? 3 then l else [].
Definition only_3d {A} (dim : nat) (x : A) : outcome A := if negb (dim =? 3) then Throw InvalidArgument else Ok x.

(** assembler_mechanics::assemble 1352-1519 and assemble_nl 1882-2040, vector_primal::assemble
    2972-3128 and assemble_nonlinear 3411-3572, vector_mechanics::create_local_connectivity
    4112-4279: the numbering of one block and the components whose columns and whose entries of the
    projection are set to zero.  DIRICHLET and CLAMPED treat the unknowns of the face one by one;
    for CLAMPED see [dir_vector]. *)
Definition dir_case (dim t : nat) : outcome (list slot * list nat) :=
  if t =? DIRICHLET then Ok (repeat Fixed dim, [])
  else if t =? CLAMPED then Ok (repeat Fixed dim, [])
  else if t =? DX then Ok (Fixed :: Unknown :: d3 dim [Unknown], 1 :: d3 dim [2])
  else if t =? DY then Ok (Unknown :: Fixed :: d3 dim [Unknown], 0 :: d3 dim [2])
  else if t =? DZ then only_3d dim ([Unknown; Unknown; Fixed], [0; 1])
  else if t =? DXDY then Ok (Fixed :: Fixed :: d3 dim [Unknown], d3 dim [2])
  else if t =? DXDZ then only_3d dim ([Fixed; Unknown; Fixed], [1])
  else if t =? DYDZ then only_3d dim ([Unknown; Fixed; Fixed], [0])
  else Throw LogicError.
(** assembler_mechanics::take_local_data 1603-1690, expand_solution 1735-1818 and
    expand_solution_nl 2117-2219, vector_primal::take_local_solution 3205-3296 and
    take_local_solution_nonlinear 3667-3752, vector_mechanics 4520-4610: [Fixed] takes the given
    value, [Unknown] the next entry of the solution *)
Definition take_case (dim t : nat) : outcome (list slot) :=
  if t =? DIRICHLET then Ok (repeat Fixed dim)
  else if t =? CLAMPED then Ok (repeat Fixed dim)
  else if t =? DX then Ok (Fixed :: Unknown :: d3 dim [Unknown])
  else if t =? DY then Ok (Unknown :: Fixed :: d3 dim [Unknown])
  else if t =? DZ then only_3d dim [Unknown; Unknown; Fixed]
  else if t =? DXDY then Ok (Fixed :: Fixed :: d3 dim [Unknown])
  else if t =? DXDZ then only_3d dim [Fixed; Unknown; Fixed]
  else if t =? DYDZ then only_3d dim [Unknown; Fixed; Fixed]
  else Throw LogicError.
(** boundary_conditions.hpp 140-173: how many of the [n] unknowns of a face are imposed *)
Definition imposed_count (dim t n : nat) : outcome nat :=
  let nd := n / dim in
  if t =? DIRICHLET then Ok n
  else if t =? CLAMPED then Ok n
  else if t =? DX then Ok nd
  else if t =? DY then Ok nd
  else if t =? DZ then only_3d dim nd
  else if t =? DXDY then Ok (2 * nd)
  else if t =? DXDZ then only_3d dim (2 * nd)
  else if t =? DYDZ then only_3d dim (2 * nd)
  else if t =? NOTHING then Ok 0
  else Throw LogicError.
(** impose_neumann_boundary_conditions on a face with a Dirichlet condition: for each block at i,
    a list of (assign?, c, c') meaning RHS(offset + i + c) = or += neumann(i + c').
    assembler_mechanics 2255-2335 *)
Definition mech_neumann_case (dim t : nat) : outcome (list (bool * nat * nat)) :=
  if t =? DIRICHLET then Throw InvalidArgument
  else if t =? CLAMPED then Throw InvalidArgument
  else if t =? DX then Ok ((false, 1, 1) :: d3 dim [(false, 2, 2)])
  else if t =? DY then Ok ((true, 0, 0) :: d3 dim [(false, 2, 2)])
  else if t =? DZ then only_3d dim [(false, 0, 0); (false, 1, 1)]
  else if t =? DXDY then Ok (d3 dim [(false, 2, 2)])
  else if t =? DXDZ then only_3d dim [(false, 1, 1)]
  else if t =? DYDZ then only_3d dim [(false, 0, 0)]
  else Throw LogicError.
(** vector_primal 3838-3917, vector_mechanics 4685-4764 *)
Definition prim_neumann_case (dim t : nat) : outcome (list (nat * nat)) :=
  if t =? DIRICHLET then Throw InvalidArgument
  else if t =? CLAMPED then Throw InvalidArgument
  else if t =? DX then Ok ((1, 1) :: d3 dim [(2, 2)])
  else if t =? DY then Ok ((0, 0) :: d3 dim [(0, 2)])
  else if t =? DZ then only_3d dim [(0, 0); (1, 1)]
  else if t =? DXDY then Ok (d3 dim [(2, 2)])
  else if t =? DXDZ then only_3d dim [(1, 1)]
  else if t =? DYDZ then only_3d dim [(0, 0)]
  else Throw LogicError.

(** the numbers given out along a face, [None] for 0xDEADBEEF (never used) *)
Fixpoint number_slots (off ind : nat) (l : list slot) : list (option nat) :=
  match l with
  | [] => []
  | Fixed :: l => None :: number_slots off ind l
  | Unknown :: l => Some (off + ind) :: number_slots off (S ind) l
  end.
(** the loop over the blocks of a face with [nb] scalar functions *)
Definition blocks (nb : nat) (l : list slot) : list slot := concat (repeat l nb).
(** running sums: faces_offset, 2786-2803 (assembler_mechanics uses face_i * num_face_dofs) *)
Fixpoint offsets (o : nat) (ns : list nat) : list nat :=
  match ns with [] => [] | n :: ns => o :: offsets (o + n) ns end.
(** face_compress_map 1285-1296, compress_table 2827-2849 and 2872-2895: [free] is the number of
    unknowns counted for a face *)
Fixpoint number_from (free : nat -> outcome nat) (ids : list nat) (off : nat) : outcome (list nat * nat) :=
  match ids with
  | [] => Ok ([], off)
  | id :: ids => do n <- free id; do r <- number_from free ids (off + n); Ok (off :: fst r, snd r)
  end.

Section VAsm.
  Context {K : cring} {C F Sc P V : Type} (fltb : F -> F -> bool) (faces_of : C -> list F) (smul : Sc -> V -> V).
  (** the dimension of the mesh and scalar_basis_size(k, dim-1) *)
  Context (dim : nat) (sbs : nat -> nat).
  (** project_function(msh, fc, degree, function) and make_rhs(msh, fc, basis of that degree, function) *)
  Context (project load : F -> nat -> (P -> V) -> nat -> K).
  Local Open Scope k_scope.

  (** the fields; for assembler_mechanics all faces have the degree of m_hdi, and the list of
      pending additions to the right-hand side (duos) stays empty *)
  Record vasm := mkV { v_deg : list degree_info; v_tab : list nat; v_size : nat; v_total : nat;
    v_trip : list (triplet K); v_duos : list (nat * K); v_LHS : mat K; v_RHS : vec K }.
  Definition with_v (a : vasm) (ts : list (triplet K)) (ds : list (nat * K)) (l : mat K) (r : vec K) : vasm :=
    mkV (v_deg a) (v_tab a) (v_size a) (v_total a) ts ds l r.
  (** num_face_dofs, 2758-2767 *)
  Definition di_dofs (d : degree_info) : nat := if has_unknowns d then (dim * sbs (di_degree d))%nat else 0%nat.
  Definition ndofs (a : vasm) (id : nat) : outcome nat := do d <- vget (v_deg a) id; Ok (di_dofs d).

  (** ** Constructors *)
  (** boundary_conditions.hpp 765-780 *)
  Definition dirichlet_imposed_dofs (bnd : bc Sc P V) (id k : nat) : outcome nat :=
    do b <- q_set P V (b_dir bnd) id;
    if b then do t <- q_type P V (b_dir bnd) id; imposed_count dim t (dim * sbs k) else Ok 0%nat.
  Definition zero_sys (deg : list degree_info) (tab : list nat) (sz total : nat) : vasm :=
    mkV deg tab sz total [] [] (mkMat sz sz (fun _ _ => 0)) (mkVec sz (fun _ => 0)).
  (** assembler_mechanics 1279-1299 *)
  Definition mech_make (m : mesh C F) (k : nat) (bnd : bc Sc P V) : outcome vasm :=
    let nf := length (m_faces m) in
    do r <- number_from (fun id => do i <- dirichlet_imposed_dofs bnd id k; Ok (dim * sbs k - i)%nat) (seq 0 nf) 0;
    Ok (zero_sys (repeat (di_make k) nf) (fst r) (snd r) (nf * (dim * sbs k))).
  (** vector_primal 2865-2903 (= vector_mechanics 4344-4384), and 2819-2857 (= 4305-4342), where the
      test hasUnknowns is absent but always true *)
  Definition prim_free (deg : list degree_info) (bnd : bc Sc P V) (id : nat) : outcome nat :=
    do d <- vget deg id;
    if negb (has_unknowns d) then Ok 0%nat else
    do c <- q_set P V (b_con bnd) id;
    if negb c then do i <- dirichlet_imposed_dofs bnd id (di_degree d); Ok (dim * sbs (di_degree d) - i)%nat
    else do t <- q_type P V (b_con bnd) id; if t =? SIGNORINI_FACE then Ok (dim * sbs (di_degree d))%nat else Ok 0%nat.
  Definition prim_make (m : mesh C F) (deg : list degree_info) (bnd : bc Sc P V) : outcome vasm :=
    do r <- number_from (prim_free deg bnd) (seq 0 (length (m_faces m))) 0;
    Ok (zero_sys deg (fst r) (snd r) (list_sum (map di_dofs deg))).
  (** select_faces_degree, 2735-2756 (= 3997-4018) *)
  Definition select_step (m : mesh C F) (k : nat) (bnd : bc Sc P V) (bfc : F) (deg : list degree_info) : outcome (list degree_info) :=
    do id <- lookup F fltb (m_faces m) bfc;
    do t <- q_type P V (b_con bnd) id;
    if t =? SIGNORINI_FACE then vset deg id (di_make (k + 1))
    else if t =? SIGNORINI_CELL then Throw InvalidArgument else Ok deg.
  Definition select_faces_degree (m : mesh C F) (k : nat) (bnd : bc Sc P V) : outcome (list degree_info) :=
    do bfs <- boundary_faces C F fltb m;
    floop (select_step m k bnd) bfs (repeat (di_make k) (length (m_faces m))).
  Definition prim_make_hdi (m : mesh C F) (k : nat) (bnd : bc Sc P V) : outcome vasm :=
    do deg <- select_faces_degree m k bnd; prim_make m deg bnd.

  (** ** Assembly *)
  (** entries set to zero when their component is in [zs] *)
  Definition mask (zs : list nat) (v : nat -> K) (k : nat) : K := if existsb (Nat.eqb (k mod dim)) zs then 0 else v k.
  (** what multiplies the block: the projection, or the projection minus the current face values
      (sol_F); for CLAMPED zero, or minus the current values *)
  Definition dir_vector (t : nat) (zs : list nat) (proj : nat -> K) (sol : option (nat -> K)) : nat -> K :=
    match sol with
    | None => if t =? CLAMPED then (fun _ => 0) else mask zs proj
    | Some s => if t =? CLAMPED then (fun k => - s k) else mask zs (fun k => proj k - s k)
    end.
  (** one turn of the loop over face_j: rhs_bc.segment(oj, nj) += mat_Fj * v *)
  Definition elim_block (bnd : bc Sc P V) (id : nat) (lhs : mat K) (offs ns : list nat) (oi ni : nat) (proj : nat -> K) (sol : option (nat -> K))
      (j : nat) (r : vec K) : outcome (vec K) :=
    do oj <- vget offs j;
    do nj <- vget ns j;
    if negb ((oj + nj <=? mrows lhs) && (oi + ni <=? mcols lhs))%nat then UB else
    do t <- q_type P V (b_dir bnd) id;
    do c <- dir_case dim t;
    add_block oj nj (fun p => sumn ni (fun k => mask (snd c) (fun k => ment lhs (oj + p)%nat (oi + k)%nat) k * dir_vector t (snd c) proj sol k)) r.
  (** one turn of the loop over face_i: assembler_mechanics 1321-1525 and 1847-2046, vector_primal
      2940-3131 and 3376-3575, vector_mechanics 4077-4282; [solF] is given in the nonlinear case *)
  Definition loc_face (a : vasm) (bnd : bc Sc P V) (lhs : mat K) (solF : option (list (vec K))) (fcs : list F) (ids offs ns : list nat)
      (i : nat) (st : list (option nat) * vec K) : outcome (list (option nat) * vec K) :=
    do id <- vget ids i;
    do fc <- vget fcs i;
    do d <- vget (v_deg a) id;
    do oi <- vget offs i;
    let ni := di_dofs d in
    do isd <- q_set P V (b_dir bnd) id;
    do off <- vat (v_tab a) id;
    if negb isd then Ok (fst st ++ map (fun k => Some (off + k)%nat) (seq 0 ni), snd st)
    else
      do g <- q_func Sc P V smul (b_factor bnd) (b_dir bnd) id;
      (* a product of a block without columns and a projection of positive size *)
      if negb (has_unknowns d) then UB else
      do sol <- match solF with
                | None => Ok None
                | Some l => do s <- vget l id; if (vsize s =? ni)%nat then Ok (Some (vent s)) else UB
                end;
      do r <- floop (elim_block bnd id lhs offs ns oi ni (project fc (di_degree d) g) sol) (seq 0 (length ids)) (snd st);
      do t <- q_type P V (b_dir bnd) id;
      do c <- dir_case dim t;
      Ok (fst st ++ number_slots off 0 (blocks (sbs (di_degree d)) (fst c)), r).
  (** the loops over the local matrix, 1546-1562 (= 2067-2080), 3148-3167 (= 3598-3611 = 4423-4436):
      the triplets and the additions to the right-hand side *)
  Definition scat_col (lhs : mat K) (l2g : list (option nat)) (i gi j : nat) (ts : list (triplet K)) : outcome (list (triplet K)) :=
    do gj <- vget l2g j;
    match gj with Some gj => Ok (ts ++ [mkTr gi gj (ment lhs i j)]) | None => Ok ts end.
  Definition scat_row (lhs : mat K) (rhs rbc : vec K) (l2g : list (option nat)) (i : nat) (st : list (triplet K) * list (nat * K))
    : outcome (list (triplet K) * list (nat * K)) :=
    do gi <- vget l2g i;
    match gi with
    | None => Ok st
    | Some gi =>
      do ts <- floop (scat_col lhs l2g i gi) (seq 0 (mcols lhs)) (fst st);
      do x <- vec_get rhs i;
      do y <- vec_get rbc i;
      Ok (ts, snd st ++ [(gi, x - y)])
    end.
  Definition local_terms (m : mesh C F) (bnd : bc Sc P V) (cl : C) (lhs : mat K) (rhs : vec K) (solF : option (list (vec K))) (a : vasm)
    : outcome (list (triplet K) * list (nat * K)) :=
    let fcs := faces_of cl in
    do ids <- fmap (lookup F fltb (m_faces m)) fcs;
    do ns <- fmap (ndofs a) ids;
    let offs := offsets 0 ns in
    do st <- floop (loc_face a bnd lhs solF fcs ids offs ns) (seq 0 (length ids)) ([], mkVec (list_sum ns) (fun _ => 0));
    floop (scat_row lhs rhs (snd st) (fst st)) (seq 0 (mrows lhs)) ([], []).
  (** RHS(id) += val, one after the other *)
  Definition add_duos (ds : list (nat * K)) (r : vec K) : outcome (vec K) := floop (fun d r => vec_add r (fst d) (snd d)) ds r.

  (** assembler_mechanics: assemble 1308-1563, assemble_nl 1829-2081, the additions at once *)
  Definition mech_assemble (m : mesh C F) (bnd : bc Sc P V) (cl : C) (lhs : mat K) (rhs : vec K) (solF : option (list (vec K))) (a : vasm) : outcome vasm :=
    do r <- local_terms m bnd cl lhs rhs solF a;
    do R <- add_duos (snd r) (v_RHS a);
    Ok (with_v a (v_trip a ++ fst r) (v_duos a) (v_LHS a) R).
  (** vector_primal: assemble 2927-3169, assemble_nonlinear 3357-3613; vector_mechanics 4399-4438 *)
  Definition prim_assemble (m : mesh C F) (bnd : bc Sc P V) (cl : C) (lhs : mat K) (rhs : vec K) (solF : option (list (vec K))) (a : vasm) : outcome vasm :=
    do r <- local_terms m bnd cl lhs rhs solF a;
    Ok (with_v a (v_trip a ++ fst r) (v_duos a ++ snd r) (v_LHS a) (v_RHS a)).
  (** finalize: assembler_mechanics 2349-2354; vector_primal 3930-3941, vector_mechanics 4777-4788 *)
  Definition mech_finalize (a : vasm) : outcome vasm :=
    do l <- from_triplets (v_size a) (v_trip a); Ok (with_v a [] (v_duos a) l (v_RHS a)).
  Definition prim_finalize (a : vasm) : outcome vasm :=
    do l <- from_triplets (v_size a) (v_trip a);
    do R <- add_duos (v_duos a) (v_RHS a);
    Ok (with_v a [] [] l R).
  (** setZeroRhs 1302-1306, initialize_rhs 2919-2924 and initialize_lhs 2912-2917 *)
  Definition zero_rhs (a : vasm) : vasm := with_v a (v_trip a) (v_duos a) (v_LHS a) (mkVec (vsize (v_RHS a)) (fun _ => 0)).
  Definition prim_initialize (a : vasm) : vasm :=
    with_v a (v_trip a) (v_duos a) (mkMat (v_size a) (v_size a) (fun _ _ => 0)) (mkVec (v_size a) (fun _ => 0)).

  (** ** Reading a solution *)
  (** the values of a face: [v] where the component is imposed, else the next entry of the solution *)
  Fixpoint read_slots (solution : vec K) (v : nat -> K) (off ind k : nat) (l : list slot) : outcome (list K) :=
    match l with
    | [] => Ok []
    | Fixed :: l => do r <- read_slots solution v off ind (S k) l; Ok (v k :: r)
    | Unknown :: l => do x <- vec_get solution (off + ind); do r <- read_slots solution v off (S ind) (S k) l; Ok (x :: r)
    end.
  (** assembler_mechanics: the body of the loops of take_local_data 1580-1695, expand_solution
      1710-1823, expand_solution_nl 2096-2222; vector_primal::take_local_solution 3172-3303 (whose
      call of num_faces_dofs(face_id), with one argument, is read as num_face_dofs(face_id)) and
      take_local_solution_nonlinear 3643-3767; vector_mechanics 4487-4622 *)
  Definition take_face (m : mesh C F) (bnd : bc Sc P V) (solution : vec K) (solF : option (list (vec K))) (a : vasm) (f : F) : outcome (list K) :=
    do id <- lookup F fltb (m_faces m) f;
    do d <- vget (v_deg a) id;
    let n := di_dofs d in
    if (n =? 0)%nat then Ok [] else
    do off <- vget (v_tab a) id;
    do isd <- q_set P V (b_dir bnd) id;
    if isd then
      do g <- q_func Sc P V smul (b_factor bnd) (b_dir bnd) id;
      let proj := project f (di_degree d) g in
      do t <- q_type P V (b_dir bnd) id;
      do v <- match solF with
              | None => Ok (if (t =? CLAMPED)%nat then (fun _ => 0) else proj)
              | Some l => do s <- vget l id;
                  if (vsize s =? n)%nat then Ok (if (t =? CLAMPED)%nat then (fun k => - vent s k) else (fun k => proj k - vent s k)) else UB
              end;
      do c <- take_case dim t;
      read_slots solution v off 0 0 (blocks (sbs (di_degree d)) c)
    else if (off + n <=? vsize solution)%nat then Ok (map (fun k => vent solution (off + k)%nat) (seq 0 n)) else UB.
  (** take_local_data 1565-1697; take_local_solution 3305-3333, _nonlinear 3615-3641 and 4440-4485 *)
  Definition take_local_v (m : mesh C F) (bnd : bc Sc P V) (solution : vec K) (solF : option (list (vec K))) (cl : C) (a : vasm) : outcome (list K) :=
    do l <- fmap (take_face m bnd solution solF a) (faces_of cl); Ok (concat l).
  (** vector_primal::expand_solution 3335-3355, _nonlinear 3769-3795; vector_mechanics 4624-4650 *)
  Definition prim_expand (m : mesh C F) (bnd : bc Sc P V) (solution : vec K) (solF : option (list (vec K))) (a : vasm) : outcome (list K) :=
    do l <- fmap (take_face m bnd solution solF a) (m_faces m); Ok (concat l).
  (** ret.segment(base, n) = values *)
  Definition set_block (base : nat) (l : list K) (r : vec K) : outcome (vec K) :=
    if (base + length l <=? vsize r)%nat
    then Ok (mkVec (vsize r) (fun k => if (base <=? k)%nat && (k <? base + length l)%nat then nth (k - base) l 0 else vent r k)) else UB.
  (** assembler_mechanics::expand_solution 1699-1827, expand_solution_nl 2083-2226 *)
  Definition mech_expand (m : mesh C F) (k : nat) (bnd : bc Sc P V) (solution : vec K) (solF : option (list (vec K))) (a : vasm) : outcome (vec K) :=
    let n := (dim * sbs k)%nat in
    floop (fun f r => do id <- lookup F fltb (m_faces m) f; do l <- take_face m bnd solution solF a f; set_block (id * n) l r)
      (m_faces m) (mkVec (n * length (m_faces m)) (fun _ => 0)).

  (** ** Neumann conditions *)
  (** RHS(i) = x *)
  Definition vec_set (v : vec K) (i : nat) (x : K) : outcome (vec K) :=
    if (i <? vsize v)%nat then Ok (mkVec (vsize v) (fun k => if (k =? i)%nat then x else vent v k)) else UB.
  (** assembler_mechanics 2229-2347 *)
  Definition mech_neumann_step (m : mesh C F) (bnd : bc Sc P V) (bfc : F) (a : vasm) : outcome vasm :=
    do id <- lookup F fltb (m_faces m) bfc;
    do isn <- q_set P V (b_neu bnd) id;
    if negb isn then Ok a else
    do off <- vat (v_tab a) id;
    do d <- vget (v_deg a) id;
    do g <- q_func Sc P V smul (b_factor bnd) (b_neu bnd) id;
    let nm := load bfc (di_degree d) g in
    do isd <- q_set P V (b_dir bnd) id;
    do R <- (if isd then
        do t <- q_type P V (b_dir bnd) id;
        do ops <- mech_neumann_case dim t;
        floop (fun i r => floop (fun (op : bool * nat * nat) r => let '(set, c, c') := op in
            if set then vec_set r (off + i * dim + c) (nm (i * dim + c')%nat) else vec_add r (off + i * dim + c) (nm (i * dim + c')%nat)) ops r)
          (seq 0 (sbs (di_degree d))) (v_RHS a)
      else add_block off (di_dofs d) nm (v_RHS a));
    Ok (with_v a (v_trip a) (v_duos a) (v_LHS a) R).
  Definition mech_neumann (m : mesh C F) (bnd : bc Sc P V) (a : vasm) : outcome vasm :=
    if (0 <? nb_faces_neumann Sc P V bnd)%nat then
      do bfs <- boundary_faces C F fltb m; floop (mech_neumann_step m bnd) bfs a
    else Ok a.
  (** vector_primal 3797-3928, vector_mechanics 4652-4775 *)
  Definition prim_neumann_step (m : mesh C F) (bnd : bc Sc P V) (bfc : F) (a : vasm) : outcome vasm :=
    do id <- lookup F fltb (m_faces m) bfc;
    do d <- vget (v_deg a) id;
    do off <- vget (v_tab a) id;
    do isn <- q_set P V (b_neu bnd) id;
    if negb isn then Ok a else
    do g <- q_func Sc P V smul (b_factor bnd) (b_neu bnd) id;
    let nm := load bfc (di_degree d) g in
    do isd <- q_set P V (b_dir bnd) id;
    do ds <- (if isd then
        do t <- q_type P V (b_dir bnd) id;
        do ops <- prim_neumann_case dim t;
        let nb := if has_unknowns d then sbs (di_degree d) else 0%nat in
        Ok (flat_map (fun i => map (fun op : nat * nat => (off + i * dim + fst op, nm (i * dim + snd op))%nat) ops) (seq 0 nb))
      else Ok (map (fun k => (off + k, nm k)%nat) (seq 0 (di_dofs d))));
    Ok (with_v a (v_trip a) (v_duos a ++ ds) (v_LHS a) (v_RHS a)).
  Definition prim_neumann (m : mesh C F) (bnd : bc Sc P V) (a : vasm) : outcome vasm :=
    if (0 <? nb_faces_neumann Sc P V bnd)%nat then
      do bfs <- boundary_faces C F fltb m; floop (prim_neumann_step m bnd) bfs a
    else Ok a.
End VAsm.
Arguments vasm : clear implicits.
