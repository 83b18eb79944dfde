(** Model of the HHO operators with vector and matrix bases: methods/implementation_hho/{vector_hho_gradrec,
    scalar_hho_divrec, matrix_hho_gradrec, vector_stabilization, vector_hho_laplacian, utils_hho}.hpp and the
    functions of bases/bases_utils.hpp on those bases.  The conventions are those of HHO_Model: a basis is the list
    of its functions, evaluation returns their values and the values of their derivatives (C21, C86, C87 for the
    vector and matrix bases). *)
From Coq Require Import List Arith Bool Reals.
From Verif Require Import Poly_Spec HHO_Spec VHHO_Spec HHO_Model.
Import ListNotations.
Open Scope R_scope.

Record vbasis := mkVB { v_deg : nat; v_size : nat; v_comp : nat -> tf }.
(** make_vector_monomial_basis(msh, elem, degree), bases_vector.hpp 122-137, 622-636: function d i + c is the i-th
    scalar function in component c *)
Definition vec_basis (d : nat) (b : sbasis) : vbasis :=
  mkVB (b_deg b) (d * b_size b) (fun j a => if (j mod d =? a)%nat then b_poly b (j / d)%nat else PC 0).
(** make_matrix_monomial_basis, bases_matrix.hpp 111-140, 188-217: function (d k + j) d + i is the k-th scalar function in entry (i, j) *)
Definition mat_basis (d : nat) (b : sbasis) : vbasis :=
  mkVB (b_deg b) (d * d * b_size b)
    (fun f e => if (e =? d * (f mod d) + f / d mod d)%nat then b_poly b (f / d / d)%nat else PC 0).
(** make_sym_matrix_monomial_basis, bases_matrix.hpp 317-347, 397-427: for each scalar function, the entries (i, j)
    with i <= j, column by column; those off the diagonal are divided by sqrt 2 *)
Definition sym_pairs (d : nat) : list (nat * nat) := flat_map (fun j => map (fun i => (i, j)) (seq 0 (S j))) (seq 0 d).
Definition sym_dim (d : nat) : nat := length (sym_pairs d).
Definition sym_basis (d : nat) (b : sbasis) : vbasis :=
  mkVB (b_deg b) (sym_dim d * b_size b)
    (fun f e => let '(i, j) := nth (f mod sym_dim d) (sym_pairs d) (0, 0)%nat in
       let p := b_poly b (f / sym_dim d)%nat in
       if (i =? j)%nat then (if (e =? d * i + i)%nat then p else PC 0)
       else if ((e =? d * i + j) || (e =? d * j + i))%nat then pscal (1 / sqrt 2) p else PC 0).

(** basis.eval_functions, eval_divergences *)
Definition vphi (b : vbasis) (x : pt) (j a : nat) : R := peval (v_comp b j a) x.
Definition vdivphi (d : nat) (b : vbasis) (x : pt) (j : nat) : R := sg d (fun a => peval (pdiff a (v_comp b j a)) x).
(** ret += outer_product(w u, v), bases_utils.hpp 141-178: rows of functions with [m] components *)
Definition vaccumulate (m : nat) (q : list (pt * R)) (u v : pt -> nat -> nat -> R) (M : mtx) : mtx :=
  fold_left (fun M qp => let '(x, w) := qp in fun i j => M i j + sg m (fun a => w * u x i a * v x j a)) q M.
(** make_mass_matrix and make_rhs, bases_utils.hpp:192-214, 274-296, for functions with [m] components *)
Definition vmass (m : nat) (e : selem) (b : vbasis) (di : nat) : mtx :=
  vaccumulate m (el_quad e (2 * (v_deg b + di))) (vphi b) (vphi b) zeroM.
Definition vrhs (m : nat) (e : selem) (b : vbasis) (f : pt -> nat -> R) (di : nat) : nat -> R :=
  fold_left (fun r qp => let '(x, w) := qp in fun i => r i + sg m (fun a => vphi b x i a * (w * f x a)))
    (el_quad e (2 * (v_deg b + di))) zeroV.
(** make_mass_matrix with a material tensor, bases_utils.hpp:217-243 *)
Definition vmass_tensor (d : nat) (e : selem) (b : vbasis) (K : pt -> mtx) (di : nat) : mtx :=
  fold_left (fun M qp => let '(x, w) := qp in fun i j =>
      M i j + sg d (fun a => vphi b x i a * sg d (fun c => w * K x a c * vphi b x j c)))
    (el_quad e (2 * (v_deg b + di))) zeroM.

Section VHHO.
  Variable ldlt : nat -> mtx -> (nat -> R) -> nat -> R.

  (** project_function of a vector on an element, bases_utils.hpp:367-378, and on the unknowns of a cell,
      methods_hho.hpp:97-122 and 346-380 *)
  Definition vproject_elem (d : nat) (e : selem) (degree : nat) (f : pt -> nat -> R) (di : nat) : nat -> R :=
    let b := vec_basis d (el_basis e degree) in ldlt (v_size b) (vmass d e b 0) (vrhs d e b f di).
  Definition vproject_face (d : nat) (f : pt -> nat -> R) (di : nat) (st : nat * (nat -> R)) (fi : sface * option nat) : nat * (nat -> R) :=
    let '(off, ret) := st in
    match snd fi with
    | None => st
    | Some fd =>
        let fbs := v_size (vec_basis d (el_basis (fc_elem (fst fi)) fd)) in
        ((off + fbs)%nat, set_seg ret off fbs (vproject_elem d (fc_elem (fst fi)) fd f di))
    end.
  Definition vproject_cdi (d : nat) (c : scell) (cd : nat) (fdi : list (option nat)) (f : pt -> nat -> R) (di : nat) : nat -> R :=
    let cbs := v_size (vec_basis d (el_basis (cl_elem c) cd)) in
    snd (fold_left (vproject_face d f di) (combine (cl_faces c) fdi)
           (cbs, set_seg zeroV 0 cbs (vproject_elem d (cl_elem c) cd f di))).

  (** priv::make_vector_hho_gradrec_impl, vector_hho_gradrec.hpp:42-113; [gb] is the basis of the gradient *)
  Definition gradrec_cell (d : nat) (c : scell) (cd : nat) (gb : vbasis) : mtx :=
    let cb := el_basis (cl_elem c) cd in
    if (0 <? v_deg gb)%nat then
      fold_left (fun M qp => let '(x, w) := qp in
          add_cols M 0 (b_size cb) (fun i j => - (w * vdivphi d gb x i * phi cb x j)))
        (el_quad (cl_elem c) (cd + v_deg gb - 1)) zeroM
    else zeroM.
  Definition gradrec_face (d : nat) (gb : vbasis) (st : nat * mtx) (fi : sface * option nat) : nat * mtx :=
    let '(off, M) := st in
    match snd fi with
    | None => st
    | Some fd =>
        let fb := el_basis (fc_elem (fst fi)) fd in
        let n := fc_normal (fst fi) in
        ((off + b_size fb)%nat,
         fold_left (fun M qp => let '(x, w) := qp in
             add_cols M off (b_size fb) (fun i j => sg d (fun a => vphi gb x i a * (w * n a)) * phi fb x j))
           (el_quad (fc_elem (fst fi)) (v_deg gb + fd)) M)
    end.
  Definition gradrec_impl (d : nat) (c : scell) (cd : nat) (fdi : list (option nat)) (gb : vbasis) : mtx * mtx :=
    let cb := el_basis (cl_elem c) cd in
    let lhs := vmass d (cl_elem c) gb 0 in
    let rhs := snd (fold_left (gradrec_face d gb) (combine (cl_faces c) fdi) (b_size cb, gradrec_cell d c cd gb)) in
    let oper := solveM ldlt (v_size gb) lhs rhs in
    (oper, mprod (v_size gb) (mtrans rhs) oper).
  (** make_vector_hho_gradrec, 131-199; with a material tensor, 222-287 *)
  Definition vector_gradrec (d : nat) (c : scell) (cd gd : nat) (fdi : list (option nat)) : mtx * mtx :=
    gradrec_impl d c cd fdi (vec_basis d (el_basis (cl_elem c) gd)).
  Definition vector_gradrec_tensor (d : nat) (c : scell) (cd gd : nat) (fdi : list (option nat)) (K : pt -> mtx) : mtx * mtx :=
    let gb := vec_basis d (el_basis (cl_elem c) gd) in
    let oper := fst (vector_gradrec d c cd gd fdi) in
    (oper, mprod (v_size gb) (mprod (v_size gb) (mtrans oper) (vmass_tensor d (cl_elem c) gb K 0)) oper).

  (** make_hho_divergence_reconstruction_rhs, scalar_hho_divrec.hpp:82-143, and make_hho_divergence_reconstruction,
      50-71 *)
  Definition divrec_cell (d : nat) (c : scell) (cd rd : nat) : mtx :=
    let cb := vec_basis d (el_basis (cl_elem c) cd) in let sb := el_basis (cl_elem c) rd in
    if (0 <? rd)%nat then
      fold_left (fun M qp => let '(x, w) := qp in
          add_cols M 0 (v_size cb) (fun i j => - (w * sg d (fun a => dphi sb x i a * vphi cb x j a))))
        (el_quad (cl_elem c) (cd + rd - 1)) zeroM
    else zeroM.
  Definition divrec_face (d : nat) (sb : sbasis) (st : nat * mtx) (fi : sface * option nat) : nat * mtx :=
    let '(off, M) := st in
    match snd fi with
    | None => st
    | Some fd =>
        let fb := vec_basis d (el_basis (fc_elem (fst fi)) fd) in
        let n := fc_normal (fst fi) in
        ((off + v_size fb)%nat,
         fold_left (fun M qp => let '(x, w) := qp in
             add_cols M off (v_size fb) (fun i j => phi sb x i * sg d (fun a => vphi fb x j a * (w * n a))))
           (el_quad (fc_elem (fst fi)) (fd + b_deg sb)) M)
    end.
  Definition divrec_rhs (d : nat) (c : scell) (cd rd : nat) (fdi : list (option nat)) : mtx :=
    let sb := el_basis (cl_elem c) rd in
    snd (fold_left (divrec_face d sb) (combine (cl_faces c) fdi)
           (v_size (vec_basis d (el_basis (cl_elem c) cd)), divrec_cell d c cd rd)).
  Definition divergence_reconstruction (d : nat) (c : scell) (cd rd : nat) (fdi : list (option nat)) : mtx * mtx :=
    let sb := el_basis (cl_elem c) rd in
    let rhs := divrec_rhs d c cd rd fdi in
    let oper := solveM ldlt (b_size sb) (make_mass_matrix (cl_elem c) sb 0) rhs in
    (oper, mprod (b_size sb) (mtrans rhs) oper).

  (** make_matrix_hho_symmetric_gradrec with CellDegreeInfo, matrix_hho_gradrec.hpp:40-132.  The sparsity of the
      matrix is used: [dec] (3 in 2D, 6 in 3D) functions share a scalar function *)
  Definition symgrad_lhs (d : nat) (c : scell) (gb : vbasis) (dec : nat) : mtx :=
    let L := fold_left (fun M qp => let '(x, w) := qp in fun i j =>
        if ((j <=? i) && ((i - j) mod dec =? 0))%nat
        then M i j + sg (d * d) (fun e => vphi gb x i e * (w * vphi gb x j e)) else M i j)
      (el_quad (cl_elem c) (2 * v_deg gb)) zeroM in
    fun i j => if (i <? j)%nat then L j i else L i j.
  (** eval_sgradients of the vector basis: entry (a, b) *)
  Definition vsgrad (d : nat) (b : vbasis) (x : pt) (j e : nat) : R :=
    (peval (pdiff (e mod d) (v_comp b j (e / d)%nat)) x + peval (pdiff (e / d) (v_comp b j (e mod d))) x) / 2.
  Definition symgrad_cell (d : nat) (c : scell) (cd : nat) (gb : vbasis) : mtx :=
    let cb := vec_basis d (el_basis (cl_elem c) cd) in
    if (0 <? cd)%nat then
      fold_left (fun M qp => let '(x, w) := qp in
          add_cols M 0 (v_size cb) (fun i j => sg (d * d) (fun e => vphi gb x i e * (w * vsgrad d cb x j e))))
        (el_quad (cl_elem c) (v_deg gb + cd - 1)) zeroM
    else zeroM.
  (** the matrix-vector product gphi n of function i, component a *)
  Definition mphin (d : nat) (gb : vbasis) (w : R) (n x : pt) (i a : nat) : R :=
    sg d (fun b => vphi gb x i (d * a + b)%nat * (w * n b)).
  Definition symgrad_face (d : nat) (gb cb : vbasis) (cd : nat) (st : nat * mtx) (fi : sface * option nat) : nat * mtx :=
    let '(off, M) := st in
    match snd fi with
    | None => st
    | Some fd =>
        let fb := vec_basis d (el_basis (fc_elem (fst fi)) fd) in
        let n := fc_normal (fst fi) in
        ((off + v_size fb)%nat,
         fold_left (fun M qp => let '(x, w) := qp in
             let M := add_cols M off (v_size fb) (fun i j => sg d (fun a => mphin d gb w n x i a * vphi fb x j a)) in
             add_cols M 0 (v_size cb) (fun i j => - sg d (fun a => mphin d gb w n x i a * vphi cb x j a)))
           (el_quad (fc_elem (fst fi)) (v_deg gb + Nat.max cd fd)) M)
    end.
  Definition symmetric_gradrec (d : nat) (c : scell) (cd gd : nat) (fdi : list (option nat)) : mtx * mtx :=
    let gb := sym_basis d (el_basis (cl_elem c) gd) in
    let cb := vec_basis d (el_basis (cl_elem c) cd) in
    let dec := if (d =? 3)%nat then 6%nat else if (d =? 2)%nat then 3%nat else 0%nat in
    let lhs := symgrad_lhs d c gb dec in
    let rhs := snd (fold_left (symgrad_face d gb cb cd) (combine (cl_faces c) fdi) (v_size cb, symgrad_cell d c cd gb)) in
    let oper := solveM ldlt (v_size gb) lhs rhs in
    (oper, mprod (v_size gb) (mtrans rhs) oper).
End VHHO.

(** priv::compute_lhs_vector, compute_grad_vector and compute_grad_matrix, utils_hho.hpp:372-505, 507-573, in the
    order used without FILL_COLMAJOR: each entry of the scalar matrix is copied [d] times; [rows] and [cols] are the
    sizes of the scalar matrix *)
Definition put_entry (M : mtx) (r c : nat) (v : R) : mtx := fun i j => if ((i =? r) && (j =? c))%nat then v else M i j.
Definition replicate_blocks (d rows cols : nat) (A : mtx) : mtx :=
  fold_left (fun M i => fold_left (fun M j => fold_left (fun M k => put_entry M (i * d + k) (j * d + k) (A i j))
    (seq 0 d) M) (seq 0 cols) M) (seq 0 rows) zeroM.
(** scal_total_dofs: the unknowns of the cell and of the faces that have some (vector_basis_size and
    vector_faces_dofs, utils_hho.hpp:384-393, divided by the dimension) *)
Definition scal_total_dofs (c : scell) (cd : nat) (fdi : list (option nat)) : nat :=
  fold_left (fun n fi => match snd fi with None => n | Some k => (n + b_size (el_basis (fc_elem (fst fi)) k))%nat end)
    (combine (cl_faces c) fdi) (b_size (el_basis (cl_elem c) cd)).
Section VHHO2.
  Variable ldlt : nat -> mtx -> (nat -> R) -> nat -> R.
  (** make_matrix_hho_gradrec, matrix_hho_gradrec.hpp:244-269 *)
  Definition matrix_gradrec (d : nat) (c : scell) (cd gd : nat) (fdi : list (option nat)) : mtx * mtx :=
    let N := scal_total_dofs c cd fdi in
    let '(oper, data) := vector_gradrec ldlt d c cd gd fdi in
    (replicate_blocks d (v_size (vec_basis d (el_basis (cl_elem c) gd))) N oper, replicate_blocks d N N data).
  (** make_vector_hho_laplacian with hho_degree_info, vector_hho_laplacian.hpp:169-191.  compute_grad_vector builds a
      CellDegreeInfo from the cell, face and gradient degrees (utils_hho.hpp:496-505), which takes face + 1 for the
      degree of the reconstruction (adaptivity.hpp:100-112); None: the assertion on the number of rows fails
      (utils_hho.hpp:460) *)
  Definition vector_laplacian (d : nat) (c : scell) (h : degs) : option (mtx * mtx) :=
    let N := scal_total_dofs c (cell_degree h) (map (fun _ => Some (face_degree h)) (cl_faces c)) in
    let '(oper, data) := make_scalar_hho_laplacian ldlt d None false c h in
    let rows := (b_size (el_basis (cl_elem c) (reconstruction_degree h)) - 1)%nat in
    let want := (b_size (el_basis (cl_elem c) (face_degree h + 1)) - 1)%nat in
    if (rows =? want)%nat then Some (replicate_blocks d want N oper, replicate_blocks d N N data) else None.
  (** make_vector_hdg_stabilization, vector_stabilization.hpp:215-249, and make_vector_hho_stabilization_optim,
      299-324: the scalar stabilisation on each component *)
  Definition vector_hdg_stabilization (d : nat) (c : scell) (cd : nat) (fdi : list (option nat)) (hF : bool) : mtx :=
    let N := scal_total_dofs c cd fdi in replicate_blocks d N N (hdg_stabilization ldlt c cd fdi hF).
  Definition vector_hho_stabilization_optim (d : nat) (c : scell) (h : degs) (oper : mtx) : mtx :=
    let N := scal_total_dofs c (cell_degree h) (map (fun _ => Some (face_degree h)) (cl_faces c)) in
    replicate_blocks d N N (make_scalar_hho_stabilization ldlt c h oper).
End VHHO2.
