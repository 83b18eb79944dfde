(** Model of the symmetric reconstruction of vectors (methods/implementation_hho/vector_hho_laplacian.hpp) and of the
    stabilisations of vector unknowns that are not copies of scalar ones (vector_stabilization.hpp).  The conventions
    are those of VHHO_Model and Stab_Model: [fdi] holds the degree of each face, [None] for a face without unknowns. *)
From Coq Require Import List Arith Bool Reals.
From Verif Require Import Poly_Spec HHO_Spec VHHO_Spec HHO_Model VHHO_Model Stab_Model.
Import ListNotations.
Open Scope R_scope.

(** priv::nb_lag, vector_hho_laplacian.hpp:43-50 *)
Definition nb_lag (d : nat) : nat := if (d =? 3)%nat then 3%nat else 1%nat.
(** eval_curls of the vector basis over the scalar basis [b], bases_vector.hpp:199-226 (3D) and 690-706 (2D): row j,
    column p *)
Definition eval_curls (d : nat) (b : sbasis) (x : pt) (j p : nat) : R :=
  let g := dphi b x (j / d) in
  if (d =? 3)%nat then
    match (j mod d)%nat, p with
    | O, O => g 1%nat | O, S O => g 2%nat
    | S O, O => - g 0%nat | S O, S (S O) => g 2%nat
    | S (S O), S O => - g 0%nat | S (S O), S (S O) => - g 1%nat
    | _, _ => 0
    end
  else
    match (j mod d)%nat, p with
    | O, O => g 1%nat
    | S O, O => - g 0%nat
    | _, _ => 0
    end.

Section SymL.
  Variable lu ldlt llt : nat -> mtx -> (nat -> R) -> nat -> R.
  (** make_vector_hho_symmetric_laplacian with CellDegreeInfo, vector_hho_laplacian.hpp:52-151: one face (96-127);
      [ho] is rbs_ho *)
  Definition symlap_face (d : nat) (rb cb : vbasis) (ho rd cd : nat) (st : nat * mtx) (fi : sface * option nat) : nat * mtx :=
    let '(off, M) := st in
    match snd fi with
    | None => st
    | Some fd =>
        let fb := vec_basis d (el_basis (fc_elem (fst fi)) fd) in
        let n := fc_normal (fst fi) in
        ((off + v_size fb)%nat,
         fold_left (fun M qp => let '(x, w) := qp in
             let rn := fun i a => w * sg d (fun b => vsgrad d rb x (d + i) (d * a + b)%nat * n b) in
             let M := add_block M 0 off ho (v_size fb) (fun i j => sg d (fun a => rn i a * vphi fb x j a)) in
             add_block M 0 0 ho (v_size cb) (fun i j => - sg d (fun a => rn i a * vphi cb x j a)))
           (el_quad (fc_elem (fst fi)) (Nat.max fd cd + rd - 1)) M)
    end.
  (** the whole function.  A reconstruction of degree 0 would ask for a quadrature of degree 2 (0 - 1), unsigned: the
      theorems assume degree 1 at least *)
  Definition symlap_stiff (d : nat) (c : scell) (rb : vbasis) (rd : nat) : mtx :=
    vaccumulate (d * d) (el_quad (cl_elem c) (2 * (rd - 1))) (vsgrad d rb) (vsgrad d rb) zeroM.
  Definition symlap_rot (d : nat) (c : scell) (b : sbasis) (rd : nat) : mtx :=
    fold_left (fun M qp => let '(x, w) := qp in fun i p => M i p + w * eval_curls d b x i p) (el_quad (cl_elem c) rd) zeroM.
  Definition symlap_lhs (d : nat) (c : scell) (rd : nat) : mtx :=
    let b := el_basis (cl_elem c) rd in
    let rb := vec_basis d b in
    let ho := (v_size rb - d)%nat in
    let L := nb_lag d in
    let rot := symlap_rot d c b rd in
    let lhs := set_block zeroM 0 0 ho ho (shift d d (symlap_stiff d c rb rd)) in
    let lhs := add_block lhs 0 ho ho L (shift d 0 rot) in
    add_block lhs ho 0 L ho (mtrans (shift d 0 rot)).
  Definition symlap_rhs (d : nat) (c : scell) (rd cd : nat) (fdi : list (option nat)) : mtx :=
    let rb := vec_basis d (el_basis (cl_elem c) rd) in
    let cb := vec_basis d (el_basis (cl_elem c) cd) in
    let ho := (v_size rb - d)%nat in
    let rhs := set_block zeroM 0 0 ho (v_size cb) (shift d 0 (symlap_stiff d c rb rd)) in
    snd (fold_left (symlap_face d rb cb ho rd cd) (combine (cl_faces c) fdi) (v_size cb, rhs)).
  Definition symmetric_laplacian (d : nat) (c : scell) (rd cd : nat) (fdi : list (option nat)) : mtx * mtx :=
    let ho := (v_size (vec_basis d (el_basis (cl_elem c) rd)) - d)%nat in
    let gr_rhs := symlap_rhs d c rd cd fdi in
    let sol := solveM lu (ho + nb_lag d) (symlap_lhs d c rd) gr_rhs in
    (sol, mprod ho (mtrans gr_rhs) sol).
  (** the overload with hho_degree_info, 153-160: its CellDegreeInfo reconstructs in degree face + 1 on faces that all
      carry unknowns (adaptivity.hpp:100-112) *)
  Definition symmetric_laplacian_hdi (d : nat) (c : scell) (h : degs) : mtx * mtx :=
    symmetric_laplacian d c (face_degree h + 1) (cell_degree h) (map (fun _ => Some (face_degree h)) (cl_faces c)).

  (** make_vector_hho_stabilization with CellDegreeInfo, vector_stabilization.hpp:57-146: proj1 (80-91) and one face
      (102-143) *)
  Definition vhho_proj1 (d : nat) (e : selem) (rb : vbasis) (cbs : nat) (rec : mtx) : mtx :=
    let mass_mat := vmass d e rb 0 in
    let M1 := mass_mat in
    let M2 := shift 0 d mass_mat in
    add_cols (mopp (solveM ldlt cbs M1 (mprod (v_size rb - d) M2 rec))) 0 cbs ident.
  Definition vhho_face (d : nat) (c : scell) (rb : vbasis) (cbs rd : nat) (rec proj1 : mtx) (hF : bool)
      (st : nat * mtx) (fi : sface * option nat) : nat * mtx :=
    let '(off, data) := st in
    match snd fi with
    | None => st
    | Some fd =>
        let e := fc_elem (fst fi) in
        let fb := vec_basis d (el_basis e fd) in
        let fbs := v_size fb in
        let M := vmass d e fb 0 in
        let trace := vaccumulate d (el_quad e (rd + fd)) (vphi fb) (vphi rb) zeroM in
        let MR1 := shift 0 d trace in
        let MR2 := trace in
        let proj2 := add_cols (solveM llt fbs M (mprod (v_size rb - d) MR1 rec)) off fbs (mopp ident) in
        let proj3 := solveM llt fbs M (mprod cbs MR2 proj1) in
        let BRF := maddm proj2 proj3 in
        ((off + fbs)%nat, maddm data (mscalm (/ stab_h c hF (fst fi)) (mprod fbs (mprod fbs (mtrans BRF) M) BRF)))
    end.
  Definition vector_hho_stabilization (d : nat) (c : scell) (rd cd : nat) (fdi : list (option nat)) (rec : mtx) (hF : bool) : mtx :=
    let rb := vec_basis d (el_basis (cl_elem c) rd) in
    let cbs := v_size (vec_basis d (el_basis (cl_elem c) cd)) in
    let proj1 := vhho_proj1 d (cl_elem c) rb cbs rec in
    snd (fold_left (vhho_face d c rb cbs rd rec proj1 hF) (combine (cl_faces c) fdi) (cbs, zeroM)).
End SymL.
(** make_vector_dg_stabilization, vector_stabilization.hpp:263-290: the scalar stabilisation on each component
    (compute_lhs_vector, utils_hho.hpp:372-440) *)
Definition vector_dg_stabilization (d : nat) (c : scell) (cd : nat) (fdi : list (option nat)) (hF : bool) : mtx :=
  let N := scal_total_dofs c cd fdi in replicate_blocks d N N (dg_stabilization c cd fdi hF).
