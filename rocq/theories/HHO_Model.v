(** Model of the scalar HHO operators: methods/implementation_hho/{scalar_hho_laplacian, scalar_stabilization,
    methods_hho}.hpp and the matrices of bases/bases_utils.hpp.

    The geometry, basis and quadrature layers are seen through what these functions ask of them.  A basis is the
    list of its polynomials: eval_functions and eval_gradients return their values and the values of their
    derivatives (proved of the scaled monomials in C18 and C19).  Numbers are exact reals; a matrix is a function
    of its indices, its sizes are known from the context and entries outside are never read.  Eigen's ldlt() and
    llt() are an oracle [ldlt n A b]: the answer for the right hand side [b].  Degrees do not wrap. *)
From Coq Require Import List Arith Bool Reals.
From Verif Require Import Poly_Spec HHO_Spec.
Import ListNotations.
Open Scope R_scope.

Definition zeroM : mtx := fun _ _ => 0.
Definition zeroV : nat -> R := fun _ => 0.

(** make_scalar_monomial_basis(msh, elem, degree): size and functions *)
Record sbasis := mkSB { b_deg : nat; b_size : nat; b_poly : nat -> pexp }.
Definition phi (b : sbasis) (x : pt) (j : nat) : R := peval (b_poly b j) x.
Definition dphi (b : sbasis) (x : pt) (j c : nat) : R := peval (pdiff c (b_poly b j)) x.
(** an element: integrate(msh, elem, degree), its bases, diameter(msh, elem) *)
Record selem := mkElem { el_quad : nat -> list (pt * R); el_basis : nat -> sbasis; el_diam : R }.
(** a face with normal(msh, cl, fc); a cell with faces(msh, cl) *)
Record sface := mkFace { fc_elem : selem; fc_normal : pt }.
Record scell := mkCell { cl_elem : selem; cl_faces : list sface }.
(** hho_degree_info (utils_hho.hpp:44-200) *)
Record degs := mkDegs { cell_degree : nat; face_degree : nat; reconstruction_degree : nat }.

(** ret += w * u * v^T for the quadrature points *)
Definition accumulate (q : list (pt * R)) (u v : pt -> nat -> R) (M : mtx) : mtx :=
  fold_left (fun M qp => let '(x, w) := qp in fun i j => M i j + w * u x i * v x j) q M.
(** bases_utils.hpp:192-214 *)
Definition make_mass_matrix (e : selem) (b : sbasis) (di : nat) : mtx :=
  accumulate (el_quad e (2 * (b_deg b + di))) (phi b) (phi b) zeroM.
(** bases_utils.hpp:246-272; [d] is the dimension *)
Definition make_stiffness_matrix (d : nat) (e : selem) (b : sbasis) : mtx :=
  if (0 <? b_deg b)%nat then
    fold_left (fun M qp => let '(x, w) := qp in fun i j => M i j + sg d (fun c => w * dphi b x i c * dphi b x j c))
      (el_quad e (2 * (b_deg b - 1))) zeroM
  else zeroM.
(** bases_utils.hpp:274-296 *)
Definition make_rhs (e : selem) (b : sbasis) (f : pt -> R) (di : nat) : nat -> R :=
  fold_left (fun r qp => let '(x, w) := qp in fun i => r i + phi b x i * (w * f x)) (el_quad e (2 * (b_deg b + di))) zeroV.

(** M.block(0, c0, rows, n) += B *)
Definition add_cols (M : mtx) (c0 n : nat) (B : mtx) : mtx :=
  fun i j => if ((c0 <=? j) && (j <? c0 + n))%nat then M i j + B i (j - c0)%nat else M i j.
(** v.segment(c0, n) = s *)
Definition set_seg (v : nat -> R) (c0 n : nat) (s : nat -> R) : nat -> R :=
  fun j => if ((c0 <=? j) && (j <? c0 + n))%nat then s (j - c0)%nat else v j.
Definition mopp (A : mtx) : mtx := fun i j => - A i j.
Definition maddm (A B : mtx) : mtx := fun i j => A i j + B i j.
Definition mscalm (k : R) (A : mtx) : mtx := fun i j => k * A i j.
Definition mtrans (A : mtx) : mtx := fun i j => A j i.
(** product of matrices with inner size [n] *)
Definition mprod (n : nat) (A B : mtx) : mtx := fun i j => sg n (fun k => A i k * B k j).
Definition ident : mtx := delta.
(** M.block(r0, c0, ...) as a value *)
Definition shift (r0 c0 : nat) (A : mtx) : mtx := fun i j => A (r0 + i)%nat (c0 + j)%nat.

Section HHO.
  Variable ldlt : nat -> mtx -> (nat -> R) -> nat -> R.
  (** .ldlt().solve(B) *)
  Definition solveM (n : nat) (A B : mtx) : mtx := fun i j => ldlt n A (fun k => B k j) i.

  (** project_function on an element, bases_utils.hpp:338-349 *)
  Definition project_elem (e : selem) (degree : nat) (f : pt -> R) (di : nat) : nat -> R :=
    let b := el_basis e degree in ldlt (b_size b) (make_mass_matrix e b 0) (make_rhs e b f di).
  (** project_function on the unknowns of a cell, methods_hho.hpp:57-81 and, with a degree per face, 294-328; the
      index of the next unknown is counted in [off].  fbs is scalar_basis_size(face_degree, dimension - 1), the
      size of the face bases. *)
  Definition project_face (f : pt -> R) (di : nat) (st : nat * (nat -> R)) (fi : sface * option nat) : nat * (nat -> R) :=
    let '(off, ret) := st in
    match snd fi with
    | None => st
    | Some fd =>
        let fbs := b_size (el_basis (fc_elem (fst fi)) fd) in
        ((off + fbs)%nat, set_seg ret off fbs (project_elem (fc_elem (fst fi)) fd f di))
    end.
  Definition project_cdi (c : scell) (cd : nat) (fdi : list (option nat)) (f : pt -> R) (di : nat) : nat -> R :=
    let cbs := b_size (el_basis (cl_elem c) cd) in
    snd (fold_left (project_face f di) (combine (cl_faces c) fdi)
           (cbs, set_seg zeroV 0 cbs (project_elem (cl_elem c) cd f di))).
  Definition project_hho (c : scell) (hdi : degs) (f : pt -> R) (di : nat) : nat -> R :=
    let cbs := b_size (el_basis (cl_elem c) (cell_degree hdi)) in
    snd (fold_left (fun st fc => project_face f di st (fc, Some (face_degree hdi))) (cl_faces c)
           (cbs, set_seg zeroV 0 cbs (project_elem (cl_elem c) (cell_degree hdi) f di))).

  (** r_dphi * diff_tens.transpose(), scalar_hho_laplacian.hpp:173, 195; without a tensor, r_dphi *)
  Definition tens (d : nat) (K : option mtx) (g : nat -> R) (c : nat) : R :=
    match K with None => g c | Some K => sg d (fun e => g e * K c e) end.
  (** scalar_hho_laplacian.hpp:166-182: the cell terms; the functions of the reconstruction start at the second *)
  Definition lap_lhs (d : nat) (K : option mtx) (c : scell) (rd : nat) (rb : sbasis) : mtx :=
    fold_left (fun M qp => let '(x, w) := qp in fun i j =>
        M i j + sg d (fun k => w * tens d K (dphi rb x (S i)) k * dphi rb x (S j) k))
      (el_quad (cl_elem c) (2 * (rd - 1))) zeroM.
  Definition lap_rhs_cell (d : nat) (K : option mtx) (c : scell) (rd : nat) (rb cb : sbasis) : mtx :=
    fold_left (fun M qp => let '(x, w) := qp in
        add_cols M 0 (b_size cb) (fun i j => sg d (fun k => w * tens d K (dphi rb x (S i)) k * dphi cb x j k)))
      (el_quad (cl_elem c) (2 * (rd - 1))) zeroM.
  (** (r_dphi * n)(i) *)
  Definition rdn (d : nat) (K : option mtx) (rb : sbasis) (n x : pt) (i : nat) : R :=
    sg d (fun k => tens d K (dphi rb x (S i)) k * n k).
  (** scalar_hho_laplacian.hpp:201-208: the quadrature loop of a face; [proj] is use_face_projection *)
  Definition lap_face_qps (d : nat) (K : option mtx) (proj : bool) (rb cb fb : sbasis) (off : nat) (n : pt)
      (qps : list (pt * R)) (M : mtx) : mtx :=
    fold_left (fun M qp => let '(x, w) := qp in
        let M := add_cols M off (b_size fb) (fun i j => w * rdn d K rb n x i * phi fb x j) in
        if proj then M else add_cols M 0 (b_size cb) (fun i j => - (w * rdn d K rb n x i * phi cb x j))) qps M.
  (** scalar_hho_laplacian.hpp:186-235: one face; the state is (offset, gr_rhs) *)
  Definition lap_face (d : nat) (K : option mtx) (proj : bool) (hdi : degs) (rb cb : sbasis)
      (st : nat * mtx) (fc : sface) : nat * mtx :=
    let '(off, M) := st in
    let rd := reconstruction_degree hdi in let cd := cell_degree hdi in let fd := face_degree hdi in
    let fb := el_basis (fc_elem fc) fd in
    let fbs := b_size fb in let cbs := b_size cb in
    let qps := el_quad (fc_elem fc) (rd + Nat.max cd fd) in
    let M := lap_face_qps d K proj rb cb fb off (fc_normal fc) qps M in
    let M := if proj then
        let MF := accumulate qps (phi fb) (phi fb) zeroM in
        let TF := accumulate qps (phi fb) (phi cb) zeroM in
        let FR := accumulate qps (rdn d K rb (fc_normal fc)) (phi fb) zeroM in
        add_cols M 0 cbs (mopp (mprod fbs FR (solveM fbs MF TF)))
      else M in
    ((off + fbs)%nat, M).
  (** priv::make_scalar_hho_laplacian, scalar_hho_laplacian.hpp:138-259: (oper, data); [rb] is the basis of the
      reconstruction *)
  Definition hho_laplacian (d : nat) (K : option mtx) (proj : bool) (c : scell) (hdi : degs) (rb : sbasis) : mtx * mtx :=
    let rd := reconstruction_degree hdi in
    let cb := el_basis (cl_elem c) (cell_degree hdi) in
    let lhs := lap_lhs d K c rd rb in
    let rhs := snd (fold_left (lap_face d K proj hdi rb cb) (cl_faces c) (b_size cb, lap_rhs_cell d K c rd rb cb)) in
    let rbs := b_size rb in
    let oper := solveM (rbs - 1) lhs rhs in
    (oper, mprod (rbs - 1) (mtrans rhs) oper).
  (** make_scalar_hho_laplacian and make_shl_face_proj with hho_degree_info, with and without a diffusion tensor,
      scalar_hho_laplacian.hpp:263-297: [K] and [proj] choose among the four *)
  Definition make_scalar_hho_laplacian (d : nat) (K : option mtx) (proj : bool) (c : scell) (hdi : degs) : mtx * mtx :=
    hho_laplacian d K proj c hdi (el_basis (cl_elem c) (reconstruction_degree hdi)).
  (** make_scalar_hho_laplacian with CellDegreeInfo, scalar_hho_laplacian.hpp:69-131: one basis, of the
      reconstruction degree, serves the cell and the reconstruction; [fdi] holds the degree of each face *)
  Definition lap_face_cdi (d rd cd : nat) (cb : sbasis) (cbs : nat) (st : nat * mtx) (fi : sface * option nat) : nat * mtx :=
    let '(off, M) := st in
    match snd fi with
    | None => st
    | Some fd =>
        let fb := el_basis (fc_elem (fst fi)) fd in
        ((off + b_size fb)%nat,
         lap_face_qps d None false cb (mkSB cd cbs (b_poly cb)) fb off (fc_normal (fst fi))
           (el_quad (fc_elem (fst fi)) (rd - 1 + Nat.max fd cd)) M)
    end.
  Definition hho_laplacian_cdi (d : nat) (c : scell) (rd cd : nat) (fdi : list (option nat)) : mtx * mtx :=
    let cb := el_basis (cl_elem c) rd in
    let rbs := b_size cb in let cbs := b_size (el_basis (cl_elem c) cd) in
    let stiff := make_stiffness_matrix d (cl_elem c) cb in
    let lhs := shift 1 1 stiff in
    let rhs := snd (fold_left (lap_face_cdi d rd cd cb cbs) (combine (cl_faces c) fdi)
                     (cbs, add_cols zeroM 0 cbs (shift 1 0 stiff))) in
    let oper := solveM (rbs - 1) lhs rhs in
    (oper, mprod (rbs - 1) (mtrans rhs) oper).

  (** scalar_stabilization.hpp:856-898: one face of make_scalar_hho_stabilization; [proj1] is computed below;
      the state is (offset, data) *)
  Definition stab_face (hdi : degs) (rb cb : sbasis) (rec proj1 : mtx) (h : R) (st : nat * mtx) (fc : sface) : nat * mtx :=
    let '(off, data) := st in
    let fd := face_degree hdi in
    let fb := el_basis (fc_elem fc) fd in
    let fbs := b_size fb in let cbs := b_size cb in let rbs := b_size rb in
    let mass := make_mass_matrix (fc_elem fc) fb 0 in
    let qps := el_quad (fc_elem fc) (reconstruction_degree hdi + fd) in
    let tr := accumulate qps (phi fb) (fun x j => phi rb x (S j)) zeroM in
    let tr2 := accumulate qps (phi fb) (phi cb) zeroM in
    let proj2 := add_cols (solveM fbs mass (mprod (rbs - 1) tr rec)) off fbs (mopp ident) in
    let proj3 := solveM fbs mass (mprod cbs tr2 proj1) in
    let BRF := maddm proj2 proj3 in
    ((off + fbs)%nat, maddm data (mscalm (/ h) (mprod fbs (mprod fbs (mtrans BRF) mass) BRF))).
  (** make_scalar_hho_stabilization(msh, cl, rb, reconstruction, hdi), scalar_stabilization.hpp:808-901 *)
  Definition hho_stabilization (c : scell) (hdi : degs) (rb : sbasis) (rec : mtx) : mtx :=
    let cb := el_basis (cl_elem c) (cell_degree hdi) in
    let cbs := b_size cb in let rbs := b_size rb in
    let M1 := make_mass_matrix (cl_elem c) cb 0 in
    let M2 := accumulate (el_quad (cl_elem c) (reconstruction_degree hdi + cell_degree hdi))
                (phi cb) (fun x j => phi rb x (S j)) zeroM in
    let proj1 := add_cols (mopp (solveM cbs M1 (mprod (rbs - 1) M2 rec))) 0 cbs ident in
    snd (fold_left (stab_face hdi rb cb rec proj1 (el_diam (cl_elem c))) (cl_faces c) (cbs, zeroM)).
  (** the overload without a basis, 903-913; its last argument is ignored *)
  Definition make_scalar_hho_stabilization (c : scell) (hdi : degs) (rec : mtx) : mtx :=
    hho_stabilization c hdi (el_basis (cl_elem c) (reconstruction_degree hdi)) rec.

  (** make_scalar_hdg_stabilization with CellDegreeInfo, scalar_stabilization.hpp:145-221; [hF] chooses the
      diameter of the face or of the cell *)
  Definition hdg_face (cb : sbasis) (scale : sface -> R) (st : nat * mtx) (fi : sface * option nat) : nat * mtx :=
    let '(off, data) := st in
    match snd fi with
    | None => st
    | Some fd =>
        let fb := el_basis (fc_elem (fst fi)) fd in
        let fbs := b_size fb in let cbs := b_size cb in
        let mass := make_mass_matrix (fc_elem (fst fi)) fb 0 in
        let trace := accumulate (el_quad (fc_elem (fst fi)) (fd + b_deg cb)) (phi fb) (phi cb) zeroM in
        let tr := add_cols (add_cols zeroM off fbs (mopp mass)) 0 cbs trace in
        let oper := add_cols (add_cols zeroM off fbs (mopp ident)) 0 cbs (solveM fbs mass trace) in
        ((off + fbs)%nat, maddm data (mscalm (scale (fst fi)) (mprod fbs (mtrans oper) tr)))
    end.
  Definition hdg_stabilization (c : scell) (cd : nat) (fdi : list (option nat)) (hF : bool) : mtx :=
    let cb := el_basis (cl_elem c) cd in
    snd (fold_left (hdg_face cb (fun fc => / (if hF then el_diam (fc_elem fc) else el_diam (cl_elem c))))
           (combine (cl_faces c) fdi) (b_size cb, zeroM)).
  (** make_scalar_hdg_stabilization2, scalar_stabilization.hpp:223-289: scaled by n . kappa n / h *)
  Definition hdg_stabilization2 (d : nat) (c : scell) (hdi : degs) (kappa : mtx) : mtx :=
    let cb := el_basis (cl_elem c) (cell_degree hdi) in
    snd (fold_left (fun st fc => hdg_face cb
             (fun fc => sg d (fun i => fc_normal fc i * sg d (fun j => kappa i j * fc_normal fc j)) / el_diam (cl_elem c))
             st (fc, Some (face_degree hdi)))
           (cl_faces c) (b_size cb, zeroM)).
End HHO.
