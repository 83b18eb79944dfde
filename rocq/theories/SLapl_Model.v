(** Model of the forms of bases/bases_new.hpp and bases/bases_operations.hpp and of the scalar Laplacian built on
    them, methods/hho_slapl.hpp.

    As in HHO_Model: a basis is the list of its polynomials, numbers are exact reals, matrices are functions of
    their indices, Eigen's ldlt() is an oracle.  The debug output of local_stabilization_hdg is left out. *)
From Coq Require Import List Arith Bool Reals.
From Verif Require Import Poly_Spec HHO_Spec HHO_Model.
Import ListNotations.
Open Scope R_scope.

(** what integrate() asks of a basis or of an expression built on one: size(), degree(), integration_degree() and
    the rows of operator()(pt), one per function, with [ev_comps] columns *)
Record evaluator := mkEv { ev_size : nat; ev_degree : nat; ev_ideg : nat; ev_comps : nat; ev_val : pt -> nat -> nat -> R }.
(** scalar_monomial, bases_new.hpp:193-195, 256-258, ...: the integration degree is the degree *)
Definition scalar_ev (b : sbasis) : evaluator := mkEv (b_size b) (b_deg b) (b_deg b) 1 (fun x j _ => phi b x j).
(** grad_evaluator, bases_operations.hpp:88-137; [d] is the dimension *)
Definition grad_ev (d : nat) (b : sbasis) : evaluator :=
  mkEv (b_size b) (b_deg b) (if (0 <? b_deg b)%nat then b_deg b - 1 else b_deg b) d (fun x j k => dphi b x j k).
(** dot_evaluator, bases_operations.hpp:27-86 *)
Definition dot_ev (v : evaluator) (n : pt) : evaluator :=
  mkEv (ev_size v) (ev_degree v) (ev_degree v) 1 (fun x j _ => sg (ev_comps v) (fun k => ev_val v x j k * n k)).
(** material_prod_evaluator, bases_operations.hpp:204-257, 272-286: basis(pt) * mt(pt); a constant tensor is a constant function *)
Definition material_ev (mt : pt -> mtx) (v : evaluator) : evaluator :=
  mkEv (ev_size v) (ev_degree v) (ev_degree v) (ev_comps v)
    (fun x j k => sg (ev_comps v) (fun e => ev_val v x j e * mt x e k)).

(** integrate(msh, elem, trial, test), bases_new.hpp:926-943: test.size() rows, trial.size() columns *)
Definition integrate_forms (e : selem) (trial test : evaluator) : mtx :=
  fold_left (fun M qp => let '(x, w) := qp in fun i j =>
      M i j + sg (ev_comps test) (fun k => (w * ev_val test x i k) * ev_val trial x j k))
    (el_quad e (ev_ideg trial + ev_ideg test)) zeroM.
(** integrate(msh, elem, f, basis), bases_new.hpp:911-923, for scalar bases *)
Definition integrate_rhs (e : selem) (f : pt -> R) (b : sbasis) : nat -> R :=
  fold_left (fun r qp => let '(x, w) := qp in fun i => r i + w * (phi b x i * f x)) (el_quad e (2 * b_deg b + 1)) zeroV.

Section SLapl.
  Variable ldlt : nat -> mtx -> (nat -> R) -> nat -> R.
  (** L2_project, bases_operations.hpp:327-336 *)
  Definition L2_project (e : selem) (f : pt -> R) (b : sbasis) : nat -> R :=
    ldlt (b_size b) (integrate_forms e (scalar_ev b) (scalar_ev b)) (integrate_rhs e f b).

  (** L2_projector, bases_new.hpp:824-889: the quadrature of the constructor, of twice the degree of the basis,
      serves all; the degrees computed in operator() and basis() are not used *)
  Definition projector_qps (e : selem) (b : sbasis) : list (pt * R) := el_quad e (b_deg b * 2).
  Definition projector_mass (e : selem) (b : sbasis) : mtx := accumulate (projector_qps e b) (phi b) (phi b) zeroM.
  Definition projector_apply (e : selem) (b : sbasis) (f : pt -> R) : nat -> R :=
    ldlt (b_size b) (projector_mass e b)
      (fold_left (fun r qp => let '(x, w) := qp in fun i => r i + w * phi b x i * f x) (projector_qps e b) zeroV).
  Definition projector_basis (e : selem) (b other : sbasis) : mtx :=
    solveM ldlt (b_size b) (projector_mass e b) (accumulate (projector_qps e b) (phi b) (phi other) zeroM).

  (** degree_info(cdeg, fdeg), hho_slapl.hpp:34-50; degree_info(deg) is degree_info(deg, deg) *)
  Definition degree_info (cdeg fdeg : nat) : degs := mkDegs cdeg fdeg (fdeg + 1).

  (** hho_slapl.hpp:88-100: one face; the state is (offset, rhs) *)
  Definition oper_face (d : nat) (fd : nat) (phiR phiT : sbasis) (st : nat * mtx) (fc : sface) : nat * mtx :=
    let '(off, rhs) := st in
    let phiF := el_basis (fc_elem fc) fd in
    let gn := dot_ev (grad_ev d phiR) (fc_normal fc) in
    let rhs := add_cols rhs off (b_size phiF) (shift 1 0 (integrate_forms (fc_elem fc) (scalar_ev phiF) gn)) in
    let rhs := add_cols rhs 0 (b_size phiT) (mopp (shift 1 0 (integrate_forms (fc_elem fc) (scalar_ev phiT) gn))) in
    ((off + b_size phiF)%nat, rhs).
  (** local_operator, hho_slapl.hpp:63-105: (R, A).  None: the left block of the stiffness matrix does not have as many
      columns as the cell basis has functions; Eigen's assertion fails *)
  Definition local_operator (d : nat) (c : scell) (di : degs) : option (mtx * mtx) :=
    let phiR := el_basis (cl_elem c) (reconstruction_degree di) in
    let phiT := el_basis (cl_elem c) (cell_degree di) in
    let szR := b_size phiR in let szT := b_size phiT in
    if (szT <=? szR)%nat then
      let stiffness := integrate_forms (cl_elem c) (grad_ev d phiR) (grad_ev d phiR) in
      let lhs := shift 1 1 stiffness in
      let rhs := snd (fold_left (oper_face d (face_degree di) phiR phiT) (cl_faces c)
                        (szT, add_cols zeroM 0 szT (shift 1 0 stiffness))) in
      let Rm := solveM ldlt (szR - 1) lhs rhs in
      Some (Rm, mprod (szR - 1) (mtrans rhs) Rm)
    else None.

  (** hho_slapl.hpp:137-155: one face of local_stabilization; the state is (offset, S) *)
  Definition sl_stab_face (fd : nat) (phiR phiT : sbasis) (Rm P1 : mtx) (scale : R) (st : nat * mtx) (fc : sface) : nat * mtx :=
    let '(off, Sm) := st in
    let phiF := el_basis (fc_elem fc) fd in
    let szF := b_size phiF in
    let MF := integrate_forms (fc_elem fc) (scalar_ev phiF) (scalar_ev phiF) in
    let T2F := integrate_forms (fc_elem fc) (scalar_ev phiT) (scalar_ev phiF) in
    let P2 := solveM ldlt szF MF (mprod (b_size phiT) T2F P1) in
    let R2F := shift 0 1 (integrate_forms (fc_elem fc) (scalar_ev phiR) (scalar_ev phiF)) in
    let P3 := add_cols (solveM ldlt szF MF (mprod (b_size phiR - 1) R2F Rm)) off szF (mopp ident) in
    let rhs := maddm P2 P3 in
    ((off + szF)%nat, maddm Sm (mscalm scale (mprod szF (mprod szF (mtrans rhs) MF) rhs))).
  (** local_stabilization, hho_slapl.hpp:108-158 *)
  Definition sl_stabilization (c : scell) (di : degs) (Rm : mtx) : mtx :=
    let phiT := el_basis (cl_elem c) (cell_degree di) in
    let phiR := el_basis (cl_elem c) (reconstruction_degree di) in
    let MT := integrate_forms (cl_elem c) (scalar_ev phiT) (scalar_ev phiT) in
    let R2T := shift 0 1 (integrate_forms (cl_elem c) (scalar_ev phiR) (scalar_ev phiT)) in
    let P1 := add_cols (mopp (solveM ldlt (b_size phiT) MT (mprod (b_size phiR - 1) R2T Rm))) 0 (b_size phiT) ident in
    snd (fold_left (sl_stab_face (face_degree di) phiR phiT Rm P1 (1 / el_diam (cl_elem c))) (cl_faces c) (b_size phiT, zeroM)).

  (** hho_slapl.hpp:181-204: one face of local_stabilization_hdg *)
  Definition sl_hdg_face (fd : nat) (phiT : sbasis) (scale : R) (st : nat * mtx) (fc : sface) : nat * mtx :=
    let '(off, Sm) := st in
    let phiF := el_basis (fc_elem fc) fd in
    let szF := b_size phiF in
    let MF := integrate_forms (fc_elem fc) (scalar_ev phiF) (scalar_ev phiF) in
    let T2F := integrate_forms (fc_elem fc) (scalar_ev phiT) (scalar_ev phiF) in
    let P2 := solveM ldlt szF MF T2F in
    let rhs := add_cols (add_cols zeroM 0 (b_size phiT) (mopp P2)) off szF ident in
    ((off + szF)%nat, maddm Sm (mscalm scale (mprod szF (mprod szF (mtrans rhs) MF) rhs))).
  (** local_stabilization_hdg, hho_slapl.hpp:160-209; the scale is 1, the division by the diameter is commented out *)
  Definition sl_stabilization_hdg (c : scell) (di : degs) : mtx :=
    let phiT := el_basis (cl_elem c) (cell_degree di) in
    snd (fold_left (sl_hdg_face (face_degree di) phiT 1) (cl_faces c) (b_size phiT, zeroM)).

  (** local_reduction, hho_slapl.hpp:211-237 *)
  Definition local_reduction (c : scell) (di : degs) (f : pt -> R) : nat -> R :=
    let phiT := el_basis (cl_elem c) (cell_degree di) in
    snd (fold_left (fun st fc => let '(off, ret) := st in
             let phiF := el_basis (fc_elem fc) (face_degree di) in
             ((off + b_size phiF)%nat, set_seg ret off (b_size phiF) (L2_project (fc_elem fc) f phiF)))
           (cl_faces c) (b_size phiT, set_seg zeroV 0 (b_size phiT) (L2_project (cl_elem c) f phiT))).
End SLapl.
