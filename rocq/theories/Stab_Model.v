(** Model of the other scalar stabilisations of HHO methods (methods/implementation_hho/scalar_stabilization.hpp): the
    difference operator, the DG stabilisation, the forms on differences, the HHO stabilisation with a degree per face
    and with a tensor, and the fluxes.  [fdi] holds the degree of each face, [None] for a face without unknowns
    (DegreeInfo::hasUnknowns, adaptivity.hpp:31-66).  The overloads with hho_degree_info build a CellDegreeInfo whose
    faces all carry unknowns (adaptivity.hpp:100-112), [all_faces] in HHO_Setting.v. *)
From Coq Require Import List Arith Reals Bool.
From Verif Require Import Poly_Spec HHO_Spec HHO_Model.
Import ListNotations.
Open Scope R_scope.

Definition in_block (r0 c0 nr nc i j : nat) : bool := ((r0 <=? i) && (i <? r0 + nr) && ((c0 <=? j) && (j <? c0 + nc)))%nat.
(** M.block(r0, c0, nr, nc) = B and M.block(r0, c0, nr, nc) += B *)
Definition set_block (M : mtx) (r0 c0 nr nc : nat) (B : mtx) : mtx :=
  fun i j => if in_block r0 c0 nr nc i j then B (i - r0)%nat (j - c0)%nat else M i j.
Definition add_block (M : mtx) (r0 c0 nr nc : nat) (B : mtx) : mtx :=
  fun i j => if in_block r0 c0 nr nc i j then M i j + B (i - r0)%nat (j - c0)%nat else M i j.
(** h, scalar_stabilization.hpp:321-339 and the same lines of the other functions *)
Definition stab_h (c : scell) (hF : bool) (fc : sface) : R := if hF then el_diam (fc_elem fc) else el_diam (cl_elem c).

(** scalar_diff_dofs, utils_hho.hpp:349-366; scalar_face_dofs, 229-239 *)
Definition diff_dofs (cd : nat) (l : list (sface * option nat)) : nat :=
  fold_left (fun n fi =>
    let dbs := b_size (el_basis (fc_elem (fst fi)) cd) in
    let fbs := match snd fi with None => 0%nat | Some fd => b_size (el_basis (fc_elem (fst fi)) fd) end in
    (n + Nat.max dbs fbs)%nat) l 0%nat.

Section Stab.
  Variable ldlt : nat -> mtx -> (nat -> R) -> nat -> R.
  (** make_scalar_hho_difference, scalar_stabilization.hpp:52-113: one face (79-110); the state is
      (offset_faces, offset_diff, data) *)
  Definition diff_face (cb : sbasis) (cd : nat) (st : nat * nat * mtx) (fi : sface * option nat) : nat * nat * mtx :=
    let '(off, offd, data) := st in
    match snd fi with
    | None => st
    | Some fd =>
        let e := fc_elem (fst fi) in
        let ddeg := Nat.max fd cd in
        let db := el_basis e ddeg in
        let fbs := b_size (el_basis e fd) in let dbs := b_size db in let cbs := b_size cb in
        let qps := el_quad e (2 * ddeg) in
        let mass := accumulate qps (phi db) (phi db) zeroM in
        let trace := accumulate qps (phi db) (phi cb) zeroM in
        let data := set_block data offd 0 dbs cbs (mopp (solveM ldlt dbs mass trace)) in
        let data := set_block data offd off fbs fbs ident in
        ((off + fbs)%nat, (offd + dbs)%nat, data)
    end.
  Definition hho_difference (c : scell) (cd : nat) (fdi : list (option nat)) : mtx :=
    let cb := el_basis (cl_elem c) cd in
    snd (fold_left (diff_face cb cd) (combine (cl_faces c) fdi) (b_size cb, 0%nat, zeroM)).

  (** make_scalar_hdg_stabilization_diff, scalar_stabilization.hpp:303-374: one face (328-371) *)
  Definition hdg_diff_face (c : scell) (cd : nat) (hF : bool) (st : nat * mtx) (fi : sface * option nat) : nat * mtx :=
    let '(offd, data) := st in
    match snd fi with
    | None => st
    | Some fd =>
        let e := fc_elem (fst fi) in
        let ddeg := Nat.max cd fd in
        let fb := el_basis e fd in let db := el_basis e ddeg in
        let fbs := b_size fb in let dbs := b_size db in
        let qps := el_quad e (fd + ddeg) in
        let mass := accumulate qps (phi fb) (phi fb) zeroM in
        let trace := accumulate qps (phi fb) (phi db) zeroM in
        let tr := add_cols zeroM offd dbs trace in
        let oper := add_cols zeroM offd dbs (solveM ldlt fbs mass trace) in
        ((offd + dbs)%nat, maddm data (mscalm (/ stab_h c hF (fst fi)) (mprod fbs (mtrans oper) tr)))
    end.
  Definition hdg_stabilization_diff (c : scell) (cd : nat) (fdi : list (option nat)) (hF : bool) : mtx :=
    snd (fold_left (hdg_diff_face c cd hF) (combine (cl_faces c) fdi) (0%nat, zeroM)).

  (** make_scalar_dg_stabilization, scalar_stabilization.hpp:412-479: one face (440-476) *)
  Definition dg_face (c : scell) (cb : sbasis) (hF : bool) (st : nat * mtx) (fi : sface * option nat) : nat * mtx :=
    let '(off, data) := st in
    match snd fi with
    | None => st
    | Some fd =>
        let e := fc_elem (fst fi) in
        let fb := el_basis e fd in
        let fbs := b_size fb in let cbs := b_size cb in
        let h := stab_h c hF (fst fi) in
        let mass_F := make_mass_matrix e fb 0 in
        let mass_T := make_mass_matrix e cb 0 in
        let trace := accumulate (el_quad e (fd + b_deg cb)) (phi fb) (phi cb) zeroM in
        let data := add_block data 0 0 cbs cbs (mscalm (/ h) mass_T) in
        let data := add_block data off off fbs fbs (mscalm (/ h) mass_F) in
        let data := add_block data 0 off cbs fbs (mopp (mscalm (/ h) (mtrans trace))) in
        let data := add_block data off 0 fbs cbs (mopp (mscalm (/ h) trace)) in
        ((off + fbs)%nat, data)
    end.
  Definition dg_stabilization (c : scell) (cd : nat) (fdi : list (option nat)) (hF : bool) : mtx :=
    let cb := el_basis (cl_elem c) cd in
    snd (fold_left (dg_face c cb hF) (combine (cl_faces c) fdi) (b_size cb, zeroM)).

  (** make_scalar_dg_stabilization_diff, scalar_stabilization.hpp:1087-1141: one face (1113-1138) *)
  Definition dg_diff_face (c : scell) (cd : nat) (hF : bool) (st : nat * mtx) (fi : sface * option nat) : nat * mtx :=
    let '(offd, data) := st in
    match snd fi with
    | None => st
    | Some fd =>
        let e := fc_elem (fst fi) in
        let db := el_basis e (Nat.max cd fd) in
        let dbs := b_size db in
        ((offd + dbs)%nat,
         set_block data offd offd dbs dbs (mscalm (/ stab_h c hF (fst fi)) (make_mass_matrix e db 0)))
    end.
  Definition dg_stabilization_diff (c : scell) (cd : nat) (fdi : list (option nat)) (hF : bool) : mtx :=
    snd (fold_left (dg_diff_face c cd hF) (combine (cl_faces c) fdi) (0%nat, zeroM)).
  (** make_scalar_stabilization_fluxes, scalar_stabilization.hpp:1074-1085; its matrices have scalar_diff_dofs rows *)
  Definition stabilization_fluxes (c : scell) (cd : nat) (fdi : list (option nat)) (stab : mtx) (hF : bool) : mtx :=
    solveM ldlt (diff_dofs cd (combine (cl_faces c) fdi)) (dg_stabilization_diff c cd fdi hF) stab.

  (** make_scalar_hho_stabilization with CellDegreeInfo, scalar_stabilization.hpp:584-679: one basis, of the
      reconstruction degree, serves the cell and the reconstruction.  One face (639-676); [mass] is the mass matrix
      of the face *)
  Definition hho_face_cdi (rb : sbasis) (cbs rd : nat) (rec proj1 : mtx) (mass : selem -> nat -> mtx) (scale : sface -> R)
      (st : nat * mtx) (fi : sface * option nat) : nat * mtx :=
    let '(off, data) := st in
    match snd fi with
    | None => st
    | Some fd =>
        let e := fc_elem (fst fi) in
        let fb := el_basis e fd in
        let fbs := b_size fb in let rbs := b_size rb in
        let M := mass e fd in
        let trace := accumulate (el_quad e (rd + fd)) (phi fb) (phi rb) zeroM in
        let MR1 := shift 0 1 trace in
        let MR2 := trace in
        let proj2 := add_cols (solveM ldlt fbs M (mprod (rbs - 1) MR1 rec)) off fbs (mopp ident) in
        let proj3 := solveM ldlt fbs M (mprod cbs MR2 proj1) in
        let BRF := maddm proj2 proj3 in
        ((off + fbs)%nat, maddm data (mscalm (scale (fst fi)) (mprod fbs (mprod fbs (mtrans BRF) M) BRF)))
    end.
  (** -M1.ldlt().solve(M2 * reconstruction) plus the identity, scalar_stabilization.hpp:603-616 and 701-714 *)
  Definition cdi_proj1 (e : selem) (rb : sbasis) (cbs : nat) (rec : mtx) : mtx :=
    let mass_mat := make_mass_matrix e rb 0 in
    let M1 := mass_mat in
    let M2 := shift 0 1 mass_mat in
    add_cols (mopp (solveM ldlt cbs M1 (mprod (b_size rb - 1) M2 rec))) 0 cbs ident.
  Definition hho_stabilization_cdi (c : scell) (rd cd : nat) (fdi : list (option nat)) (rec : mtx) (hF : bool) : mtx :=
    let rb := el_basis (cl_elem c) rd in
    let cbs := b_size (el_basis (cl_elem c) cd) in
    snd (fold_left (hho_face_cdi rb cbs rd rec (cdi_proj1 (cl_elem c) rb cbs rec)
                     (fun e fd => make_mass_matrix e (el_basis e fd) 0) (fun fc => / stab_h c hF fc))
           (combine (cl_faces c) fdi) (cbs, zeroM)).
  (** make_scalar_hho_stabilization2, scalar_stabilization.hpp:682-771; the mass matrix of a face uses the
      quadrature of the trace (743-750) *)
  Definition hho_stabilization2 (d : nat) (c : scell) (hdi : degs) (rec kappa : mtx) : mtx :=
    let rd := reconstruction_degree hdi in
    let rb := el_basis (cl_elem c) rd in
    let cbs := b_size (el_basis (cl_elem c) (cell_degree hdi)) in
    snd (fold_left (fun st fc =>
           hho_face_cdi rb cbs rd rec (cdi_proj1 (cl_elem c) rb cbs rec)
             (fun e fd => accumulate (el_quad e (rd + fd)) (phi (el_basis e fd)) (phi (el_basis e fd)) zeroM)
             (fun fc => sg d (fun i => fc_normal fc i * sg d (fun j => kappa i j * fc_normal fc j)) / el_diam (cl_elem c))
             st (fc, Some (face_degree hdi)))
           (cl_faces c) (cbs, zeroM)).

  (** make_scalar_hho_stabilization_fluxes, scalar_stabilization.hpp:928-1006: one face (964-997); the state is
      (offset, row, matA) *)
  Variable qr : nat -> nat -> mtx -> (nat -> R) -> nat -> R.
  Definition flux_face (c : scell) (cb : sbasis) (hF : bool) (st : nat * nat * mtx) (fi : sface * option nat) : nat * nat * mtx :=
    let '(off, row, A) := st in
    match snd fi with
    | None => st
    | Some fd =>
        let e := fc_elem (fst fi) in
        let fb := el_basis e fd in
        let fbs := b_size fb in let cbs := b_size cb in
        let h := stab_h c hF (fst fi) in
        let mass := make_mass_matrix e fb 0 in
        let trace := accumulate (el_quad e (b_deg cb + fd)) (phi fb) (phi cb) zeroM in
        let A := add_block A row off fbs fbs (mscalm (/ h) mass) in
        let A := add_block A row 0 fbs cbs (mopp (mscalm (/ h) trace)) in
        ((off + fbs)%nat, (row + fbs)%nat, A)
    end.
  Definition flux_matA (c : scell) (cd : nat) (fdi : list (option nat)) (hF : bool) : mtx :=
    let cb := el_basis (cl_elem c) cd in
    snd (fold_left (flux_face c cb hF) (combine (cl_faces c) fdi) (b_size cb, 0%nat, zeroM)).
  (** scalar_faces_dofs, utils_hho.hpp:268-280 *)
  Definition faces_dofs (l : list (sface * option nat)) : nat :=
    fold_left (fun n fi => (n + match snd fi with None => 0%nat | Some fd => b_size (el_basis (fc_elem (fst fi)) fd) end)%nat) l 0%nat.
  (** the stabilisation is called without [hF] (939) *)
  Definition hho_stabilization_fluxes (c : scell) (rd cd : nat) (fdi : list (option nat)) (rec : mtx) (hF : bool) : mtx :=
    let stab := hho_stabilization_cdi c rd cd fdi rec true in
    let nf := faces_dofs (combine (cl_faces c) fdi) in
    let n := (b_size (el_basis (cl_elem c) cd) + nf)%nat in
    fun i j => qr n nf (mtrans (flux_matA c cd fdi hF)) (fun k => stab k j) i.
End Stab.
