(** Model of the material points of a mesh, mechanics/behaviors/laws/law_cell_bones.hpp and law_bones.hpp: the points
    of a cell with their states, the points of all cells, and the fields of a cell computed for the output.

    The law at a point (LawTypeQp, Law_Model) is seen through what these classes ask of it: [fresh] is the state of a
    new point, [upd] its update(), [str] its compute_stress(data), [eqp] its getEquivalentPlasticStrain() and [plas]
    its is_plastic().  Cells, bases and quadratures are those of HHO_Model.  Counts do not overflow an int. *)
From Coq Require Import List Arith ZArith Bool Reals.
From Verif Require Import Common Poly_Spec HHO_Spec VHHO_Spec HHO_Model VHHO_Model.
Import ListNotations.
Open Scope R_scope.

(** law_qp_bones.hpp:48-60: point, weight, and the state *)
Record mpoint (S : Type) := mkPoint { mp_x : pt; mp_w : R; mp_s : S }.
Arguments mkPoint {S}. Arguments mp_x {S}. Arguments mp_w {S}. Arguments mp_s {S}.

(** law_cell_bones.hpp:64-75 *)
Definition cell_make {S} (fresh : S) (e : selem) (degree : nat) : list (mpoint S) :=
  map (fun q => mkPoint (fst q) (snd q) fresh) (el_quad e degree).
(** law_cell_bones.hpp:83-90 *)
Definition cell_update {S} (upd : S -> S) (l : list (mpoint S)) : list (mpoint S) :=
  map (fun q => mkPoint (mp_x q) (mp_w q) (upd (mp_s q))) l.

(** rhs += weight * v * pphi over the points *)
Definition cell_rhs {S} (b : sbasis) (v : S -> R) (l : list (mpoint S)) : nat -> R :=
  fold_left (fun r q => fun i => r i + mp_w q * v (mp_s q) * phi b (mp_x q) i) l zeroV.
Section Cell.
  Context {S : Type}.
  Variable ldlt : nat -> mtx -> (nat -> R) -> nat -> R.
  (** law_cell_bones.hpp:122-147; [d] is the dimension, the matrix basis has d * d components *)
  Definition projectStressOnCell (d : nat) (e : selem) (grad_degree : nat) (str : S -> mtx) (l : list (mpoint S)) : nat -> R :=
    let gb := mat_basis d (el_basis e grad_degree) in
    let rhs := fold_left (fun r q => fun i => r i +
        sg d (fun a => sg d (fun c => vphi gb (mp_x q) i (d * a + c)%nat * (mp_w q * str (mp_s q) a c)))) l zeroV in
    ldlt (v_size gb) (vmass (d * d) e gb 0) rhs.
  (** law_cell_bones.hpp:149-172; [pb] is the template argument PlasticBehavior *)
  Definition projectPOnCell (pb : bool) (e : selem) (grad_degree : nat) (eqp : S -> R) (l : list (mpoint S)) : nat -> R :=
    if pb then
      let b := el_basis e grad_degree in ldlt (b_size b) (make_mass_matrix e b 0) (cell_rhs b eqp l)
    else zeroV.
  (** law_cell_bones.hpp:174-202: the points that are not plastic add nothing *)
  Definition projectStateOnCell (pb : bool) (e : selem) (grad_degree : nat) (plas : S -> bool) (l : list (mpoint S)) : nat -> R :=
    if pb then
      let b := el_basis e grad_degree in
      let rhs := fold_left (fun r q => if plas (mp_s q) then (fun i => r i + mp_w q * phi b (mp_x q) i) else r) l zeroV in
      ldlt (b_size b) (make_mass_matrix e b 0) rhs
    else zeroV.
End Cell.

(** law_bones.hpp:54-56, without the data of the material *)
Record claw (S : Type) := mkLaw { l_nb : nat; l_cells : list (list (mpoint S)) }.
Arguments mkLaw {S}. Arguments l_nb {S}. Arguments l_cells {S}.
(** law_bones.hpp:61-74 *)
Definition law_make {S} (fresh : S) (msh : list selem) (degree : nat) : claw S :=
  fold_left (fun l e => let c := cell_make fresh e degree in mkLaw (l_nb l + length c) (l_cells l ++ [c])) msh (mkLaw 0 []).
(** law_bones.hpp:94-101 *)
Definition law_update {S} (upd : S -> S) (l : claw S) : claw S := mkLaw (l_nb l) (map (cell_update upd) (l_cells l)).
(** law_bones.hpp:103-119: the vector is read with at(); a negative int becomes a large size_t *)
Definition getCellQPs {S} (l : claw S) (id : Z) : outcome (list (mpoint S)) :=
  if ((0 <=? id) && (id <? Z.of_nat (length (l_cells l))))%Z then Ok (nth (Z.to_nat id) (l_cells l) []) else Throw OutOfRange.
(** replacing an element through a reference *)
Fixpoint set_at {A} (l : list A) (i : nat) (f : A -> A) : list A :=
  match l, i with [], _ => [] | x :: t, O => f x :: t | x :: t, Datatypes.S i => x :: set_at t i f end.
(** getCellQPs(id).getQP(qp), law_cell_bones.hpp:104-108, and a law evaluated at that point, which changes its state:
    the point is read with operator[] *)
Definition law_at {S} (l : claw S) (id : Z) (qp : nat) (f : S -> S) : outcome (claw S) :=
  match getCellQPs l id with
  | Ok c => if (qp <? length c)%nat
            then Ok (mkLaw (l_nb l) (set_at (l_cells l) (Z.to_nat id) (fun c => set_at c qp (fun q => mkPoint (mp_x q) (mp_w q) (f (mp_s q))))))
            else UB
  | Throw e => Throw e
  | UB => UB
  end.
(** what a program does with a law: update() and evaluations at points *)
Inductive lop (S : Type) := Update | At (id : Z) (qp : nat) (f : S -> S).
Arguments Update {S}. Arguments At {S}.
Definition lstep {S} (upd : S -> S) (l : claw S) (o : lop S) : outcome (claw S) :=
  match o with Update => Ok (law_update upd l) | At id qp f => law_at l id qp f end.
Fixpoint lrun {S} (upd : S -> S) (l : claw S) (os : list (lop S)) : outcome (claw S) :=
  match os with
  | [] => Ok l
  | o :: t => match lstep upd l o with Ok l => lrun upd l t | Throw e => Throw e | UB => UB end
  end.
