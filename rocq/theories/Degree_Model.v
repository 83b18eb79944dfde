(** Model of hho_degree_info (methods/implementation_hho/utils_hho.hpp) and of the per-element
    degree store (adaptivity/adaptivity.hpp).  Degrees are natural numbers: wrap-around of
    size_t is not modelled. *)
From Coq Require Import List Arith Bool.
From Verif Require Import Common Mesh_Model.
Import ListNotations.

(** utils_hho.hpp:53-61 *)
Record hho_degrees := mkHD { cell_deg : nat; face_deg : nat; grad_deg : nat; rec_deg : nat }.

Definition hdi_default : hho_degrees := mkHD 1 1 1 2.                       (* 69-71 *)
Definition hdi_equal (k : nat) : hho_degrees := mkHD k k k (k + 1).         (* 78-80 *)

(** 94-95 and 127-128 *)
Definition c1 (cd fd : nat) : bool := (0 <? fd) && ((cd =? fd - 1) || (cd =? fd) || (cd =? fd + 1)).
Definition c2 (cd fd : nat) : bool := (fd =? 0) && ((cd =? fd) || (cd =? fd + 1)).

(** 92-111 *)
Definition hdi_mixed (cd fd : nat) : hho_degrees :=
  if c1 cd fd || c2 cd fd then mkHD cd fd fd (fd + 1) else mkHD fd fd fd (fd + 1).
(** 125-145 *)
Definition hdi_mixed_grad (cd fd gd : nat) : hho_degrees :=
  let c3 := fd <=? gd in
  if c1 cd fd || c2 cd fd || c3 then mkHD cd fd gd (fd + 1) else mkHD fd fd fd (fd + 1).
(** 147-153: named arguments, unchecked *)
Definition hdi_named (rd cd fd : nat) : hho_degrees := mkHD cd fd fd rd.

(** adaptivity.hpp:31-66 *)
Record degree_info := mkDI { has_unknowns : bool; di_degree : nat }.
Definition di_default : degree_info := mkDI false 0.                        (* 38 *)
Definition di_make (k : nat) : degree_info := mkDI true k.                  (* 39 *)
Definition di_set_degree (k : nat) (d : degree_info) : degree_info := mkDI (has_unknowns d) k.  (* 49-53 *)
Definition di_set_unknowns (b : bool) (d : degree_info) : degree_info := mkDI b (di_degree d).  (* 61-65 *)

(** adaptivity.hpp:68-77 *)
Record cell_degree_info := mkCDI { cdi_cell : degree_info; cdi_rec : degree_info; cdi_grad : degree_info;
                                   cdi_faces : list degree_info }.
(** 80-112; [nf] is howmany_faces(msh, cl) *)
Definition cdi_make1 (nf k : nat) : cell_degree_info :=
  mkCDI (di_make k) (di_make (k + 1)) (di_make k) (repeat (di_make k) nf).
Definition cdi_make2 (nf cd fd : nat) : cell_degree_info :=
  mkCDI (di_make cd) (di_make (fd + 1)) (di_make fd) (repeat (di_make fd) nf).
Definition cdi_make3 (nf cd fd gd : nat) : cell_degree_info :=
  mkCDI (di_make cd) (di_make (fd + 1)) (di_make gd) (repeat (di_make fd) nf).

Section Store.
  Variables C F : Type.
  Variable cltb : C -> C -> bool.
  Variable fltb : F -> F -> bool.
  Variable faces_of : C -> list F.

  (** adaptivity.hpp:217-226 *)
  Record mesh_degrees := mkMD { md_cells : list degree_info; md_faces : list degree_info;
                                md_grad : list degree_info; md_rec : list degree_info }.

  Definition md_empty : mesh_degrees := mkMD [] [] [] [].                    (* 229-235 *)
  Definition md_make0 (m : mesh C F) : mesh_degrees :=                       (* 236-242 *)
    let nc := length (m_cells m) in
    mkMD (repeat di_default nc) (repeat di_default (length (m_faces m))) (repeat di_default nc) (repeat di_default nc).
  Definition md_make1 (m : mesh C F) (k : nat) : mesh_degrees :=             (* 244-251 *)
    let nc := length (m_cells m) in
    mkMD (repeat (di_make k) nc) (repeat (di_make k) (length (m_faces m))) (repeat (di_make k) nc)
         (repeat (di_make (k + 1)) nc).
  Definition md_make2 (m : mesh C F) (cd fd : nat) : mesh_degrees :=         (* 253-262 *)
    let nc := length (m_cells m) in
    mkMD (repeat (di_make cd) nc) (repeat (di_make fd) (length (m_faces m))) (repeat (di_make fd) nc)
         (repeat (di_make (fd + 1)) nc).
  Definition md_make3 (m : mesh C F) (cd fd gd : nat) : mesh_degrees :=      (* 264-270 *)
    let nc := length (m_cells m) in
    mkMD (repeat (di_make cd) nc) (repeat (di_make fd) (length (m_faces m))) (repeat (di_make gd) nc)
         (repeat (di_make (fd + 1)) nc).

  (** [v[i].f(x)] *)
  Definition modify (l : list degree_info) (i : nat) (f : degree_info -> degree_info) : outcome (list degree_info) :=
    do d <- vget l i; vset l i (f d).

  (** setters: 272-277, 286-291, 300-305, 314-319 *)
  Definition set_cell (m : mesh C F) (c : C) (f : degree_info -> degree_info) (s : mesh_degrees) : outcome mesh_degrees :=
    do i <- lookup C cltb (m_cells m) c;
    do l <- modify (md_cells s) i f; Ok (mkMD l (md_faces s) (md_grad s) (md_rec s)).
  Definition set_face (m : mesh C F) (fc : F) (f : degree_info -> degree_info) (s : mesh_degrees) : outcome mesh_degrees :=
    do i <- lookup F fltb (m_faces m) fc;
    do l <- modify (md_faces s) i f; Ok (mkMD (md_cells s) l (md_grad s) (md_rec s)).

  (** degreeInfo(msh, cl) and degreeInfo(msh, fc): 328-333, 342-347; degree()/hasUnknowns() getters
      (279-284, 293-298, 307-312, 321-326) are the components *)
  Definition get_cell (m : mesh C F) (c : C) (s : mesh_degrees) : outcome degree_info :=
    do i <- lookup C cltb (m_cells m) c; vget (md_cells s) i.
  Definition get_face (m : mesh C F) (fc : F) (s : mesh_degrees) : outcome degree_info :=
    do i <- lookup F fltb (m_faces m) fc; vget (md_faces s) i.
  (** 349-363 *)
  Fixpoint get_faces (m : mesh C F) (fcs : list F) (s : mesh_degrees) : outcome (list degree_info) :=
    match fcs with
    | [] => Ok []
    | f :: r => do d <- get_face m f s; do l <- get_faces m r s; Ok (d :: l)
    end.
  (** 384-392 *)
  Definition cell_info (m : mesh C F) (c : C) (s : mesh_degrees) : outcome cell_degree_info :=
    do i <- lookup C cltb (m_cells m) c;
    do dc <- vget (md_cells s) i;
    do dr <- vget (md_rec s) i;
    do dg <- vget (md_grad s) i;
    do fs <- get_faces m (faces_of c) s;
    Ok (mkCDI dc dr dg fs).

  (** A client's sequence of setter calls. *)
  Inductive deg_op :=
  | SetCellDegree (c : C) (k : nat)
  | SetCellUnknowns (c : C) (b : bool)
  | SetFaceDegree (f : F) (k : nat)
  | SetFaceUnknowns (f : F) (b : bool).
  Definition deg_step (m : mesh C F) (op : deg_op) (s : mesh_degrees) : outcome mesh_degrees :=
    match op with
    | SetCellDegree c k => set_cell m c (di_set_degree k) s
    | SetCellUnknowns c b => set_cell m c (di_set_unknowns b) s
    | SetFaceDegree f k => set_face m f (di_set_degree k) s
    | SetFaceUnknowns f b => set_face m f (di_set_unknowns b) s
    end.
  Fixpoint deg_run (m : mesh C F) (ops : list deg_op) (s : mesh_degrees) : outcome mesh_degrees :=
    match ops with
    | [] => Ok s
    | op :: r => do s' <- deg_step m op s; deg_run m r s'
    end.
End Store.
Arguments SetCellDegree {C F}. Arguments SetCellUnknowns {C F}.
Arguments SetFaceDegree {C F}. Arguments SetFaceUnknowns {C F}.
