(** Interpolates on the functions of the faces, and the differences that curl_hho_stabilization measures. *)
From Coq Require Import List Arith Reals.
From Verif Require Import Poly_Spec HHO_Spec VHHO_Spec Curl_Spec HHO_Model VHHO_Model Curl_Model HHO_Setting VHHO_Setting Curl_Setting.
Import ListNotations.
Open Scope R_scope.

(** every face carries the projection of [V] on the functions of its basis *)
Fixpoint sprojs (fs : list facet) (tb : list vbasis) (us : list (option tf)) (V : tf) : Prop :=
  match fs, tb, us with
  | [], [], [] => True
  | f :: fs, b :: tb, Some u :: us => l2span f (v_size b) (v_comp b) V u /\ sprojs fs tb us V
  | _, _, _ => False
  end.
(** for a cell function [uT], face functions [us] and a function [R]: [ds] are the projections, on the functions of the
    faces, of uF - R + p - uT where p is the projection of R on the polynomials of degree [cd] of the cell *)
Definition rec_jumps (P : polytope) (cd : nat) (tb : list vbasis) (uT : tf) (us : list (option tf)) (R : tf) (ds : list (option tf)) : Prop :=
  exists p, l2vec (po_int P) 3 cd R p /\ tjumps 1 1 (po_facets P) tb us (vsub (vsub p uT) R) ds.
