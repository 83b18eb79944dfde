(** Model of make_stiffness_matrix on the vector bases and of project_gradient, bases/bases_utils.hpp:260-285 and
    396-421.  The conventions are those of HHO_Model and VHHO_Model. *)
From Coq Require Import List Arith Bool Reals.
From Verif Require Import Poly_Spec HHO_Spec VHHO_Spec HHO_Model VHHO_Model.
Import ListNotations.
Open Scope R_scope.

(** basis.eval_gradients, bases_vector.hpp:139-160: entry (a, c) of the gradient of function [j] is the derivative of
    component [a] along [c] *)
Definition vdphi (b : vbasis) (x : pt) (j a c : nat) : R := peval (pdiff c (v_comp b j a)) x.
(** bases_utils.hpp:260-285 *)
Definition vstiff (d : nat) (e : selem) (b : vbasis) : mtx :=
  if (0 <? v_deg b)%nat then
    fold_left (fun M qp => let '(x, w) := qp in fun i j =>
        M i j + sg d (fun a => sg d (fun c => w * vdphi b x i a c * vdphi b x j a c)))
      (el_quad e (2 * (v_deg b - 1))) zeroM
  else zeroM.
(** bases_utils.hpp:396-421: the constants, the first [d] functions, are left out of the system *)
Definition project_gradient (ldlt : nat -> mtx -> (nat -> R) -> nat -> R) (d : nat) (e : selem) (degree : nat) (f : pt -> mtx) (di : nat) : nat -> R :=
  let b := vec_basis d (el_basis e degree) in
  let stiff := vstiff d e b in
  let rhs := fold_left (fun r qp => let '(x, w) := qp in fun i =>
      r i + sg d (fun a => sg d (fun c => vdphi b x i a c * (w * f x a c)))) (el_quad e (2 * (degree + di))) zeroV in
  ldlt (v_size b - d)%nat (shift d d stiff) (fun i => rhs (d + i)%nat).
