(** Model of the logarithmic strain (mechanics/behaviors/logarithmic_strain:
    logarithmic_tools.hpp, LogarithmicStrain_qp.hpp).  Exact reals; the matrices are
    3x3.  The eigenvalue solver of Eigen is a parameter, and so is the law in the
    logarithmic strain: a function from the strain to the stress and its derivative
    (the law keeps the stress it has computed; the state of the law is not modelled). *)
From Coq Require Import Reals List Arith Bool.
From Verif Require Import Common Tensor_Model Law_Model.
Import ListNotations.
Local Open Scope R_scope.

Definition vec := nat -> R.
(** Eigen: sum and scaling of matrices, product of a vector and a transposed vector (maths_tensor.hpp:152-157) *)
Definition tadd (A B : mtx) : mtx := fun r c => A r c + B r c.
Definition tscl (x : R) (A : mtx) : mtx := fun r c => x * A r c.
Definition vKron (u v : vec) : mtx := fun a b => u a * v b.

(** logarithmic_tools.hpp:65-76 *)
Definition compute_ei (lam : vec) : vec := fun i => ln (lam i) / 2.
(** logarithmic_tools.hpp:79-87 *)
Definition compute_Elog (lam : vec) (P : mtx) : mtx := fun a b => tsum 3 (fun i => P a i * compute_ei lam i * P b i).
(** logarithmic_tools.hpp:92-104, 107-119 *)
Definition compute_Ni (evec : mtx) : nat -> vec := fun i a => evec a i.
Definition compute_ni (F : mtx) (Ni : nat -> vec) : nat -> vec := fun i a => tsum 3 (fun b => F a b * Ni i b).
(** logarithmic_tools.hpp:122-133, 136-147 *)
Definition compute_di (lam : vec) : vec := fun i => 1 / lam i.
Definition compute_fi (lam : vec) : vec := fun i => - 2 / (lam i * lam i).
(** logarithmic_tools.hpp:150-164 *)
Definition compute_zeta (stress_T : mtx) (Ni : nat -> vec) : mtx := fun i j => InnerProduct 3 stress_T (vKron (Ni i) (Ni j)).
(** logarithmic_tools.hpp:168-186 *)
Definition compute_Mij (Ni ni : nat -> vec) (i j : nat) : mtx := fun a b => ni i a * Ni j b + ni j a * Ni i b.

(** logarithmic_tools.hpp:188-195 *)
Inductive EigenCase := THREE_EQUAL | TWO_EQUAL01 | TWO_EQUAL02 | TWO_EQUAL12 | THREE_DIFF.
(** logarithmic_tools.hpp:198-207, for double: epsilon() = 2^-52, min() = 2^-1022 *)
Definition almost_equal (x y : R) : bool :=
  if Rle_dec (Rabs (x - y)) (/ 2 ^ 52 * Rabs (x + y) * 2) then true else if Rlt_dec (Rabs (x - y)) (/ 2 ^ 1022) then true else false.
(** logarithmic_tools.hpp:209-241 *)
Definition selectCase (lam : vec) : EigenCase :=
  if almost_equal (lam 0%nat) (lam 1%nat) then
    if almost_equal (lam 1%nat) (lam 2%nat) then THREE_EQUAL else TWO_EQUAL01
  else if almost_equal (lam 1%nat) (lam 2%nat) then TWO_EQUAL12
  else if almost_equal (lam 0%nat) (lam 2%nat) then TWO_EQUAL02 else THREE_DIFF.

(** the coefficients theta, xi and eta *)
Definition coefs := (mtx * mtx * R)%type.
(** a 3x3 matrix with zero diagonal *)
Definition off (a01 a02 a10 a12 a20 a21 : R) : mtx := fun i j =>
  match i, j with 0%nat, 1%nat => a01 | 0%nat, 2%nat => a02 | 1%nat, 0%nat => a10 | 1%nat, 2%nat => a12 | 2%nat, 0%nat => a20 | 2%nat, 1%nat => a21 | _, _ => 0 end.
(** logarithmic_tools.hpp:244-275 *)
Definition compute_three_diff (lam ei di : vec) : coefs :=
  let theta : mtx := fun i j => if (i =? j)%nat then 0 else (ei i - ei j) / (lam i - lam j) in
  let xi : mtx := fun i j => if (i =? j)%nat then 0 else (theta i j - di j / 2) / (lam i - lam j) in
  let eta := tsum 3 (fun i => tsum 3 (fun j => if (j =? i)%nat then 0 else
    tsum 3 (fun k => if ((k =? i) || (k =? j))%nat%bool then 0 else ei i / (2 * (lam i - lam j) * (lam i - lam k))))) in
  (theta, xi, eta).
(** logarithmic_tools.hpp:278-302 *)
Definition compute_three_equal (di fi : vec) : coefs :=
  let d := di 0%nat / 2 in let f := fi 0%nat / 8 in
  (off d d d d d d, off f f f f f f, f).
(** logarithmic_tools.hpp:305-393 *)
Definition compute_two_equal (lam ei di fi : vec) (c : EigenCase) : coefs :=
  let th i j := (ei i - ei j) / (lam i - lam j) in
  match c with
  | TWO_EQUAL01 =>
      let theta := off (di 0%nat / 2) (th 0 2)%nat (di 0%nat / 2) (th 1 2)%nat (th 0 2)%nat (th 1 2)%nat in
      let x i j := (theta i j - di j / 2) / (lam i - lam j) in
      let xi := off (fi 0%nat / 8) (x 0 2)%nat (fi 0%nat / 8) (x 1 2)%nat (x 2 0)%nat (x 2 1)%nat in
      (theta, xi, xi 2 0)%nat
  | TWO_EQUAL02 =>
      let theta := off (th 0 1)%nat (di 0%nat / 2) (th 0 1)%nat (th 1 2)%nat (di 0%nat / 2) (th 1 2)%nat in
      let x i j := (theta i j - di j / 2) / (lam i - lam j) in
      let xi := off (x 0 1)%nat (fi 0%nat / 8) (x 1 0)%nat (x 1 2)%nat (fi 0%nat / 8) (x 2 1)%nat in
      (theta, xi, xi 0 1)%nat
  | TWO_EQUAL12 =>
      let theta := off (th 0 1)%nat (th 0 2)%nat (th 0 1)%nat (di 0%nat / 2) (th 0 2)%nat (di 0%nat / 2) in
      let x i j := (theta i j - di j / 2) / (lam i - lam j) in
      let xi := off (x 0 1)%nat (x 0 2)%nat (x 1 0)%nat (fi 0%nat / 8) (x 2 0)%nat (fi 0%nat / 8) in
      (theta, xi, xi 1 2)%nat
  | _ => (mzero, mzero, 0)     (* the exception is built and dropped *)
  end.
(** logarithmic_tools.hpp:396-416 *)
Definition compute_coefficient (lam ei di fi : vec) : coefs :=
  match selectCase lam with
  | THREE_DIFF => compute_three_diff lam ei di
  | THREE_EQUAL => compute_three_equal di fi
  | c => compute_two_equal lam ei di fi c
  end.

(** logarithmic_tools.hpp:419-533; [inv_F] is F.inverse() *)
Definition compute_projector (F inv_F stress_T : mtx) (lam : vec) (evec : mtx) (compute_TL : bool) : mtx * mtx :=
  let N := compute_Ni evec in let n := compute_ni F N in
  let ei := compute_ei lam in let di := compute_di lam in let fi := compute_fi lam in let zeta := compute_zeta stress_T N in
  let '(theta, xi, eta) := compute_coefficient lam ei di fi in
  let M := compute_Mij N n in
  let r := fold_left (fun '(P, TL) i =>
    let P := tadd P (Kronecker 3 (tscl (di i / 2) (vKron (N i) (N i))) (M i i)) in
    let TL := if compute_TL then tadd TL (tscl (fi i / 4 * zeta i i) (Kronecker 3 (M i i) (M i i))) else TL in
    fold_left (fun '(P, TL) j => if (j =? i)%nat then (P, TL) else
      let P := tadd P (Kronecker 3 (tscl (theta i j) (vKron (N i) (N j))) (M i j)) in
      let TL := if compute_TL then
          let zeta_Mjj := tscl (zeta i j) (M j j) in
          let TL := tadd TL (tscl (2 * xi i j) (tadd (tadd (Kronecker 3 (M i j) zeta_Mjj) (Kronecker 3 zeta_Mjj (M i j))) (tscl (zeta j j) (Kronecker 3 (M i j) (M i j))))) in
          fold_left (fun TL k => if ((k =? i) || (k =? j))%nat%bool then TL
            else tadd TL (Kronecker 3 (tscl (2 * eta * zeta i j) (M i k)) (M j k))) (seq 0 3) TL
        else TL in
      (P, TL)) (seq 0 3) (P, TL)) (seq 0 3) (mzero, mzero) in
  if compute_TL then (fst r, tadd (snd r) (Odot 3 (mprod 3 inv_F (tm_prod_left 3 stress_T (fst r))) mident)) else r.

(** logarithmic_tools.hpp:536-625 *)
Definition compute_projector_PK2 (stress_T : mtx) (lam : vec) (evec : mtx) (compute_TL : bool) : mtx * mtx :=
  let N := compute_Ni evec in
  let ei := compute_ei lam in let di := compute_di lam in let fi := compute_fi lam in let zeta := compute_zeta stress_T N in
  let '(theta, xi, eta) := compute_coefficient lam ei di fi in
  let M := compute_Mij N N in
  fold_left (fun '(P, TL) i =>
    let P := tadd P (tscl (di i / 2) (Kronecker 3 (vKron (N i) (N i)) (M i i))) in
    let TL := if compute_TL then tadd TL (tscl (fi i / 4 * zeta i i) (Kronecker 3 (M i i) (M i i))) else TL in
    fold_left (fun '(P, TL) j => if (j =? i)%nat then (P, TL) else
      let P := tadd P (tscl (theta i j) (Kronecker 3 (vKron (N i) (N j)) (M i j))) in
      let TL := if compute_TL then
          let TL := tadd TL (tscl (2 * xi i j) (tadd (tscl (zeta i j) (tadd (Kronecker 3 (M i j) (M j j)) (Kronecker 3 (M j j) (M i j)))) (tscl (zeta j j) (Kronecker 3 (M i j) (M i j))))) in
          fold_left (fun TL k => if ((k =? i) || (k =? j))%nat%bool then TL
            else tadd TL (tscl (2 * eta * zeta i j) (Kronecker 3 (M i k) (M j k)))) (seq 0 3) TL
        else TL in
      (P, TL)) (seq 0 3) (P, TL)) (seq 0 3) (mzero, mzero).

(** LogarithmicStrain_qp.hpp:82-154: PK1 and the tangent.  [eigenvalues] is
    compute_eigenvalues (logarithmic_tools.hpp:48-62), [law] the law in the logarithmic strain *)
Definition compute_whole3D (eigenvalues : mtx -> vec * mtx) (law : mtx -> mtx * mtx) (inv_F F : mtx) (tangentmodulus : bool) : outcome (mtx * mtx) :=
  if Rle_dec (det3 F) (1 / 100) then Throw InvalidArgument
  else
    let C := convertFtoCauchyGreenRight 3 F in
    let ev_C := eigenvalues C in
    let Elog := compute_Elog (fst ev_C) (snd ev_C) in
    let behavior := law Elog in
    let Pn := fst (compute_projector F inv_F (fst behavior) (fst ev_C) (snd ev_C) false) in
    let PK1 := tm_prod_left 3 (fst behavior) Pn in
    if negb tangentmodulus then Ok (PK1, snd behavior)
    else
      let projector2 := compute_projector_PK2 (fst behavior) (fst ev_C) (snd ev_C) true in
      let CP2 := ContractedProduct 3 (snd behavior) (fst projector2) in
      let C2 := tadd (ContractedProduct 3 (transpose 3 (fst projector2)) CP2) (snd projector2) in
      let PK2 := tm_prod_left 3 (fst behavior) (fst projector2) in
      Ok (PK1, convertCtoA C2 PK2 F).
(** LogarithmicStrain_qp.hpp:236-246, DIM = 2 *)
Definition compute_whole2 (eigenvalues : mtx -> vec * mtx) (law : mtx -> mtx * mtx) (inv_F F : mtx) (tangentmodulus : bool) : outcome (mtx * mtx) :=
  match compute_whole3D eigenvalues law inv_F (convertMatrix3DwithOne F) tangentmodulus with
  | Ok (PK1, A) => Ok (convertMatrix PK1, convertTensor2 A)
  | Throw e => Throw e
  | UB => UB
  end.
