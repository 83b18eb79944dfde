(** Model of mechanics/behaviors/maths_tensor.hpp, maths_utils.hpp and tensor_conversion.hpp.
    Scalars are exact reals.  A matrix is a function of row and column (only indices below the
    dimension are read or written); a fourth order tensor is the DIM^2 x DIM^2 matrix it is stored in. *)
From Coq Require Import List Arith Bool Reals.
From Verif Require Import Common.
Import ListNotations.
Local Open Scope R_scope.

Definition mtx := nat -> nat -> R.
Definition mzero : mtx := fun _ _ => 0.
Definition mident : mtx := fun i j => if (i =? j)%nat then 1 else 0.
(** A(r,c) = v *)
Definition fset (A : mtx) (r c : nat) (v : R) : mtx := fun r' c' => if ((r' =? r) && (c' =? c))%nat%bool then v else A r' c'.
(** A.block(r0,c0,h,w) = B *)
Definition set_block (A : mtx) (r0 c0 h w : nat) (B : mtx) : mtx :=
  fun r c => if ((r0 <=? r) && (r <? r0 + h) && (c0 <=? c) && (c <? c0 + w))%nat%bool then B (r - r0)%nat (c - c0)%nat else A r c.
(** A.block(r0,c0,_,_) *)
Definition get_block (A : mtx) (r0 c0 : nat) : mtx := fun r c => A (r0 + r)%nat (c0 + c)%nat.
(** sum of the entries of a D x D matrix *)
Fixpoint tsum (n : nat) (f : nat -> R) : R := match n with O => 0 | S n => tsum n f + f n end.
Definition msum (D : nat) (A : mtx) : R := tsum D (fun i => tsum D (fun j => A i j)).
Definition trace (D : nat) (A : mtx) : R := tsum D (fun i => A i i).

(** maths_tensor.hpp:43-51; indices are unsigned in the model *)
Definition bad (D i j k l : nat) : bool := ((D <=? i) || (D <=? j) || (D <=? k) || (D <=? l))%nat%bool.
Definition coeff (D : nat) (A : mtx) (i j k l : nat) : outcome R :=
  if bad D i j k l then Throw InvalidArgument else Ok (A (i * D + k) (j * D + l))%nat.
(** maths_tensor.hpp:53-61 *)
Definition coeff_set (D : nat) (A : mtx) (i j k l : nat) (v : R) : outcome mtx :=
  if bad D i j k l then Throw InvalidArgument else Ok (fset A (i * D + k) (j * D + l) v)%nat.
(** reading and writing inside a loop over valid indices *)
Definition rd (D : nat) (A : mtx) (i j k l : nat) : R := A (i * D + k)%nat (j * D + l)%nat.

(** loops: for i, for j *)
Definition idx2 (D : nat) : list (nat * nat) := list_prod (seq 0 D) (seq 0 D).
(** for i, for j, for k, for l *)
Definition idx4 (D : nat) : list ((nat * nat) * (nat * nat)) := list_prod (idx2 D) (idx2 D).

(** maths_tensor.hpp:65-79 *)
Definition tm_prod (D : nat) (T M : mtx) : mtx :=
  fold_left (fun ret '(i, j) => fset ret i j (msum D (fun k l => get_block T (i * D) (j * D) k l * M k l))) (idx2 D) mzero.
(** maths_tensor.hpp:82-103: inner loops accumulate into ret(i,j) *)
Definition tm_prod_left (D : nat) (M T : mtx) : mtx :=
  fold_left (fun ret '((i, j), (k, l)) => fset ret i j (ret i j + M k l * rd D T k l i j)) (idx4 D) mzero.
(** maths_tensor.hpp:106-123: only mat(row,col) is used *)
Definition tm_prod_one (D : nat) (T M : mtx) (row col : nat) : outcome mtx :=
  if bad D O O row col then Throw InvalidArgument
  else Ok (fold_left (fun ret '(i, j) => fset ret i j (ret i j * rd D T i j row col)) (idx2 D) (fun _ _ => M row col)).
(** maths_tensor.hpp:136-150: the outer loop is over j *)
Definition Kronecker (D : nat) (A B : mtx) : mtx :=
  fold_left (fun ret '(j, i) => set_block ret (i * D) (j * D) D D (fun k l => A i j * B k l)) (idx2 D) mzero.
(** maths_tensor.hpp:167-172 *)
Definition InnerProduct (D : nat) (A B : mtx) : R := msum D (fun i j => A i j * B i j).
(** maths_tensor.hpp:188-217: the loops over p, q accumulate *)
Definition ContractedProduct (D : nat) (A B : mtx) : mtx :=
  fold_left (fun ret '((i, j), (k, l)) =>
    fold_left (fun ret '(p, q) => fset ret (i * D + k) (j * D + l) (ret (i * D + k)%nat (j * D + l)%nat + rd D A i j p q * rd D B p q k l)) (idx2 D) ret)
    (idx4 D) mzero.
(** maths_tensor.hpp:221-242 *)
Definition ProductSup (D : nat) (A B : mtx) : mtx :=
  fold_left (fun ret '((i, j), (k, l)) => fset ret (i * D + k) (j * D + l) (A i k * B j l)) (idx4 D) mzero.
(** maths_tensor.hpp:246-266 *)
Definition ProductInf (D : nat) (A B : mtx) : mtx :=
  fold_left (fun ret '((i, j), (k, l)) => fset ret (i * D + k) (j * D + l) (A i l * B j k)) (idx4 D) mzero.
(** maths_tensor.hpp:268-300; dimensions other than 1, 2, 3 do not compile ([None]) *)
Definition writes (l : list (nat * nat * R)) : mtx := fold_left (fun ret '(r, c, v) => fset ret r c v) l mzero.
Definition IdentityTensor4 (D : nat) : option mtx :=
  match D with
  | 1%nat => Some (writes [(0, 0, 1%R)]%nat)
  | 2%nat => Some (writes [(0, 0, 1%R); (0, 3, 1%R); (3, 0, 1%R); (3, 3, 1%R)]%nat)
  | 3%nat => Some (writes [(0, 0, 1%R); (0, 4, 1%R); (0, 8, 1%R); (4, 0, 1%R); (4, 4, 1%R); (4, 8, 1%R); (8, 0, 1%R); (8, 4, 1%R); (8, 8, 1%R)]%nat)
  | _ => None
  end.
(** maths_tensor.hpp:302-343 *)
Definition IdentitySymTensor4 (D : nat) : option mtx :=
  let half := 1 / 2 in
  match D with
  | 1%nat => Some (writes [(0, 0, 1%R)]%nat)
  | 2%nat => Some (writes [(0, 0, 1%R); (0, 3, half); (1, 2, half); (2, 1, half); (3, 0, half); (3, 3, 1%R)]%nat)
  | 3%nat => Some (writes [(0, 0, 1%R); (0, 4, half); (0, 8, half); (1, 3, half); (2, 6, half); (3, 1, half); (4, 0, half); (4, 4, 1%R);
                           (4, 8, half); (5, 7, half); (6, 2, half); (8, 0, half); (7, 5, half); (8, 4, half); (8, 8, 1%R)]%nat)
  | _ => None
  end.
(** maths_tensor.hpp:345-350 *)
Definition IxI : mtx := mident.
(** maths_tensor.hpp:353-374 *)
Definition transpose (D : nat) (T : mtx) : mtx :=
  fold_left (fun ret '((i, j), (k, l)) => fset ret (i * D + k) (j * D + l) (rd D T k l i j)) (idx4 D) mzero.
(** maths_tensor.hpp:376-398 *)
Definition Odot (D : nat) (A B : mtx) : mtx :=
  fold_left (fun ret '((i, j), (k, l)) => fset ret (i * D + k) (j * D + l) ((A i k * B j l + A i l * B j k) / 2)) (idx4 D) mzero.

(** maths_utils.hpp:34-40, 42-48 *)
Definition deviator (D : nat) (M : mtx) : mtx := fun i j => M i j - trace D M / INR D * mident i j.
Definition spheric (D : nat) (M : mtx) : mtx := fun i j => trace D M / INR D * mident i j.

(** tensor_conversion.hpp:39-55 and 57-72 (the 2x2 overloads), 74-81 *)
Definition convertMatrix3D (M : mtx) : mtx := set_block mzero 0 0 2 2 M.
Definition convertMatrix3DwithOne (M : mtx) : mtx := set_block mident 0 0 2 2 M.
Definition convertMatrix (M : mtx) : mtx := get_block M 0 0.
(** tensor_conversion.hpp:83-102, DIM = 2 *)
Definition convertTensor2 (T : mtx) : mtx :=
  let ret := set_block mzero 0 0 2 2 (get_block T 0 0) in
  let ret := set_block ret 0 2 2 2 (get_block T 0 3) in
  let ret := set_block ret 2 0 2 2 (get_block T 3 0) in
  let ret := set_block ret 2 2 2 2 (get_block T 3 3) in
  get_block ret 0 0.
(** tensor_conversion.hpp:104-159; [W r c i j k l f]: ret(r,c) = coeff(tens,i,j,k,l) * f *)
Inductive mfactor := F1 | Fs2 | F2.
Definition mfac (f : mfactor) : R := match f with F1 => 1 | Fs2 => sqrt 2 | F2 => 2 end.
Inductive mwrite := W (r c i j k l : nat) (f : mfactor).
Definition mandel2 : list mwrite := [
  W 0 0 0 0 0 0 F1; W 0 1 0 0 1 1 F1; W 1 0 1 1 0 0 F1; W 1 1 1 1 1 1 F1;
  W 0 3 0 0 0 1 Fs2; W 1 3 1 1 0 1 Fs2; W 3 0 0 1 0 0 Fs2; W 3 1 0 1 1 1 Fs2; W 3 3 0 1 0 1 F2].
Definition mandel3 : list mwrite := [
  W 0 2 0 0 2 2 F1; W 1 2 1 1 2 2 F1; W 2 2 2 2 2 2 F1; W 2 0 2 2 0 0 F1; W 2 1 2 2 1 1 F1;
  W 2 3 2 2 0 1 Fs2; W 3 2 0 1 2 2 Fs2;
  W 0 5 0 0 1 2 Fs2; W 0 4 0 0 0 2 Fs2; W 1 5 1 1 1 2 Fs2; W 1 4 1 1 0 2 Fs2; W 2 5 2 2 1 2 Fs2; W 2 4 2 2 0 2 Fs2;
  W 4 0 0 2 0 0 Fs2; W 4 1 0 2 1 1 Fs2; W 4 2 0 2 2 2 Fs2; W 5 0 1 2 0 0 Fs2; W 5 1 1 2 1 1 Fs2; W 5 2 1 2 2 2 Fs2;
  W 3 5 0 1 1 2 F2; W 3 4 0 1 0 2 F2; W 4 3 0 2 0 1 F2; W 4 5 0 2 1 2 F2; W 4 4 0 2 0 2 F2;
  W 5 3 1 2 0 1 F2; W 5 5 1 2 1 2 F2; W 5 4 1 2 0 2 F2].
Definition convertTensorNotationMangel (D : nat) (T : mtx) : option mtx :=
  let run := fold_left (fun ret '(W r c i j k l f) => fset ret r c (rd D T i j k l * mfac f)) in
  match D with
  | 2%nat => Some (run mandel2 mzero)
  | 3%nat => Some (run mandel3 (run mandel2 mzero))
  | _ => None
  end.
(** tensor_conversion.hpp:161-199 *)
Definition convertCtoA (C PK2 F : mtx) : mtx :=
  fold_left (fun A '((i, J), (k, L)) =>
    let sum := tsum 3 (fun M => tsum 3 (fun N => rd 3 C M J N L * F k N) * F i M) in
    let sum := if (i =? k)%nat then sum + PK2 J L else sum in
    let A := fset A (i * 3 + k) (J * 3 + L) sum in
    fset A (k * 3 + i) (L * 3 + J) sum) (idx4 3) mzero.

(** tensor_conversion.hpp:201-251: the vector has the size it had at the call *)
Definition convertMatrixToMgis (m : mtx) (size : nat) : outcome (list R) :=
  match size with
  | 4%nat => Ok [m 0%nat 0%nat; m 1%nat 1%nat; m 2%nat 2%nat; sqrt 2 * m 0%nat 1%nat]
  | 5%nat => Ok [m 0%nat 0%nat; m 1%nat 1%nat; m 2%nat 2%nat; m 0%nat 1%nat; m 1%nat 0%nat]
  | 6%nat => Ok [m 0%nat 0%nat; m 1%nat 1%nat; m 2%nat 2%nat; sqrt 2 * m 0%nat 1%nat; sqrt 2 * m 0%nat 2%nat; sqrt 2 * m 1%nat 2%nat]
  | 9%nat => Ok [m 0%nat 0%nat; m 1%nat 1%nat; m 2%nat 2%nat; m 0%nat 1%nat; m 1%nat 0%nat; m 0%nat 2%nat; m 2%nat 0%nat; m 1%nat 2%nat; m 2%nat 1%nat]
  | _ => Throw RuntimeError
  end.
Definition at_ (v : list R) (i : nat) : R := nth i v 0.
(** tensor_conversion.hpp:253-308 *)
Definition convertMatrixFromMgis (v : list R) : outcome mtx :=
  let m := mzero in
  let m := fset m 0 0 (at_ v 0) in let m := fset m 1 1 (at_ v 1) in let m := fset m 2 2 (at_ v 2) in
  match length v with
  | 4%nat => let m := fset m 0 1 (at_ v 3 / sqrt 2) in Ok (fset m 1 0 (m 0 1)%nat)
  | 5%nat => let m := fset m 0 1 (at_ v 3) in Ok (fset m 1 0 (at_ v 4))
  | 6%nat =>
    let m := fset m 0 1 (at_ v 3 / sqrt 2) in let m := fset m 1 0 (m 0 1)%nat in
    let m := fset m 0 2 (at_ v 4 / sqrt 2) in let m := fset m 2 0 (m 0 2)%nat in
    let m := fset m 0 1 (at_ v 5 / sqrt 2) in Ok (fset m 2 1 (m 1 2)%nat)
  | 9%nat =>
    let m := fset m 0 1 (at_ v 3) in let m := fset m 1 0 (at_ v 4) in let m := fset m 0 2 (at_ v 5) in
    let m := fset m 2 0 (at_ v 6) in let m := fset m 1 2 (at_ v 7) in Ok (fset m 2 1 (at_ v 8))
  | _ => Throw RuntimeError
  end.

(** ** convertTensorFromMgis, tensor_conversion.hpp:310-578: the statements
    coeff(tens, i, j, k, l, e), one by one, where e is tens_vec[n], possibly divided by sqrt(2) or 2,
    or another coefficient of tens. *)
Inductive divisor := One | Rac2 | Two.
Definition dval (d : divisor) : R := match d with One => 1 | Rac2 => sqrt 2 | Two => 2 end.
Inductive source := Vec (n : nat) (d : divisor) | Copy (i j k l : nat).
Inductive stmt := St (i j k l : nat) (e : source).
Definition eval (v : list R) (T : mtx) (e : source) : R :=
  match e with Vec n d => at_ v n / dval d | Copy i j k l => rd 3 T i j k l end.
Definition exec (v : list R) (p : list stmt) : mtx :=
  fold_left (fun T '(St i j k l e) => fset T (i * 3 + k) (j * 3 + l) (eval v T e)) p mzero.
(** tensor_conversion.hpp:322-351 *)
Definition prog16 : list stmt := [
  St 0 0 0 0 (Vec 0 One); St 0 0 1 1 (Vec 1 One); St 0 0 2 2 (Vec 2 One); St 0 0 0 1 (Vec 3 Rac2); St 0 0 1 0 (Copy 0 0 0 1);
  St 1 1 0 0 (Vec 4 One); St 1 1 1 1 (Vec 5 One); St 1 1 2 2 (Vec 6 One); St 1 1 0 1 (Vec 7 Rac2); St 1 1 1 0 (Copy 1 1 0 1);
  St 2 2 0 0 (Vec 8 One); St 2 2 1 1 (Vec 9 One); St 2 2 2 2 (Vec 10 One); St 2 2 0 1 (Vec 11 Rac2); St 2 2 1 0 (Copy 2 2 0 1);
  St 0 1 0 0 (Vec 12 Rac2); St 0 1 1 1 (Vec 13 Rac2); St 0 1 2 2 (Vec 14 Rac2); St 0 1 0 1 (Vec 15 Two); St 0 1 1 0 (Copy 0 1 0 1);
  St 1 0 0 0 (Copy 0 1 0 0); St 1 0 1 1 (Copy 0 1 1 1); St 1 0 2 2 (Copy 0 1 2 2); St 1 0 1 0 (Copy 0 1 1 0); St 1 0 0 1 (Copy 0 1 0 1)].
(** tensor_conversion.hpp:357-385 *)
Definition prog25 : list stmt := [
  St 0 0 0 0 (Vec 0 One); St 0 0 1 1 (Vec 1 One); St 0 0 2 2 (Vec 2 One); St 0 0 0 1 (Vec 3 One); St 0 0 1 0 (Vec 4 One);
  St 1 1 0 0 (Vec 5 One); St 1 1 1 1 (Vec 6 One); St 1 1 2 2 (Vec 7 One); St 1 1 0 1 (Vec 8 One); St 1 1 1 0 (Vec 9 One);
  St 2 2 0 0 (Vec 10 One); St 2 2 1 1 (Vec 11 One); St 2 2 2 2 (Vec 12 One); St 2 2 0 1 (Vec 13 One); St 2 2 1 0 (Vec 14 One);
  St 0 1 0 0 (Vec 15 One); St 0 1 1 1 (Vec 16 One); St 0 1 2 2 (Vec 17 One); St 0 1 0 1 (Vec 18 One); St 0 1 1 0 (Vec 19 One);
  St 1 0 0 0 (Vec 20 One); St 1 0 1 1 (Vec 21 One); St 1 0 2 2 (Vec 22 One); St 1 0 0 1 (Vec 23 One); St 1 0 1 0 (Vec 24 One)].
(** tensor_conversion.hpp:391-480 *)
Definition prog36 : list stmt := [
  St 0 0 0 0 (Vec 0 One); St 0 0 1 1 (Vec 1 One); St 0 0 2 2 (Vec 2 One); St 0 0 1 2 (Vec 3 Rac2); St 0 0 2 1 (Copy 0 0 1 2);
  St 0 0 2 0 (Vec 4 Rac2); St 0 0 0 2 (Copy 0 0 2 0); St 0 0 0 1 (Vec 5 Rac2); St 0 0 1 0 (Copy 0 0 0 1); St 1 1 0 0 (Vec 6 One);
  St 1 1 1 1 (Vec 7 One); St 1 1 2 2 (Vec 8 One); St 1 1 1 2 (Vec 9 Rac2); St 1 1 2 1 (Copy 1 1 1 2); St 1 1 2 0 (Vec 10 Rac2);
  St 1 1 0 2 (Copy 1 1 2 0); St 1 1 0 1 (Vec 11 Rac2); St 1 1 1 0 (Copy 1 1 0 1); St 2 2 0 0 (Vec 12 One); St 2 2 1 1 (Vec 13 One);
  St 2 2 2 2 (Vec 14 One); St 2 2 1 2 (Vec 15 Rac2); St 2 2 2 1 (Copy 2 2 1 2); St 2 2 2 0 (Vec 16 Rac2); St 2 2 0 2 (Copy 2 2 2 0);
  St 2 2 0 1 (Vec 17 Rac2); St 2 2 1 0 (Copy 2 2 0 1); St 1 2 0 0 (Vec 18 Rac2); St 1 2 1 1 (Vec 19 Rac2); St 1 2 2 2 (Vec 20 Rac2);
  St 1 2 1 2 (Vec 21 Two); St 1 2 2 1 (Copy 1 2 1 2); St 1 2 2 0 (Vec 22 Two); St 1 2 0 2 (Copy 1 2 2 0); St 1 2 0 1 (Vec 23 Two);
  St 1 2 1 0 (Copy 1 2 0 1); St 2 0 0 0 (Vec 24 Rac2); St 2 0 1 1 (Vec 25 Rac2); St 2 0 2 2 (Vec 26 Rac2); St 2 0 1 2 (Vec 27 Two);
  St 2 0 2 1 (Copy 2 0 1 2); St 2 0 2 0 (Vec 28 Two); St 2 0 0 2 (Copy 2 0 2 0); St 2 0 0 1 (Vec 29 Two); St 2 0 1 0 (Copy 2 0 0 1);
  St 0 1 0 0 (Vec 30 Rac2); St 0 1 1 1 (Vec 31 Rac2); St 0 1 2 2 (Vec 32 Two); St 0 1 1 2 (Vec 33 Two); St 0 1 2 1 (Copy 0 1 1 2);
  St 0 1 2 0 (Vec 34 Rac2); St 0 1 0 2 (Copy 0 1 2 0); St 0 1 0 1 (Vec 35 Two); St 0 1 1 0 (Copy 0 1 0 1); St 2 1 0 0 (Copy 1 2 0 0);
  St 2 1 1 1 (Copy 1 2 1 1); St 2 1 2 2 (Copy 1 2 2 2); St 2 1 1 2 (Copy 1 2 1 2); St 2 1 2 1 (Copy 1 2 2 1); St 2 1 2 0 (Copy 1 2 2 0);
  St 2 1 0 2 (Copy 1 2 0 2); St 2 1 0 1 (Copy 1 2 0 1); St 2 1 1 0 (Copy 1 2 1 0); St 0 2 0 0 (Copy 2 0 0 0); St 0 2 1 1 (Copy 2 0 1 1);
  St 0 2 2 2 (Copy 2 0 2 2); St 0 2 1 2 (Copy 2 0 1 2); St 0 2 2 1 (Copy 2 0 2 1); St 0 2 2 0 (Copy 2 0 2 0); St 0 2 0 2 (Copy 2 0 0 2);
  St 0 2 0 1 (Copy 2 0 0 1); St 0 2 1 0 (Copy 2 0 1 0); St 1 0 0 0 (Copy 0 1 0 0); St 1 0 1 1 (Copy 0 1 1 1); St 1 0 2 2 (Copy 0 1 2 2);
  St 1 0 1 2 (Copy 0 1 1 2); St 1 0 2 1 (Copy 0 1 2 1); St 1 0 2 0 (Copy 0 1 2 0); St 1 0 0 2 (Copy 0 1 0 2); St 1 0 0 1 (Copy 0 1 0 1);
  St 1 0 1 0 (Copy 0 1 1 0)].
(** tensor_conversion.hpp:486-574 *)
Definition prog81 : list stmt := [
  St 0 0 0 0 (Vec 0 One); St 0 0 1 1 (Vec 1 One); St 0 0 2 2 (Vec 2 One); St 0 0 0 1 (Vec 3 One); St 0 0 1 0 (Vec 4 One);
  St 0 0 0 2 (Vec 5 One); St 0 0 2 0 (Vec 6 One); St 0 0 1 2 (Vec 7 One); St 0 0 2 1 (Vec 8 One); St 1 1 0 0 (Vec 9 One);
  St 1 1 1 1 (Vec 10 One); St 1 1 2 2 (Vec 11 One); St 1 1 0 1 (Vec 12 One); St 1 1 1 0 (Vec 13 One); St 1 1 0 2 (Vec 14 One);
  St 1 1 2 0 (Vec 15 One); St 1 1 1 2 (Vec 16 One); St 1 1 2 1 (Vec 17 One); St 2 2 0 0 (Vec 18 One); St 2 2 1 1 (Vec 19 One);
  St 2 2 2 2 (Vec 20 One); St 2 2 0 1 (Vec 21 One); St 2 2 1 0 (Vec 22 One); St 2 2 0 2 (Vec 23 One); St 2 2 2 0 (Vec 24 One);
  St 2 2 1 2 (Vec 25 One); St 2 2 2 1 (Vec 26 One); St 0 1 0 0 (Vec 27 One); St 0 1 1 1 (Vec 28 One); St 0 1 2 2 (Vec 29 One);
  St 0 1 0 1 (Vec 30 One); St 0 1 1 0 (Vec 31 One); St 0 1 0 2 (Vec 32 One); St 0 1 2 0 (Vec 33 One); St 0 1 1 2 (Vec 34 One);
  St 0 1 2 1 (Vec 35 One); St 1 0 0 0 (Vec 36 One); St 1 0 1 1 (Vec 37 One); St 1 0 2 2 (Vec 38 One); St 1 0 0 1 (Vec 39 One);
  St 1 0 1 0 (Vec 40 One); St 1 0 0 2 (Vec 41 One); St 1 0 2 0 (Vec 42 One); St 1 0 1 2 (Vec 43 One); St 1 0 2 1 (Vec 44 One);
  St 0 2 0 0 (Vec 45 One); St 0 2 1 1 (Vec 46 One); St 0 2 2 2 (Vec 47 One); St 0 2 0 1 (Vec 48 One); St 0 2 1 0 (Vec 49 One);
  St 0 2 0 2 (Vec 50 One); St 0 2 2 0 (Vec 51 One); St 0 2 1 2 (Vec 52 One); St 0 2 2 1 (Vec 53 One); St 2 0 0 0 (Vec 54 One);
  St 2 0 1 1 (Vec 55 One); St 2 0 2 2 (Vec 56 One); St 2 0 0 1 (Vec 57 One); St 2 0 1 0 (Vec 58 One); St 2 0 0 2 (Vec 59 One);
  St 2 0 2 0 (Vec 60 One); St 2 0 1 2 (Vec 61 One); St 2 0 2 1 (Vec 62 One); St 1 2 0 0 (Vec 63 One); St 1 2 1 1 (Vec 64 One);
  St 1 2 2 2 (Vec 65 One); St 1 2 0 1 (Vec 66 One); St 1 2 1 0 (Vec 67 One); St 1 2 0 2 (Vec 68 One); St 1 2 2 0 (Vec 69 One);
  St 1 2 1 2 (Vec 70 One); St 1 2 2 1 (Vec 71 One); St 2 1 0 0 (Vec 72 One); St 2 1 1 1 (Vec 73 One); St 2 1 2 2 (Vec 74 One);
  St 2 1 0 1 (Vec 75 One); St 2 1 1 0 (Vec 76 One); St 2 1 0 2 (Vec 77 One); St 2 1 2 0 (Vec 78 One); St 2 1 1 2 (Vec 79 One);
  St 2 1 2 1 (Vec 80 One)].
Definition convertTensorFromMgis (v : list R) : outcome mtx :=
  match length v with
  | 16%nat => Ok (exec v prog16)
  | 25%nat => Ok (exec v prog25)
  | 36%nat => Ok (exec v prog36)
  | 81%nat => Ok (exec v prog81)
  | _ => Throw RuntimeError
  end.
