(** Model of relax_mesh, mesh/mesh_utility.hpp:315-420.  Scalars are exact reals, the conjugate gradient solver
    (CG_Model) is an oracle [cg n A b x0].  The points are a function of their number, [np] of them; the numbers in the
    triangles and in the boundary edges are numbers of points (at() would throw otherwise). *)
From Coq Require Import List Arith Bool Reals.
From Verif Require Import Relax_Spec.
Import ListNotations.
Open Scope R_scope.

Definition mat := nat -> nat -> R.
(** lines 325-332: the points of the boundary edges *)
Definition dirichlet_nodes (bnd : list (nat * nat)) (i : nat) : bool :=
  existsb (fun e => (fst e =? i) || (snd e =? i))%nat bnd.
(** lines 334-347: number of the unknown of a point, points of the unknowns, their number *)
Definition free (bnd : list (nat * nat)) (i : nat) : bool := negb (dirichlet_nodes bnd i).
Definition compress (bnd : list (nat * nat)) (i : nat) : nat := length (filter (free bnd) (seq 0 i)).
Definition expand_map (np : nat) (bnd : list (nat * nat)) : list nat := filter (free bnd) (seq 0 np).
(** lines 354-357 *)
Definition G (e i : nat) : R :=
  match e, i with
  | 0%nat, 0%nat => -1 | 0%nat, 1%nat => 1
  | 1%nat, 1%nat => -1 | 1%nat, 2%nat => 1
  | 2%nat, 0%nat => -1 | 2%nat, 2%nat => 1
  | _, _ => 0
  end.
Definition vert (t : tri) (i : nat) : nat := let '(a, b, c) := t in match i with O => a | 1%nat => b | _ => c end.
(** faces(msh, cl), geometry_simplicial.hpp:169-187: the sides (0, 1), (1, 2), (0, 2); measure of a side *)
Definition side (pts : nat -> p2) (t : tri) (e : nat) : R :=
  match e with
  | O => dist (pts (vert t 0)) (pts (vert t 1))
  | 1%nat => dist (pts (vert t 1)) (pts (vert t 2))
  | _ => dist (pts (vert t 0)) (pts (vert t 2))
  end.
Definition sum3 (f : nat -> R) : R := f 0%nat + f 1%nat + f 2%nat.
(** lines 372-377: K = - G^T M G with M the diagonal of the measures *)
Definition Kloc (pts : nat -> p2) (t : tri) (i j : nat) : R := - sum3 (fun e => G e i * side pts t e * G e j).

(** an entry of the system, the points [ii], [jj] of the cells; lines 379-403.  The triplets of equal indices are added. *)
Definition add_at (v : nat -> R) (k : nat) (x : R) : nat -> R := fun i => if (i =? k)%nat then v i + x else v i.
Definition add_at2 (A : mat) (k l : nat) (x : R) : mat := fun i j => if ((i =? k) && (j =? l))%nat then A i j + x else A i j.
Definition visit (pts : nat -> p2) (bnd : list (nat * nat)) (n : nat) (t : tri) (s : mat * (nat -> R)) (ij : nat * nat) : mat * (nat -> R) :=
  let '(A, b) := s in let '(i, j) := ij in
  if dirichlet_nodes bnd (vert t i) then s else
  let r := compress bnd (vert t i) in
  if dirichlet_nodes bnd (vert t j) then
    (A, add_at (add_at b r (- Kloc pts t i j * fst (pts (vert t i)))) (n + r) (- Kloc pts t i j * snd (pts (vert t i))))
  else
    let c := compress bnd (vert t j) in
    (add_at2 (add_at2 A r c (Kloc pts t i j)) (n + r) (n + c) (Kloc pts t i j), b).
Definition pairs : list (nat * nat) := [(0, 0); (0, 1); (0, 2); (1, 0); (1, 1); (1, 2); (2, 0); (2, 1); (2, 2)]%nat.
Definition system (pts : nat -> p2) (bnd : list (nat * nat)) (n : nat) (cells : list tri) : mat * (nat -> R) :=
  fold_left (fun s t => fold_left (visit pts bnd n t) pairs s) cells (fun _ _ => 0, fun _ => 0).
(** lines 361-366: the coordinates of the points, to start from *)
Definition start (pts : nat -> p2) (em : list nat) (i : nat) : R :=
  let n := length em in if (i <? n)%nat then fst (pts (nth i em O)) else snd (pts (nth (i - n) em O)).
(** lines 409-419: solve, and move the points of the unknowns *)
Definition relax_mesh (cg : nat -> mat -> (nat -> R) -> (nat -> R) -> nat -> R) (np : nat) (pts : nat -> p2) (bnd : list (nat * nat)) (cells : list tri) : nat -> p2 :=
  let em := expand_map np bnd in
  let n := length em in
  let '(A, b) := system pts bnd n cells in
  let x := cg (2 * n)%nat A b (start pts em) in
  fold_left (fun q i => fun k => if (k =? nth i em O)%nat then (x i, x (n + i)%nat) else q k) (seq 0 n) pts.
