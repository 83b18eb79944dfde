(** What the geometric operators of a tetrahedron must satisfy: small definitions used in the statements. *)
From Coq Require Import Reals List Arith.
From Verif Require Import Poly_Spec Quad_Spec.
Import ListNotations.
Open Scope R_scope.

(** the vertices of a stored tetrahedron (triangle): increasing point identifiers *)
Definition tet_ids (v : list nat) : Prop :=
  exists a b c d, v = [a; b; c; d] /\ (a < b)%nat /\ (b < c)%nat /\ (c < d)%nat.
Definition tri_ids (t : list nat) : Prop := exists a b c, t = [a; b; c] /\ (a < b)%nat /\ (b < c)%nat.
(** six times the signed volume *)
Definition tet_det (P : nat -> pt) (v : list nat) : R :=
  match v with [a; b; c; d] => triple (P a) (P b) (P c) (P d) | _ => 0 end.
Definition tet_volume (P : nat -> pt) (v : list nat) : R := Rabs (tet_det P v) / 6.

(** vectors of space *)
Definition sp (u v : pt) : R := u 0%nat * v 0%nat + u 1%nat * v 1%nat + u 2%nat * v 2%nat.
Definition xp (u v : pt) : pt := fun i =>
  match i with
  | 0%nat => u 1%nat * v 2%nat - u 2%nat * v 1%nat
  | 1%nat => u 2%nat * v 0%nat - u 0%nat * v 2%nat
  | _ => u 0%nat * v 1%nat - u 1%nat * v 0%nat
  end.
Definition vdiff (q p : pt) : pt := fun i => q i - p i.
Definition tapp (k : nat -> nat -> R) (e : pt) : pt := fun i => k i 0%nat * e 0%nat + k i 1%nat * e 1%nat + k i 2%nat * e 2%nat.
Definition eq3 (u v : pt) : Prop := forall i, (i < 3)%nat -> u i = v i.
Definition nonzero3 (u : pt) : Prop := exists i, (i < 3)%nat /\ u i <> 0.

(** the oriented edge and the area vector of an array of points *)
Definition edge_vec (P : nat -> pt) (e : list nat) : pt :=
  match e with [a; b] => vdiff (P b) (P a) | _ => fun _ => 0 end.
Definition area_vec (P : nat -> pt) (f : list nat) : pt :=
  match f with [a; b; c] => fun i => xp (vdiff (P b) (P a)) (vdiff (P c) (P a)) i / 2 | _ => fun _ => 0 end.
(** the edges and faces of a tetrahedron, in the order of the library *)
Definition tet_edges (v : list nat) : list (list nat) :=
  match v with [a; b; c; d] => [[a; b]; [a; c]; [a; d]; [b; c]; [b; d]; [c; d]] | _ => [] end.
Definition tet_faces (v : list nat) : list (list nat) :=
  match v with [a; b; c; d] => [[b; c; d]; [a; c; d]; [a; b; d]; [a; b; c]] | _ => [] end.

(** the sum of products, the matrix (list of rows) times a vector *)
Fixpoint sumprod (x y : list R) : R := match x, y with a :: x, b :: y => a * b + sumprod x y | _, _ => 0 end.
Definition matvec (M : list (list R)) (x : list R) : list R := map (fun row => sumprod row x) M.
(** M is n by n and symmetric *)
Definition square (n : nat) (M : list (list R)) : Prop := length M = n /\ Forall (fun r => length r = n) M.
Definition entry (M : list (list R)) (i j : nat) : R := nth j (nth i M []) 0.
Definition symmetric (n : nat) (M : list (list R)) : Prop :=
  square n M /\ forall i j, (i < n)%nat -> (j < n)%nat -> entry M i j = entry M j i.
(** u_0 (v_0 . e) + u_1 (v_1 . e) + ... *)
Fixpoint dyads (us vs : list pt) (e : pt) : pt := fun i =>
  match us, vs with u :: us, v :: vs => u i * sp v e + dyads us vs e i | _, _ => 0 end.

(** symmetric and symmetric positive definite 3x3 tensors *)
Definition symm3 (k : nat -> nat -> R) : Prop := forall i j, (i < 3)%nat -> (j < 3)%nat -> k i j = k j i.
Definition posdef3 (k : nat -> nat -> R) : Prop := forall e, nonzero3 e -> 0 < sp e (tapp k e).

(** the circulation of a field along the oriented edge [e], an integral over a segment *)
Definition circulation (P : nat -> pt) (F : pt -> pt) (e : list nat) (I : R) : Prop :=
  match e with
  | [a; b] => is_int_simplex 1 1 (fun z => sp (F (fun i => P a i + z 0%nat * (P b i - P a i))) (vdiff (P b) (P a))) I
  | _ => False
  end.
(** the affine field c + A x and its curl *)
Definition affine (c : pt) (A : nat -> nat -> R) (x : pt) : pt := fun i => c i + tapp A x i.
Definition curl_affine (A : nat -> nat -> R) : pt := fun i =>
  match i with
  | 0%nat => A 2%nat 1%nat - A 1%nat 2%nat
  | 1%nat => A 0%nat 2%nat - A 2%nat 0%nat
  | _ => A 1%nat 0%nat - A 0%nat 1%nat
  end.

(** [n] is the unit normal of the plane through the points of [f], on the other side from the point [x] *)
Definition outward_unit (P : nat -> pt) (f : list nat) (x : pt) (n : pt) : Prop :=
  match f with
  | [a; b; c] => sp n n = 1 /\ sp n (vdiff (P b) (P a)) = 0 /\ sp n (vdiff (P c) (P a)) = 0 /\ sp n (vdiff x (P a)) < 0
  | _ => False
  end.
(** [n] is the unit normal of the edge [e] in the plane of the triangle [e],[x], pointing away from [x] *)
Definition outward_unit_edge (P : nat -> pt) (e : list nat) (x : pt) (n : pt) : Prop :=
  match e with
  | [a; b] => sp n n = 1 /\ sp n (vdiff (P b) (P a)) = 0 /\ sp n (xp (vdiff (P b) (P a)) (vdiff x (P a))) = 0 /\ sp n (vdiff x (P a)) < 0
  | _ => False
  end.
