(** Vocabulary for the properties of the HHO operators: differential operators on polynomials, polytopes seen
    through their integrals, and what it means for bases and quadratures to fit a polytope.  Nothing here refers
    to the program. *)
From Coq Require Import List Arith Reals.
From Verif Require Import Poly_Spec.
Import ListNotations.
Open Scope R_scope.

Definition mtx := nat -> nat -> R.
Definition delta (i j : nat) : R := if Nat.eqb i j then 1 else 0.
(** f 0 + ... + f (n - 1) *)
Fixpoint sg (n : nat) (f : nat -> R) : R := match n with O => 0 | S n => sg n f + f n end.

(** the same sum of polynomials, differences and linear combinations *)
Fixpoint psum (n : nat) (f : nat -> pexp) : pexp := match n with O => PC 0 | S n => PAdd (psum n f) (f n) end.
Definition pscal (c : R) (p : pexp) : pexp := PMul (PC c) p.
Definition psubp (p q : pexp) : pexp := PAdd p (pscal (-1) q).
Definition lincomb (n : nat) (c : nat -> R) (P : nat -> pexp) : pexp := psum n (fun j => pscal (c j) (P j)).

(** partial derivative *)
Fixpoint pdiff (i : nat) (p : pexp) : pexp :=
  match p with
  | PC _ => PC 0
  | PX j => PC (if Nat.eqb i j then 1 else 0)
  | PAdd p q => PAdd (pdiff i p) (pdiff i q)
  | PMul p q => PAdd (PMul (pdiff i p) q) (PMul p (pdiff i q))
  end.
(** component c of K grad p; grad p . v for a field v; K grad p . n; div (K grad p) *)
Definition kgrad (d : nat) (K : mtx) (p : pexp) (c : nat) : pexp := psum d (fun e => pscal (K c e) (pdiff e p)).
Definition graddot (d : nat) (p : pexp) (v : nat -> pexp) : pexp := psum d (fun c => PMul (pdiff c p) (v c)).
Definition flux (d : nat) (K : mtx) (n : pt) (p : pexp) : pexp := psum d (fun c => pscal (n c) (kgrad d K p c)).
Definition divk (d : nat) (K : mtx) (p : pexp) : pexp := psum d (fun c => pdiff c (kgrad d K p c)).
(** symmetric positive definite matrices *)
Definition sym (n : nat) (A : mtx) : Prop := forall i j, (i < n)%nat -> (j < n)%nat -> A i j = A j i.
Definition quadf (n : nat) (A : mtx) (x y : nat -> R) : R := sg n (fun i => x i * sg n (fun j => A i j * y j)).
Definition spd (n : nat) (A : mtx) : Prop :=
  sym n A /\ forall x, 0 <= quadf n A x x /\ (quadf n A x x = 0 -> forall i, (i < n)%nat -> x i = 0).

(** [p] is a polynomial of degree at most [n] *)
Definition deg_le (p : pexp) (n : nat) : Prop := exists p', (pdeg p' <= n)%nat /\ forall x, peval p' x = peval p x.

(** [I] integrates polynomials over the set [on]: it is linear, it only sees the values on the set, and it is
    positive: a nonnegative polynomial has a nonnegative integral, zero only if the polynomial vanishes. *)
Record integral (on : pt -> Prop) (I : pexp -> R) : Prop := {
  int_ext : forall p q, (forall x, on x -> peval p x = peval q x) -> I p = I q;
  int_add : forall p q, I (PAdd p q) = I p + I q;
  int_scal : forall c p, I (pscal c p) = c * I p;
  int_pos : forall p, (forall x, on x -> 0 <= peval p x) -> 0 <= I p;
  int_def : forall p, (forall x, on x -> 0 <= peval p x) -> I p = 0 -> forall x, on x -> peval p x = 0 }.

(** A polytope of R^d: its points, diameter and the integral over it, and its faces with their outward normals *)
Record facet := mkFacet { fa_on : pt -> Prop; fa_normal : pt; fa_diam : R; fa_int : pexp -> R }.
Record polytope := mkPoly { po_on : pt -> Prop; po_diam : R; po_int : pexp -> R; po_facets : list facet }.
(** f 1 + ... over the faces; with a function per face ([None]: the face is left out) *)
Fixpoint fsum (fs : list facet) (f : facet -> R) : R := match fs with [] => 0 | x :: t => f x + fsum t f end.
Record is_polytope (d : nat) (P : polytope) : Prop := {
  poly_int : integral (po_on P) (po_int P);
  poly_point : exists x, po_on P x;
  poly_diam : 0 < po_diam P /\ forall f, In f (po_facets P) -> 0 < fa_diam f;
  poly_facets : forall f, In f (po_facets P) -> integral (fa_on f) (fa_int f) /\ (forall x, fa_on f x -> po_on P x);
  (** divergence theorem *)
  poly_green : forall c p, (c < d)%nat -> po_int P (pdiff c p) = fsum (po_facets P) (fun f => fa_normal f c * fa_int f p);
  (** it is connected *)
  poly_conn : forall p, (forall c x, (c < d)%nat -> po_on P x -> peval (pdiff c p) x = 0) ->
    forall x y, po_on P x -> po_on P y -> peval p x = peval p y }.

(** [b 0], ..., [b (n - 1)] is a basis of the polynomials of degree [deg] on the set [on] *)
Definition basis_on (on : pt -> Prop) (deg n : nat) (b : nat -> pexp) : Prop :=
  (forall j, (j < n)%nat -> deg_le (b j) deg) /\
  (forall c, (forall x, on x -> peval (lincomb n c b) x = 0) -> forall j, (j < n)%nat -> c j = 0) /\
  (forall p, deg_le p deg -> exists c, forall x, on x -> peval p x = peval (lincomb n c b) x).
(** the rule [q deg] integrates polynomials of degree [deg] exactly *)
Definition exact (q : nat -> list (pt * R)) (I : pexp -> R) : Prop :=
  forall deg p, (pdeg p <= deg)%nat -> qsum (q deg) (peval p) = I p.

(** The unknowns of a cell: first the coefficients of the cell function, then those of each face in order.  The
    functions on the faces, [None] for a face without unknowns: *)
Fixpoint face_funs (off : nat) (bs : list (option (nat * (nat -> pexp)))) (u : nat -> R) : list (option pexp) :=
  match bs with
  | [] => []
  | None :: t => None :: face_funs off t u
  | Some (n, b) :: t => Some (lincomb n (fun j => u (off + j)%nat) b) :: face_funs (off + n) t u
  end.
Fixpoint fsum2 (fs : list facet) (us : list (option pexp)) (f : facet -> pexp -> R) : R :=
  match fs, us with
  | x :: t, Some u :: v => f x u + fsum2 t v f
  | _ :: t, None :: v => fsum2 t v f
  | _, _ => 0
  end.
(** number of unknowns *)
Fixpoint face_dofs (bs : list (option (nat * (nat -> pexp)))) : nat :=
  match bs with [] => 0 | None :: t => face_dofs t | Some (n, _) :: t => n + face_dofs t end.

(** [r] is the L2 projection of [q] on the polynomials of degree [k] *)
Definition l2proj (I : pexp -> R) (k : nat) (q r : pexp) : Prop :=
  deg_le r k /\ forall w, deg_le w k -> I (PMul w r) = I (PMul w q).
(** [rs] are the projections on the faces, each with its degree, of the difference of [q] and the function of the face *)
Fixpoint jumps (fs : list facet) (ds : list (option nat)) (us : list (option pexp)) (q : pexp) (rs : list (option pexp)) : Prop :=
  match fs, ds, us, rs with
  | [], [], [], [] => True
  | f :: fs, Some k :: ds, Some u :: us, Some r :: rs => l2proj (fa_int f) k (psubp q u) r /\ jumps fs ds us q rs
  | _ :: fs, None :: ds, None :: us, None :: rs => jumps fs ds us q rs
  | _, _, _, _ => False
  end.
(** sum over the faces of a bilinear form of two families of functions *)
Fixpoint fsum3 (fs : list facet) (us vs : list (option pexp)) (g : facet -> pexp -> pexp -> R) : R :=
  match fs, us, vs with
  | f :: fs, Some u :: us, Some v :: vs => g f u v + fsum3 fs us vs g
  | _ :: fs, None :: us, None :: vs => fsum3 fs us vs g
  | _, _, _ => 0
  end.
(** [Q] holds of every face that carries unknowns *)
Fixpoint on_facets (fs : list facet) (us : list (option pexp)) (Q : facet -> pexp -> Prop) : Prop :=
  match fs, us with
  | f :: fs, Some u :: us => Q f u /\ on_facets fs us Q
  | _ :: fs, None :: us => on_facets fs us Q
  | _, _ => True
  end.
(** each function is the projection of [q] on its face, with its degree *)
Fixpoint projs (fs : list facet) (ds : list (option nat)) (us : list (option pexp)) (q : pexp) : Prop :=
  match fs, ds, us with
  | [], [], [] => True
  | f :: fs, Some k :: ds, Some u :: us => l2proj (fa_int f) k q u /\ projs fs ds us q
  | _ :: fs, None :: ds, None :: us => projs fs ds us q
  | _, _, _ => False
  end.
