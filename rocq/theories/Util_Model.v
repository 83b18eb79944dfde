(** Small utilities: polygon store, identifiers, stabilisation coefficients, integer powers.
    Models /repo/libdiskpp/include/diskpp/{loaders/polygon.hpp, mesh/ident.hpp,
    mechanics/NewtonSolver/StabilizationManager.hpp, bases/bases_all.hpp, mesh/meshgen_fvca5hex.hpp}. *)
From Coq Require Import List Arith NArith Bool.
From Verif Require Import Common Mesh_Model.
Import ListNotations.

(** ** loaders/polygon.hpp *)

(** polygon_store, 120-147: one flat vector; iterators are positions in it (the vector is not
    modified while iterators are alive). *)
Definition polygon_store := list nat.
(** polygon_store() = default, 125 *)
Definition store_empty : polygon_store := [].
(** add_polygon, 127-131 *)
Definition add_polygon (point_ids : list nat) (m_data : polygon_store) : polygon_store :=
  (m_data ++ [length point_ids]) ++ point_ids.

(** polygon_iterator: (m_itor, m_end), 62-110; polygon: a position, 30-55 *)
Record polygon_iterator := mkPIt { m_itor : nat; m_end : nat }.
(** begin, end, 133-141 *)
Definition store_begin (s : polygon_store) := mkPIt 0 (length s).
Definition store_end (s : polygon_store) := mkPIt (length s) (length s).
(** number_of_edges, 40-44: dereferencing outside the vector is UB *)
Definition number_of_edges (s : polygon_store) (p : nat) : outcome nat := vget s p.
(** the elements [b, e) of the vector; forming or reading a range outside it is UB *)
Definition vrange (s : list nat) (b e : nat) : outcome (list nat) :=
  if (b <=? e) && (e <=? length s) then Ok (firstn (e - b) (skipn b s)) else UB.
(** point_ids, 46-55 *)
Definition point_ids (s : polygon_store) (p : nat) : outcome (list nat) :=
  do n <- number_of_edges s p; vrange s (p + 1) (p + (n + 1)).
(** advance, 64-72, and operator++, 86-92; moving beyond one-past-the-end is UB *)
Definition advance (s : polygon_store) (it : polygon_iterator) : outcome polygon_iterator :=
  if m_itor it =? m_end it then Ok it
  else do d <- vget s (m_itor it);
       let p := m_itor it + (d + 1) in
       if p <=? length s then Ok (mkPIt p (m_end it)) else UB.
Definition it_next (s : polygon_store) (it : polygon_iterator) : outcome polygon_iterator :=
  if negb (m_itor it =? m_end it) then advance s it else Ok it.
(** operator!=, 106-109 *)
Definition it_neq (a b : polygon_iterator) : bool := negb (m_itor a =? m_itor b).
(** The caller's loop  for (auto it = ps.begin(); it != ps.end(); ++it) use( ( *it ).point_ids() ),
    collecting what it sees; [None] = the bound on the number of steps was reached. *)
Fixpoint iterate (fuel : nat) (s : polygon_store) (it : polygon_iterator) : option (outcome (list (list nat))) :=
  if it_neq it (store_end s) then
    match fuel with
    | O => None
    | S fuel =>
      match (do ids <- point_ids s (m_itor it); do it' <- it_next s it; Ok (ids, it')) with
      | Ok (ids, it') =>
        match iterate fuel s it' with
        | None => None
        | Some o => Some (do l <- o; Ok (ids :: l))
        end
      | Throw e => Some (Throw e)
      | UB => Some UB
      end
    end
  else Some (Ok []).

(** ** mesh/ident.hpp *)

(** identifier<T, impl, default_value>, 30-77, for an unsigned impl: the raw value and the flag *)
Record ident := mkId { id_val : N; valid : bool }.
(** default constructor, 39-40 *)
Definition ident_invalid (default_value : N) := mkId default_value false.
(** explicit constructor, 44-45 *)
Definition ident_of (v : N) := mkId v true.
(** conversion to the raw type, 47-53 *)
Definition ident_get (i : ident) : outcome N := if negb (valid i) then Throw LogicError else Ok (id_val i).
(** ==, !=, <, 55-68 *)
Definition ident_eqb (a b : ident) := N.eqb (id_val a) (id_val b).
Definition ident_neqb (a b : ident) := negb (N.eqb (id_val a) (id_val b)).
Definition ident_ltb (a b : ident) := N.ltb (id_val a) (id_val b).

(** the uint32_t specialisation, 79-119: one 32-bit word (a number below 2^32) *)
Definition mask31 : N := 0x7FFFFFFF.
Definition flag31 : N := 0x80000000.
Definition pident := N.
Definition pident_invalid (default_value : N) : pident := N.land default_value mask31.
Definition pident_of (v : N) : pident := N.lor (N.land v mask31) flag31.
Definition pident_get (i : pident) : outcome N :=
  if N.eqb (N.land i flag31) 0 then Throw LogicError else Ok (N.land i mask31).
Definition pident_eqb (a b : pident) := N.eqb a b.
Definition pident_neqb (a b : pident) := negb (N.eqb a b).
Definition pident_ltb (a b : pident) := N.ltb (N.land a mask31) (N.land b mask31).

(** ** mechanics/NewtonSolver/StabilizationManager.hpp *)
Section Stab.
  Context {C F T : Type} (cltb : C -> C -> bool).
  (** StabCoeffManager, 83-90; a StabCoef is its value, 43-75 *)
  Record stab := mkStab { m_stab_coeff : list T; m_stab_coeff_new : list T }.
  (** constructor, 93-106 *)
  Definition stab_make (m : mesh C F) (v : T) : stab :=
    mkStab (map (fun _ => v) (m_cells m)) (map (fun _ => v) (m_cells m)).
  (** getValue, 108-113 *)
  Definition getValue (m : mesh C F) (c : C) (s : stab) : outcome T :=
    do i <- lookup C cltb (m_cells m) c; vget (m_stab_coeff s) i.
  (** setValue, 115-120 *)
  Definition setValue (m : mesh C F) (c : C) (v : T) (s : stab) : outcome stab :=
    do i <- lookup C cltb (m_cells m) c; do l <- vset (m_stab_coeff s) i v; Ok (mkStab l (m_stab_coeff_new s)).
  (** setValueNext, 122-127 *)
  Definition setValueNext (m : mesh C F) (c : C) (v : T) (s : stab) : outcome stab :=
    do i <- lookup C cltb (m_cells m) c; do l <- vset (m_stab_coeff_new s) i v; Ok (mkStab (m_stab_coeff s) l).
  (** update, 129-133 *)
  Definition stab_update (s : stab) : stab := mkStab (m_stab_coeff_new s) (m_stab_coeff_new s).

  (** histories of calls *)
  Inductive stab_op := SetValue (c : C) (v : T) | SetValueNext (c : C) (v : T) | Update.
  Definition stab_step (m : mesh C F) (o : stab_op) (s : stab) : outcome stab :=
    match o with
    | SetValue c v => setValue m c v s
    | SetValueNext c v => setValueNext m c v s
    | Update => Ok (stab_update s)
    end.
  Fixpoint stab_run (m : mesh C F) (ops : list stab_op) (s : stab) : outcome stab :=
    match ops with [] => Ok s | o :: r => do s' <- stab_step m o s; stab_run m r s' end.
End Stab.

(** ** integer powers *)
Section Pow.
  Context {T : Type} (mul : T -> T -> T) (one : T).
  (** iexp_pow, bases/bases_all.hpp 38-48; recursion with a step bound, [None] if it is reached *)
  Fixpoint iexp_pow_fuel (fuel : nat) (x : T) (n : nat) : option T :=
    match fuel with
    | O => None
    | S fuel =>
      if n =? 0 then Some one
      else if n mod 2 =? 0 then iexp_pow_fuel fuel (mul x x) (n / 2)
      else match iexp_pow_fuel fuel (mul x x) ((n - 1) / 2) with
           | Some y => Some (mul x y)
           | None => None
           end
    end.
End Pow.

(** ipow, mesh/meshgen_fvca5hex.hpp 311-317: size_t arithmetic wraps modulo 2^64;
    [while (exp--)] runs exp times. *)
Definition wrap64 (x : N) : N := N.modulo x (2^64).
Fixpoint ipow_loop (base : N) (exp : nat) (ret : N) : N :=
  match exp with O => ret | S e => ipow_loop base e (wrap64 (ret * base)) end.
Definition ipow (base : N) (exp : nat) : N := ipow_loop base exp 1.
