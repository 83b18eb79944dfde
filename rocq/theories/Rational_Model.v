(** Model of libdiskpp/include/diskpp/mesh/rational.hpp.
    The integer type [I] is modelled by the unbounded [Z] (no overflow);
    C++ [/] and [%] truncate towards zero: [Z.quot] and [Z.rem]. *)
From Coq Require Import ZArith.
From Verif Require Import Common.
Local Open Scope Z_scope.

(** rational.hpp:46-53, the recursive Euclid loop.  [fuel] bounds the recursion depth;
    running out of it is reported as [None] (proved impossible for the fuel used below). *)
Fixpoint gcd_loop (fuel : nat) (a b : Z) : option Z :=
  match fuel with
  | O => None
  | S n => if b =? 0 then Some a else gcd_loop n b (Z.rem a b)
  end.

(** rational.hpp:46-53 *)
Definition gcd (a b : Z) : option Z := gcd_loop (S (Z.abs_nat b)) a b.

(** Integer division; division by zero is undefined behaviour. *)
Definition idiv (a b : Z) : outcome Z := if b =? 0 then UB else Ok (Z.quot a b).

Definition lift_gcd (o : option Z) : outcome Z :=
  match o with Some g => Ok g | None => UB end.

(** rational.hpp:55-59 *)
Definition lcm (a b : Z) : outcome Z :=
  do g <- lift_gcd (gcd a b); do q <- idiv (Z.abs a) g; Ok (q * Z.abs b).

(** rational.hpp:61-64 *)
Record rational := mkR { num : Z; den : Z }.

(** rational.hpp:66-73 *)
Definition adjust_signs (r : rational) : rational :=
  if 0 <=? den r then r else mkR (- num r) (- den r).

(** rational.hpp:76-89: constructors *)
Definition rat_default : rational := mkR 0 1.
Definition rat_of_int (n : Z) : rational := mkR n 1.
Definition rat_make (n d : Z) : rational := adjust_signs (mkR n d).

(** rational.hpp:107-114 *)
Definition simplify (r : rational) : outcome rational :=
  do g <- lift_gcd (gcd (num r) (den r));
  do n <- idiv (num r) g;
  do d <- idiv (den r) g;
  Ok (adjust_signs (mkR n d)).

(** rational.hpp:116-136 *)
Definition radd (x y : rational) : outcome rational :=
  simplify (mkR (num x * den y + den x * num y) (den x * den y)).

(** rational.hpp:138-158 *)
Definition rsub (x y : rational) : outcome rational :=
  simplify (mkR (num x * den y - den x * num y) (den x * den y)).

(** rational.hpp:160-163 *)
Definition ropp (x : rational) : rational := rat_make (- num x) (den x).

(** rational.hpp:165-184: no [adjust_signs] at the end *)
Definition rmul (x y : rational) : outcome rational :=
  let a := num x in let b := den x in let c := num y in let d := den y in
  do g1 <- lift_gcd (gcd a d);
  do g2 <- lift_gcd (gcd b c);
  do a' <- idiv a g1;
  do b' <- idiv b g2;
  do c' <- idiv c g2;
  do d' <- idiv d g1;
  Ok (mkR (a' * c') (b' * d')).

(** rational.hpp:186-191, 200-205 *)
Definition rmul_int (x : rational) (k : Z) : outcome rational :=
  simplify (mkR (num x * k) (den x)).

(** rational.hpp:275-279 *)
Definition rinv (x : rational) : rational := rat_make (den x) (num x).

(** rational.hpp:207-213, 222-225 *)
Definition rdiv (x y : rational) : outcome rational := rmul x (rinv y).

(** rational.hpp:215-220, 227-232: neither signs nor common factors are adjusted *)
Definition rdiv_int (x : rational) (k : Z) : outcome rational :=
  Ok (mkR (num x) (den x * k)).

(** rational.hpp:234-262 *)
Definition rlt (x y : rational) : bool := num x * den y <? den x * num y.
Definition rle (x y : rational) : bool := num x * den y <=? den x * num y.
Definition rgt (x y : rational) : bool := negb (rle x y).
Definition rge (x y : rational) : bool := negb (rlt x y).

(** rational.hpp:265-273 *)
Definition rabs (x : rational) : rational :=
  if rlt x (rat_of_int 0) then ropp x else x.

(** A user program computing with rationals: any tree of API calls. *)
Inductive rexpr :=
| EMake (n d : Z)
| EInt (n : Z)
| EAdd (x y : rexpr) | ESub (x y : rexpr) | EMul (x y : rexpr) | EDiv (x y : rexpr)
| EOpp (x : rexpr) | EInv (x : rexpr)
| EMulI (x : rexpr) (k : Z) | EDivI (x : rexpr) (k : Z)
| ESimp (x : rexpr).

Fixpoint reval (e : rexpr) : outcome rational :=
  match e with
  | EMake n d => Ok (rat_make n d)
  | EInt n => Ok (rat_of_int n)
  | EAdd x y => do a <- reval x; do b <- reval y; radd a b
  | ESub x y => do a <- reval x; do b <- reval y; rsub a b
  | EMul x y => do a <- reval x; do b <- reval y; rmul a b
  | EDiv x y => do a <- reval x; do b <- reval y; rdiv a b
  | EOpp x => do a <- reval x; Ok (ropp a)
  | EInv x => do a <- reval x; Ok (rinv a)
  | EMulI x k => do a <- reval x; rmul_int a k
  | EDivI x k => do a <- reval x; rdiv_int a k
  | ESimp x => do a <- reval x; simplify a
  end.
