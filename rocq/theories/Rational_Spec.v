(** What rational arithmetic means: values in [Q], independent of the algorithms. *)
From Coq Require Import ZArith QArith Qabs.
From Verif Require Import Common Rational_Model.

(** The number a stored pair stands for (meaningful when the denominator is not zero). *)
Definition value (r : rational) : Q := inject_Z (num r) / inject_Z (den r).

(** The mathematical value of a user program, [None] when it divides by zero. *)
Fixpoint meaning (e : rexpr) : option Q :=
  match e with
  | EMake n d => if Z.eqb d 0 then None else Some (inject_Z n / inject_Z d)
  | EInt n => Some (inject_Z n)
  | EAdd x y => match meaning x, meaning y with Some a, Some b => Some (a + b) | _, _ => None end
  | ESub x y => match meaning x, meaning y with Some a, Some b => Some (a - b) | _, _ => None end
  | EMul x y => match meaning x, meaning y with Some a, Some b => Some (a * b) | _, _ => None end
  | EDiv x y => match meaning x, meaning y with
                | Some a, Some b => if Qeq_bool b 0 then None else Some (a / b)
                | _, _ => None end
  | EOpp x => match meaning x with Some a => Some (- a) | None => None end
  | EInv x => match meaning x with
              | Some a => if Qeq_bool a 0 then None else Some (/ a)
              | None => None end
  | EMulI x k => match meaning x with Some a => Some (a * inject_Z k) | None => None end
  | EDivI x k => match meaning x with
                 | Some a => if Z.eqb k 0 then None else Some (a / inject_Z k)
                 | None => None end
  | ESimp x => meaning x
  end.

(** Programs whose last operation is a constructor, [+], [-], unary minus, inverse,
    multiplication by an integer or [simplify]: all of them end with a sign adjustment.
    (The operands may be built by any operation.) *)
Definition last_op_adjusts_signs (e : rexpr) : bool :=
  match e with
  | EMul _ _ | EDiv _ _ | EDivI _ _ => false
  | _ => true
  end.
