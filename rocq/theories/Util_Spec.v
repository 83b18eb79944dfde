(** Specification vocabulary for the small utilities. *)
From Coq Require Import List NArith.
From Verif Require Import Common Util_Model.
Import ListNotations.

(** x multiplied n times *)
Fixpoint power {T} (mul : T -> T -> T) (one : T) (x : T) (n : nat) : T :=
  match n with O => one | S n => mul x (power mul one x n) end.

Definition monoid {T} (mul : T -> T -> T) (one : T) : Prop :=
  (forall a b c, mul a (mul b c) = mul (mul a b) c) /\ (forall a, mul one a = a) /\ (forall a, mul a one = a).

(** last value directed at cell [c] by SetValue (resp. SetValueNext) in a history, [d] if none *)
Section Stab.
  Context {C T : Type} (same : C -> C -> bool).
  Fixpoint last_set (c : C) (ops : list (stab_op (C:=C) (T:=T))) (d : T) : T :=
    match ops with
    | [] => d
    | SetValue c' v :: r => last_set c r (if same c' c then v else d)
    | _ :: r => last_set c r d
    end.
  Fixpoint last_next (c : C) (ops : list (stab_op (C:=C) (T:=T))) (d : T) : T :=
    match ops with
    | [] => d
    | SetValueNext c' v :: r => last_next c r (if same c' c then v else d)
    | _ :: r => last_next c r d
    end.
  Definition about (cells : list C) (o : stab_op (C:=C) (T:=T)) : Prop :=
    match o with SetValue c _ | SetValueNext c _ => In c cells | Update => True end.
End Stab.
