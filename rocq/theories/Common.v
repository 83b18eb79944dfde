(** Outcomes shared by all models.

    C++ functions may return a value, throw, or run into undefined behaviour.
    [assert]s are compiled out (release build) unless a model says otherwise. *)
From Coq Require Import List ZArith.
Import ListNotations.

Inductive exn := InvalidArgument | LogicError | RuntimeError | OutOfRange.

Inductive outcome (A : Type) :=
| Ok (a : A)
| Throw (e : exn)
| UB.
Arguments Ok {A} a.
Arguments Throw {A} e.
Arguments UB {A}.

Definition bind {A B} (o : outcome A) (f : A -> outcome B) : outcome B :=
  match o with
  | Ok a => f a
  | Throw e => Throw e
  | UB => UB
  end.

Notation "'do' x <- o ; p" := (bind o (fun x => p))
  (at level 60, x name, o at level 59, right associativity).

Definition is_ok {A} (o : outcome A) : bool :=
  match o with Ok _ => true | _ => false end.

(** [v[i]]: reading out of range is undefined behaviour. *)
Definition vget {A} (l : list A) (i : nat) : outcome A :=
  match nth_error l i with Some a => Ok a | None => UB end.

(** [v.at(i)]: reading out of range throws std::out_of_range. *)
Definition vat {A} (l : list A) (i : nat) : outcome A :=
  match nth_error l i with Some a => Ok a | None => Throw OutOfRange end.

(** In-place update [v[i] = x]; [None] when out of range. *)
Fixpoint upd {A} (l : list A) (i : nat) (x : A) : option (list A) :=
  match l, i with
  | [], _ => None
  | _ :: t, O => Some (x :: t)
  | h :: t, S j => match upd t j x with Some t' => Some (h :: t') | None => None end
  end.

Definition vset {A} (l : list A) (i : nat) (x : A) : outcome (list A) :=
  match upd l i x with Some l' => Ok l' | None => UB end.

Definition vset_at {A} (l : list A) (i : nat) (x : A) : outcome (list A) :=
  match upd l i x with Some l' => Ok l' | None => Throw OutOfRange end.

Lemma upd_length {A} (l : list A) i x l' : upd l i x = Some l' -> length l' = length l.
Proof.
  revert i l'; induction l as [|h t IH]; intros [|i] l'; simpl; try discriminate.
  - intros [= <-]; reflexivity.
  - destruct (upd t i x) as [t'|] eqn:E; try discriminate.
    intros [= <-]; simpl; f_equal; eauto.
Qed.

Lemma upd_some {A} (l : list A) i x : i < length l -> exists l', upd l i x = Some l'.
Proof.
  revert i; induction l as [|h t IH]; intros [|i] H; simpl in *; try (inversion H; fail).
  - eauto.
  - destruct (IH i) as [t' E]; [apply Nat.succ_lt_mono; exact H|].
    rewrite E; eauto.
Qed.

Lemma upd_none {A} (l : list A) i x : upd l i x = None <-> length l <= i.
Proof.
  revert i; induction l as [|h t IH]; intros [|i]; simpl; split; intros H; try discriminate;
    try (apply Nat.le_0_l); try reflexivity; try (inversion H; fail).
  - apply le_n_S. apply IH. destruct (upd t i x); [discriminate|reflexivity].
  - apply le_S_n in H. apply IH in H. rewrite H. reflexivity.
Qed.

Lemma upd_nth_same {A} (l : list A) i x l' : upd l i x = Some l' -> nth_error l' i = Some x.
Proof.
  revert i l'; induction l as [|h t IH]; intros [|i] l'; simpl; try discriminate.
  - intros [= <-]; reflexivity.
  - destruct (upd t i x) as [t'|] eqn:E; try discriminate.
    intros [= <-]; simpl; eauto.
Qed.

Lemma upd_nth_other {A} (l : list A) i j x l' :
  upd l i x = Some l' -> i <> j -> nth_error l' j = nth_error l j.
Proof.
  revert i j l'; induction l as [|h t IH]; intros [|i] [|j] l'; simpl; try discriminate; try congruence.
  - intros [= <-]; reflexivity.
  - destruct (upd t i x) as [t'|] eqn:E; try discriminate. intros [= <-] _; reflexivity.
  - destruct (upd t i x) as [t'|] eqn:E; try discriminate.
    intros [= <-] N; simpl; eapply IH; eauto.
Qed.
