(** What it means for a list of time steps to tile an interval. *)
From Coq Require Import ZArith QArith List.
From Verif Require Import Time_Model.
Import ListNotations.

(** The steps are consecutive, the first starts at [a], the last ends at [b],
    and each one has positive length. *)
Fixpoint tiles (a b : Q) (l : list (time_step arith_Q)) : Prop :=
  match l with
  | [] => a == b
  | s :: l' => ts_start s == a /\ (ts_start s : Q) < ts_end s /\ tiles (ts_end s) b l'
  end.

(** A schedule: positive, increasing interval ends, each cut into at least one step. *)
Fixpoint increasing_from (a : Q) (sched : list (Q * nat)) : Prop :=
  match sched with
  | [] => True
  | (t, n) :: l => a < t /\ (0 < n)%nat /\ increasing_from t l
  end.

(** Last interval end of a schedule. *)
Fixpoint sched_end (a : Q) (sched : list (Q * nat)) : Q :=
  match sched with [] => a | (t, _) :: l => sched_end t l end.

Definition sched_steps (sched : list (Q * nat)) : nat :=
  fold_right (fun p n => snd p + n)%nat O sched.

(** The uniform cut of [a,t] in [n] steps, and the cut of a whole schedule
    (steps number [i], [i+1], ... of an interval of [n] steps). *)
Fixpoint cut (a t : Q) (n i k : nat) : list (Q * Q) :=
  match k with
  | O => []
  | S k' => (a + inject_Z (Z.of_nat i) * ((t - a) / inject_Z (Z.of_nat n)),
             a + inject_Z (Z.of_nat (S i)) * ((t - a) / inject_Z (Z.of_nat n))) :: cut a t n (S i) k'
  end.

Fixpoint grid (a : Q) (sched : list (Q * nat)) : list (Q * Q) :=
  match sched with
  | [] => []
  | (t, n) :: l => cut a t n 0 n ++ grid t l
  end.

Definition same_step (s : time_step arith_Q) (p : Q * Q) : Prop :=
  ts_start s == fst p /\ ts_end s == snd p /\ ts_level s = O.

Definition count_removes (ops : list tl_op) : nat :=
  length (filter (fun o => match o with OpRemove => true | _ => false end) ops).
Definition count_splits (ops : list tl_op) : nat :=
  length (filter (fun o => match o with OpSplit => true | _ => false end) ops).
