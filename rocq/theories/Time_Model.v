(** Model of mechanics/NewtonSolver/TimeManager.hpp (time step list).
    The scalar type [T] of the templates is a parameter: [arith] collects the operations the
    code uses on it.  It is instantiated with exact rationals ([arith_Q]) and with IEEE
    binary64 numbers ([arith_double], the standard library's executable [SpecFloat]). *)
From Coq Require Import ZArith QArith List SpecFloat.
From Verif Require Import Common.
Import ListNotations.

(** Operations on the scalar template parameter used by TimeManager.hpp:124-145, 256-272. *)
Record arith := mkArith {
  T : Type;
  tzero : T;
  tadd : T -> T -> T;
  tsub : T -> T -> T;
  tmul : T -> T -> T;
  tdiv : T -> T -> T;
  tof_nat : nat -> T;
  tle : T -> T -> bool
}.

Definition arith_Q : arith :=
  mkArith Q 0 Qplus Qminus Qmult Qdiv (fun n => inject_Z (Z.of_nat n)) Qle_bool.

(** IEEE 754 binary64, round to nearest even: precision 53, emax 1024. *)
Definition b64_of_nat (n : nat) : spec_float :=
  binary_normalize 53 1024 (Z.of_nat n) 0 false.
Definition arith_double : arith :=
  mkArith spec_float (S754_zero false) (SFadd 53 1024) (SFsub 53 1024) (SFmul 53 1024)
    (SFdiv 53 1024) b64_of_nat SFleb.

Section TimeManager.
  Variable A : arith.

  (** TimeManager.hpp:44-64 *)
  Record time_step := mkStep { ts_start : T A; ts_end : T A; ts_level : nat }.

  (** TimeManager.hpp:83-91 *)
  Definition increment_time (s : time_step) : T A := tsub A (ts_end s) (ts_start s).

  (** TimeManager.hpp:116-122.  [std::list] is a list. *)
  Record time_list := mkTL { steps : list time_step; n_comp : nat; user_end : T A }.

  (** TimeManager.hpp:130-133: start of the next interval *)
  Definition next_start (l : list time_step) : T A :=
    match rev l with [] => tzero A | s :: _ => ts_end s end.

  (** TimeManager.hpp:137-144: the loop over [i], from [i] up to [i + k]. *)
  Fixpoint add_loop (ue start delta : T A) (lvl i k : nat) : list time_step :=
    match k with
    | O => []
    | S k' =>
        let e := tadd A start (tmul A (tof_nat A (S i)) delta) in
        if tle A e ue
        then mkStep (tadd A start (tmul A (tof_nat A i) delta)) e lvl
               :: add_loop ue start delta lvl (S i) k'
        else add_loop ue start delta lvl (S i) k'
    end.

  (** TimeManager.hpp:124-145.  [n_step] is a natural number. *)
  Definition add_time_stepping (tl : time_list) (end_time : T A) (n_step lvl : nat) : time_list :=
    let start := next_start (steps tl) in
    let delta := tdiv A (tsub A end_time start) (tof_nat A n_step) in
    mkTL (steps tl ++ add_loop (user_end tl) start delta lvl 0 n_step) (n_comp tl) (user_end tl).

  (** TimeManager.hpp:147-152 *)
  Definition tl_empty : time_list := mkTL [] 0 (tzero A).
  Definition tl_make1 (end_time : T A) (n_step : nat) : time_list :=
    add_time_stepping (mkTL [] 0 end_time) end_time n_step 0.

  (** TimeManager.hpp:166-173: schedule of intervals, explicit final time *)
  Definition tl_make_final (sched : list (T A * nat)) (final : T A) : time_list :=
    fold_left (fun tl p => add_time_stepping tl (fst p) (snd p) 0) sched (mkTL [] 0 final).

  (** TimeManager.hpp:154-163: the final time is the last one of the schedule
      ([list_of_time_step[size()-1]]: undefined behaviour on an empty schedule). *)
  Definition tl_make (sched : list (T A * nat)) : outcome time_list :=
    match rev sched with
    | [] => UB
    | (t, _) :: _ => Ok (tl_make_final sched t)
    end.

  (** TimeManager.hpp:180-184 *)
  Definition tl_is_empty (tl : time_list) : bool :=
    match steps tl with [] => true | _ => false end.
  (** TimeManager.hpp:191-195 *)
  Definition number_of_time_step (tl : time_list) : nat := length (steps tl) + n_comp tl.
  (** TimeManager.hpp:202-228 *)
  Definition number_remaining (tl : time_list) : nat := length (steps tl).
  Definition number_realized (tl : time_list) : nat := n_comp tl.
  Definition index_of_current (tl : time_list) : nat := n_comp tl + 1.

  (** TimeManager.hpp:235-239: [front()] of an empty list is undefined behaviour *)
  Definition get_current (tl : time_list) : outcome time_step :=
    match steps tl with [] => UB | s :: _ => Ok s end.

  (** TimeManager.hpp:245-250 *)
  Definition remove_current (tl : time_list) : outcome time_list :=
    match steps tl with [] => UB | _ :: l => Ok (mkTL l (S (n_comp tl)) (user_end tl)) end.

  (** TimeManager.hpp:256-272 *)
  Definition split_current (tl : time_list) : outcome time_list :=
    do s <- get_current tl;
    let mid := tadd A (ts_start s) (tdiv A (tsub A (ts_end s) (ts_start s)) (tof_nat A 2)) in
    let s1 := mkStep (ts_start s) mid (S (ts_level s)) in
    let s2 := mkStep mid (ts_end s) (S (ts_level s)) in
    match steps tl with
    | [] => UB
    | _ :: l => Ok (mkTL (s1 :: s2 :: l) (n_comp tl) (user_end tl))
    end.

  (** A user's sequence of calls on the list. *)
  Inductive tl_op := OpRemove | OpSplit.

  (** Runs the calls, recording the steps removed (completed) so far, oldest first. *)
  Fixpoint tl_run (ops : list tl_op) (done : list time_step) (tl : time_list)
    : outcome (list time_step * time_list) :=
    match ops with
    | [] => Ok (done, tl)
    | OpRemove :: r =>
        do s <- get_current tl;
        do tl' <- remove_current tl;
        tl_run r (done ++ [s]) tl'
    | OpSplit :: r => do tl' <- split_current tl; tl_run r done tl'
    end.
End TimeManager.

Arguments mkStep {A}. Arguments ts_start {A}. Arguments ts_end {A}. Arguments ts_level {A}.
Arguments mkTL {A}. Arguments steps {A}. Arguments n_comp {A}. Arguments user_end {A}.
