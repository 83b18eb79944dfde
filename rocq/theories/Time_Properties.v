(** C33: time step list (mechanics/NewtonSolver/TimeManager.hpp). *)
From Coq Require Import ZArith QArith List SpecFloat.
From Verif Require Import Common Time_Model Time_Spec Time_Proofs.
Import ListNotations.
Local Open Scope Q_scope.

(** C33, construction: an increasing schedule gives exactly its uniform cut, which tiles
    [0, last time]. *)
Theorem C33_construction_tiles :
  forall sched, sched <> [] -> increasing_from 0 sched ->
  exists tl, tl_make arith_Q sched = Ok tl /\ n_comp tl = 0%nat /\
    tiles 0 (sched_end 0 sched) (steps tl) /\ Forall2 same_step (steps tl) (grid 0 sched) /\
    length (steps tl) = sched_steps sched.
Proof. exact tl_make_correct. Qed.
Print Assumptions C33_construction_tiles.

(** C33, single interval constructor. *)
Theorem C33_single_interval :
  forall (e : Q) n, 0 < e -> (0 < n)%nat ->
  exists l, tl_make1 arith_Q e n = mkTL (A := arith_Q) l 0 e /\ tiles 0 e l /\ length l = n /\
            Forall2 same_step l (cut 0 e n 0 n).
Proof. exact tl_make1_correct. Qed.
Print Assumptions C33_single_interval.

(** C33, histories: after any sequence of remove/split calls, the completed steps followed by
    the remaining ones still tile the same interval, every removal is counted and every split
    adds one step.  (The remaining steps thus start where the last completed one ended.) *)
Theorem C33_history_tiles :
  forall ops (tl tl' : time_list arith_Q) done a b,
  tiles a b (steps tl) -> n_comp tl = 0%nat ->
  tl_run arith_Q ops [] tl = Ok (done, tl') ->
  tiles a b (done ++ steps tl') /\
  number_realized arith_Q tl' = length done /\ length done = count_removes ops /\
  number_of_time_step arith_Q tl' = (length done + number_remaining arith_Q tl')%nat /\
  number_of_time_step arith_Q tl' = (number_of_time_step arith_Q tl + count_splits ops)%nat.
Proof.
  intros ops tl tl' done a b Ht Hn E.
  destruct (tl_run_correct ops [] tl done tl' a b Ht Hn E) as (H1 & H2 & H3 & H4 & _).
  split; [exact H1|]. split; [exact H2|]. split; [exact H3|]. split; [|exact H4].
  unfold number_of_time_step, number_remaining. rewrite H2. apply Nat.add_comm.
Qed.
Print Assumptions C33_history_tiles.

(** C33: one more call is defined exactly when some step remains. *)
Theorem C33_calls_defined_iff_nonempty :
  forall ops tl done' tl' op,
  tl_run arith_Q ops [] tl = Ok (done', tl') ->
  ((exists r, tl_run arith_Q (ops ++ [op]) [] tl = Ok r) <-> steps tl' <> []).
Proof. exact tl_run_progress. Qed.
Print Assumptions C33_calls_defined_iff_nonempty.

(** C33: a split replaces the current step by two halves one level deeper. *)
Theorem C33_split_halves :
  forall (tl tl' : time_list arith_Q), split_current arith_Q tl = Ok tl' ->
  exists s s1 s2 l, steps tl = s :: l /\ steps tl' = s1 :: s2 :: l /\
    (increment_time arith_Q s1 : Q) == (increment_time arith_Q s : Q) / 2 /\
    (increment_time arith_Q s2 : Q) == (increment_time arith_Q s : Q) / 2 /\
    ts_level s1 = S (ts_level s) /\ ts_level s2 = S (ts_level s).
Proof. exact split_halves. Qed.
Print Assumptions C33_split_halves.

(** C33 with an explicit final time: the steps tile [0,e] with e not beyond the final time. *)
Theorem C33_final_time_never_exceeded :
  forall sched (final : Q), 0 <= final -> increasing_from 0 sched ->
  exists l e, tl_make_final arith_Q sched final = mkTL (A := arith_Q) l 0 final /\ tiles 0 e l /\ e <= final.
Proof. exact tl_make_final_correct. Qed.
Print Assumptions C33_final_time_never_exceeded.

Example C33_nontrivial :
  increasing_from 0 [(1#2, 3%nat); (2, 5%nat)] /\
  match tl_make arith_Q [(1#2, 3%nat); (2, 5%nat)] with
  | Ok tl => match tl_run arith_Q [OpSplit; OpRemove; OpSplit; OpRemove; OpRemove; OpRemove] [] tl with
             | Ok r => length (steps (snd r)) = 6%nat
             | _ => False
             end
  | _ => False
  end.
Proof.
  split; [repeat split; reflexivity || (repeat constructor)|]. vm_compute. reflexivity.
Qed.

(** C33 refuted for an explicit final time that is not a grid point: the list stops before
    the final time although the schedule covers it. *)
Theorem C33_final_time_refuted :
  exists sched (final : Q), increasing_from 0 sched /\ final <= sched_end 0 sched /\
  exists l e, tl_make_final arith_Q sched final = mkTL (A := arith_Q) l 0 final /\ tiles 0 e l /\ e < final.
Proof.
  exists [(1, 2%nat)], (3#4). split; [repeat split; reflexivity || (repeat constructor)|].
  split; [discriminate|].
  exists [mkStep (A := arith_Q) (0 + 0 * ((1 - 0) / 2)) (0 + 1 * ((1 - 0) / 2)) 0], (1#2).
  split; [vm_compute; reflexivity|]. vm_compute. repeat split; reflexivity.
Qed.
Print Assumptions C33_final_time_refuted.

(** C33 refuted in IEEE double precision: with final time 0.1 and 11 steps, 11*(0.1/11) rounds
    above 0.1, the last step is dropped and the list ends before the final time. *)
Definition double_0_1 : spec_float := S754_finite false 7205759403792794 (-56).

Theorem C33_double_last_step_dropped_refuted :
  length (steps (tl_make1 arith_double double_0_1 11)) = 10%nat /\
  forallb (fun s : time_step arith_double => SFltb (ts_end s) double_0_1) (steps (tl_make1 arith_double double_0_1 11)) = true.
Proof. split; vm_compute; reflexivity. Qed.
Print Assumptions C33_double_last_step_dropped_refuted.
