(** C34: the nonlinear time loop (NewtonSolver.hpp, NewtonStep.hpp). *)
From Coq Require Import List Arith QArith.
From Verif Require Import Common Time_Model Time_Spec Newton_Model Newton_Spec Newton_Proofs.
Import ListNotations.

(** C34, termination: for every behaviour of the Newton machinery and every arithmetic (also
    floating point), the loop started on [n] unsplit steps ends after at most
    [n * (2^(sublevel+1) - 1)] Newton computations; that many loop turns (plus one) always
    suffice. *)
Theorem C34_terminates :
  forall (A : arith) (X I B St : Type) o_init o_assemble o_conv o_update o_save sublevel iter_max
         (tl : time_list A) (x : X) (w : world B St) fuel,
  (forall s, In s (steps tl) -> ts_level s = 0%nat) ->
  (length (steps tl) * tree_nodes sublevel < fuel)%nat ->
  let result := time_loop A X I B St o_init o_assemble o_conv o_update o_save sublevel iter_max fuel
                  (start tl x w) in
  result <> Ok None /\
  forall d, result = Ok (Some d) -> (d_calls d <= length (steps tl) * tree_nodes sublevel)%nat.
Proof.
  intros A X I B St oi oa oc ou os L im tl x w fuel H0 Hf.
  rewrite <- (total_level0 L (steps tl) H0) in *.
  apply (loop_terminates oi oa oc ou os L im fuel (start tl x w)); [|exact Hf].
  intros s Hs. rewrite (H0 s Hs). apply Nat.le_0_l.
Qed.
Print Assumptions C34_terminates.

(** C34, state: the unknowns, material state and stabilisation coefficients at the end are
    those left by the chain of accepted steps; rejected attempts leave no trace in them. *)
Theorem C34_keeps_last_converged_state :
  forall (A : arith) (X I B St : Type) o_init o_assemble o_conv o_update o_save sublevel iter_max
         (tl : time_list A) (x : X) (w : world B St) fuel d,
  time_loop A X I B St o_init o_assemble o_conv o_update o_save sublevel iter_max fuel (start tl x w)
    = Ok (Some d) ->
  accepted (I := I) o_init o_assemble o_conv o_update o_save iter_max
    x (b_prev w) (s_prev w) (d_log d) (d_x d) (b_prev (d_w d)) (s_prev (d_w d)).
Proof.
  intros A X I B St oi oa oc ou os L im tl x w fuel d E.
  exact (loop_accepted oi oa oc ou os L im x (b_prev w) (s_prev w) fuel (start tl x w) d
           (acc_nil oi oa oc ou os im x (b_prev w) (s_prev w)) E).
Qed.
Print Assumptions C34_keeps_last_converged_state.

(** C34, one Newton computation: success means that the convergence test accepted some iterate
    number [i < iter_max], and that iterate is what is saved. *)
Theorem C34_success_means_converged_iterate :
  forall (A : arith) (X I B St : Type) o_init o_assemble o_conv o_update o_save iter_max
         (st : time_step A) (x : X) (w : world B St) x' w',
  newton_compute A X I B St o_init o_assemble o_conv o_update o_save iter_max st x w = Ok (Some x', w') ->
  exists i it, (i < iter_max)%nat /\ iterate o_init o_assemble o_conv o_update st x w i it w' /\
    o_conv it i = Ok true /\ x' = o_save it.
Proof.
  intros A X I B St oi oa oc ou os im st x w x' w' E.
  exact (newton_iterate oi oa oc ou os im st x w x' w' E).
Qed.
Print Assumptions C34_success_means_converged_iterate.

(** C34, time axis (exact arithmetic): accepted steps followed by the remaining ones tile the
    interval; so the accepted steps tile an initial part of it. *)
Theorem C34_accepted_steps_tile :
  forall (X I B St : Type) o_init o_assemble o_conv o_update o_save sublevel iter_max
         (tl : time_list arith_Q) (x : X) (w : world B St) fuel d a b,
  tiles a b (steps tl) -> n_comp tl = 0%nat ->
  time_loop arith_Q X I B St o_init o_assemble o_conv o_update o_save sublevel iter_max fuel (start tl x w)
    = Ok (Some d) ->
  tiles a b (map fst (d_log d) ++ steps (d_tl d)) /\ n_comp (d_tl d) = length (d_log d).
Proof.
  intros X I B St oi oa oc ou os L im tl x w fuel d a b HT HN E.
  exact (loop_tiles oi oa oc ou os L im a b fuel (start tl x w) d HT HN E).
Qed.
Print Assumptions C34_accepted_steps_tile.

(** C34, verdict: the loop reports convergence exactly when no step is left, and otherwise it
    gave up on a step that could not be split any more. *)
Theorem C34_convergence_flag :
  forall (A : arith) (X I B St : Type) o_init o_assemble o_conv o_update o_save sublevel iter_max
         (tl : time_list A) (x : X) (w : world B St) fuel d,
  steps tl <> [] ->
  time_loop A X I B St o_init o_assemble o_conv o_update o_save sublevel iter_max fuel (start tl x w)
    = Ok (Some d) ->
  (d_conv d = true <-> steps (d_tl d) = []) /\
  (d_conv d = false -> exists s l, steps (d_tl d) = s :: l /\ (sublevel < ts_level s + 1)%nat).
Proof.
  intros A X I B St oi oa oc ou os L im tl x w fuel d Hne E.
  pose proof (loop_conv oi oa oc ou os L im fuel (start tl x w) d E (or_introl Hne)) as H1.
  destruct (loop_status oi oa oc ou os L im fuel (start tl x w) d E) as [H2|[H2 H3]].
  - split; [split; [auto|auto]|]. intros F. rewrite (H1 H2) in F. discriminate.
  - split; [split; [rewrite H2; discriminate|]|auto].
    intros F. rewrite (H1 F) in H2. discriminate.
Qed.
Print Assumptions C34_convergence_flag.

(** A concrete run: Newton converges iff the step is not longer than 1/4 (two iterations). *)
Definition ex_run (sublevel : nat) :=
  match tl_make arith_Q [(1, 2%nat)] with
  | Ok tl =>
    time_loop arith_Q Q (Q * nat) nat nat
      (fun s x => (increment_time arith_Q s, 0%nat))
      (fun it w => ((S (b_curr w), S (s_next w)), Ok it))
      (fun it i => Ok (Qle_bool (fst it) (1#4) && (1 <=? snd it)%nat)%bool)
      (fun it => Ok (fst it, S (snd it)))
      (fun it => fst it) sublevel 3 100 (start tl 0 (mkW 0%nat 0%nat 0%nat 0%nat))
  | _ => UB
  end.

Example C34_nontrivial :
  match ex_run 1 with
  | Ok (Some d) => d_conv d = true /\ length (d_log d) = 4%nat /\ d_calls d = 6%nat
                   /\ b_prev (d_w d) = 14%nat
  | _ => False
  end /\
  match ex_run 0 with
  | Ok (Some d) => d_conv d = false /\ length (d_log d) = 0%nat /\ b_prev (d_w d) = 0%nat
  | _ => False
  end.
Proof. vm_compute. repeat split; reflexivity. Qed.
