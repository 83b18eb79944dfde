(** Model of the nonlinear time loop: mechanics/NewtonSolver/NewtonStep.hpp:145-222 and
    NewtonSolver.hpp:508-647.  The finite element work (initial guess, assembly, convergence
    test, linear solve, update) is an oracle: arbitrary functions, which may throw.
    Not modelled: precomputation, timers, printing, saving of result files. *)
From Coq Require Import List Arith.
From Verif Require Import Common Time_Model.
Import ListNotations.

Section Newton.
  Variable A : arith.
  (** [X]: unknowns kept by the solver (displacement, faces, velocity, acceleration);
      [I]: state of one Newton iteration object; [B]: material state; [St]: stabilisation
      coefficients. *)
  Variables X I B St : Type.

  (** What assembly can see and change besides the iteration object: material state at the
      last accepted time (read), current estimate (written), stabilisation coefficients in use
      (read) and for the next step (written).  NewtonSolver.hpp:571-573 passes them by
      reference. *)
  Record world := mkW { b_prev : B; b_curr : B; s_prev : St; s_next : St }.

  (** NewtonIteration constructor + initialize, NewtonStep.hpp:155-158 *)
  Variable o_init : time_step A -> X -> I.
  (** NewtonIteration::assemble; new (curr, next) parts of the world are kept even if it throws *)
  Variable o_assemble : I -> world -> (B * St) * outcome I.
  (** NewtonIteration::convergence(rp, iter) *)
  Variable o_conv : I -> nat -> outcome bool.
  (** NewtonIteration::solve followed by postprocess *)
  Variable o_update : I -> outcome I.
  (** NewtonIteration::save_solutions *)
  Variable o_save : I -> X.

  (** effect of assembly on the world *)
  Definition after_assembly (w : world) (p : B * St) : world :=
    mkW (b_prev w) (fst p) (s_prev w) (snd p).

  (** NewtonStep.hpp:162-217: the loop [for iter = 0 .. iter_max-1]; [k] iterations are left.
      Result: [Some x] = converged with saved unknowns [x], [None] = not converged (the stored
      unknowns are not touched). *)
  Fixpoint newton_loop (k iter : nat) (it : I) (w : world) : outcome (option X * world) :=
    match k with
    | O => Ok (None, w)
    | S k' =>
        let (p, r) := o_assemble it w in
        let w' := after_assembly w p in
        match r with
        | Throw InvalidArgument => Ok (None, w')          (* caught: lines 172-179 *)
        | Throw e => Throw e
        | UB => UB
        | Ok it1 =>
            match o_conv it1 iter with
            | Throw RuntimeError => Ok (None, w')         (* caught: lines 188-195 *)
            | Throw e => Throw e
            | UB => UB
            | Ok true => Ok (Some (o_save it1), w')       (* lines 197-203 *)
            | Ok false => do it2 <- o_update it1; newton_loop k' (S iter) it2 w'
            end
        end
    end.

  (** NewtonStep.hpp:145-222 *)
  Definition newton_compute (iter_max : nat) (s : time_step A) (x : X) (w : world)
    : outcome (option X * world) :=
    newton_loop iter_max 0 (o_init s x) w.

  (** State of the time loop.  [d_log] and [d_calls] are ghosts: accepted steps with the
      unknowns they produced, and number of Newton computations. *)
  Record driver := mkD {
    d_tl : time_list A; d_x : X; d_w : world; d_conv : bool;
    d_log : list (time_step A * X); d_calls : nat }.

  (** behavior.update() and stab_manager.update(), NewtonSolver.hpp:613-614 *)
  Definition world_update (w : world) : world := mkW (b_curr w) (b_curr w) (s_next w) (s_next w).

  (** NewtonSolver.hpp:548-640.  [m_sublevel] and [m_iter_max] (declared [int]) are natural
      numbers; [None] means the fuel ran out. *)
  Fixpoint time_loop (sublevel iter_max fuel : nat) (d : driver) : outcome (option driver) :=
    match fuel with
    | O => Ok None
    | S f =>
        if tl_is_empty A (d_tl d) then Ok (Some d)
        else
          do s <- get_current A (d_tl d);
          do r <- newton_compute iter_max s (d_x d) (d_w d);
          match r with
          | (None, w') =>
              if sublevel <? ts_level s + 1
              then Ok (Some (mkD (d_tl d) (d_x d) w' false (d_log d) (S (d_calls d))))
              else
                do tl' <- split_current A (d_tl d);
                time_loop sublevel iter_max f
                  (mkD tl' (d_x d) w' false (d_log d) (S (d_calls d)))
          | (Some x', w') =>
              do tl' <- remove_current A (d_tl d);
              time_loop sublevel iter_max f
                (mkD tl' x' (world_update w') true (d_log d ++ [(s, x')]) (S (d_calls d)))
          end
    end.

  (** NewtonSolver.hpp:547, 286: state before the loop *)
  Definition start (tl : time_list A) (x : X) (w : world) : driver := mkD tl x w false [] 0.
End Newton.

Arguments mkW {B St}. Arguments b_prev {B St}. Arguments b_curr {B St}. Arguments s_prev {B St}. Arguments s_next {B St}.
Arguments mkD {A X B St}. Arguments d_tl {A X B St}. Arguments d_x {A X B St}. Arguments d_w {A X B St}.
Arguments d_conv {A X B St}. Arguments d_log {A X B St}. Arguments d_calls {A X B St}.
Arguments start {A X B St}.
