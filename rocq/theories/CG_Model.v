(** Model of solvers/solver.hpp: conjugated_gradient.  Scalars are exact reals; a division by zero
    yields a value that is not finite (inf or NaN), kept apart as [None].  Printing and the
    iteration history file are not modelled. *)
From Coq Require Import List Arith Bool Reals String.
Import ListNotations.
Local Open Scope R_scope.

(** Eigen vectors and matrices: sizes and entries *)
Record rvec := mkRV { rsize : nat; rent : nat -> R }.
Record rmat := mkRM { rrows : nat; rcols : nat; rcoef : nat -> nat -> R }.
Fixpoint rsum (n : nat) (f : nat -> R) : R := match n with O => 0 | S n => rsum n f + f n end.
Definition dot (n : nat) (x y : nat -> R) : R := rsum n (fun i => x i * y i).
Definition norm (n : nat) (x : nat -> R) : R := sqrt (dot n x x).
Definition amul (n : nat) (A : nat -> nat -> R) (x : nat -> R) (i : nat) : R := rsum n (fun j => A i j * x j).

(** solver.hpp:52-66 (fields that influence the result) and its defaults *)
Record cg_params := mkCG { rr_tol : R; rr_max : R; max_iter : nat; use_initial_guess : bool }.
Definition cg_default : cg_params := mkCG (/ 10 ^ 8) 20 100 false.

(** a division in floating point, [None] when the result is not finite *)
Definition fdiv (x y : R) : option R := if Req_EM_T y 0 then None else Some (x / y).
(** comparisons are false when an operand is not finite: a NaN, or an infinity on the left of
    "< rr_max" (the two comparisons are only used together, lines 117) *)
Definition going (p : cg_params) (q : option R) : bool :=
  match q with
  | None => false
  | Some q => (if Rlt_dec (rr_tol p) q then true else false) && (if Rlt_dec q (rr_max p) then true else false)
  end.

(** the variables carried from one iteration to the next: x, r, d *)
Record cg_state := mkCS { cx : nat -> R; cr : nat -> R; cd : nat -> R }.
(** lines 130-136; [None]: alpha or beta is not finite.  (beta alone fails only when the residual is
    already zero, which the loop reaches only with a negative tolerance.) *)
Definition cg_step (n : nat) (A : nat -> nat -> R) (s : cg_state) : option cg_state :=
  let y := amul n A (cd s) in
  let rho := dot n (cr s) (cr s) in
  match fdiv rho (dot n (cd s) y) with
  | None => None
  | Some alpha =>
    let x := fun i => cx s i + alpha * cd s i in
    let r := fun i => cr s i - alpha * y i in
    match fdiv (dot n r r) rho with
    | None => None
    | Some beta => Some (mkCS x r (fun i => r i + beta * cd s i))
    end
  end.
(** result of the loop: the iterate and the number of iterations; [Broken]: x is not finite (the
    loop stops, as all comparisons with nr/nr0 fail) *)
Inductive cg_result := Finished (s : cg_state) (iters : nat) | Broken (iters : nat).
(** lines 117-140; [k] = max_iter - iter *)
Fixpoint cg_loop (p : cg_params) (n : nat) (A : nat -> nat -> R) (nr0 : R) (k iter : nat) (s : cg_state) : cg_result :=
  match k with
  | O => Finished s iter
  | S k =>
    if going p (fdiv (norm n (cr s)) nr0) then
      match cg_step n A s with
      | Some s => cg_loop p n A nr0 k (S iter) s
      | None => Broken (S iter)
      end
    else Finished s iter
  end.
(** the state before the loop, lines 99-107 *)
Definition cg_init (p : cg_params) (n : nat) (A : nat -> nat -> R) (b x : nat -> R) : cg_state :=
  let x := if use_initial_guess p then x else fun _ => 0 in
  let r := fun i => b i - amul n A x i in
  mkCS x r r.
(** line 113 *)
Definition cg_limit (p : cg_params) (n : nat) : nat := if (max_iter p =? 0)%nat then (2 * n)%nat else max_iter p.

(** solver.hpp:68-156: the returned flag, the vector x afterwards ([None]: not finite) and the
    number of iterations *)
Definition conjugated_gradient (p : cg_params) (A : rmat) (b x : rvec) : bool * option rvec * nat :=
  if negb (rrows A =? rcols A)%nat then (false, Some x, O)
  else let n := rcols A in
  if negb (rsize b =? n)%nat then (false, Some x, O)
  else if negb (rsize x =? n)%nat then (false, Some x, O)
  else
    let s := cg_init p n (rcoef A) (rent b) (rent x) in
    match cg_loop p n (rcoef A) (norm n (cr s)) (cg_limit p n) 0 s with
    | Finished s k => (true, Some (mkRV n (cx s)), k)
    | Broken k => (true, None, k)
    end.

(** ** The overload reading its parameters from Lua, solver.hpp:158-180 *)
Inductive lua_value := LNum (x : R) | LInt (n : nat) | LBool (b : bool).
(** a Lua state: the value at a path of table keys; a missing table makes the whole path missing *)
Definition lua_state := list string -> option lua_value.
Local Open Scope string_scope.
Definition get_num (l : lua_state) (path : list string) (dflt : R) : R :=
  match l path with Some (LNum x) => x | _ => dflt end.
Definition get_int (l : lua_state) (path : list string) (dflt : nat) : nat :=
  match l path with Some (LInt n) => n | _ => dflt end.
(** lines 167-170; line 168 reads the table "sover" *)
Definition cg_lua_params (l : lua_state) : cg_params :=
  mkCG (get_num l ["sover"; "cg"; "rr_tol"] (/ 10 ^ 8))
       (get_num l ["solver"; "cg"; "rr_max"] 20)
       (get_int l ["solver"; "cg"; "max_iter"] 1000)
       false.
Definition conjugated_gradient_lua (l : lua_state) (A : rmat) (b x : rvec) := conjugated_gradient (cg_lua_params l) A b x.
