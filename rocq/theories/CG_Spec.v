(** Specification vocabulary for the conjugate gradient solver. *)
From Coq Require Import Reals.
From Verif Require Import CG_Model.
Local Open Scope R_scope.

(** the residual b - A x, entry by entry, and its Euclidean norm *)
Definition residual (A : rmat) (b x : rvec) (i : nat) : R := rent b i - rsum (rcols A) (fun j => rcoef A i j * rent x j).
Definition residual_norm (A : rmat) (b x : rvec) : R := sqrt (rsum (rcols A) (fun i => residual A b x i * residual A b x i)).
Definition sized (A : rmat) (b x : rvec) : Prop := rrows A = rcols A /\ rsize b = rcols A /\ rsize x = rcols A.
(** the vector the iteration starts from *)
Definition starting (p : cg_params) (x : rvec) : rvec := if use_initial_guess p then x else mkRV (rsize x) (fun _ => 0).
Definition symmetric (A : rmat) : Prop := forall i j, (i < rcols A)%nat -> (j < rcols A)%nat -> rcoef A i j = rcoef A j i.
Definition positive_definite (A : rmat) : Prop :=
  forall v : nat -> R, (exists i, (i < rcols A)%nat /\ v i <> 0) ->
    0 < rsum (rcols A) (fun i => v i * rsum (rcols A) (fun j => rcoef A i j * v j)).
(** the same parameters with another iteration limit *)
Definition with_limit (p : cg_params) (k : nat) : cg_params := mkCG (rr_tol p) (rr_max p) k (use_initial_guess p).
(** the k-th iterate: the starting vector for k = 0, otherwise the answer of the solver allowed k iterations *)
Definition iterate (p : cg_params) (A : rmat) (b x : rvec) (k : nat) : option rvec :=
  match k with O => Some (starting p x) | S _ => snd (fst (conjugated_gradient (with_limit p k) A b x)) end.
Definition orthogonal (A : rmat) (u v : nat -> R) : Prop := rsum (rcols A) (fun i => u i * v i) = 0.
Definition conjugate (A : rmat) (u v : nat -> R) : Prop :=
  rsum (rcols A) (fun i => u i * rsum (rcols A) (fun j => rcoef A i j * v j)) = 0.
