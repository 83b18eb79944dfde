(** Specification vocabulary for behaviour laws. *)
From Coq Require Import List Arith Bool Reals.
From Verif Require Import Common Tensor_Model Tensor_Spec Law_Model.
Import ListNotations.
Local Open Scope R_scope.

(** trace and von Mises norm of a 3x3 matrix: sqrt(3/2 dev:dev) *)
Definition tr3 (S : mtx) : R := sig 3 (fun i => S i i).
Definition dev3 (S : mtx) : mtx := fun i j => S i j - tr3 S / 3 * delta i j.
Definition vonmises (S : mtx) : R := sqrt (3 / 2 * sig 3 (fun i => sig 3 (fun j => dev3 S i j * dev3 S i j))).
(** the DIM x DIM matrix completed with zeros *)
Definition in_plane (DIM : nat) (M : mtx) : mtx := fun i j => if ((i <? DIM) && (j <? DIM))%nat%bool then M i j else 0.
(** Hooke's law *)
Definition isotropic (m : material) (e S : mtx) : Prop :=
  meq 3 S (fun i j => 2 * m_mu m * e i j + m_lambda m * tr3 e * delta i j).

(** r is the ordinate at p of the polyline through the points of c, whose first and last segments
    are extended *)
Definition on_curve (c : list (R * R)) (p r : R) : Prop :=
  exists i x0 y0 x1 y1, nth_error c i = Some (x0, y0) /\ nth_error c (S i) = Some (x1, y1) /\
    (i = 0%nat \/ x0 <= p) /\ (S (S i) = length c \/ p <= x1) /\ r = y0 + (y1 - y0) / (x1 - x0) * (p - x0).
(** increasing abscissae, and no segment softens faster than the elastic unloading line *)
Definition curve_ok (mu : R) (c : list (R * R)) : Prop :=
  (2 <= length c)%nat /\
  forall i x0 y0 x1 y1, nth_error c i = Some (x0, y0) -> nth_error c (S i) = Some (x1, y1) ->
    x0 < x1 /\ 0 < 3 * mu + (y1 - y0) / (x1 - x0).

(** what a strain increment does, with the new state q', its 3D stress S, the driving stress (given
    by the law for a stress and a plastic strain) and the yield limit for a cumulated plastic strain.
    Plastic strain flows along the deviator of the driving stress. *)
Definition return_ok (drive : mtx -> mtx -> mtx) (limit : R -> R -> Prop) (m : material) (q : qp) (strain : mtx) (q' : qp) (S : mtx) : Prop :=
  meq 3 (madd (ee_curr q') (ep_curr q')) strain /\
  isotropic m (ee_curr q') S /\
  tr3 (ep_curr q') = 0 /\
  (ee_prev q' = ee_prev q /\ ep_prev q' = ep_prev q /\ p_prev q' = p_prev q) /\
  exists Strial r, isotropic m (madd strain (mscal (-1) (ep_prev q))) Strial /\ limit (p_prev q) r /\
    ((vonmises (drive Strial (ep_prev q)) < r /\ plastic q' = false /\ ep_curr q' = ep_prev q /\ p_curr q' = p_prev q) \/
     (r <= vonmises (drive Strial (ep_prev q)) /\ plastic q' = true /\ p_prev q <= p_curr q' /\
      limit (p_curr q') (vonmises (drive S (ep_curr q'))) /\
      exists n, meq 3 (ep_curr q') (madd (ep_prev q) (mscal (p_curr q' - p_prev q) n)) /\ tr3 n = 0 /\
        sig 3 (fun i => sig 3 (fun j => n i j * n i j)) = 3 / 2 /\
        meq 3 (dev3 (drive S (ep_curr q'))) (mscal (2 / 3 * vonmises (drive S (ep_curr q'))) n))).
Definition iso_drive (S ep : mtx) : mtx := S.
Definition kin_drive (K : R) (S ep : mtx) : mtx := madd S (mscal (- K) ep).

(** states a quadrature point can be in: any history of computations (kept or not) and updates *)
Inductive reachable (law : nat -> material -> qp -> mtx -> bool -> law_result) (DIM : nat) (m : material) : qp -> Prop :=
| reach_new : reachable law DIM m qp_make
| reach_compute q strain t q' s C : reachable law DIM m q -> law_whole law DIM m q strain t = Ok (Some (q', s, C)) -> reachable law DIM m q'
| reach_update q : reachable law DIM m q -> reachable law DIM m (qp_update q).

(** coefficient of a tensor, and its product with a matrix *)
Definition tcoef (T : mtx) (i j k l : nat) : R := match coeff 3 T i j k l with Ok x => x | _ => 0 end.
Definition tapply (T H : mtx) : mtx := fun i j => sig 3 (fun k => sig 3 (fun l => tcoef T i j k l * H k l)).
(** L is the derivative of f at F in the direction H: f is defined around F along H and its entries
    have the entries of L as derivatives *)
Definition derivative_along (f : mtx -> outcome mtx) (F H L : mtx) : Prop :=
  exists g d, 0 < d /\ (forall t, Rabs t < d -> f (madd F (mscal t H)) = Ok (g t)) /\
    forall i j, (i < 3)%nat -> (j < 3)%nat -> derivable_pt_lim (fun t => g t i j) 0 (L i j).
Definition derivative_along_R (f : mtx -> outcome R) (F H : mtx) (l : R) : Prop :=
  exists g d, 0 < d /\ (forall t, Rabs t < d -> f (madd F (mscal t H)) = Ok (g t)) /\ derivable_pt_lim g 0 l.
(** the stress a law returns, as a function of the strain *)
Definition stress_of (r : law_result) : outcome mtx :=
  match r with Ok (Some (_, s, _)) => Ok s | Ok None => UB | Throw e => Throw e | UB => UB end.
(** the same for 2x2 matrices *)
Definition tapply2 (T H : mtx) : mtx := fun i j =>
  sig 2 (fun k => sig 2 (fun l => (match coeff 2 T i j k l with Ok x => x | _ => 0 end) * H k l)).
(** identity *)
Definition eye : mtx := delta.
