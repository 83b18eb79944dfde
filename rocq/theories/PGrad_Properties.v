(** Theorems about project_gradient. *)
From Coq Require Import List Arith Reals Lra Lia Bool.
From Verif Require Import Poly_Spec Poly_Proofs HHO_Spec VHHO_Spec HHO_Model VHHO_Model HHO_Setting HHO_Proofs HHO2_Proofs VHHO_Proofs VHHO4_Proofs VHHO5_Proofs PGrad_Model PGrad_Proofs
  HHOInst_Proofs HHOInst2_Proofs HHOInst_Properties HHO9_Proofs.
Import ListNotations.
Open Scope R_scope.

(** the vector field whose coefficients are [u]: on the functions of the vector basis after the [d] constants *)
Definition gfield (d : nat) (c : scell) (k : nat) (u : nat -> R) : tf :=
  let b := vec_basis d (el_basis (cl_elem c) k) in vlin (v_size b - d) u (fun j => v_comp b (d + j)%nat).
(** the product of two matrices *)
Definition frob (d : nat) (A B : mtx) : R := sg d (fun a => sg d (fun r => A a r * B a r)).
(** the gradient of a vector field at a point *)
Definition grad_at (d : nat) (V : tf) (x : pt) : mtx := fun a r => peval (pdiff r (V a)) x.
(** the integral of the product of two gradients *)
Definition gprod (d : nat) (P : polytope) (V W : tf) : R := po_int P (psum d (fun a => psum d (fun r => PMul (pdiff r (V a)) (pdiff r (W a))))).

Lemma gprod_eq d P (HI : integral (po_on P) (po_int P)) V W : po_int P (vdot (d * d) (mgrad d V) (mgrad d W)) = gprod d P V W.
Proof.
  apply (I_ext _ _ HI). intros x. rewrite peval_vdot, sg_blocks, peval_psum. apply sg_ext. intros a _. rewrite peval_psum. apply sg_ext. intros r Hr.
  cbn [peval]. rewrite !mgrad_row by exact Hr. reflexivity.
Qed.
Lemma gfield_eq d P c k u : cell_fits d P c -> (0 < d)%nat -> (1 <= k)%nat -> gfield d c k u = rfun d c k u.
Proof. intros HC Hd Hk. unfold gfield, rfun. rewrite (n_eq d P c HC Hd k Hk). reflexivity. Qed.
Lemma frob_grad d W (f : pt -> mtx) x : sg d (fun a => sg d (fun r => peval (mgrad d W (d * a + r)%nat) x * f x a r)) = frob d (grad_at d W x) (f x).
Proof. apply sg_ext. intros a _. apply sg_ext. intros r Hr. rewrite mgrad_row by exact Hr. reflexivity. Qed.

Lemma sg_five m F1 F2 F3 F4 F5 : (forall i, (i < m)%nat -> F1 i = F2 i - 2 * (F3 i - F4 i) + F5 i) ->
  sg m F1 = sg m F2 - 2 * (sg m F3 - sg m F4) + sg m F5.
Proof. induction m as [|m IH]; intros H; cbn [sg]; [ring|]. rewrite IH, H by (intros; first [apply H|idtac]; lia). ring. Qed.
Lemma qsum_five (l : list (pt * R)) F1 F2 F3 F4 F5 : (forall x, F1 x = F2 x - 2 * (F3 x - F4 x) + F5 x) ->
  qsum l F1 = qsum l F2 - 2 * (qsum l F3 - qsum l F4) + qsum l F5.
Proof. intros H. induction l as [|[x w] l IH]; cbn [qsum]; [ring|]. rewrite IH, H. ring. Qed.

(** ** C207: the gradient of the field returned is the projection of the matrix field on the gradients *)
Theorem C207_gradient : forall ldlt, solves_spd ldlt -> forall d P c, cell_fits d P c -> (0 < d)%nat -> forall k, (1 <= k)%nat -> forall f di,
  let v := gfield d c k (project_gradient ldlt d (cl_elem c) k f di) in
  vdeg d v k /\ vvars d d v /\
  forall w, vdeg d w k -> vvars d d w ->
  gprod d P w v = qsum (el_quad (cl_elem c) (2 * (k + di))) (fun x => frob d (grad_at d w x) (f x)).
Proof.
  intros ldlt HS d P c HC Hd k Hk f di v. unfold v. rewrite (gfield_eq d P c k _ HC Hd Hk). split; [apply (rfun_deg d P c HC Hd k Hk)|]. split; [apply (rfun_vars d P c HC k)|].
  intros w Dw Vw. rewrite <- (gprod_eq d P (poly_int _ _ (cf_poly _ _ _ HC))). rewrite (weak d P c HC Hd k Hk ldlt HS f di w Dw Vw).
  apply qsum_ext. intros x. apply frob_grad.
Qed.
(** the gradient of a polynomial field of higher degree is replaced by its L2 projection on the gradients; a field of
    the degree of the basis is found up to a constant *)
Theorem C207_polynomial : forall ldlt, solves_spd ldlt -> forall d P c, cell_fits d P c -> (0 < d)%nat -> forall k, (1 <= k)%nat -> forall f di p m,
  let v := gfield d c k (project_gradient ldlt d (cl_elem c) k f di) in
  vdeg d p m -> (m <= k + 2 + 2 * di)%nat -> (forall x a r, (a < d)%nat -> (r < d)%nat -> f x a r = peval (pdiff r (p a)) x) ->
  (forall w, vdeg d w k -> vvars d d w -> gprod d P w v = gprod d P w p) /\
  (vvars d d p -> (m <= k)%nat -> exists z, forall a x, (a < d)%nat -> po_on P x -> peval (p a) x = peval (v a) x + z a).
Proof.
  intros ldlt HS d P c HC Hd k Hk f di p m v Dp Hm Hf. pose proof (poly_int _ _ (cf_poly _ _ _ HC)) as HI.
  destruct (C207_gradient ldlt HS d P c HC Hd k Hk f di) as (Dv & Vv & H). fold v in Dv, Vv, H.
  assert (A : forall w, vdeg d w k -> vvars d d w -> gprod d P w v = gprod d P w p).
  { intros w Dw Vw. rewrite H by assumption. unfold gprod.
    rewrite <- (exact_int _ _ HI _ (fit_quad _ _ _ (cf_elem _ _ _ HC)) (2 * (k + di))).
    - apply qsum_ext. intros x. unfold frob, grad_at. rewrite peval_psum. apply sg_ext. intros a Ha. rewrite peval_psum. apply sg_ext. intros r Hr. rewrite Hf by assumption. reflexivity.
    - apply (deg_le_mono _ (k - 1 + (m - 1))); [lia|]. apply deg_le_psum. intros a Ha. apply deg_le_psum. intros r _. apply deg_le_mul; apply deg_le_diff; [apply Dw|apply Dp]; exact Ha. }
  split; [exact A|]. intros Vp Hmk. destruct (poly_point _ _ (cf_poly _ _ _ HC)) as (x0 & H0).
  exists (fun a => peval (p a) x0 - peval (v a) x0). intros a x Ha Hx. pose (w := fun a => psubp (p a) (v a)).
  assert (Dw : vdeg d w k). { intros i Hi. apply deg_le_sub; [apply (deg_le_mono _ m); [exact Hmk|apply Dp, Hi]|apply Dv, Hi]. }
  assert (Vw : vvars d d w). { intros i Hi. unfold w, psubp, pscal. cbn [pvars]. repeat split; [apply Vp, Hi|apply Vv, Hi]. }
  assert (Z : gprod d P w w = 0).
  { rewrite <- (Rminus_diag_eq _ _ (eq_sym (A w Dw Vw))). unfold gprod. rewrite <- (I_sub _ _ HI). apply (I_ext _ _ HI). intros y. unfold psubp at 1, pscal at 1. cbn [peval]. rewrite !peval_psum, <- sg_scal, <- sg_plus. apply sg_ext. intros i _.
    rewrite !peval_psum, <- sg_scal, <- sg_plus. apply sg_ext. intros r _. unfold w. cbn [peval psubp pscal pdiff]. ring. }
  assert (Q : forall r y, (r < d)%nat -> po_on P y -> peval (pdiff r (w a)) y = 0).
  { intros r y Hr Hy. rewrite <- (gprod_eq d P HI) in Z. pose proof (vdot_sq_def _ _ HI (d * d) (mgrad d w) Z (d * a + r)%nat y ltac:(nia) Hy) as E. rewrite mgrad_row in E by exact Hr. exact E. }
  pose proof (poly_conn _ _ (cf_poly _ _ _ HC) (w a) Q x x0 Hx H0) as E. unfold w, psubp, pscal in E. cbn [peval] in E. lra.
Qed.
(** no other field of that degree has a gradient closer to the values at the points *)
Theorem C207_least_squares : forall ldlt, solves_spd ldlt -> forall d P c, cell_fits d P c -> (0 < d)%nat -> forall k, (1 <= k)%nat -> forall f di,
  let v := gfield d c k (project_gradient ldlt d (cl_elem c) k f di) in
  let err := fun z => qsum (el_quad (cl_elem c) (2 * (k + di))) (fun x => frob d (fun a r => f x a r - grad_at d z x a r) (fun a r => f x a r - grad_at d z x a r)) in
  forall z, vdeg d z k -> vvars d d z -> err v <= err z.
Proof.
  intros ldlt HS d P c HC Hd k Hk f di v err z Dz Vz. pose proof (poly_int _ _ (cf_poly _ _ _ HC)) as HI.
  destruct (C207_gradient ldlt HS d P c HC Hd k Hk f di) as (Dv & Vv & H). fold v in Dv, Vv, H. set (q := el_quad (cl_elem c) (2 * (k + di))) in *.
  pose (w := fun a => psubp (z a) (v a)).
  assert (Dw : vdeg d w k). { intros i Hi. apply deg_le_sub; [apply Dz, Hi|apply Dv, Hi]. }
  assert (Vw : vvars d d w). { intros i Hi. unfold w, psubp, pscal. cbn [pvars]. repeat split; [apply Vz, Hi|apply Vv, Hi]. }
  assert (EX : forall g h, vdeg d g k -> vdeg d h k -> qsum q (fun x => frob d (grad_at d g x) (grad_at d h x)) = gprod d P g h).
  { intros g h Dg Dh. unfold gprod. rewrite <- (exact_int _ _ HI _ (fit_quad _ _ _ (cf_elem _ _ _ HC)) (2 * (k + di))).
    - apply qsum_ext. intros x. unfold frob, grad_at. rewrite peval_psum. apply sg_ext. intros a Ha. rewrite peval_psum. reflexivity.
    - apply (deg_le_mono _ (k - 1 + (k - 1))); [lia|]. apply deg_le_psum. intros a Ha. apply deg_le_psum. intros r _. apply deg_le_mul; apply deg_le_diff; [apply Dg|apply Dh]; exact Ha. }
  assert (E : err z = err v - 2 * (qsum q (fun x => frob d (grad_at d w x) (f x)) - qsum q (fun x => frob d (grad_at d w x) (grad_at d v x))) + qsum q (fun x => frob d (grad_at d w x) (grad_at d w x))).
  { apply qsum_five. intros x. apply sg_five. intros a _. apply sg_five. intros r _. unfold grad_at, w. cbn [psubp pscal pdiff peval]. ring. }
  rewrite E, <- (H w Dw Vw), (EX w v Dw Dv), (EX w w Dw Dw). rewrite <- (gprod_eq d P HI w w). pose proof (vdot_sq_pos _ _ HI (d * d) (mgrad d w)). lra.
Qed.

(** the hypotheses hold for the triangle (0,0), (2,0), (0,1): the gradient of (x y, x + 3) gives the field back, up to
    a constant *)
Definition pg_p : tf := fun a => match a with O => PMul (PX 0) (PX 1) | _ => PAdd (PX 0) (PC 3) end.
Example C207_example : exists z, forall a x, (a < 2)%nat -> po_on T1 x ->
  peval (pg_p a) x = peval (gfield 2 c1 2 (project_gradient elim_solve 2 (cl_elem c1) 2 (fun x a r => peval (pdiff r (pg_p a)) x) 0) a) x + z a.
Proof.
  apply (C207_polynomial elim_solve elim_solves 2 T1 c1 c1_fits ltac:(lia) 2 ltac:(lia) _ 0 pg_p 2); [|lia|reflexivity| |lia].
  - intros [|[|a]] Ha; try lia; apply deg_le_pdeg; cbn; lia.
  - intros [|[|a]] Ha; try lia; cbn; repeat split; lia.
Qed.
Print Assumptions C207_gradient.
Print Assumptions C207_polynomial.
Print Assumptions C207_least_squares.
