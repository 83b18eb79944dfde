(** The forms of bases_new.hpp / bases_operations.hpp, the projections built on them and the scalar Laplacian of
    hho_slapl.hpp. *)
From Coq Require Import List Arith Reals Lra Lia Bool.
From Verif Require Import Poly_Spec Poly_Proofs HHO_Spec HHO_Model HHO_Setting HHO_Proofs HHO2_Proofs HHO3_Proofs HHO4_Proofs HHO5_Proofs HHO6_Proofs HHO7_Proofs HHO8_Proofs HHO9_Proofs HHO10_Proofs
  HHOInst_Proofs HHOInst2_Proofs HHOInst_Properties SLapl_Model SLapl_Proofs SLapl2_Proofs.
Import ListNotations.
Open Scope R_scope.

(** ** C109: integrate(trial, test) is the matrix of the integrals of the products, rows for the test functions *)
Theorem C109_forms : forall on I, integral on I -> forall e, exact (el_quad e) I -> forall trial test d n,
  (forall j, (j < b_size trial)%nat -> deg_le (b_poly trial j) (b_deg trial)) ->
  (forall i, (i < b_size test)%nat -> deg_le (b_poly test i) (b_deg test)) ->
  forall i j, (i < b_size test)%nat -> (j < b_size trial)%nat ->
  integrate_forms e (scalar_ev trial) (scalar_ev test) i j = I (PMul (b_poly test i) (b_poly trial j)) /\
  integrate_forms e (grad_ev d trial) (grad_ev d test) i j = I (graddot d (b_poly trial j) (fun k => pdiff k (b_poly test i))) /\
  integrate_forms e (scalar_ev trial) (dot_ev (grad_ev d test) n) i j =
    I (PMul (b_poly trial j) (psum d (fun k => pscal (n k) (pdiff k (b_poly test i))))).
Proof.
  intros on I HI e HQ trial test d n Gt Gs i j Hi Hj. split; [|split].
  - apply (scalar_forms _ _ HI _ HQ); assumption.
  - apply (grad_forms _ _ HI _ HQ); assumption.
  - rewrite (dot_forms _ _ HI _ HQ) by assumption. apply (I_ext _ _ HI). intros x. cbn [peval]. f_equal. unfold flux. rewrite !peval_psum. apply sg_ext. intros k Hk.
    unfold pscal. cbn [peval]. change delta with (tensor_of None). rewrite <- tens_eq by exact Hk. cbn [tens]. ring.
Qed.
(** the right-hand side (f, v), for polynomials one degree above the basis *)
Theorem C109_rhs : forall on I, integral on I -> forall e, exact (el_quad e) I -> forall b f,
  (forall j, (j < b_size b)%nat -> deg_le (b_poly b j) (b_deg b)) -> deg_le f (b_deg b + 1) ->
  forall i, (i < b_size b)%nat -> integrate_rhs e (peval f) b i = I (PMul (b_poly b i) f).
Proof. intros on I HI e HQ b f G D i Hi. apply (rhs_int _ _ HI _ HQ); assumption. Qed.
(** mt * grad(trial) against grad(test): the k-th component is the sum over m of mt(m,k) d_m(trial), the product by
    the transposed tensor; exact when the entries of the tensor have degree at most one *)
Theorem C109_material : forall on I, integral on I -> forall e, exact (el_quad e) I -> forall d mt trial test,
  (forall m k, deg_le (mt m k) 1) ->
  (forall j, (j < b_size trial)%nat -> deg_le (b_poly trial j) (b_deg trial)) ->
  (forall i, (i < b_size test)%nat -> deg_le (b_poly test i) (b_deg test)) ->
  forall i j, (i < b_size test)%nat -> (j < b_size trial)%nat ->
  integrate_forms e (material_ev (fun x m k => peval (mt m k) x) (grad_ev d trial)) (grad_ev d test) i j =
  I (graddot d (b_poly test i) (fun k => psum d (fun m => PMul (mt m k) (pdiff m (b_poly trial j))))).
Proof. intros on I HI e HQ d mt trial test Dm Gt Gs i j Hi Hj. apply (material_forms _ _ HI _ HQ); assumption. Qed.

(** ** C110: the L2 projections *)
Theorem C110_project : forall ldlt, solves_spd ldlt -> forall on I, integral on I -> forall e, elem_fits on I e -> forall k p,
  deg_le p (k + 1) ->
  l2proj I k p (lincomb (b_size (el_basis e k)) (L2_project ldlt e (peval p) (el_basis e k)) (b_poly (el_basis e k))).
Proof. intros ldlt HS on I HI e F k p D. apply (L2_project_l2 _ _ HI _ F ldlt HS k p D). Qed.
(** L2_projector has one quadrature, of twice the degree of its basis: it reproduces the polynomials of that degree,
    and so does its matrix for another basis *)
Theorem C110_projector : forall ldlt, solves_spd ldlt -> forall on I, integral on I -> forall e, elem_fits on I e -> forall k,
  let b := el_basis e k in
  (forall p, deg_le p k -> forall x, on x -> peval (lincomb (b_size b) (projector_apply ldlt e b (peval p)) (b_poly b)) x = peval p x) /\
  (forall other j, (j < b_size other)%nat -> deg_le (b_poly other j) k ->
     forall x, on x -> peval (lincomb (b_size b) (fun i => projector_basis ldlt e b other i j) (b_poly b)) x = peval (b_poly other j) x).
Proof.
  intros ldlt HS on I HI e F k b. split.
  - intros p D. apply (l2proj_id _ _ HI _ F k p _ D). apply (projector_apply_l2 _ _ HI _ F ldlt HS k p D).
  - intros other j Hj D. apply (l2proj_id _ _ HI _ F k _ _ D). apply (projector_basis_l2 _ _ HI _ F ldlt HS k other j Hj D).
Qed.

(** on the triangle (0,0), (2,0), (0,1) the rules of degree 0 and 1 are the centroid (2/3, 1/3) *)
Lemma c1_rule g deg : (deg <= 1)%nat -> (forall x y : pt, x 0%nat = y 0%nat -> x 1%nat = y 1%nat -> g x = g y) ->
  qsum (el_quad (cl_elem c1) deg) g = g (pt2 (2/3) (1/3)).
Proof.
  intros Hd Hg. replace (el_quad (cl_elem c1) deg) with (el_quad (cl_elem c1) 0) by (destruct deg as [|[|deg]]; [reflexivity|reflexivity|lia]).
  cbn -[fact]. rewrite (Hg _ (pt2 (2/3) (1/3))).
  - match goal with |- ?a * _ + 0 = _ => replace a with 1; [ring|] end. replace ((2 - 0) * (1 - 0) - (0 - 0) * (0 - 0)) with 2 by ring. rewrite (Rabs_right 2) by lra. cbn. lra.
  - cbn. lra.
  - cbn. lra.
Qed.
Lemma c1_x2 : po_int T1 (PMul (PX 0) (PX 0)) = 2 / 3.
Proof.
  rewrite <- (exact_int _ _ (poly_int _ _ (cf_poly _ _ _ c1_fits)) _ (fit_quad _ _ _ (cf_elem _ _ _ c1_fits)) 2 (PMul (PX 0) (PX 0))) by (exists (PMul (PX 0) (PX 0)); split; [cbn; lia|reflexivity]).
  cbn. replace ((2 - 0) * (1 - 0) - (0 - 0) * (0 - 0)) with 2 by ring. rewrite (Rabs_right 2) by lra. field.
Qed.
Lemma c1_pint (p : pexp) : deg_le p 2 -> po_int T1 p = qsum (el_quad (cl_elem c1) 2) (peval p).
Proof. intros D. symmetry. apply (exact_int _ _ (poly_int _ _ (cf_poly _ _ _ c1_fits)) _ (fit_quad _ _ _ (cf_elem _ _ _ c1_fits)) 2 p D). Qed.
Lemma elim1 M b : M 0%nat 0%nat = 1 -> elim_solve 1 M b 0%nat = b 0%nat.
Proof. intros E. cbn. rewrite E. field. Qed.
Lemma c1_b0 : b_size (el_basis (cl_elem c1) 0) = 1%nat /\ forall x, peval (b_poly (el_basis (cl_elem c1) 0) 0) x = 1.
Proof. split; [reflexivity|]. apply (cf_one _ _ _ c1_fits 0). Qed.
Lemma c1_one : po_int T1 (PC 1) = 1.
Proof. rewrite c1_pint by (apply deg_le_const). cbn. replace ((2 - 0) * (1 - 0) - (0 - 0) * (0 - 0)) with 2 by ring. rewrite (Rabs_right 2) by lra. field. Qed.
(** a constant that is the projection of [p] is its mean *)
Lemma c1_mean p v : l2proj (po_int T1) 0 p (lincomb 1 v (b_poly (el_basis (cl_elem c1) 0))) -> po_int T1 p = v 0%nat.
Proof.
  intros (_ & H). pose proof (poly_int _ _ (cf_poly _ _ _ c1_fits)) as HI. specialize (H (PC 1) (deg_le_const 1 0)).
  rewrite (I_ext _ _ HI _ (pscal (v 0%nat) (PC 1))) in H.
  - rewrite (int_scal _ _ HI), c1_one in H. rewrite (I_ext _ _ HI p (PMul (PC 1) p)) by (intros x; cbn [peval]; ring). lra.
  - intros x. unfold pscal. cbn [peval]. rewrite peval_lincomb. cbn [sg]. rewrite (proj2 c1_b0). ring.
Qed.
Lemma c1_mass : projector_mass (cl_elem c1) (el_basis (cl_elem c1) 0) 0%nat 0%nat = 1.
Proof.
  rewrite (projector_mass_eq _ _ (poly_int _ _ (cf_poly _ _ _ c1_fits)) _ (cf_elem _ _ _ c1_fits) 0) by (rewrite (proj1 c1_b0); lia).
  rewrite <- c1_one. apply (I_ext _ _ (poly_int _ _ (cf_poly _ _ _ c1_fits))). intros x. cbn [peval]. rewrite (proj2 c1_b0). ring.
Qed.
(** beyond that degree neither is the L2 projection: on the triangle (0,0), (2,0), (0,1), piecewise constants *)
Theorem C110_projector_refuted : exists P e, integral (po_on P) (po_int P) /\ elem_fits (po_on P) (po_int P) e /\
  let b := el_basis e 0 in
  (exists p, deg_le p 2 /\ ~ l2proj (po_int P) 0 p (lincomb (b_size b) (projector_apply elim_solve e b (peval p)) (b_poly b))) /\
  (exists j, (j < b_size (el_basis e 2))%nat /\
     ~ l2proj (po_int P) 0 (b_poly (el_basis e 2) j) (lincomb (b_size b) (fun i => projector_basis elim_solve e b (el_basis e 2) i j) (b_poly b))).
Proof.
  exists T1, (cl_elem c1). split; [apply (poly_int _ _ (cf_poly _ _ _ c1_fits))|]. split; [apply (cf_elem _ _ _ c1_fits)|]. intros b. split.
  - exists (PMul (PX 0) (PX 0)). split; [exists (PMul (PX 0) (PX 0)); split; [cbn; lia|reflexivity]|]. intros H. apply c1_mean in H. rewrite c1_x2 in H.
    unfold projector_apply in H. change (b_size b) with 1%nat in H. rewrite elim1 in H by apply c1_mass.
    assert (G : forall q r, fold_left (fun r (qp : pt * R) => let '(x, w) := qp in fun i => r i + w * phi b x i * peval (PMul (PX 0) (PX 0)) x) q r 0%nat = r 0%nat + qsum q (fun x => phi b x 0%nat * peval (PMul (PX 0) (PX 0)) x)).
    { induction q as [|[x w] q IH]; intros r; [cbn [fold_left qsum]; lra|]. cbn [fold_left qsum]. rewrite IH. ring. }
    rewrite G in H. unfold projector_qps, zeroV in H. rewrite c1_rule in H; [| cbn; lia |].
    + unfold phi, b in H. rewrite (proj2 c1_b0) in H. cbn [peval pt2] in H. lra.
    + intros x y E0 E1. unfold phi, b. rewrite !(proj2 c1_b0). cbn [peval]. rewrite E0. ring.
  - exists 3%nat. split; [cbn; lia|]. intros H. change (b_size b) with 1%nat in H. apply c1_mean in H.
    unfold projector_basis, solveM in H. change (b_size b) with 1%nat in H. rewrite elim1 in H by apply c1_mass.
    rewrite accumulate_eq in H. unfold zeroM, projector_qps in H. rewrite c1_rule in H; [| cbn; lia |].
    + rewrite c1_pint in H by (apply (basis_deg _ _ _ (cf_elem _ _ _ c1_fits)); cbn; lia). unfold phi at 1, b in H. rewrite (proj2 c1_b0) in H. revert H.
      cbn. replace ((2 - 0) * (1 - 0) - (0 - 0) * (0 - 0)) with 2 by ring. rewrite (Rabs_right 2) by lra. intros H.
      field_simplify in H. lra.
    + intros x y E0 E1. unfold phi, b. rewrite !(proj2 c1_b0). f_equal. apply (pvars_ext 2); [apply (cf_vars _ _ _ c1_fits)|]. intros [|[|k]] Hk; [exact E0|exact E1|lia].
Qed.

(** ** C111: the reconstruction of local_operator *)
Theorem C111_reconstruction : forall ldlt, solves_spd ldlt -> forall d P c, cell_fits d P c -> forall cd fd, (cd <= fd + 1)%nat ->
  let rd := (fd + 1)%nat in let fdi := all_faces c fd in let N := num_dofs c cd fdi in
  let energy := fun p q => po_int P (graddot d p (kgrad d delta q)) in
  exists oper data, local_operator ldlt d c (degree_info cd fd) = Some (oper, data) /\
  (forall u w, pvars d w -> deg_le w rd ->
     energy (rec_fun c rd N oper u) w =
     energy (cell_fun c cd u) w +
     fsum2 (po_facets P) (faces_funs c cd fdi u) (fun f uF =>
       fa_int f (PMul (psubp uF (cell_fun c cd u)) (flux d delta (fa_normal f) w)))) /\
  (forall u v, quadf N data u v = energy (rec_fun c rd N oper u) (rec_fun c rd N oper v)).
Proof.
  intros ldlt HS d P c HC cd fd Hcd rd fdi N energy.
  destruct (sl_operator d P c HC ldlt HS rd cd fd ltac:(unfold rd; lia) Hcd) as (oper & data & E & A & B).
  exists oper, data. split; [exact E|]. split; [exact A|exact B].
Qed.
(** it is the identity, up to a constant, on the polynomials of its degree when the cell degree is that of the faces
    or one more *)
Theorem C111_consistency : forall ldlt, solves_spd ldlt -> forall d P c, cell_fits d P c -> forall cd fd p, (fd <= cd <= fd + 1)%nat ->
  pvars d p -> deg_le p (fd + 1) ->
  let N := num_dofs c cd (all_faces c fd) in
  exists oper data, local_operator ldlt d c (degree_info cd fd) = Some (oper, data) /\
  exists k, forall x, po_on P x ->
    peval p x = peval (rec_fun c (fd + 1) N oper (local_reduction ldlt c (degree_info cd fd) (peval p))) x + k.
Proof.
  intros ldlt HS d P c HC cd fd p Hcd Hv Hp N.
  destruct (sl_operator d P c HC ldlt HS (fd + 1) cd fd ltac:(lia) ltac:(lia)) as (oper & data & E & A & B).
  exists oper, data. split; [exact E|].
  destruct (reduction_l2 ldlt HS d P c HC cd fd (fd + 1) p ltac:(apply (deg_le_mono _ (fd + 1)); [lia|exact Hp]) Hp) as (RT & RF).
  apply (a_consistent d P c HC None (spd_delta d) (fd + 1) cd fd ltac:(lia) oper A p Hv Hp _ RT RF); lia.
Qed.
(** a cell degree too high for the reconstruction is not accepted *)
Theorem C111_undefined : forall ldlt d c cd fd,
  (b_size (el_basis (cl_elem c) (fd + 1)) < b_size (el_basis (cl_elem c) cd))%nat -> local_operator ldlt d c (degree_info cd fd) = None.
Proof.
  intros ldlt d c cd fd H. unfold local_operator, degree_info. cbn [cell_degree reconstruction_degree face_degree].
  apply Nat.leb_gt in H. rewrite H. reflexivity.
Qed.
(** with a cell degree below that of the faces the reduction does not integrate the products exactly, and consistency
    is lost: degrees 0 and 1 on the triangle (0,0), (2,0), (0,1), and x^2 *)
Theorem C111_low_cell_refuted : exists P c p, cell_fits 2 P c /\ pvars 2 p /\ deg_le p 2 /\
  exists oper data, local_operator elim_solve 2 c (degree_info 0 1) = Some (oper, data) /\
  ~ exists k, forall x, po_on P x ->
    peval p x = peval (rec_fun c 2 (num_dofs c 0 (all_faces c 1)) oper (local_reduction elim_solve c (degree_info 0 1) (peval p))) x + k.
Proof.
  exists T1, c1, (PMul (PX 0) (PX 0)). set (p := PMul (PX 0) (PX 0)). split; [exact c1_fits|]. split; [cbn; lia|].
  assert (Hp : deg_le p 2) by (exists p; split; [cbn; lia|reflexivity]). split; [exact Hp|].
  destruct (sl_operator 2 T1 c1 c1_fits elim_solve elim_solves 2 0 1 ltac:(lia) ltac:(lia)) as (oper & data & E & A & B).
  exists oper, data. split; [exact E|]. intros (k & Hk). set (u := local_reduction elim_solve c1 (degree_info 0 1) (peval p)) in *.
  pose proof (cf_poly _ _ _ c1_fits) as HP. pose proof (poly_int _ _ HP) as HI.
  specialize (A u p ltac:(cbn; lia) Hp).
  assert (Er : en 2 T1 (tensor_of None) p p = en 2 T1 (tensor_of None) (rec_fun c1 2 (num_dofs c1 0 (all_faces c1 1)) oper u) p).
  { apply Rminus_diag_uniq. rewrite <- (en_sub_l 2 T1 HP).
    assert (Z : forall x, po_on T1 x -> peval (psubp p (rec_fun c1 2 (num_dofs c1 0 (all_faces c1 1)) oper u)) x = k).
    { intros x Hx. unfold psubp, pscal. cbn [peval]. pose proof (Hk x Hx) as Q. cbn [peval p] in Q |- *. lra. }
    assert (C : en 2 T1 (tensor_of None) (PC k) p = 0).
    { apply (I_zero _ _ HI). intros x _. unfold graddot. rewrite peval_psum. apply sg_zero. intros a _. cbn [pdiff peval]. ring. }
    rewrite <- (Rminus_0_r (en _ _ _ _ _)). rewrite <- C. rewrite <- (en_sub_l 2 T1 HP), (en_green 2 T1 HP).
    set (z := psubp (psubp p (rec_fun c1 2 (num_dofs c1 0 (all_faces c1 1)) oper u)) (PC k)).
    assert (Z0 : forall x, po_on T1 x -> peval z x = 0) by (intros x Hx; unfold z, psubp at 1, pscal at 1; cbn [peval]; rewrite (Z x Hx); ring).
    rewrite (I_zero _ _ HI) by (intros x Hx; cbn [peval]; rewrite (Z0 x Hx); ring).
    rewrite (fsum_ext (po_facets T1) _ (fun _ => 0)).
    - cbn [T1 tri_poly po_facets fsum]. lra.
    - intros f Hf. apply (I_zero _ _ (fint 2 T1 c1 c1_fits f Hf)). intros x Hx. cbn [peval]. rewrite (Z0 x (fon 2 T1 c1 c1_fits f x Hf Hx)). ring. }
  pose proof (red_faces elim_solve elim_solves 1 p (po_facets T1) (cl_faces c1) Hp (faces_fit 2 T1 c1 c1_fits) (b_size (el_basis (cl_elem c1) 0))
    (set_seg zeroV 0 (b_size (el_basis (cl_elem c1) 0)) (L2_project elim_solve (cl_elem c1) (peval p) (el_basis (cl_elem c1) 0)))) as RF.
  assert (RF' : projs (po_facets T1) (all_faces c1 1) (faces_funs c1 0 (all_faces c1 1) u) p) by (unfold faces_funs; rewrite bases_of_l; exact RF). clear RF.
  pose proof (projs_flux 2 delta p p (po_facets T1) (all_faces c1 1) _ (fint 2 T1 c1 c1_fits) RF' (a_some c1 1)) as Q.
  assert (Q' := Q ltac:(intros k' f Hk' _; rewrite (a_fd c1 1 k' Hk'); apply (deg_flux 2 delta (fa_normal f) p 2 Hp)) (cell_fun c1 0 u)). clear Q.
  unfold form, rhs_form in A. rewrite <- Er, !(en_green 2 T1 HP) in A. cbn [tensor_of] in A.
  assert (V : po_int T1 (PMul (cell_fun c1 0 u) (divk 2 delta p)) = po_int T1 (PMul p (divk 2 delta p))) by lra.
  assert (Dv : forall x, peval (divk 2 delta p) x = 2) by (intros x; cbn; ring).
  assert (Uv : forall x, peval (cell_fun c1 0 u) x = 4 / 9).
  { intros x. unfold cell_fun. rewrite (proj1 c1_b0), peval_lincomb. cbn [sg]. rewrite (proj2 c1_b0).
    assert (U0 : u 0%nat = L2_project elim_solve (cl_elem c1) (peval p) (el_basis (cl_elem c1) 0) 0%nat).
    { unfold u, local_reduction, degree_info. cbn [cell_degree face_degree reconstruction_degree]. refine (eq_trans (red_before elim_solve 1 (peval p) (cl_faces c1) _ _ 0%nat _) _); [cbn; lia|]. rewrite set_seg_in by (cbn; lia). reflexivity. }
    rewrite U0. unfold L2_project. rewrite (proj1 c1_b0). rewrite elim1.
    - rewrite integrate_rhs_eq. rewrite c1_rule; [|cbn; lia|].
      + unfold phi. rewrite (proj2 c1_b0). cbn. lra.
      + intros a b E0 E1. unfold phi. rewrite !(proj2 c1_b0). cbn [peval p]. rewrite E0. reflexivity.
    - pose proof (MM_eq _ _ HI _ (cf_elem _ _ _ c1_fits) 0 0 0) as Q. unfold MM in Q. rewrite Q by (rewrite (proj1 c1_b0); lia).
      rewrite <- c1_one. apply (I_ext _ _ HI). intros y. cbn [peval]. rewrite (proj2 c1_b0). ring. }
  rewrite (I_ext _ _ HI _ (pscal (8 / 9) (PC 1))) in V by (intros x; unfold pscal; cbn [peval]; rewrite Dv, Uv; field).
  rewrite (I_ext _ _ HI (PMul p (divk 2 delta p)) (pscal 2 p)) in V by (intros x; unfold pscal; cbn [peval]; rewrite Dv; ring).
  rewrite !(int_scal _ _ HI), c1_one in V. unfold p in V. rewrite c1_x2 in V. lra.
Qed.

(** ** C112: the stabilisations and the reduction *)
Theorem C112_stabilization : forall ldlt, solves_spd ldlt -> forall d P c, cell_fits d P c -> forall cd fd oper, (cd <= fd + 1)%nat ->
  let fdi := all_faces c fd in let N := num_dofs c cd fdi in
  let S := sl_stabilization ldlt c (degree_info cd fd) oper in
  let rec := rec_fun c (fd + 1) N oper in
  (forall u v ru rv ju jv,
     l2proj (po_int P) cd (rec u) ru -> l2proj (po_int P) cd (rec v) rv ->
     jumps (po_facets P) fdi (faces_funs c cd fdi u) (PAdd (rec u) (psubp (cell_fun c cd u) ru)) ju ->
     jumps (po_facets P) fdi (faces_funs c cd fdi v) (PAdd (rec v) (psubp (cell_fun c cd v) rv)) jv ->
     quadf N S v u = fsum3 (po_facets P) ju jv (fun f a b => / po_diam P * fa_int f (PMul a b))) /\
  (forall u, exists ru ju, l2proj (po_int P) cd (rec u) ru /\
     jumps (po_facets P) fdi (faces_funs c cd fdi u) (PAdd (rec u) (psubp (cell_fun c cd u) ru)) ju) /\
  forall u v, quadf N S u v = quadf N S v u /\ 0 <= quadf N S u u.
Proof.
  intros ldlt HS d P c HC cd fd oper Hcd fdi N S rec.
  assert (Sc : forall f, In f (po_facets P) -> 0 < / po_diam P) by (intros f _; apply Rinv_0_lt_compat, (poly_diam _ _ (cf_poly _ _ _ HC))).
  split; [|split].
  - intros u v ru rv ju jv Pu Pv Ju Jv. apply (sl_hho_form d P c HC ldlt HS (fd + 1) cd fd oper u v ru rv ju jv Pu Pv Ju Jv).
  - intros u. destruct (l2_proj_exists _ _ (poly_int _ _ (cf_poly _ _ _ HC)) _ (cf_elem _ _ _ HC) ldlt HS cd (rec u)) as (r & Hr).
    destruct (face_jumps_exist d P c HC ldlt HS cd fdi u (PAdd (rec u) (psubp (cell_fun c cd u) r)) ltac:(apply map_length)) as (j & Hj).
    exists r, j. split; assumption.
  - intros u v. split.
    + apply (st_sym d P c HC ldlt HS cd fd S (sl_q c ldlt (fd + 1) cd fd oper) (fun _ => / po_diam P) (sl_hho_q d P c HC ldlt HS (fd + 1) cd fd oper)).
    + apply (st_pos d P c HC ldlt HS cd fd S (sl_q c ldlt (fd + 1) cd fd oper) (fun _ => / po_diam P) Sc (sl_hho_q d P c HC ldlt HS (fd + 1) cd fd oper)).
Qed.
(** the variant without reconstruction is not divided by the diameter *)
Theorem C112_stabilization_hdg : forall ldlt, solves_spd ldlt -> forall d P c, cell_fits d P c -> forall cd fd,
  let fdi := all_faces c fd in let N := num_dofs c cd fdi in
  let S := sl_stabilization_hdg ldlt c (degree_info cd fd) in
  (forall u v ju jv,
     jumps (po_facets P) fdi (faces_funs c cd fdi u) (cell_fun c cd u) ju ->
     jumps (po_facets P) fdi (faces_funs c cd fdi v) (cell_fun c cd v) jv ->
     quadf N S v u = fsum3 (po_facets P) ju jv (fun f a b => 1 * fa_int f (PMul a b))) /\
  (forall u, exists ju, jumps (po_facets P) fdi (faces_funs c cd fdi u) (cell_fun c cd u) ju) /\
  forall u v, quadf N S u v = quadf N S v u /\ 0 <= quadf N S u u.
Proof.
  intros ldlt HS d P c HC cd fd fdi N S.
  assert (Sc : forall f, In f (po_facets P) -> 0 < 1) by (intros; lra).
  split; [|split].
  - intros u v ju jv Ju Jv. apply (sl_hdg_form d P c HC ldlt HS (fd + 1) cd fd u v ju jv Ju Jv).
  - intros u. apply (face_jumps_exist d P c HC ldlt HS cd fdi u (cell_fun c cd u)). apply map_length.
  - intros u v. split.
    + apply (st_sym d P c HC ldlt HS cd fd S (cell_fun c cd) (fun _ => 1) (sl_hdg_form d P c HC ldlt HS (fd + 1) cd fd)).
    + apply (st_pos d P c HC ldlt HS cd fd S (cell_fun c cd) (fun _ => 1) Sc (sl_hdg_form d P c HC ldlt HS (fd + 1) cd fd)).
Qed.
(** with either, the local operator is nonnegative and vanishes exactly on the constants *)
Theorem C112_kernel : forall ldlt, solves_spd ldlt -> forall d P c, cell_fits d P c -> forall cd fd, (cd <= fd + 1)%nat ->
  let fdi := all_faces c fd in let N := num_dofs c cd fdi in
  exists oper data, local_operator ldlt d c (degree_info cd fd) = Some (oper, data) /\
  forall S, S = sl_stabilization ldlt c (degree_info cd fd) oper \/ S = sl_stabilization_hdg ldlt c (degree_info cd fd) ->
  forall u, 0 <= quadf N (maddm data S) u u /\
   (quadf N (maddm data S) u u = 0 <->
    exists k, (forall x, po_on P x -> peval (cell_fun c cd u) x = k) /\
      on_facets (po_facets P) (faces_funs c cd fdi u) (fun f uF => forall x, fa_on f x -> peval uF x = k)).
Proof.
  intros ldlt HS d P c HC cd fd Hcd fdi N.
  destruct (sl_operator d P c HC ldlt HS (fd + 1) cd fd ltac:(lia) ltac:(lia)) as (oper & data & E & A & B).
  exists oper, data. split; [exact E|]. intros S HSt u.
  assert (Pd : 0 <= bil N data u u) by (pose proof (B u u) as B'; fold fdi N in B'; rewrite B'; apply (en_pos d P (cf_poly _ _ _ HC) _ (spd_delta d))).
  destruct HSt as [-> | ->]; rewrite bil_quadf.
  - assert (Sc : forall f, In f (po_facets P) -> 0 < / po_diam P) by (intros f _; apply Rinv_0_lt_compat, (poly_diam _ _ (cf_poly _ _ _ HC))).
    split.
    + rewrite bil_add. apply Rplus_le_le_0_compat; [exact Pd|].
      apply (st_pos d P c HC ldlt HS cd fd _ (sl_q c ldlt (fd + 1) cd fd oper) (fun _ => / po_diam P) Sc (sl_hho_q d P c HC ldlt HS (fd + 1) cd fd oper)).
    + apply (a_kernel d P c HC None (spd_delta d) ldlt HS (fd + 1) cd fd Hcd oper data A B _ (sl_q c ldlt (fd + 1) cd fd oper) (fun _ => / po_diam P) Sc (sl_hho_q d P c HC ldlt HS (fd + 1) cd fd oper)); [|lia].
      intros u' k Hk x Hx. apply (sl_q_const d P c HC ldlt HS (fd + 1) cd fd oper u' k Hk x Hx).
  - assert (Sc : forall f, In f (po_facets P) -> 0 < 1) by (intros; lra).
    split.
    + rewrite bil_add. apply Rplus_le_le_0_compat; [exact Pd|].
      apply (st_pos d P c HC ldlt HS cd fd _ (cell_fun c cd) (fun _ => 1) Sc (sl_hdg_form d P c HC ldlt HS (fd + 1) cd fd)).
    + apply (a_kernel d P c HC None (spd_delta d) ldlt HS (fd + 1) cd fd Hcd oper data A B _ (cell_fun c cd) (fun _ => 1) Sc (sl_hdg_form d P c HC ldlt HS (fd + 1) cd fd)); [|lia].
      reflexivity.
Qed.
(** patch test *)
Theorem C112_patch : forall ldlt, solves_spd ldlt -> forall d P c, cell_fits d P c -> forall cd fd p, (fd <= cd <= fd + 1)%nat ->
  pvars d p -> deg_le p (fd + 1) ->
  let fdi := all_faces c fd in let N := num_dofs c cd fdi in
  let u := local_reduction ldlt c (degree_info cd fd) (peval p) in
  exists oper data, local_operator ldlt d c (degree_info cd fd) = Some (oper, data) /\
  forall S, S = sl_stabilization ldlt c (degree_info cd fd) oper \/ (deg_le p cd /\ S = sl_stabilization_hdg ldlt c (degree_info cd fd)) ->
  forall v, quadf N S v u = 0 /\
    quadf N (maddm data S) v u =
    - po_int P (PMul (cell_fun c cd v) (divk d delta p)) +
    fsum2 (po_facets P) (faces_funs c cd fdi v) (fun f vF => fa_int f (PMul vF (flux d delta (fa_normal f) p))).
Proof.
  intros ldlt HS d P c HC cd fd p Hcd Hv Hp fdi N u.
  destruct (sl_operator d P c HC ldlt HS (fd + 1) cd fd ltac:(lia) ltac:(lia)) as (oper & data & E & A & B).
  exists oper, data. split; [exact E|].
  destruct (reduction_l2 ldlt HS d P c HC cd fd (fd + 1) p ltac:(apply (deg_le_mono _ (fd + 1)); [lia|exact Hp]) Hp) as (RT & RF).
  pose proof (a_test d P c HC (fd + 1) cd fd ltac:(lia) p u RF ltac:(lia) ltac:(lia)) as T.
  intros S HSt v.
  assert (Z : bil N S v u = 0).
  { destruct HSt as [-> | [Dp ->]].
    - apply (st_zero d P c HC ldlt HS (fd + 1) cd fd ltac:(lia) _ (sl_q c ldlt (fd + 1) cd fd oper) (fun _ => / po_diam P) (sl_hho_q d P c HC ldlt HS (fd + 1) cd fd oper) u p); [|exact T].
      intros f x Hf Hx. apply (a_lift d P c HC None (spd_delta d) (fd + 1) cd fd ltac:(lia) oper A p Hv Hp u RT RF ltac:(lia) ltac:(lia) _ (sl_piT_proj d P c HC ldlt HS (fd + 1) cd fd oper u)).
      apply (fon d P c HC f x Hf Hx).
    - apply (st_zero d P c HC ldlt HS (fd + 1) cd fd ltac:(lia) _ (cell_fun c cd) (fun _ => 1) (sl_hdg_form d P c HC ldlt HS (fd + 1) cd fd) u p); [|exact T].
      intros f x Hf Hx. apply (l2proj_id _ _ (poly_int _ _ (cf_poly _ _ _ HC)) _ (cf_elem _ _ _ HC) cd p _ Dp RT). apply (fon d P c HC f x Hf Hx). }
  rewrite !bil_quadf. split; [exact Z|]. rewrite bil_add, Z, Rplus_0_r.
  pose proof (a_energy d P c HC None (spd_delta d) (fd + 1) cd fd ltac:(lia) oper data A B p Hv Hp u RT RF ltac:(lia) ltac:(lia) v) as En. refine (eq_trans En _).
  apply (a_patch d P c HC None cd fd v p).
Qed.
(** the reduction computes the L2 projections on the cell and on the faces *)
Theorem C112_reduction : forall ldlt, solves_spd ldlt -> forall d P c, cell_fits d P c -> forall cd fd p,
  deg_le p (cd + 1) -> deg_le p (fd + 1) ->
  let u := local_reduction ldlt c (degree_info cd fd) (peval p) in
  l2proj (po_int P) cd p (cell_fun c cd u) /\ projs (po_facets P) (all_faces c fd) (faces_funs c cd (all_faces c fd) u) p.
Proof. intros ldlt HS d P c HC cd fd p Dc Df. apply (reduction_l2 ldlt HS d P c HC cd fd (fd + 1) p Dc Df). Qed.

(** ** cases *)
Example slapl_equal_order : forall p v, pvars 2 p -> deg_le p 2 ->
  exists oper data, local_operator elim_solve 2 c1 (degree_info 1 1) = Some (oper, data) /\
  quadf 9 (sl_stabilization elim_solve c1 (degree_info 1 1) oper) v (local_reduction elim_solve c1 (degree_info 1 1) (peval p)) = 0.
Proof.
  intros p v V D. destruct (C112_patch elim_solve elim_solves 2 T1 c1 c1_fits 1 1 p ltac:(lia) V D) as (o & a & E & K).
  exists o, a. split; [exact E|]. exact (proj1 (K _ (or_introl eq_refl) v)).
Qed.
Example slapl_mixed_order : forall u,
  exists oper data, local_operator elim_solve 2 c1 (degree_info 2 1) = Some (oper, data) /\
  0 <= quadf 12 (maddm data (sl_stabilization_hdg elim_solve c1 (degree_info 2 1))) u u.
Proof.
  intros u. destruct (C112_kernel elim_solve elim_solves 2 T1 c1 c1_fits 2 1 ltac:(lia)) as (o & a & E & K).
  exists o, a. split; [exact E|]. exact (proj1 (K _ (or_intror eq_refl) u)).
Qed.
Example slapl_too_high : local_operator elim_solve 2 c1 (degree_info 3 1) = None.
Proof. apply C111_undefined. cbn. lia. Qed.
Example forms_triangle : forall i j, (i < 3)%nat -> (j < 3)%nat ->
  integrate_forms (cl_elem c1) (grad_ev 2 (el_basis (cl_elem c1) 1)) (grad_ev 2 (el_basis (cl_elem c1) 1)) i j =
  po_int T1 (graddot 2 (b_poly (el_basis (cl_elem c1) 1) j) (fun k => pdiff k (b_poly (el_basis (cl_elem c1) 1) i))).
Proof.
  intros i j Hi Hj. apply (C109_forms _ _ (poly_int _ _ (cf_poly _ _ _ c1_fits)) _ (fit_quad _ _ _ (cf_elem _ _ _ c1_fits))
    (el_basis (cl_elem c1) 1) (el_basis (cl_elem c1) 1) 2 (fun _ => 0)); try assumption; intros; apply (basis_deg _ _ _ (cf_elem _ _ _ c1_fits)); assumption.
Qed.

Print Assumptions C109_forms.
Print Assumptions C109_rhs.
Print Assumptions C109_material.
Print Assumptions C110_project.
Print Assumptions C110_projector.
Print Assumptions C110_projector_refuted.
Print Assumptions C111_reconstruction.
Print Assumptions C111_consistency.
Print Assumptions C111_undefined.
Print Assumptions C111_low_cell_refuted.
Print Assumptions C112_stabilization.
Print Assumptions C112_stabilization_hdg.
Print Assumptions C112_kernel.
Print Assumptions C112_patch.
Print Assumptions C112_reduction.
