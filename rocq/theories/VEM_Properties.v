(** C151-C153: the local matrices of the virtual element method *)
From Coq Require Import List Arith Reals Lia Lra Bool.
From Verif Require Import Poly_Spec Poly_Proofs HHO_Spec HHO_Model HHO_Setting HHO_Proofs HHO2_Proofs HHO9_Proofs HHOInst_Proofs HHOInst2_Proofs
  VEM_Spec VEM_Model VEM_Setting VEM_Proofs VEM2_Proofs VEM3_Proofs VEMInst_Proofs.
Import ListNotations.
Open Scope R_scope.

(** C151: the polynomial computed from the unknowns satisfies Green's formula against every polynomial of degree k,
    and its mean is the first moment (k >= 2) or the mean of the vertex values (k = 1); it is the only one *)
Theorem C151_projection : forall gl lu, solves_regular lu -> forall k P v, (1 <= k)%nat -> vem_fits gl k P v -> forall u,
  let p := nabla gl lu v k u in
  pvars 2 p /\ deg_le p k /\
  (forall w c, pvars 2 w -> deg_le w k -> laplacian_coeffs P (inner_size k) (b_poly (vbasis v (k - 2))) w c ->
     energy P w p = green k P (nodes_of gl k v) (inner_size k) w c u) /\
  cell_mean P p = (if (k =? 1)%nat then vertex_mean v u else u (nfaces v * k)%nat).
Proof.
  intros gl lu HL k P v Hk F u p. split; [apply lincomb_vars|]. split; [apply (pj_deg gl k v lu u)|]. split.
  - intros w c Vw Dw Hc. rewrite (energy_en gl k P v F). exact (pj_green gl k Hk P v F lu HL w c u Vw Dw Hc).
  - exact (pj_mean gl k Hk P v F lu HL u).
Qed.
Theorem C151_projection_unique : forall gl lu, solves_regular lu -> forall k P v, (1 <= k)%nat -> vem_fits gl k P v -> forall u q,
  pvars 2 q -> deg_le q k ->
  (forall w c, pvars 2 w -> deg_le w k -> laplacian_coeffs P (inner_size k) (b_poly (vbasis v (k - 2))) w c ->
     energy P w q = green k P (nodes_of gl k v) (inner_size k) w c u) ->
  cell_mean P q = (if (k =? 1)%nat then vertex_mean v u else u (nfaces v * k)%nat) ->
  forall x, peval q x = peval (nabla gl lu v k u) x.
Proof.
  intros gl lu HL k P v Hk F u q Vq Dq HG HM. apply (pj_unique gl k Hk P v F lu HL u q Vq Dq).
  - intros i H0 Hi. rewrite <- (energy_en gl k P v F). apply HG; [apply vm_vars|apply vm_deg, Hi|apply (lap_m k Hk P v i Hi)].
  - rewrite HM. symmetry. exact (pj_mean gl k Hk P v F lu HL u).
Qed.
(** every polynomial of degree k >= 2 is reproduced from its unknowns *)
Theorem C151_reproduction : forall gl lu, solves_regular lu -> forall k P v, (2 <= k)%nat -> vem_fits gl k P v -> forall p,
  pvars 2 p -> deg_le p k -> forall x, peval (nabla gl lu v k (dofs_of gl k P v p)) x = peval p x.
Proof. intros gl lu HL k P v Hk F p Vp Dp. exact (pj_repro gl k ltac:(lia) P v F lu HL p Hk Vp Dp). Qed.
(** the stiffness matrix: the energy of the projections plus the products of what the projections miss *)
Theorem C151_energy : forall gl lu ldlt, solves_regular lu -> forall k P v f, (1 <= k)%nat -> vem_fits gl k P v -> forall u w,
  let K := fst (compute_local gl lu ldlt v k f) in
  let pu := nabla gl lu v k u in let pw := nabla gl lu v k w in
  quadf (vdofs v k) K u w = energy P pu pw + sg (vdofs v k) (fun d => (u d - dofs_of gl k P v pu d) * (w d - dofs_of gl k P v pw d)).
Proof.
  intros gl lu ldlt HL k P v f Hk F u w K pu pw. rewrite (energy_en gl k P v F). exact (stiff_form gl k Hk P v F lu u w).
Qed.
(** it is symmetric and positive, and its kernel are the constants *)
Theorem C151_definite : forall gl lu ldlt, solves_regular lu -> forall k P v f, (1 <= k)%nat -> vem_fits gl k P v ->
  let K := fst (compute_local gl lu ldlt v k f) in
  (forall u w, quadf (vdofs v k) K u w = quadf (vdofs v k) K w u) /\
  (forall u, 0 <= quadf (vdofs v k) K u u) /\
  (forall u, quadf (vdofs v k) K u u = 0 <-> exists c, forall d, (d < vdofs v k)%nat -> u d = dofs_of gl k P v (PC c) d).
Proof.
  intros gl lu ldlt HL k P v f Hk F K. split; [|split].
  - intros u w. exact (stiff_sym gl k Hk P v F lu u w).
  - intros u. exact (stiff_pos gl k Hk P v F lu u).
  - intros u. exact (stiff_kernel gl k Hk P v F lu HL u).
Qed.
(** on polynomials of degree k >= 2 it is exact: no stabilisation is left and Green's formula gives the result *)
Theorem C151_consistency : forall gl lu ldlt, solves_regular lu -> forall k P v f, (2 <= k)%nat -> vem_fits gl k P v -> forall p c u,
  pvars 2 p -> deg_le p k -> laplacian_coeffs P (inner_size k) (b_poly (vbasis v (k - 2))) p c ->
  quadf (vdofs v k) (fst (compute_local gl lu ldlt v k f)) u (dofs_of gl k P v p) = green k P (nodes_of gl k v) (inner_size k) p c u.
Proof. intros gl lu ldlt HL k P v f Hk F p c u Vp Dp Hc. exact (stiff_consistent gl k ltac:(lia) P v F lu HL p c u Hk Vp Dp Hc). Qed.
(** the load vector tests the load with the projection of degree k - 1 *)
Theorem C151_load : forall gl lu ldlt k v f u,
  sg (vdofs v k) (fun i => u i * snd (compute_local gl lu ldlt v k f) i) = qsum (vc_quad v (2 * k)) (fun x => f x * peval (zero_proj gl lu ldlt v k u) x).
Proof. intros. exact (rhs_form gl k v lu ldlt (k - 1) f u). Qed.
Theorem C151_load_polynomial : forall gl lu ldlt k P v q u, (1 <= k)%nat -> vem_fits gl k P v -> deg_le q (k + 1) ->
  sg (vdofs v k) (fun i => u i * snd (compute_local gl lu ldlt v k (peval q)) i) = po_int P (PMul q (zero_proj gl lu ldlt v k u)).
Proof.
  intros gl lu ldlt k P v q u Hk F Dq. rewrite C151_load. rewrite (qsum_ext _ _ (peval (PMul q (zero_proj gl lu ldlt v k u)))) by (intros; reflexivity).
  apply (exact_int _ _ (poly_int _ _ (vfit_poly _ _ _ _ F)) _ (vfit_quad _ _ _ _ F)). apply (deg_le_mono _ (k + 1 + (k - 1))); [lia|]. apply deg_le_mul; [exact Dq|].
  apply deg_le_lincomb. intros j Hj. apply vm_deg, Hj.
Qed.

(** C152: k = 1.  The projection of a linear function is off by the difference of its mean over the vertices and
    its mean over the cell *)
Theorem C152_linear_exact : forall gl lu, solves_regular lu -> forall P v, vem_fits gl 1 P v -> forall p, pvars 2 p -> deg_le p 1 -> forall x,
  peval (nabla gl lu v 1 (dofs_of gl 1 P v p)) x = peval p x + (vertex_mean v (dofs_of gl 1 P v p) - cell_mean P p).
Proof. intros gl lu HL P v F p Vp Dp x. exact (pj_linear gl 1 (le_n 1) P v F lu HL p eq_refl Vp Dp x). Qed.
Theorem C152_linear_partial : forall gl lu ldlt, solves_regular lu -> forall P v f, vem_fits gl 1 P v -> forall p, pvars 2 p -> deg_le p 1 ->
  vertex_mean v (dofs_of gl 1 P v p) = cell_mean P p ->
  (forall x, peval (nabla gl lu v 1 (dofs_of gl 1 P v p)) x = peval p x) /\
  forall c u, laplacian_coeffs P 0 (b_poly (vbasis v (1 - 2))) p c ->
    quadf (vdofs v 1) (fst (compute_local gl lu ldlt v 1 f)) u (dofs_of gl 1 P v p) = green 1 P (nodes_of gl 1 v) 0 p c u.
Proof.
  intros gl lu ldlt HL P v f F p Vp Dp E. split.
  - intros x. rewrite (C152_linear_exact gl lu HL P v F p Vp Dp x), E. ring.
  - intros c u Hc. pose proof (stiff_linear gl 1 (le_n 1) P v F lu HL p c u eq_refl Vp Dp Hc) as Q.
    unfold vertex_mean, dofs_of in E. unfold vavg, VEM2_Proofs.unk in Q. change (vm v (1 - 2)) with (b_poly (vbasis v (1 - 2))) in Q. rewrite E in Q.
    etransitivity; [exact Q|]. cbn [inner_size Nat.eqb]. ring.
Qed.
(** a triangle with a node in the middle of a side: x is not reproduced, and the matrix is not exact on it *)
Lemma hang_vertex_mean fx fy : vertex_mean (hang_v fx fy) (dofs_of gl12 1 hang_poly (hang_v fx fy) (PX 0)) = 3 / 4.
Proof. unfold vertex_mean. cbn. field. Qed.
Theorem C152_linear_refuted : exists gl lu ldlt P v f p, solves_regular lu /\ solves_spd ldlt /\ vem_fits gl 1 P v /\ pvars 2 p /\ deg_le p 1 /\
  (exists x, peval (nabla gl lu v 1 (dofs_of gl 1 P v p)) x <> peval p x) /\
  (exists c u, laplacian_coeffs P 0 (b_poly (vbasis v (1 - 2))) p c /\
    quadf (vdofs v 1) (fst (compute_local gl lu ldlt v 1 f)) u (dofs_of gl 1 P v p) <> green 1 P (nodes_of gl 1 v) 0 p c u).
Proof.
  exists gl12, normal_solve, elim_solve, hang_poly, (hang_v 1 1), (fun _ => 0), (PX 0).
  assert (F : vem_fits gl12 1 hang_poly (hang_v 1 1)) by (apply hang_v_fits; lra).
  assert (V : pvars 2 (PX 0)) by (cbn; lia). assert (Dg : deg_le (PX 0) 1) by (exists (PX 0); split; [cbn; lia|reflexivity]).
  pose proof (C152_linear_exact gl12 normal_solve normal_solves hang_poly (hang_v 1 1) F (PX 0) V Dg) as L. rewrite hang_vertex_mean, tri_mean_x in L.
  split; [exact normal_solves|]. split; [exact elim_solves|]. split; [exact F|]. split; [exact V|]. split; [exact Dg|]. split.
  - exists (fun _ => 0). rewrite L. cbn [peval]. lra.
  - assert (Hc : laplacian_coeffs hang_poly 0 (b_poly (vbasis (hang_v 1 1) (1 - 2))) (PX 0) (fun _ => 0)).
    { intros x Hx. cbn. unfold delta. cbn. ring. }
    exists (fun _ => 0), (dofs_of gl12 1 hang_poly (hang_v 1 1) (PX 0)). split; [exact Hc|].
    pose proof (stiff_linear gl12 1 (le_n 1) hang_poly (hang_v 1 1) F normal_solve normal_solves (PX 0) (fun _ => 0) (dofs_of gl12 1 hang_poly (hang_v 1 1) (PX 0)) eq_refl V Dg Hc) as Q.
    intros E. set (u := dofs_of gl12 1 hang_poly (hang_v 1 1) (PX 0)) in *.
    assert (E' : green 1 hang_poly (nodes_of gl12 1 (hang_v 1 1)) (inner_size 1) (PX 0) (fun _ => 0) u =
      green 1 hang_poly (nodes_of gl12 1 (hang_v 1 1)) (inner_size 1) (PX 0) (fun _ => 0) u - (vertex_mean (hang_v 1 1) u - cell_mean hang_poly (PX 0)) *
         sg (vdofs (hang_v 1 1) 1) (fun d => u d - dofs_of gl12 1 hang_poly (hang_v 1 1) (nabla gl12 normal_solve (hang_v 1 1) 1 u) d)).
    { etransitivity; [symmetry; exact E|exact Q]. }
    unfold u in E' at 3. rewrite hang_vertex_mean, tri_mean_x in E'.
    assert (S : sg (vdofs (hang_v 1 1) 1) (fun d => u d - dofs_of gl12 1 hang_poly (hang_v 1 1) (nabla gl12 normal_solve (hang_v 1 1) 1 u) d) = - (1 / 3)).
    { rewrite (sg_ext _ _ (fun _ => - (1 / 12) * 1)); [rewrite sg_scal, sg_ones; cbn; field|].
      intros d Hd. change (vdofs (hang_v 1 1) 1) with 4%nat in Hd. unfold u, dofs_of, unknowns. change (length (nodes_of gl12 1 (hang_v 1 1)) * 1)%nat with 4%nat. cbv zeta.
      rewrite (proj2 (Nat.ltb_lt d 4) Hd). rewrite L. lra. }
    rewrite S in E'. lra.
Qed.

(** C153: the moments of the projection of degree k - 1 are those of the unknowns, up to degree k - 2 *)
Theorem C153_moments : forall gl lu ldlt, solves_spd ldlt -> forall k P v, (2 <= k)%nat -> vem_fits gl k P v -> forall u w a,
  (forall x, peval w x = peval (cell_poly v (k - 2) a) x) ->
  po_int P (PMul w (zero_proj gl lu ldlt v k u)) = po_int P (PC 1) * sg (inner_size k) (fun i => a i * u (nfaces v * k + i)%nat).
Proof.
  intros gl lu ldlt HL k P v Hk F u w a Ew. apply (pz_moments gl k ltac:(lia) P v F lu ldlt HL (k - 1) u w a); try lia.
  intros x. rewrite Ew. unfold cell_poly. replace (inner_size k) with (basis_size (k - 2)) by (unfold inner_size; rewrite (proj2 (Nat.eqb_neq k 1)) by lia; reflexivity). reflexivity.
Qed.
Theorem C153_reproduction : forall gl lu ldlt, solves_regular lu -> solves_spd ldlt -> forall k P v, (2 <= k)%nat -> vem_fits gl k P v -> forall p,
  pvars 2 p -> deg_le p (k - 1) -> forall x, peval (zero_proj gl lu ldlt v k (dofs_of gl k P v p)) x = peval p x.
Proof. intros gl lu ldlt HL HD k P v Hk F p Vp Dp. apply (pz_repro gl k ltac:(lia) P v F lu HL ldlt HD (k - 1) p); [lia|exact Hk|exact Vp|exact Dp]. Qed.
(** k = 1: the value of the linear projection at the barycenter *)
Theorem C153_constant : forall gl lu ldlt, solves_spd ldlt -> forall P v, vem_fits gl 1 P v -> forall u x,
  peval (zero_proj gl lu ldlt v 1 u) x = peval (nabla gl lu v 1 u) (vc_bar v).
Proof.
  intros gl lu ldlt HD P v F u x. set (c := sg (vdofs v 1) (fun j => projector_nabla gl lu v 1 (matrix_G v 1) 0%nat j * u j)).
  rewrite (pz_eq gl 1 P v F lu ldlt 0 u (PC c)).
  - unfold nabla, projected, cell_poly. rewrite peval_lincomb. cbn. fold c. ring.
  - exact Logic.I.
  - exists (PC c). split; [cbn; lia|reflexivity].
  - intros i Hi. change (basis_size 0) with 1%nat in Hi. rewrite (pz_high gl 1 (le_n 1) P v F lu ldlt HD 0 (Nat.le_0_l 1) u i Hi (or_introl eq_refl)). apply (I_ext _ _ (poly_int _ _ (vfit_poly _ _ _ _ F))).
    intros y. cbn [peval]. f_equal. unfold ptr. rewrite peval_lincomb. cbn. fold c. unfold mv. fold c. ring.
Qed.
(** it is not the L2 projection: the part of degree k of the first projection is dropped *)
Theorem C153_l2_refuted : exists gl lu ldlt k P v p w, (2 <= k)%nat /\ solves_regular lu /\ solves_spd ldlt /\ vem_fits gl k P v /\
  pvars 2 p /\ deg_le p k /\ pvars 2 w /\ deg_le w (k - 1) /\
  po_int P (PMul w (zero_proj gl lu ldlt v k (dofs_of gl k P v p))) <> po_int P (PMul w p).
Proof.
  set (T := tri_poly (-1) (-1) 2 (-1) (-1) 2 5). set (v := tri_v (-1) (-1) 2 (-1) (-1) 2 5 1 1).
  assert (F : vem_fits gl12 2 T v) by (apply tri_v_fits; [lra|split; lra|lra|right; reflexivity]).
  exists gl12, normal_solve, elim_solve, 2%nat, T, v, (PMul (PX 0) (PX 0)), (PX 0).
  assert (Vp : pvars 2 (PMul (PX 0) (PX 0))) by (cbn; lia). assert (Dp : deg_le (PMul (PX 0) (PX 0)) 2) by (eexists; split; [|reflexivity]; cbn; lia).
  split; [lia|]. split; [exact normal_solves|]. split; [exact elim_solves|]. split; [exact F|]. split; [exact Vp|]. split; [exact Dp|]. split; [cbn; lia|].
  split; [eexists; split; [|reflexivity]; cbn; lia|]. set (p := PMul (PX 0) (PX 0)) in *. set (u := dofs_of gl12 2 T v p).
  pose proof (poly_int _ _ (vfit_poly _ _ _ _ F)) as HI.
  pose proof (C151_reproduction gl12 normal_solve normal_solves 2 T v (le_n 2) F p Vp Dp) as R. fold u in R.
  (** the coefficients of the first projection *)
  set (c := fun i => sg (vdofs v 2) (fun j => projector_nabla gl12 normal_solve v 2 (matrix_G v 2) i j * u j)).
  assert (E : forall x0 x1, c 0%nat + c 1%nat * x0 + c 2%nat * x1 + c 3%nat * (x0 * x0) + c 4%nat * (x0 * x1) + c 5%nat * (x1 * x1) = x0 * x0).
  { intros x0 x1. specialize (R (pt2 x0 x1)). change (nabla gl12 normal_solve v 2 u) with (lincomb 6 c (vm v 2)) in R. clearbody c. rewrite peval_lincomb in R. cbn in R.
    etransitivity; [|exact R]. field. }
  assert (C0 : c 0%nat = 0) by (pose proof (E 0 0); lra).
  assert (C1 : c 1%nat = 0) by (pose proof (E 1 0); pose proof (E (-1) 0); lra).
  assert (C2 : c 2%nat = 0) by (pose proof (E 0 1); pose proof (E 0 (-1)); lra).
  change (zero_proj gl12 normal_solve elim_solve v 2 u) with (pz gl12 2 v normal_solve elim_solve 1 u).
  assert (W : forall x, peval (PX 0) x = peval (vm v 1 1) x) by (intros x; cbn; field).
  rewrite (I_ext _ _ HI (PMul (PX 0) (pz gl12 2 v normal_solve elim_solve 1 u)) (PMul (vm v 1 1) (pz gl12 2 v normal_solve elim_solve 1 u))) by (intros; cbn [peval]; rewrite <- W; reflexivity).
  rewrite (pz_high gl12 2 (le_S 1 1 (le_n 1)) T v F normal_solve elim_solve elim_solves 1 (le_S 1 1 (le_n 1)) u 1); [|cbn; lia|right; cbn; lia].
  rewrite (I_zero _ _ HI); [intros Z; symmetry in Z; exact (tri_third Z)|]. intros x _. change (ptr gl12 2 v normal_solve 1 u) with (lincomb 3 c (vm v 1)).
  clearbody c. cbn [peval]. rewrite peval_lincomb. cbn [sg]. rewrite C0, C1, C2. ring.
Qed.

(** ** the theorems speak about triangles, and about the solvers of the proofs *)
Example every_triangle_vem : forall ax ay bx by' cx cy h fx fy k, 0 < h -> fx <> 0 -> fy <> 0 -> (bx - ax) * (cy - ay) - (by' - ay) * (cx - ax) <> 0 -> (k = 1 \/ k = 2)%nat ->
  vem_fits gl12 k (tri_poly ax ay bx by' cx cy h) (tri_v ax ay bx by' cx cy h fx fy).
Proof. intros. apply tri_v_fits; auto. Qed.
Example normal_equations_solve : solves_regular normal_solve.
Proof. exact normal_solves. Qed.
Example quadratic_patch : let T := tri_poly 0 0 2 0 0 1 3 in let v := tri_v 0 0 2 0 0 1 3 1 1 in let p := PAdd (PMul (PX 0) (PX 0)) (PMul (PC 3) (PMul (PX 0) (PX 1))) in
  vdofs v 2 = 7%nat /\ forall x, peval (nabla gl12 normal_solve v 2 (dofs_of gl12 2 T v p)) x = peval p x.
Proof.
  intros T v p. split; [reflexivity|]. apply C151_reproduction; [exact normal_solves|lia|apply tri_v_fits; [lra|split; lra|lra|right; reflexivity]|cbn; lia|exists p; split; [cbn; lia|reflexivity]].
Qed.
(** the vertices of a triangle have its barycenter as mean: C152_linear_partial applies *)
Example triangle_linear : forall p, pvars 2 p -> deg_le p 1 -> let T := tri_poly (-1) (-1) 2 (-1) (-1) 2 5 in let v := tri_v (-1) (-1) 2 (-1) (-1) 2 5 1 1 in
  vertex_mean v (dofs_of gl12 1 T v p) = cell_mean T p.
Proof.
  intros p Vp Dp T v. assert (F : vem_fits gl12 1 T v) by (apply tri_v_fits; [lra|split; lra|lra|left; reflexivity]).
  pose proof (poly_int _ _ (vfit_poly _ _ _ _ F)) as HI. destruct (vm_span v (vfit_scal _ _ _ _ F) p 1 Vp Dp) as (a & Ea). change (basis_size 1) with 3%nat in Ea.
  unfold cell_mean. rewrite (I_ext _ _ HI p _ Ea), (I_lincomb _ _ HI). cbn [sg].
  assert (Z1 : po_int T (vm v 1 1) = 0) by (cbn [T tri_poly po_int]; unfold tri_int, el_int, Isimp, smoment; cbn; field).
  assert (Z2 : po_int T (vm v 1 2) = 0) by (cbn [T tri_poly po_int]; unfold tri_int, el_int, Isimp, smoment; cbn; field).
  assert (Z0 : po_int T (vm v 1 0) = po_int T (PC 1)) by (apply (I_ext _ _ HI); intros; apply vm_one).
  rewrite Z0, Z1, Z2. pose proof (vol_pos gl12 1 T v F) as VP.
  unfold vertex_mean. change (nfaces v) with 3%nat. cbn [sg]. unfold dofs_of, unknowns. change (length (nodes_of gl12 1 v) * 1)%nat with 3%nat. cbn [Nat.ltb Nat.leb]. rewrite !Ea, !peval_lincomb. cbn. field. apply Rgt_not_eq, VP.
Qed.

Print Assumptions C151_projection.
Print Assumptions C151_projection_unique.
Print Assumptions C151_reproduction.
Print Assumptions C151_energy.
Print Assumptions C151_definite.
Print Assumptions C151_consistency.
Print Assumptions C151_load.
Print Assumptions C151_load_polynomial.
Print Assumptions C152_linear_exact.
Print Assumptions C152_linear_partial.
Print Assumptions C152_linear_refuted.
Print Assumptions C153_moments.
Print Assumptions C153_reproduction.
Print Assumptions C153_constant.
Print Assumptions C153_l2_refuted.
