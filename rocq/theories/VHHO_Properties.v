(** The HHO operators on vectors and matrices.  As in HHO_Properties: [cell_fits] says what a cell of a mesh provides,
    [solves_spd] what the linear solver does. *)
From Coq Require Import List Arith Reals Lra Lia Bool.
From Verif Require Import Poly_Spec HHO_Spec VHHO_Spec HHO_Model VHHO_Model HHO_Setting VHHO_Setting HHO_Proofs HHO2_Proofs HHO3_Proofs HHO7_Proofs HHO8_Proofs HHO_Properties
  VHHO_Proofs VHHO2_Proofs VHHO3_Proofs VHHO4_Proofs VHHO5_Proofs VHHO6_Proofs HHOInst_Proofs HHOInst2_Proofs HHO9_Proofs HHOInst_Properties.
Import ListNotations.
Open Scope R_scope.

(** ** C104: the gradient reconstruction of the unknowns [u] is the vector G of polynomials of degree [gd] with
    (G, t) = - (uT, div t) + sum over the faces of (uF, t . n) for all such t; the matrix returned with it is
    (G u, G v). *)
Theorem C104_gradient : forall ldlt, solves_spd ldlt -> forall d P c, cell_fits d P c -> forall cd gd fdi,
  let N := num_dofs c cd fdi in
  let '(oper, data) := vector_gradrec ldlt d c cd gd fdi in
  let G := oper_fun (vec_basis d (el_basis (cl_elem c) gd)) N oper in
  (forall u t, vdeg d t gd -> vvars d d t ->
     po_int P (vdot d t (G u)) =
     - po_int P (PMul (cell_fun c cd u) (pdivv d t)) +
     fsum2 (po_facets P) (faces_funs c cd fdi u) (fun f uF => fa_int f (PMul uF (vnrm d (fa_normal f) t)))) /\
  (forall u, vdeg d (G u) gd) /\
  (forall u v, quadf N data u v = po_int P (vdot d (G u) (G v))).
Proof.
  intros ldlt HS d P c HC cd gd fdi N.
  pose proof (g_eq d P c HC ldlt HS cd gd fdi) as A. pose proof (g_deg d P c HC ldlt cd gd fdi) as B. pose proof (g_data d P c HC ldlt HS cd gd fdi) as C.
  unfold G in A, B, C. destruct (vector_gradrec ldlt d c cd gd fdi) as [oper data]. cbn [fst snd] in A, B, C. cbv zeta in A, B, C. split; [exact A|]. split; [exact B|exact C].
Qed.
(** when every face has unknowns: (G, t) = (grad uT, t) + sum over the faces of (uF - uT, t . n) *)
Theorem C104_gradient_all_faces : forall ldlt, solves_spd ldlt -> forall d P c, cell_fits d P c -> forall cd gd fdi,
  length fdi = length (cl_faces c) -> ~ In None fdi ->
  let N := num_dofs c cd fdi in
  let G := oper_fun (vec_basis d (el_basis (cl_elem c) gd)) N (fst (vector_gradrec ldlt d c cd gd fdi)) in
  forall u t, vdeg d t gd -> vvars d d t ->
     po_int P (vdot d t (G u)) =
     po_int P (vdot d t (pgrad (cell_fun c cd u))) +
     fsum2 (po_facets P) (faces_funs c cd fdi u) (fun f uF => fa_int f (PMul (psubp uF (cell_fun c cd u)) (vnrm d (fa_normal f) t))).
Proof.
  intros ldlt HS d P c HC cd gd fdi L Hn N G u t Ht Hv. refine (eq_trans (g_eq d P c HC ldlt HS cd gd fdi u t Ht Hv) _).
  rewrite (gform_grad d P c HC cd fdi u t L), fmiss_none by exact Hn. lra.
Qed.
(** on interpolates it is the L2 projection of the gradient *)
Theorem C104_commutes : forall ldlt, solves_spd ldlt -> forall d P c, cell_fits d P c -> forall cd gd fdi p di,
  length fdi = length (cl_faces c) -> ~ In None fdi -> (gd <= cd + 1)%nat ->
  deg_le p (cd + 2 * di) -> (forall fd, In (Some fd) fdi -> deg_le p (fd + 2 * di) /\ (gd <= fd)%nat) ->
  let N := num_dofs c cd fdi in
  let G := oper_fun (vec_basis d (el_basis (cl_elem c) gd)) N (fst (vector_gradrec ldlt d c cd gd fdi)) in
  l2vec (po_int P) d gd (pgrad p) (G (project_cdi ldlt c cd fdi (peval p) di)).
Proof. intros ldlt HS d P c HC cd gd fdi p di L Hn Hg Dp Hk N G. apply (g_commutes d P c HC ldlt HS cd gd fdi p di L Dp Hg Hk Hn). Qed.
(** The comment of the function announces (grad uT, t) + sum of (uF - uT, t . n) over the faces that have unknowns.
    With a face without unknowns the program computes something else: the gradient reconstructed from the constant 1
    is not zero. *)
Theorem C104_missing_face_refuted : exists ldlt d P c cd gd fdi, solves_spd ldlt /\ cell_fits d P c /\
  length fdi = length (cl_faces c) /\
  let N := num_dofs c cd fdi in
  let G := oper_fun (vec_basis d (el_basis (cl_elem c) gd)) N (fst (vector_gradrec ldlt d c cd gd fdi)) in
  let u := project_cdi ldlt c cd fdi (fun _ => 1) 0 in
  exists t, vdeg d t gd /\ vvars d d t /\
  po_int P (vdot d t (G u)) <>
  po_int P (vdot d t (pgrad (cell_fun c cd u))) +
  fsum2 (po_facets P) (faces_funs c cd fdi u) (fun f uF => fa_int f (PMul (psubp uF (cell_fun c cd u)) (vnrm d (fa_normal f) t))).
Proof.
  exists elim_solve, 2%nat, T1, c1, 0%nat, 0%nat, [None; Some 0%nat; Some 0%nat].
  split; [exact elim_solves|]. split; [exact c1_fits|]. split; [reflexivity|]. intros N G u.
  set (f0 := seg_facet 0 0 2 0 (sgnJ ((2 - 0) * (1 - 0) - (0 - 0) * (0 - 0)))).
  exists (fun a => PC (fa_normal f0 a)).
  assert (Dt : vdeg 2 (fun a => PC (fa_normal f0 a)) 0) by (intros a Ha; apply deg_le_const).
  assert (Vt : vvars 2 2 (fun a => PC (fa_normal f0 a))) by (intros a Ha; exact Logic.I).
  split; [exact Dt|]. split; [exact Vt|]. intros E.
  pose proof (eq_trans (eq_sym (g_eq 2 T1 c1 c1_fits elim_solve elim_solves 0 0 [None; Some 0%nat; Some 0%nat] u _ Dt Vt)) E) as Q.
  rewrite (gform_grad 2 T1 c1 c1_fits 0 [None; Some 0%nat; Some 0%nat] u _ eq_refl) in Q.
  assert (Z : fa_int f0 (PMul (cell_fun c1 0 u) (vnrm 2 (fa_normal f0) (fun a => PC (fa_normal f0 a)))) = 0).
  { cbn [T1 tri_poly po_facets fmiss] in Q. fold f0 in Q. lra. }
  assert (Hf : In f0 (po_facets T1)) by (left; reflexivity).
  pose proof (facet_int 2 T1 c1 c1_fits f0 Hf) as FI.
  assert (One : forall x, po_on T1 x -> peval (cell_fun c1 0 u) x = 1).
  { intros x Hx. apply (C100_projection_id elim_solve elim_solves 2 T1 c1 c1_fits 0 [None; Some 0%nat; Some 0%nat] 0 (PC 1) (deg_le_const 1 0) x Hx). }
  assert (Pt : exists x, fa_on f0 x).
  { exists (fun i => peval (seg_sb 0 0 2 0 i) (fun _ => 0)). cbn [f0 seg_facet fa_on]. exists (fun _ => 0). split; [split; [intros; lra|cbn; lra]|reflexivity]. }
  destruct Pt as (x & Hx).
  assert (V : forall y, fa_on f0 y -> peval (PMul (cell_fun c1 0 u) (vnrm 2 (fa_normal f0) (fun a => PC (fa_normal f0 a)))) y = fa_normal f0 0%nat * fa_normal f0 0%nat + fa_normal f0 1%nat * fa_normal f0 1%nat).
  { intros y Hy. cbn [peval]. rewrite peval_vnrm, (One y) by (apply (fon 2 T1 c1 c1_fits f0 y Hf Hy)). cbn [sg peval]. ring. }
  pose proof (int_def _ _ FI _ (fun y Hy => eq_ind_r (fun z => 0 <= z) (Rplus_le_le_0_compat _ _ (Rle_0_sqr (fa_normal f0 0%nat)) (Rle_0_sqr (fa_normal f0 1%nat))) (V y Hy)) Z x Hx) as W.
  rewrite (V x Hx) in W. apply Rplus_sqr_eq_0 in W as (_ & W). clear - W.
  pose proof (seg_pos 0 0 2 0 ltac:(lra)) as L. unfold f0 in W. cbn [seg_facet fa_normal] in W. unfold seg_normal, sgnJ in W. cbn [pt2] in W.
  replace ((2 - 0) * (1 - 0) - (0 - 0) * (0 - 0)) with 2 in W by ring. rewrite (Rabs_right 2) in W by lra.
  replace (2 / 2 * (2 - 0) / seg_len 0 0 2 0) with (2 * / seg_len 0 0 2 0) in W by (field; lra). apply Rinv_0_lt_compat in L. lra.
Qed.

(** ** C105: with a tensor K constant on the cell, the matrix returned is (G u, K G v) *)
Theorem C105_gradient_tensor : forall ldlt, solves_spd ldlt -> forall d P c, cell_fits d P c -> forall cd gd fdi K,
  let N := num_dofs c cd fdi in
  let '(oper, data) := vector_gradrec_tensor ldlt d c cd gd fdi (fun _ => K) in
  let G := oper_fun (vec_basis d (el_basis (cl_elem c) gd)) N oper in
  oper = fst (vector_gradrec ldlt d c cd gd fdi) /\
  forall u v, quadf N data u v = po_int P (vdot d (G u) (mapply d K (G v))).
Proof.
  intros ldlt HS d P c HC cd gd fdi K N. pose proof (g_tensor d P c HC ldlt cd gd fdi K) as A. unfold G in A.
  destruct (vector_gradrec_tensor ldlt d c cd gd fdi (fun _ => K)) as [oper data] eqn:E.
  assert (Eo : oper = fst (vector_gradrec ldlt d c cd gd fdi)) by (unfold vector_gradrec_tensor in E; apply pair_equal_spec in E as [E _]; symmetry; exact E).
  cbn [snd] in A. rewrite Eo. split; [reflexivity|exact A].
Qed.

(** ** C106: the divergence reconstruction of the vector unknowns [u] is the polynomial D of degree [rd] with
    (D, q) = - (uT, grad q) + sum over the faces of (uF . n, q); the matrix returned with it is (D u, D v) *)
Theorem C106_divergence : forall ldlt, solves_spd ldlt -> forall d P c, (0 < d)%nat -> cell_fits d P c -> forall cd rd fdi,
  let N := vnum_dofs d c cd fdi in
  let '(oper, data) := divergence_reconstruction ldlt d c cd rd fdi in
  let sb := el_basis (cl_elem c) rd in
  let D := fun u => lincomb (b_size sb) (fun i => sg N (fun j => oper i j * u j)) (b_poly sb) in
  (forall u q, pvars d q -> deg_le q rd ->
     po_int P (PMul q (D u)) =
     - po_int P (vdot d (vcell_fun d c cd u) (pgrad q)) +
     vfsum2 (po_facets P) (vfaces_funs d c cd fdi u) (fun f uF => fa_int f (PMul q (vnrm d (fa_normal f) uF)))) /\
  (forall u, deg_le (D u) rd) /\
  (forall u v, quadf N data u v = po_int P (PMul (D u) (D v))).
Proof.
  intros ldlt HS d P c Hd HC cd rd fdi N.
  pose proof (d_eq d Hd P c HC ldlt HS cd rd fdi) as A. pose proof (d_deg d P c HC ldlt cd rd fdi) as B. pose proof (d_data d Hd P c HC ldlt HS cd rd fdi) as C.
  unfold D in A, B, C. destruct (divergence_reconstruction ldlt d c cd rd fdi) as [oper data]. cbn [fst snd] in A, B, C. cbv zeta in A, B, C. split; [exact A|]. split; [exact B|exact C].
Qed.
(** conservation: the integral of D is the flux of the face unknowns *)
Theorem C106_conservation : forall ldlt, solves_spd ldlt -> forall d P c, (0 < d)%nat -> cell_fits d P c -> forall cd rd fdi,
  let N := vnum_dofs d c cd fdi in
  let sb := el_basis (cl_elem c) rd in
  let D := fun u => lincomb (b_size sb) (fun i => sg N (fun j => fst (divergence_reconstruction ldlt d c cd rd fdi) i j * u j)) (b_poly sb) in
  forall u, po_int P (D u) = vfsum2 (po_facets P) (vfaces_funs d c cd fdi u) (fun f uF => fa_int f (vnrm d (fa_normal f) uF)).
Proof.
  intros ldlt HS d P c Hd HC cd rd fdi N sb D u. pose proof (poly_int _ _ (cf_poly _ _ _ HC)) as HI.
  pose proof (d_eq d Hd P c HC ldlt HS cd rd fdi u (PC 1) Logic.I (deg_le_const 1 rd)) as A. unfold dform in A.
  rewrite (I_zero _ _ HI (vdot d (vcell_fun d c cd u) (pgrad (PC 1)))) in A by (intros x _; rewrite peval_vdot; apply sg_zero; intros; cbn; ring).
  refine (eq_trans _ (eq_trans A _)); [apply (I_ext _ _ HI); intros x; cbn [peval]; rewrite Rmult_1_l; reflexivity|].
  rewrite Ropp_0, Rplus_0_l. apply vfsum2_ext. intros f uF Hf. apply (I_ext _ _ (facet_int d P c HC f Hf)). intros x. cbn [peval]. ring.
Qed.
(** on interpolates it is the L2 projection of the divergence *)
Theorem C106_commutes : forall ldlt, solves_spd ldlt -> forall d P c, (0 < d)%nat -> cell_fits d P c -> forall cd rd fdi V di,
  length fdi = length (cl_faces c) -> ~ In None fdi -> (rd <= cd + 1)%nat ->
  vdeg d V (cd + 2 * di) -> (forall fd, In (Some fd) fdi -> vdeg d V (fd + 2 * di) /\ (rd <= fd)%nat) ->
  let N := vnum_dofs d c cd fdi in
  let sb := el_basis (cl_elem c) rd in
  let D := fun u => lincomb (b_size sb) (fun i => sg N (fun j => fst (divergence_reconstruction ldlt d c cd rd fdi) i j * u j)) (b_poly sb) in
  l2proj (po_int P) rd (pdivv d V) (D (vproject_cdi ldlt d c cd fdi (fun x a => peval (V a) x) di)).
Proof. intros ldlt HS d P c Hd HC cd rd fdi V di L Hn Hg Dp Hk N sb D. apply (d_commutes d Hd P c HC ldlt HS cd rd fdi V di L Dp Hg Hk Hn). Qed.

(** ** C107: the symmetric gradient reconstruction is the symmetric matrix E of polynomials of degree [gd] with
    (E, t) = (sym grad uT, t) + sum over the faces of (uF - uT, t n) for all such t *)
Theorem C107_symmetric_gradient : forall ldlt, solves_spd ldlt -> forall d P c, (d = 2 \/ d = 3)%nat -> cell_fits d P c -> forall cd gd fdi,
  let N := vnum_dofs d c cd fdi in
  let '(oper, data) := symmetric_gradrec ldlt d c cd gd fdi in
  let E := oper_fun (sym_basis d (el_basis (cl_elem c) gd)) N oper in
  (forall u t, vdeg (d * d) t gd -> msymmetric d t ->
     po_int P (vdot (d * d) t (E u)) =
     po_int P (vdot (d * d) t (msymp d (mgrad d (vcell_fun d c cd u)))) +
     vfsum2 (po_facets P) (vfaces_funs d c cd fdi u) (fun f uF => fa_int f (vdot d (vsub uF (vcell_fun d c cd u)) (mnrm d (fa_normal f) t)))) /\
  (forall u, vdeg (d * d) (E u) gd /\ msymmetric d (E u)) /\
  (forall u v, quadf N data u v = po_int P (vdot (d * d) (E u) (E v))).
Proof.
  intros ldlt HS d P c Hd HC cd gd fdi N.
  pose proof (e_eq d Hd P c HC ldlt HS cd gd fdi) as A. pose proof (e_deg d Hd P c HC ldlt cd gd fdi) as B. pose proof (e_sym d Hd c ldlt cd gd fdi) as B'. pose proof (e_data d Hd P c HC ldlt HS cd gd fdi) as C.
  unfold E in A, B, B', C. destruct (symmetric_gradrec ldlt d c cd gd fdi) as [oper data]. cbn [fst snd] in A, B, B', C. cbv zeta in A, B, B', C. split; [exact A|]. split; [intros u; split; [apply B|apply B']|exact C].
Qed.
Theorem C107_commutes : forall ldlt, solves_spd ldlt -> forall d P c, (d = 2 \/ d = 3)%nat -> cell_fits d P c -> forall cd gd fdi V di,
  length fdi = length (cl_faces c) -> ~ In None fdi -> (gd <= cd + 1)%nat ->
  vdeg d V (cd + 2 * di) -> (forall fd, In (Some fd) fdi -> vdeg d V (fd + 2 * di) /\ (gd <= fd)%nat) ->
  let N := vnum_dofs d c cd fdi in
  let E := oper_fun (sym_basis d (el_basis (cl_elem c) gd)) N (fst (symmetric_gradrec ldlt d c cd gd fdi)) in
  l2sym (po_int P) d gd (msymp d (mgrad d V)) (E (vproject_cdi ldlt d c cd fdi (fun x a => peval (V a) x) di)).
Proof. intros ldlt HS d P c Hd HC cd gd fdi V di L Hn Hg Dp Hk N E. apply (e_commutes d Hd P c HC ldlt HS cd gd fdi V di L Hn Dp Hg Hk). Qed.
(** with the HDG stabilisation the energy vanishes exactly on the displacements without strain in the cell whose
    face unknowns are the projections of the displacement of the cell *)
Theorem C107_kernel : forall ldlt, solves_spd ldlt -> forall d P c, (d = 2 \/ d = 3)%nat -> cell_fits d P c -> forall cd fd gd hF,
  (cd <= gd + 1)%nat -> (gd <= fd)%nat ->
  let fdi := all_faces c fd in let N := vnum_dofs d c cd fdi in
  let A := maddm (snd (symmetric_gradrec ldlt d c cd gd fdi)) (vector_hdg_stabilization ldlt d c cd fdi hF) in
  forall u, 0 <= quadf N A u u /\
  (quadf N A u u = 0 <->
    (forall e x, (e < d * d)%nat -> po_on P x -> peval (msymp d (mgrad d (vcell_fun d c cd u)) e) x = 0) /\
    von_facets (po_facets P) (vfaces_funs d c cd fdi u) (fun f uF => forall w, vdeg d w fd -> fa_int f (vdot d w uF) = fa_int f (vdot d w (vcell_fun d c cd u)))).
Proof.
  intros ldlt HS d P c Hd HC cd fd gd hF Hcd Hfd fdi N A u. split; [apply (sym_hdg_pos d Hd P c HC ldlt HS cd fd gd hF u)|].
  apply (sym_hdg_kernel d Hd P c HC ldlt HS cd fd gd hF Hcd Hfd u).
Qed.

(** ** C108: the vector operators built from the scalar ones act on each component as the scalar ones do *)
Theorem C108_vector_laplacian : forall ldlt d P c, (0 < d)%nat -> cell_fits d P c -> forall cd fd,
  let h := mkDegs cd fd (fd + 1) in
  let fdi := all_faces c fd in let N := num_dofs c cd fdi in let NV := vnum_dofs d c cd fdi in
  let '(oper, data) := make_scalar_hho_laplacian ldlt d None false c h in
  exists operv datav, vector_laplacian ldlt d c h = Some (operv, datav) /\
  (forall u a x, (a < d)%nat -> peval (vrec_fun d c (fd + 1) NV operv u a) x = peval (rec_fun c (fd + 1) N oper (comp d a u)) x) /\
  (forall u v, quadf NV datav u v = sg d (fun a => quadf N data (comp d a u) (comp d a v))).
Proof.
  intros ldlt d P c Hd HC cd fd h fdi N NV. unfold vector_laplacian.
  destruct (make_scalar_hho_laplacian ldlt d None false c h) as [oper data]. cbn [cell_degree face_degree reconstruction_degree h]. rewrite Nat.eqb_refl.
  change (map (fun _ : sface => Some fd) (cl_faces c)) with fdi. rewrite scal_total. fold N. unfold NV. rewrite vnum_comp. fold N.
  eexists _, _. split; [reflexivity|]. split.
  - intros u a x Ha. apply (vrec_comp d c (fd + 1) N oper u a x Ha). apply (cf_one _ _ _ HC).
  - intros u v. apply replicate_quad, Hd.
Qed.
(** with another reconstruction degree the assertion of the program fails (bases of different degrees have
    different sizes) *)
Theorem C108_vector_laplacian_refuted : exists d c h, vector_laplacian elim_solve d c h = None /\ (exists P, cell_fits d P c) /\
  cell_degree h = 1%nat /\ face_degree h = 1%nat /\ reconstruction_degree h = 1%nat.
Proof.
  exists 2%nat, c1, (mkDegs 1 1 1). split; [|split; [exists T1; exact c1_fits|repeat split]].
  unfold vector_laplacian. destruct (make_scalar_hho_laplacian elim_solve 2 None false c1 (mkDegs 1 1 1)). reflexivity.
Qed.
Theorem C108_matrix_gradient : forall ldlt, solves_spd ldlt -> forall d P c, (0 < d)%nat -> cell_fits d P c -> forall cd gd fdi,
  let N := num_dofs c cd fdi in let NV := vnum_dofs d c cd fdi in
  let '(operm, datam) := matrix_gradrec ldlt d c cd gd fdi in
  let G := oper_fun (vec_basis d (el_basis (cl_elem c) gd)) N (fst (vector_gradrec ldlt d c cd gd fdi)) in
  let GM := oper_fun (mat_basis d (el_basis (cl_elem c) gd)) NV operm in
  (forall u i j x, (i < d)%nat -> (j < d)%nat -> peval (GM u (d * i + j)%nat) x = peval (G (comp d i u) j) x) /\
  (forall u v, quadf NV datam u v = po_int P (vdot (d * d) (GM u) (GM v))).
Proof.
  intros ldlt HS d P c Hd HC cd gd fdi N NV. pose proof (poly_int _ _ (cf_poly _ _ _ HC)) as HI. pose proof (g_data d P c HC ldlt HS cd gd fdi) as A. unfold G in A.
  unfold matrix_gradrec. destruct (vector_gradrec ldlt d c cd gd fdi) as [oper data]. cbn [fst snd] in A |- *. cbv zeta in A. rewrite scal_total. fold N. unfold NV. rewrite vnum_comp. fold N.
  assert (B : forall u i j x, (i < d)%nat -> (j < d)%nat -> peval (oper_fun (mat_basis d (el_basis (cl_elem c) gd)) (d * N) (replicate_blocks d (v_size (vec_basis d (el_basis (cl_elem c) gd))) N oper) u (d * i + j)%nat) x =
    peval (oper_fun (vec_basis d (el_basis (cl_elem c) gd)) N oper (comp d i u) j) x) by (intros; apply mat_oper; assumption).
  split; [exact B|]. intros u v. rewrite replicate_quad by exact Hd. unfold vdot at 1. rewrite (I_psum _ _ HI), sg_blocks. apply sg_ext. intros i Hi. fold N in A. rewrite A.
  unfold vdot. rewrite (I_psum _ _ HI). apply sg_ext. intros j Hj. apply (I_ext _ _ HI). intros x. cbn [peval]. rewrite !B by assumption. reflexivity.
Qed.
Theorem C108_vector_stabilizations : forall ldlt d c cd fdi hF h oper, (0 < d)%nat ->
  (forall u v, quadf (vnum_dofs d c cd fdi) (vector_hdg_stabilization ldlt d c cd fdi hF) u v =
     sg d (fun a => quadf (num_dofs c cd fdi) (hdg_stabilization ldlt c cd fdi hF) (comp d a u) (comp d a v))) /\
  let all := all_faces c (face_degree h) in
  (forall u v, quadf (vnum_dofs d c (cell_degree h) all) (vector_hho_stabilization_optim ldlt d c h oper) u v =
     sg d (fun a => quadf (num_dofs c (cell_degree h) all) (make_scalar_hho_stabilization ldlt c h oper) (comp d a u) (comp d a v))).
Proof.
  intros ldlt d c cd fdi hF h oper Hd. split.
  - intros u v. unfold vector_hdg_stabilization. rewrite scal_total, vnum_comp. apply replicate_quad, Hd.
  - intros all u v. unfold vector_hho_stabilization_optim. change (map (fun _ : sface => Some (face_degree h)) (cl_faces c)) with all. rewrite scal_total, vnum_comp. apply replicate_quad, Hd.
Qed.
(** the functions of vector unknowns: component [a] is that of the scalar unknowns u_a, u_(d+a), ... *)
Theorem C108_components : forall d c cd fdi u a, (a < d)%nat ->
  (forall x, peval (vcell_fun d c cd u a) x = peval (cell_fun c cd (comp d a u)) x) /\
  Forall2 (fun U p => match U, p with Some U, Some p => forall x, peval (U a) x = peval p x | None, None => True | _, _ => False end)
    (vfaces_funs d c cd fdi u) (faces_funs c cd fdi (comp d a u)).
Proof.
  intros d c cd fdi u a Ha. split; [intros x; apply vcell_comp, Ha|]. pose proof (vfaces_comp d c cd fdi u a Ha) as S.
  revert S. generalize (faces_funs c cd fdi (comp d a u)). induction (vfaces_funs d c cd fdi u) as [|[U|] us IH]; intros [|[p|] ps] S; cbn [same_faces] in S; try contradiction; constructor; try exact Logic.I.
  - apply S.
  - apply IH, S.
  - apply IH, S.
Qed.
(** project_function of a vector computes the L2 projections *)
Theorem C108_projection : forall ldlt, solves_spd ldlt -> forall d P c, (0 < d)%nat -> cell_fits d P c -> forall cd fdi V di,
  length fdi = length (cl_faces c) -> vdeg d V (cd + 2 * di) -> (forall fd, In (Some fd) fdi -> vdeg d V (fd + 2 * di)) ->
  let u := vproject_cdi ldlt d c cd fdi (fun x a => peval (V a) x) di in
  l2vec (po_int P) d cd V (vcell_fun d c cd u) /\ vprojs d (po_facets P) fdi (vfaces_funs d c cd fdi u) V.
Proof. intros ldlt HS d P c Hd HC cd fdi V di L Dp Hk. apply (vproject_l2 d Hd ldlt HS V di P c HC cd fdi L Dp Hk). Qed.

(** * Non-vacuity: the triangle (0,0), (2,0), (0,1) with k = 1 *)
Example gradient_usual : forall p, deg_le p 3 ->
  l2vec (po_int T1) 2 1 (pgrad p) (oper_fun (vec_basis 2 (el_basis (cl_elem c1) 1)) (num_dofs c1 1 (all_faces c1 1))
    (fst (vector_gradrec elim_solve 2 c1 1 1 (all_faces c1 1))) (project_cdi elim_solve c1 1 (all_faces c1 1) (peval p) 1)).
Proof.
  intros p D. apply (C104_commutes elim_solve elim_solves 2 T1 c1 c1_fits); cbn; try reflexivity; try lia; try exact D; intuition (try congruence; try lia).
  all: match goal with H : Some _ = Some _ |- _ => injection H as <- end; auto.
Qed.
Example divergence_usual : forall V, vdeg 2 V 3 -> 
  l2proj (po_int T1) 1 (pdivv 2 V) (lincomb 3 (fun i => sg 18 (fun j => fst (divergence_reconstruction elim_solve 2 c1 1 1 (all_faces c1 1)) i j *
    vproject_cdi elim_solve 2 c1 1 (all_faces c1 1) (fun x a => peval (V a) x) 1 j)) (b_poly (el_basis (cl_elem c1) 1))).
Proof.
  intros V D. apply (C106_commutes elim_solve elim_solves 2 T1 c1 ltac:(lia) c1_fits 1 1 (all_faces c1 1) V 1); cbn [all_faces map c1 tri_cell cl_faces length In]; try reflexivity; try lia; try exact D; intuition (try congruence; try lia).
  all: match goal with H : Some _ = Some _ |- _ => injection H as <- end; auto.
Qed.
Example kernel_usual : forall u,
  quadf 18 (maddm (snd (symmetric_gradrec elim_solve 2 c1 1 1 (all_faces c1 1))) (vector_hdg_stabilization elim_solve 2 c1 1 (all_faces c1 1) true)) u u = 0 ->
  forall e x, (e < 4)%nat -> po_on T1 x -> peval (msymp 2 (mgrad 2 (vcell_fun 2 c1 1 u)) e) x = 0.
Proof.
  intros u Z. pose proof (proj2 (C107_kernel elim_solve elim_solves 2 T1 c1 ltac:(lia) c1_fits 1 1 1 true ltac:(lia) ltac:(lia) u)) as K.
  apply (proj1 (proj1 K Z)).
Qed.

Print Assumptions C104_gradient.
Print Assumptions C104_gradient_all_faces.
Print Assumptions C104_commutes.
Print Assumptions C104_missing_face_refuted.
Print Assumptions C105_gradient_tensor.
Print Assumptions C106_divergence.
Print Assumptions C106_conservation.
Print Assumptions C106_commutes.
Print Assumptions C107_symmetric_gradient.
Print Assumptions C107_commutes.
Print Assumptions C107_kernel.
Print Assumptions C108_vector_laplacian.
Print Assumptions C108_vector_laplacian_refuted.
Print Assumptions C108_matrix_gradient.
Print Assumptions C108_vector_stabilizations.
Print Assumptions C108_components.
Print Assumptions C108_projection.
