(** C157-C164: the difference operator, the DG stabilisation, the forms on differences, the HHO stabilisation with a
    degree per face and with a tensor, and the fluxes of the stabilisations. *)
From Coq Require Import List Arith Reals Lra Lia Bool.
From Verif Require Import Poly_Spec HHO_Spec HHO_Model HHO_Setting HHO_Proofs HHO2_Proofs HHO3_Proofs HHO4_Proofs HHO5_Proofs HHO6_Proofs HHO7_Proofs HHO8_Proofs HHO9_Proofs
  HHOInst_Proofs HHOInst2_Proofs HHOInst_Properties Stab_Model Stab_Spec Stab_Proofs Stab2_Proofs Stab3_Proofs Stab4_Proofs Stab5_Proofs.
Import ListNotations.
Open Scope R_scope.

(** ** C157: the difference operator maps the unknowns to the coefficients of uF - uT on every face *)
Theorem C157_difference : forall ldlt, solves_spd ldlt -> forall d P c, cell_fits d P c -> faces_nested c ->
  forall cd fdi, length fdi = length (cl_faces c) ->
  let D := hho_difference ldlt c cd fdi in
  (forall u, on_facets2 (po_facets P) (faces_funs c cd fdi u) (diff_funs c cd fdi (times (num_dofs c cd fdi) D u))
     (fun f uF w => forall x, fa_on f x -> peval w x = peval uF x - peval (cell_fun c cd u) x)) /\
  (forall i j, (num_diffs c cd fdi <= i)%nat -> D i j = 0).
Proof.
  intros ldlt HS d P c HC HN cd fdi HL D. split.
  - intros u. apply (difference d P c HC HN ldlt HS cd fdi u HL).
  - intros i j Hi. apply (difference_rest c HN ldlt cd fdi i j Hi).
Qed.

(** ** C158: the DG stabilisation is the sum over the faces of 1/h times the integral of (uF - uT)(vF - vT); it is
    symmetric, positive, and vanishes exactly where the faces agree with the cell.  With the reconstruction it
    vanishes only on constants, whatever the degrees of the faces and even when some faces have no unknowns. *)
Theorem C158_dg_stabilization : forall d P c, cell_fits d P c -> forall cd fdi hF, length fdi = length (cl_faces c) ->
  let N := num_dofs c cd fdi in
  let S := dg_stabilization c cd fdi hF in
  forall u v,
  quadf N S v u = fsum3 (po_facets P) (faces_funs c cd fdi u) (faces_funs c cd fdi v)
    (fun f uF vF => / (if hF then fa_diam f else po_diam P) * fa_int f (PMul (psubp uF (cell_fun c cd u)) (psubp vF (cell_fun c cd v)))) /\
  quadf N S u v = quadf N S v u /\ 0 <= quadf N S u u /\
  (quadf N S u u = 0 <-> on_facets (po_facets P) (faces_funs c cd fdi u) (fun f uF => forall x, fa_on f x -> peval uF x = peval (cell_fun c cd u) x)).
Proof.
  intros d P c HC cd fdi hF HL N S u v. split; [apply (dg_form d P c HC cd hF fdi u v HL)|].
  split; [apply (dg_sym d P c HC cd fdi HL hF u v)|].
  split; [apply (dg_pos d P c HC elim_solve cd 0 fdi HL hF u)|apply (dg_null d P c HC elim_solve cd 0 fdi HL hF u)].
Qed.
Theorem C158_dg_kernel : forall ldlt, solves_spd ldlt -> forall d P c, cell_fits d P c ->
  forall cd rd fdi hF, (1 <= rd)%nat -> (cd <= rd)%nat -> length fdi = length (cl_faces c) ->
  let N := num_dofs c cd fdi in
  let A := maddm (snd (hho_laplacian_cdi ldlt d c rd cd fdi)) (dg_stabilization c cd fdi hF) in
  forall u, 0 <= quadf N A u u /\
   (quadf N A u u = 0 <->
    exists k, (forall x, po_on P x -> peval (cell_fun c cd u) x = k) /\
      on_facets (po_facets P) (faces_funs c cd fdi u) (fun f uF => forall x, fa_on f x -> peval uF x = k)).
Proof.
  intros ldlt HS d P c HC cd rd fdi hF Hrd Hcd HL N A u. split.
  - rewrite bil_quadf. unfold A. rewrite bil_add. apply Rplus_le_le_0_compat; [apply (r_data_pos d P c HC ldlt HS cd rd Hrd Hcd fdi u)|apply (dg_pos d P c HC ldlt cd rd fdi HL hF u)].
  - apply (dg_kernel d P c HC ldlt HS cd rd Hrd Hcd fdi HL hF u).
Qed.

(** ** C159: the DG and HDG stabilisations are those of the differences *)
Theorem C159_differences : forall ldlt, solves_spd ldlt -> forall d P c, cell_fits d P c -> faces_nested c ->
  forall cd fdi hF, length fdi = length (cl_faces c) ->
  let N := num_dofs c cd fdi in let ND := diff_dofs cd (combine (cl_faces c) fdi) in
  let D := times N (hho_difference ldlt c cd fdi) in
  forall u v,
  quadf N (dg_stabilization c cd fdi hF) v u = quadf ND (dg_stabilization_diff c cd fdi hF) (D v) (D u) /\
  quadf N (hdg_stabilization ldlt c cd fdi hF) v u = quadf ND (hdg_stabilization_diff ldlt c cd fdi hF) (D v) (D u).
Proof.
  intros ldlt HS d P c HC HN cd fdi hF HL N ND D u v. split.
  - apply (dg_differences d P c HC HN ldlt HS cd hF fdi u v HL).
  - apply (hdg_differences d P c HC HN ldlt HS cd hF fdi u v HL).
Qed.
(** what the forms are: the DG one is the product weighted with 1/h, the HDG one the same of the projections *)
Theorem C159_forms : forall ldlt, solves_spd ldlt -> forall d P c, cell_fits d P c -> faces_nested c ->
  forall cd fdi hF, length fdi = length (cl_faces c) ->
  let ND := diff_dofs cd (combine (cl_faces c) fdi) in
  let h f := if hF : bool then fa_diam f else po_diam P in
  forall x y,
  quadf ND (dg_stabilization_diff c cd fdi hF) y x = fsum3 (po_facets P) (diff_funs c cd fdi x) (diff_funs c cd fdi y) (fun f a b => / h f * fa_int f (PMul a b)) /\
  (forall rx ry, jumps (po_facets P) fdi (diff_funs c cd fdi x) (PC 0) rx -> jumps (po_facets P) fdi (diff_funs c cd fdi y) (PC 0) ry ->
   quadf ND (hdg_stabilization_diff ldlt c cd fdi hF) y x = fsum3 (po_facets P) rx ry (fun f a b => / h f * fa_int f (PMul a b))).
Proof.
  intros ldlt HS d P c HC HN cd fdi hF HL ND h x y. split.
  - apply (dg_diff_form d P c HC cd hF fdi ND x y HL (num_diffs_le c HN cd fdi)).
  - intros rx ry Jx Jy. apply (hdg_diff_form d P c HC ldlt HS cd hF fdi ND x y rx ry HL (num_diffs_le c HN cd fdi) Jx Jy).
Qed.

(** ** C160: the fluxes of a form on differences represent it in the product weighted with 1/h.  This needs unknowns
    on every face: the matrix solved has rows of zeros for the faces without. *)
Theorem C160_fluxes_partial : forall ldlt, solves_spd ldlt -> forall d P c, cell_fits d P c -> faces_nested c ->
  forall cd fdi hF, length fdi = length (cl_faces c) -> ~ In None fdi ->
  let ND := diff_dofs cd (combine (cl_faces c) fdi) in
  spd ND (dg_stabilization_diff c cd fdi hF) /\
  forall n st u y,
    fsum3 (po_facets P) (diff_funs c cd fdi (times n (stabilization_fluxes ldlt c cd fdi st hF) u)) (diff_funs c cd fdi y)
      (fun f a b => / (if hF then fa_diam f else po_diam P) * fa_int f (PMul a b)) =
    sg ND (fun i => y i * times n st u i).
Proof.
  intros ldlt HS d P c HC HN cd fdi hF HL HA ND. split; [apply (dg_diff_spd d P c HC HN cd fdi HL HA hF)|].
  intros n st u y. apply (diff_fluxes d P c HC HN cd fdi HL HA ldlt HS n st hF u y).
Qed.
Lemma c1_nested : faces_nested c1.
Proof.
  unfold faces_nested. apply Forall_forall. intros fc H deg deg' L. unfold c1, tri_cell in H. cbn [cl_faces In] in H.
  destruct H as [<-|[<-|[<-|[]]]]; cbn [seg_face fc_elem el_of el_basis]; apply el_nested; (lia || exact L).
Qed.
Theorem C160_fluxes_refuted : exists fdi, length fdi = length (cl_faces c1) /\
  forall hF, ~ spd (diff_dofs 0 (combine (cl_faces c1) fdi)) (dg_stabilization_diff c1 0 fdi hF).
Proof.
  exists [Some 0%nat; Some 0%nat; None]. split; [reflexivity|]. intros hF [_ H]. destruct (H (delta 2)) as [_ H2].
  assert (E : delta 2 2 = 0); [|unfold delta in E; cbn in E; lra].
  apply H2; [|cbn; lia]. rewrite bil_quadf.
  rewrite (dg_diff_form 2 T1 c1 c1_fits 0 hF [Some 0%nat; Some 0%nat; None] _ (delta 2) (delta 2) eq_refl (num_diffs_le c1 c1_nested 0 _)).
  cbn [T1 tri_poly po_facets].
  assert (Z : forall f a b, In f (po_facets T1) -> (forall x, peval a x = 0) -> fa_int f (PMul a b) = 0).
  { intros f a b Hf Ha. apply (I_zero _ _ (fint 2 T1 c1 c1_fits f Hf)). intros x _. cbn [peval]. rewrite Ha. ring. }
  cbn [T1 tri_poly po_facets] in Z. cbn [diff_funs diff_degrees bases_of c1 tri_cell cl_faces combine map fst snd face_funs Nat.max fsum3].
  rewrite !Z; [ring| | | |]; try (right; left; reflexivity); try (left; reflexivity); intros x; cbn; unfold delta; cbn; ring.
Qed.

(** ** C161: the HHO stabilisation with a degree per face.  For every reconstruction, it is the sum over the faces that
    carry unknowns of 1/h times the product of the projections, on the face's own degree, of what the faces see:
    r + (uT - projection of r) - uF. *)
Theorem C161_form : forall ldlt, solves_spd ldlt -> forall d P c, cell_fits d P c ->
  forall cd rd fdi rec hF, (cd <= rd)%nat -> length fdi = length (cl_faces c) ->
  let N := num_dofs c cd fdi in
  let r u := rec_fun c rd N rec u in
  let seen u ru du := l2proj (po_int P) cd (r u) ru /\
    jumps (po_facets P) fdi (faces_funs c cd fdi u) (PAdd (r u) (psubp (cell_fun c cd u) ru)) du in
  (forall u, exists ru du, seen u ru du) /\
  forall u v ru rv du dv, seen u ru du -> seen v rv dv ->
  quadf N (hho_stabilization_cdi ldlt c rd cd fdi rec hF) v u =
  fsum3 (po_facets P) du dv (fun f a b => / (if hF then fa_diam f else po_diam P) * fa_int f (PMul a b)).
Proof.
  intros ldlt HS d P c HC cd rd fdi rec hF Hcd HL N r seen. split.
  - intros u. destruct (l2_proj_exists _ _ (poly_int _ _ (cf_poly _ _ _ HC)) _ (cf_elem _ _ _ HC) ldlt HS cd (r u)) as (ru & Hr).
    destruct (face_jumps_exist d P c HC ldlt HS cd fdi u (PAdd (r u) (psubp (cell_fun c cd u) ru)) HL) as (du & Hd).
    exists ru, du. split; assumption.
  - intros u v ru rv du dv (Ru & Du) (Rv & Dv). apply (cdi_form d P c HC ldlt HS cd rd fdi rec hF u v ru rv du dv Hcd Ru Rv Du Dv).
Qed.
(** with the reconstruction of the same degrees: symmetric, positive, and together they vanish on constants only, also
    when the degrees of the faces differ or some faces have no unknowns *)
Theorem C161_kernel : forall ldlt, solves_spd ldlt -> forall d P c, cell_fits d P c ->
  forall cd rd fdi hF, (1 <= rd)%nat -> (cd <= rd)%nat -> length fdi = length (cl_faces c) ->
  let N := num_dofs c cd fdi in
  let '(oper, data) := hho_laplacian_cdi ldlt d c rd cd fdi in
  let S := hho_stabilization_cdi ldlt c rd cd fdi oper hF in
  forall u, (forall v, quadf N S u v = quadf N S v u) /\ 0 <= quadf N S u u /\ 0 <= quadf N data u u /\
   ((forall k, In (Some k) fdi -> (rd <= k + 1)%nat) ->
    (quadf N (maddm data S) u u = 0 <->
     exists k, (forall x, po_on P x -> peval (cell_fun c cd u) x = k) /\
       on_facets (po_facets P) (faces_funs c cd fdi u) (fun f uF => forall x, fa_on f x -> peval uF x = k))).
Proof.
  intros ldlt HS d P c HC cd rd fdi hF Hrd Hcd HL N. destruct (hho_laplacian_cdi ldlt d c rd cd fdi) as [oper data] eqn:E. cbv zeta. intros u.
  split; [|split; [|split]].
  - intros v. pose proof (s_sym d P c HC ldlt HS cd rd Hcd fdi HL hF u v) as K. rewrite E in K. exact K.
  - pose proof (s_pos d P c HC ldlt HS cd rd Hcd fdi HL hF u) as K. rewrite E in K. exact K.
  - pose proof (r_data_pos d P c HC ldlt HS cd rd Hrd Hcd fdi u) as K. rewrite E in K. exact K.
  - intros Hfd. pose proof (s_kernel d P c HC ldlt HS cd rd Hrd Hcd fdi HL hF u Hfd) as K. rewrite E in K. exact K.
Qed.
(** it vanishes on the interpolates of polynomials of the degree of the reconstruction, and whenever the faces carry the
    projections of the cell's function *)
Theorem C161_consistent : forall ldlt, solves_spd ldlt -> forall d P c, cell_fits d P c ->
  forall cd rd fdi hF, (1 <= rd)%nat -> (cd <= rd)%nat -> length fdi = length (cl_faces c) -> (forall k, In (Some k) fdi -> (rd <= k + 1)%nat) ->
  let N := num_dofs c cd fdi in
  let S := hho_stabilization_cdi ldlt c rd cd fdi (fst (hho_laplacian_cdi ldlt d c rd cd fdi)) hF in
  (forall u v, projs (po_facets P) fdi (faces_funs c cd fdi u) (cell_fun c cd u) -> quadf N S v u = 0) /\
  (forall p di v, pvars d p -> deg_le p rd -> (rd <= cd + 2)%nat -> (rd <= cd + 2 * di)%nat -> ~ In None fdi -> (forall k, In (Some k) fdi -> (rd <= k + 2 * di)%nat) ->
   quadf N S v (project_cdi ldlt c cd fdi (peval p) di) = 0).
Proof.
  intros ldlt HS d P c HC cd rd fdi hF Hrd Hcd HL Hfd N S. split.
  - intros u v Pu. apply (s_cell d P c HC ldlt HS cd rd Hrd Hcd fdi HL hF u v Hfd Pu).
  - intros p di v V D H1 H2 HA H3. apply (s_interp d P c HC ldlt HS cd rd Hrd Hcd fdi HL hF p di v V D H1 H2 HA). intros k Hk. split; [apply Hfd, Hk|apply H3, Hk].
Qed.

(** ** C162: the stabilisation with a tensor weighs every face with n.(kappa n) divided by the diameter of the cell *)
Theorem C162_tensor : forall ldlt, solves_spd ldlt -> forall d P c, cell_fits d P c ->
  forall cd fd rd rec kappa, (cd <= rd)%nat -> (fd <= rd)%nat ->
  let fdi := all_faces c fd in
  let N := num_dofs c cd fdi in
  let r u := rec_fun c rd N rec u in
  let seen u ru du := l2proj (po_int P) cd (r u) ru /\
    jumps (po_facets P) fdi (faces_funs c cd fdi u) (PAdd (r u) (psubp (cell_fun c cd u) ru)) du in
  let S := hho_stabilization2 ldlt d c (mkDegs cd fd rd) rec kappa in
  (forall u, exists ru du, seen u ru du) /\
  (forall u v ru rv du dv, seen u ru du -> seen v rv dv ->
   quadf N S v u = fsum3 (po_facets P) du dv (fun f a b => quadf d kappa (fa_normal f) (fa_normal f) / po_diam P * fa_int f (PMul a b))) /\
  (forall u v, quadf N S u v = quadf N S v u) /\
  ((forall x, 0 <= quadf d kappa x x) -> forall u, 0 <= quadf N S u u).
Proof.
  intros ldlt HS d P c HC cd fd rd rec kappa Hcd Hfd fdi N r seen S. split; [|split; [|split]].
  - intros u. destruct (t_proj d P c HC ldlt HS cd fd rd rec u) as (ru & Hr).
    destruct (t_jumps d P c HC ldlt HS cd fd u (PAdd (r u) (psubp (cell_fun c cd u) ru))) as (du & Hd). exists ru, du. split; assumption.
  - intros u v ru rv du dv (Ru & Du) (Rv & Dv). apply (stab2_form d P c HC ldlt HS cd fd rd rec kappa u v ru rv du dv Hcd Hfd Ru Rv Du Dv).
  - intros u v. apply (t_sym d P c HC ldlt HS cd fd rd rec kappa Hcd Hfd u v).
  - intros HK u. apply (t_pos d P c HC ldlt HS cd fd rd rec kappa Hcd Hfd u HK).
Qed.

(** ** C163: the numerical fluxes of the HHO stabilisation, scaled with the diameters of the faces: tested against
    vF - vT they give the stabilisation.  The system that defines them has one solution. *)
Theorem C163_fluxes : forall ldlt qr, solves_spd ldlt -> solves_full_rank qr -> forall d P c, cell_fits d P c ->
  forall cd rd fdi, (1 <= rd)%nat -> (cd <= rd)%nat -> length fdi = length (cl_faces c) -> (forall k, In (Some k) fdi -> (rd <= k + 1)%nat) ->
  let N := num_dofs c cd fdi in
  let oper := fst (hho_laplacian_cdi ldlt d c rd cd fdi) in
  forall u v,
  fsum3 (po_facets P) (face_funs 0 (bases_of c fdi) (times N (hho_stabilization_fluxes ldlt qr c rd cd fdi oper true) u)) (faces_funs c cd fdi v)
    (fun f s vF => / fa_diam f * fa_int f (PMul s (psubp vF (cell_fun c cd v)))) =
  quadf N (hho_stabilization_cdi ldlt c rd cd fdi oper true) v u.
Proof.
  intros ldlt qr HS HQ d P c HC cd rd fdi Hrd Hcd HL Hfd N oper u v. apply (fluxes_form d P c HC cd ldlt HS rd Hrd Hcd fdi HL Hfd qr true u v HQ).
Qed.

(** ** C164: scaled with the diameter of the cell the fluxes do not give the stabilisation with that scaling: the
    fluxes are computed from the stabilisation scaled with the faces.  What they do give: *)
Theorem C164_cell_scaling_partial : forall ldlt qr, solves_spd ldlt -> solves_full_rank qr -> forall d P c, cell_fits d P c ->
  forall cd rd fdi hF, (1 <= rd)%nat -> (cd <= rd)%nat -> length fdi = length (cl_faces c) -> (forall k, In (Some k) fdi -> (rd <= k + 1)%nat) ->
  let N := num_dofs c cd fdi in
  let oper := fst (hho_laplacian_cdi ldlt d c rd cd fdi) in
  forall u v,
  fsum3 (po_facets P) (face_funs 0 (bases_of c fdi) (times N (hho_stabilization_fluxes ldlt qr c rd cd fdi oper hF) u)) (faces_funs c cd fdi v)
    (fun f s vF => / (if hF then fa_diam f else po_diam P) * fa_int f (PMul s (psubp vF (cell_fun c cd v)))) =
  quadf N (hho_stabilization_cdi ldlt c rd cd fdi oper true) v u.
Proof.
  intros ldlt qr HS HQ d P c HC cd rd fdi hF Hrd Hcd HL Hfd N oper u v. apply (fluxes_form d P c HC cd ldlt HS rd Hrd Hcd fdi HL Hfd qr hF u v HQ).
Qed.
Theorem C164_cell_scaling_refuted : exists ldlt qr d P c cd rd fdi u v, solves_spd ldlt /\ solves_full_rank qr /\ cell_fits d P c /\
  (1 <= rd)%nat /\ (cd <= rd)%nat /\ length fdi = length (cl_faces c) /\ (forall k, In (Some k) fdi -> (rd <= k + 1)%nat) /\
  let N := num_dofs c cd fdi in
  let oper := fst (hho_laplacian_cdi ldlt d c rd cd fdi) in
  fsum3 (po_facets P) (face_funs 0 (bases_of c fdi) (times N (hho_stabilization_fluxes ldlt qr c rd cd fdi oper false) u)) (faces_funs c cd fdi v)
    (fun f s vF => / po_diam P * fa_int f (PMul s (psubp vF (cell_fun c cd v)))) <>
  quadf N (hho_stabilization_cdi ldlt c rd cd fdi oper false) v u.
Proof.
  assert (Hfd : forall k, In (Some k) (all_faces c1 0) -> (1 <= k + 1)%nat) by (intros; lia).
  exists elim_solve, ne_solve, 2%nat, T1, c1, 0%nat, 1%nat, (all_faces c1 0), (delta 0), (delta 0).
  split; [exact elim_solves|]. split; [exact ne_solves|]. split; [exact c1_fits|]. split; [lia|]. split; [lia|]. split; [reflexivity|]. split; [exact Hfd|].
  intros N oper E.
  pose proof (fluxes_form 2 T1 c1 c1_fits 0 elim_solve elim_solves 1 ltac:(lia) ltac:(lia) (all_faces c1 0) eq_refl Hfd ne_solve false (delta 0) (delta 0) ne_solves) as F.
  exact (w_differ (eq_trans (eq_sym F) E)).
Qed.

(** ** the hypotheses are met by the triangle (0,0), (2,0), (0,1), also with faces of different degrees or without unknowns *)
Example nested_triangle : faces_nested c1.
Proof. exact c1_nested. Qed.
Example solver_full_rank : solves_full_rank ne_solve.
Proof. exact ne_solves. Qed.
Example difference_triangle : forall u,
  on_facets2 (po_facets T1) (faces_funs c1 1 [Some 0%nat; None; Some 2%nat] u)
    (diff_funs c1 1 [Some 0%nat; None; Some 2%nat] (times 7 (hho_difference elim_solve c1 1 [Some 0%nat; None; Some 2%nat]) u))
    (fun f uF w => forall x, fa_on f x -> peval w x = peval uF x - peval (cell_fun c1 1 u) x).
Proof. intros u. exact (proj1 (C157_difference elim_solve elim_solves 2 T1 c1 c1_fits c1_nested 1 [Some 0%nat; None; Some 2%nat] eq_refl) u). Qed.
Example differences_triangle : num_dofs c1 1 [Some 0%nat; None; Some 2%nat] = 7%nat /\ num_diffs c1 1 [Some 0%nat; None; Some 2%nat] = 5%nat /\
  diff_dofs 1 (combine (cl_faces c1) [Some 0%nat; None; Some 2%nat]) = 7%nat.
Proof. repeat split. Qed.
Example kernel_triangle : forall hF u,
  let A := maddm (snd (hho_laplacian_cdi elim_solve 2 c1 2 1 [Some 1%nat; None; Some 2%nat])) (dg_stabilization c1 1 [Some 1%nat; None; Some 2%nat] hF) in
  quadf (num_dofs c1 1 [Some 1%nat; None; Some 2%nat]) A u u = 0 <->
  exists k, (forall x, po_on T1 x -> peval (cell_fun c1 1 u) x = k) /\
    on_facets (po_facets T1) (faces_funs c1 1 [Some 1%nat; None; Some 2%nat] u) (fun f uF => forall x, fa_on f x -> peval uF x = k).
Proof.
  intros hF u. exact (proj2 (C158_dg_kernel elim_solve elim_solves 2 T1 c1 c1_fits 1 2 [Some 1%nat; None; Some 2%nat] hF ltac:(lia) ltac:(lia) eq_refl u)).
Qed.
Example stabilization_nonzero : forall hF,
  0 < quadf 4 (hho_stabilization_cdi elim_solve c1 1 0 (all_faces c1 0) (fst (hho_laplacian_cdi elim_solve 2 c1 1 0 (all_faces c1 0))) hF) (delta 0) (delta 0).
Proof. exact w_nonzero. Qed.
Example fluxes_triangle : forall u v,
  let fdi := [Some 1%nat; Some 1%nat; Some 2%nat] in
  let oper := fst (hho_laplacian_cdi elim_solve 2 c1 2 1 fdi) in
  fsum3 (po_facets T1) (face_funs 0 (bases_of c1 fdi) (times (num_dofs c1 1 fdi) (hho_stabilization_fluxes elim_solve ne_solve c1 2 1 fdi oper true) u)) (faces_funs c1 1 fdi v)
    (fun f s vF => / fa_diam f * fa_int f (PMul s (psubp vF (cell_fun c1 1 v)))) =
  quadf (num_dofs c1 1 fdi) (hho_stabilization_cdi elim_solve c1 2 1 fdi oper true) v u.
Proof.
  intros u v. apply (C163_fluxes elim_solve ne_solve elim_solves ne_solves 2 T1 c1 c1_fits 1 2 [Some 1%nat; Some 1%nat; Some 2%nat] ltac:(lia) ltac:(lia) eq_refl).
  intros k [H|[H|[H|[]]]]; injection H as <-; lia.
Qed.

Print Assumptions C157_difference.
Print Assumptions C158_dg_stabilization.
Print Assumptions C158_dg_kernel.
Print Assumptions C159_differences.
Print Assumptions C159_forms.
Print Assumptions C160_fluxes_partial.
Print Assumptions C160_fluxes_refuted.
Print Assumptions C161_form.
Print Assumptions C161_kernel.
Print Assumptions C161_consistent.
Print Assumptions C162_tensor.
Print Assumptions C163_fluxes.
Print Assumptions C164_cell_scaling_partial.
Print Assumptions C164_cell_scaling_refuted.
