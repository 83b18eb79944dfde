(** The scalar HHO operators: interpolation, reconstruction and stabilisation.  [cell_fits] says what a cell of a
    mesh provides (a polytope, bases of the polynomials, exact quadratures), [solves_spd] what the linear solver
    does; HHOInst_Properties shows cells and a solver that satisfy them. *)
From Coq Require Import List Arith Reals Lra Lia Bool.
From Verif Require Import Poly_Spec HHO_Spec HHO_Model HHO_Setting HHO_Proofs HHO2_Proofs HHO3_Proofs HHO4_Proofs HHO5_Proofs HHO6_Proofs HHO7_Proofs HHO8_Proofs HHO9_Proofs.
Import ListNotations.
Open Scope R_scope.

(** ** C94: the reconstruction of the unknowns [u] is the solution in the polynomials of degree [rd] of
    (K grad r, grad w) = (K grad uT, grad w) + sum over the faces of (uF - uT, K grad w . n), with or without the
    projection on the faces; the matrix returned with it is its energy. *)
Theorem C94_reconstruction : forall ldlt, solves_spd ldlt -> forall d P c, cell_fits d P c ->
  forall K, spd d (tensor_of K) -> forall cd fd rd proj,
  (1 <= rd)%nat -> (cd <= rd)%nat -> (proj = true -> fd <= rd /\ rd <= fd + 1)%nat ->
  let fdi := all_faces c fd in let N := num_dofs c cd fdi in
  let '(oper, data) := make_scalar_hho_laplacian ldlt d K proj c (mkDegs cd fd rd) in
  let energy := fun p q => po_int P (graddot d p (kgrad d (tensor_of K) q)) in
  (forall u w, pvars d w -> deg_le w rd ->
     energy (rec_fun c rd N oper u) w =
     energy (cell_fun c cd u) w +
     fsum2 (po_facets P) (faces_funs c cd fdi u) (fun f uF =>
       fa_int f (PMul (psubp uF (cell_fun c cd u)) (flux d (tensor_of K) (fa_normal f) w)))) /\
  (forall u v, quadf N data u v = energy (rec_fun c rd N oper u) (rec_fun c rd N oper v)).
Proof.
  intros ldlt HS d P c HC K HK cd fd rd proj Hrd Hcd Hproj fdi N.
  pose proof (h_eq d P c HC K HK ldlt HS rd cd fd Hrd Hcd proj Hproj) as A.
  pose proof (h_data d P c HC K HK ldlt HS rd cd fd Hrd Hcd proj Hproj) as B. unfold rec in A, B.
  destruct (make_scalar_hho_laplacian ldlt d K proj c (mkDegs cd fd rd)) as [oper data]. cbn [fst snd] in A, B. split; [exact A|exact B].
Qed.
(** with one degree per face, faces without unknowns included *)
Theorem C94_reconstruction_faces : forall ldlt, solves_spd ldlt -> forall d P c, cell_fits d P c ->
  forall cd fdi rd, (1 <= rd)%nat -> (cd <= rd)%nat ->
  let N := num_dofs c cd fdi in
  let '(oper, data) := hho_laplacian_cdi ldlt d c rd cd fdi in
  let energy := fun p q => po_int P (graddot d p (kgrad d delta q)) in
  (forall u w, pvars d w -> deg_le w rd ->
     energy (rec_fun c rd N oper u) w =
     energy (cell_fun c cd u) w +
     fsum2 (po_facets P) (faces_funs c cd fdi u) (fun f uF =>
       fa_int f (PMul (psubp uF (cell_fun c cd u)) (flux d delta (fa_normal f) w)))) /\
  (forall u v, quadf N data u v = energy (rec_fun c rd N oper u) (rec_fun c rd N oper v)).
Proof.
  intros ldlt HS d P c HC cd fdi rd Hrd Hcd N.
  pose proof (c_eq d P c HC ldlt HS rd cd Hrd Hcd fdi) as A. pose proof (c_data d P c HC ldlt HS rd cd Hrd Hcd fdi) as B.
  destruct (hho_laplacian_cdi ldlt d c rd cd fdi) as [oper data]. cbn [fst snd] in A, B. split; [exact A|exact B].
Qed.

(** ** C95: the reconstruction of the interpolate of a polynomial of degree [rd] is that polynomial, up to a
    constant.  [di] is the degree increase given to project_function. *)
Theorem C95_consistency : forall ldlt, solves_spd ldlt -> forall d P c, cell_fits d P c ->
  forall K, spd d (tensor_of K) -> forall cd fd rd proj di p,
  (1 <= rd)%nat -> (cd <= rd <= cd + 2)%nat -> (rd <= fd + 1)%nat -> (proj = true -> fd <= rd)%nat ->
  (rd <= cd + 2 * di)%nat -> (rd <= fd + 2 * di)%nat ->
  pvars d p -> deg_le p rd ->
  let N := num_dofs c cd (all_faces c fd) in
  let oper := fst (make_scalar_hho_laplacian ldlt d K proj c (mkDegs cd fd rd)) in
  exists k, forall x, po_on P x ->
    peval p x = peval (rec_fun c rd N oper (project_hho ldlt c (mkDegs cd fd rd) (peval p) di)) x + k.
Proof.
  intros ldlt HS d P c HC K HK cd fd rd proj di p Hrd Hcd Hfd Hproj H1 H2 Hv Hp N oper.
  apply (h_consistent d P c HC K HK ldlt HS rd cd fd Hrd ltac:(lia) proj ltac:(intros E; specialize (Hproj E); lia) p di Hv Hp); lia.
Qed.
Theorem C95_consistency_faces : forall ldlt, solves_spd ldlt -> forall d P c, cell_fits d P c ->
  forall cd fdi rd di p, (1 <= rd)%nat -> (cd <= rd <= cd + 2)%nat -> (rd <= cd + 2 * di)%nat ->
  length fdi = length (cl_faces c) -> ~ In None fdi ->
  (forall fd, In (Some fd) fdi -> (rd <= fd + 1)%nat /\ (rd <= fd + 2 * di)%nat) ->
  pvars d p -> deg_le p rd ->
  let N := num_dofs c cd fdi in
  let oper := fst (hho_laplacian_cdi ldlt d c rd cd fdi) in
  exists k, forall x, po_on P x ->
    peval p x = peval (rec_fun c rd N oper (project_cdi ldlt c cd fdi (peval p) di)) x + k.
Proof.
  intros ldlt HS d P c HC cd fdi rd di p Hrd Hcd H1 HL HN Hf Hv Hp N oper.
  apply (c_consistent d P c HC ldlt HS rd cd Hrd ltac:(lia) fdi p di Hv Hp); try assumption; lia.
Qed.

(** ** C96: the HHO stabilisation is the sum over the faces of 1/h (with h the diameter of the cell) times the
    products of the projections of rec u + uT - proj(rec u) - uF; it is symmetric and positive. *)
Theorem C96_hho_stabilization : forall ldlt, solves_spd ldlt -> forall d P c, cell_fits d P c ->
  forall cd fd rd oper, (cd <= rd)%nat ->
  let fdi := all_faces c fd in let N := num_dofs c cd fdi in
  let S := make_scalar_hho_stabilization ldlt c (mkDegs cd fd rd) oper in
  let rec := rec_fun c rd N oper in
  (forall u v ru rv ju jv,
     l2proj (po_int P) cd (rec u) ru -> l2proj (po_int P) cd (rec v) rv ->
     jumps (po_facets P) fdi (faces_funs c cd fdi u) (PAdd (rec u) (psubp (cell_fun c cd u) ru)) ju ->
     jumps (po_facets P) fdi (faces_funs c cd fdi v) (PAdd (rec v) (psubp (cell_fun c cd v) rv)) jv ->
     quadf N S v u = fsum3 (po_facets P) ju jv (fun f a b => / po_diam P * fa_int f (PMul a b))) /\
  (forall u, exists ru ju, l2proj (po_int P) cd (rec u) ru /\
     jumps (po_facets P) fdi (faces_funs c cd fdi u) (PAdd (rec u) (psubp (cell_fun c cd u) ru)) ju).
Proof.
  intros ldlt HS d P c HC cd fd rd oper Hcd fdi N S rec. split.
  - intros u v ru rv ju jv Pu Pv Ju Jv. apply (hho_form d P c HC ldlt HS cd fd rd oper u v ru rv ju jv Hcd Pu Pv Ju Jv).
  - intros u. destruct (l2_proj_exists _ _ (poly_int _ _ (cf_poly _ _ _ HC)) _ (cf_elem _ _ _ HC) ldlt HS cd (rec u)) as (r & Hr).
    destruct (face_jumps_exist d P c HC ldlt HS cd fdi u (PAdd (rec u) (psubp (cell_fun c cd u) r)) ltac:(apply map_length)) as (j & Hj).
    exists r, j. split; assumption.
Qed.
Theorem C96_symmetric_positive : forall ldlt, solves_spd ldlt -> forall d P c, cell_fits d P c ->
  forall K cd fd rd proj, (cd <= rd)%nat ->
  let N := num_dofs c cd (all_faces c fd) in
  let S := make_scalar_hho_stabilization ldlt c (mkDegs cd fd rd) (fst (make_scalar_hho_laplacian ldlt d K proj c (mkDegs cd fd rd))) in
  forall u v, quadf N S u v = quadf N S v u /\ 0 <= quadf N S u u.
Proof.
  intros ldlt HS d P c HC K cd fd rd proj Hcd N S u v. split.
  - apply (hho_sym d P c HC K ldlt HS rd cd fd Hcd proj u v).
  - apply (hho_pos d P c HC K ldlt HS rd cd fd Hcd proj u).
Qed.

(** ** C97: the HDG stabilisation: the same with uT - uF; the scaling is by the diameter of the face or of the
    cell, or by n . kappa n and the diameter of the cell. *)
Theorem C97_hdg_stabilization : forall ldlt, solves_spd ldlt -> forall d P c, cell_fits d P c ->
  forall cd fdi hF, length fdi = length (cl_faces c) ->
  let N := num_dofs c cd fdi in
  let S := hdg_stabilization ldlt c cd fdi hF in
  (forall u v ju jv,
     jumps (po_facets P) fdi (faces_funs c cd fdi u) (cell_fun c cd u) ju ->
     jumps (po_facets P) fdi (faces_funs c cd fdi v) (cell_fun c cd v) jv ->
     quadf N S v u = fsum3 (po_facets P) ju jv (fun f a b => / (if hF then fa_diam f else po_diam P) * fa_int f (PMul a b))) /\
  (forall u, exists ju, jumps (po_facets P) fdi (faces_funs c cd fdi u) (cell_fun c cd u) ju).
Proof.
  intros ldlt HS d P c HC cd fdi hF HL N S. split.
  - intros u v ju jv Ju Jv. apply (hdg_form d P c HC ldlt HS cd fdi hF u v ju jv Ju Jv).
  - intros u. apply (face_jumps_exist d P c HC ldlt HS cd fdi u (cell_fun c cd u) HL).
Qed.
Theorem C97_hdg_stabilization_tensor : forall ldlt, solves_spd ldlt -> forall d P c, cell_fits d P c ->
  forall cd fd rd kappa,
  let fdi := all_faces c fd in let N := num_dofs c cd fdi in
  let S := hdg_stabilization2 ldlt d c (mkDegs cd fd rd) kappa in
  forall u v ju jv,
     jumps (po_facets P) fdi (faces_funs c cd fdi u) (cell_fun c cd u) ju ->
     jumps (po_facets P) fdi (faces_funs c cd fdi v) (cell_fun c cd v) jv ->
     quadf N S v u = fsum3 (po_facets P) ju jv (fun f a b => quadf d kappa (fa_normal f) (fa_normal f) / po_diam P * fa_int f (PMul a b)).
Proof.
  intros ldlt HS d P c HC cd fd rd kappa fdi N S u v ju jv Ju Jv. apply (hdg2_form d P c HC ldlt HS cd fd kappa rd u v ju jv Ju Jv).
Qed.
Theorem C97_symmetric_positive : forall ldlt, solves_spd ldlt -> forall d P c, cell_fits d P c ->
  forall cd fd hF, let N := num_dofs c cd (all_faces c fd) in
  let S := hdg_stabilization ldlt c cd (all_faces c fd) hF in
  forall u v, quadf N S u v = quadf N S v u /\ 0 <= quadf N S u u.
Proof.
  intros ldlt HS d P c HC cd fd hF N S u v. split.
  - apply (hdg_sym d P c HC ldlt HS cd fd hF u v).
  - apply (hdg_pos d P c HC ldlt HS cd fd hF u).
Qed.

(** ** C98: the stabilised local operator has zero energy exactly on the constants *)
Theorem C98_kernel : forall ldlt, solves_spd ldlt -> forall d P c, cell_fits d P c ->
  forall K, spd d (tensor_of K) -> forall cd fd rd proj,
  (1 <= rd)%nat -> (cd <= rd <= fd + 1)%nat -> (proj = true -> fd <= rd)%nat ->
  let fdi := all_faces c fd in let N := num_dofs c cd fdi in
  let '(oper, data) := make_scalar_hho_laplacian ldlt d K proj c (mkDegs cd fd rd) in
  let A := maddm data (make_scalar_hho_stabilization ldlt c (mkDegs cd fd rd) oper) in
  forall u, 0 <= quadf N A u u /\
   (quadf N A u u = 0 <->
    exists k, (forall x, po_on P x -> peval (cell_fun c cd u) x = k) /\
      on_facets (po_facets P) (faces_funs c cd fdi u) (fun f uF => forall x, fa_on f x -> peval uF x = k)).
Proof.
  intros ldlt HS d P c HC K HK cd fd rd proj Hrd Hcd Hproj fdi N.
  assert (Hp : (proj = true -> fd <= rd /\ rd <= fd + 1)%nat) by (intros E; specialize (Hproj E); lia).
  pose proof (hho_kernel d P c HC K HK ldlt HS rd cd fd Hrd ltac:(lia) proj Hp) as A.
  pose proof (hho_pos d P c HC K ldlt HS rd cd fd ltac:(lia) proj) as B.
  pose proof (h_data d P c HC K HK ldlt HS rd cd fd Hrd ltac:(lia) proj Hp) as C. unfold rec in C.
  destruct (make_scalar_hho_laplacian ldlt d K proj c (mkDegs cd fd rd)) as [oper data]. cbn [fst snd] in A, B, C. intros A' u.
  split; [|apply A; lia]. rewrite bil_quadf. unfold A'. rewrite bil_add. specialize (B u). specialize (C u u).
  pose proof (en_pos d P (cf_poly _ _ _ HC) (tensor_of K) HK (rec_fun c rd N oper u)) as D. refine (Rplus_le_le_0_compat _ _ (eq_ind_r (fun z => 0 <= z) D C) B).
Qed.
Theorem C98_kernel_hdg : forall ldlt, solves_spd ldlt -> forall d P c, cell_fits d P c ->
  forall K, spd d (tensor_of K) -> forall cd fd rd proj hF,
  (1 <= rd)%nat -> (cd <= rd <= fd + 1)%nat -> (proj = true -> fd <= rd)%nat ->
  let fdi := all_faces c fd in let N := num_dofs c cd fdi in
  let A := maddm (snd (make_scalar_hho_laplacian ldlt d K proj c (mkDegs cd fd rd))) (hdg_stabilization ldlt c cd fdi hF) in
  forall u, 0 <= quadf N A u u /\
   (quadf N A u u = 0 <->
    exists k, (forall x, po_on P x -> peval (cell_fun c cd u) x = k) /\
      on_facets (po_facets P) (faces_funs c cd fdi u) (fun f uF => forall x, fa_on f x -> peval uF x = k)).
Proof.
  intros ldlt HS d P c HC K HK cd fd rd proj hF Hrd Hcd Hproj fdi N A u.
  assert (Hp : (proj = true -> fd <= rd /\ rd <= fd + 1)%nat) by (intros E; specialize (Hproj E); lia).
  split; [|apply (hdg_kernel d P c HC K HK ldlt HS rd cd fd Hrd ltac:(lia) proj Hp hF u); lia].
  rewrite bil_quadf. unfold A. rewrite bil_add.
  pose proof (hdg_pos d P c HC ldlt HS cd fd hF u) as B.
  pose proof (h_data d P c HC K HK ldlt HS rd cd fd Hrd ltac:(lia) proj Hp u u) as C.
  pose proof (en_pos d P (cf_poly _ _ _ HC) (tensor_of K) HK (rec d c K ldlt rd cd fd proj u)) as D. refine (Rplus_le_le_0_compat _ _ (eq_ind_r (fun z => 0 <= z) D C) B).
Qed.

(** ** C99: patch test: on the interpolate of a polynomial the stabilisation vanishes and the local operator
    returns the exact residual *)
Theorem C99_patch : forall ldlt, solves_spd ldlt -> forall d P c, cell_fits d P c ->
  forall K, spd d (tensor_of K) -> forall cd fd rd proj di p,
  (1 <= rd)%nat -> (cd <= rd <= cd + 2)%nat -> (rd <= fd + 1)%nat -> (proj = true -> fd <= rd)%nat ->
  (rd <= cd + 2 * di)%nat -> (rd <= fd + 2 * di)%nat ->
  pvars d p -> deg_le p rd ->
  let fdi := all_faces c fd in let N := num_dofs c cd fdi in
  let '(oper, data) := make_scalar_hho_laplacian ldlt d K proj c (mkDegs cd fd rd) in
  let S := make_scalar_hho_stabilization ldlt c (mkDegs cd fd rd) oper in
  let u := project_hho ldlt c (mkDegs cd fd rd) (peval p) di in
  forall v, quadf N S v u = 0 /\
    quadf N (maddm data S) v u =
    - po_int P (PMul (cell_fun c cd v) (divk d (tensor_of K) p)) +
    fsum2 (po_facets P) (faces_funs c cd fdi v) (fun f vF => fa_int f (PMul vF (flux d (tensor_of K) (fa_normal f) p))).
Proof.
  intros ldlt HS d P c HC K HK cd fd rd proj di p Hrd Hcd Hfd Hproj H1 H2 Hv Hp fdi N.
  assert (Hpr : (proj = true -> fd <= rd /\ rd <= fd + 1)%nat) by (intros E; specialize (Hproj E); lia).
  pose proof (hho_interp d P c HC K HK ldlt HS rd cd fd Hrd ltac:(lia) proj Hpr p di Hv Hp ltac:(lia) Hfd H1 H2) as A.
  pose proof (hho_patch d P c HC K HK ldlt HS rd cd fd Hrd ltac:(lia) proj Hpr p di Hv Hp ltac:(lia) Hfd H1 H2) as B.
  destruct (make_scalar_hho_laplacian ldlt d K proj c (mkDegs cd fd rd)) as [oper data]. cbn [fst snd] in A, B. intros S u v.
  split; [apply A|apply B].
Qed.
(** with the HDG stabilisation, for polynomials of the degree of the cell *)
Theorem C99_patch_hdg : forall ldlt, solves_spd ldlt -> forall d P c, cell_fits d P c ->
  forall K, spd d (tensor_of K) -> forall cd fd rd proj hF di p,
  (1 <= rd)%nat -> (cd <= rd <= cd + 2)%nat -> (rd <= fd + 1)%nat -> (proj = true -> fd <= rd)%nat ->
  (rd <= cd + 2 * di)%nat -> (rd <= fd + 2 * di)%nat ->
  pvars d p -> deg_le p cd ->
  let fdi := all_faces c fd in let N := num_dofs c cd fdi in
  let S := hdg_stabilization ldlt c cd fdi hF in
  let u := project_hho ldlt c (mkDegs cd fd rd) (peval p) di in
  forall v, quadf N S v u = 0 /\
    quadf N (maddm (snd (make_scalar_hho_laplacian ldlt d K proj c (mkDegs cd fd rd))) S) v u =
    - po_int P (PMul (cell_fun c cd v) (divk d (tensor_of K) p)) +
    fsum2 (po_facets P) (faces_funs c cd fdi v) (fun f vF => fa_int f (PMul vF (flux d (tensor_of K) (fa_normal f) p))).
Proof.
  intros ldlt HS d P c HC K HK cd fd rd proj hF di p Hrd Hcd Hfd Hproj H1 H2 Hv Hp fdi N S u v.
  assert (Hpr : (proj = true -> fd <= rd /\ rd <= fd + 1)%nat) by (intros E; specialize (Hproj E); lia).
  assert (Hp' : deg_le p rd) by (apply (deg_le_mono _ cd); [lia|exact Hp]).
  split.
  - apply (hdg_interp d P c HC ldlt HS rd cd fd Hrd ltac:(lia) proj Hpr p di Hp' ltac:(lia) Hfd H1 H2 hF v Hp).
  - apply (hdg_patch d P c HC K HK ldlt HS rd cd fd Hrd ltac:(lia) proj Hpr p di Hv Hp' ltac:(lia) Hfd H1 H2 hF v Hp).
Qed.

(** ** C100: project_function computes the L2 projections on the cell and on the faces *)
Theorem C100_projection : forall ldlt, solves_spd ldlt -> forall d P c, cell_fits d P c ->
  forall cd fdi di p, length fdi = length (cl_faces c) ->
  deg_le p (cd + 2 * di) -> (forall fd, In (Some fd) fdi -> deg_le p (fd + 2 * di)) ->
  let u := project_cdi ldlt c cd fdi (peval p) di in
  l2proj (po_int P) cd p (cell_fun c cd u) /\ projs (po_facets P) fdi (faces_funs c cd fdi u) p.
Proof. intros ldlt HS d P c HC cd fdi di p. apply (project_l2 d P c HC ldlt HS cd fdi p di). Qed.
(** the interface with one degree for all faces is the same function *)
Theorem C100_projection_same : forall ldlt c cd fd rd f di,
  project_hho ldlt c (mkDegs cd fd rd) f di = project_cdi ldlt c cd (all_faces c fd) f di.
Proof. intros. apply (project_hho_cdi ldlt c (mkDegs cd fd rd) f di). Qed.
(** it reproduces polynomials of the degree of the cell *)
Theorem C100_projection_id : forall ldlt, solves_spd ldlt -> forall d P c, cell_fits d P c ->
  forall cd fdi di p, deg_le p cd -> forall x, po_on P x ->
  peval (cell_fun c cd (project_cdi ldlt c cd fdi (peval p) di)) x = peval p x.
Proof.
  intros ldlt HS d P c HC cd fdi di p D x Hx. rewrite project_cell.
  apply (proj_id _ _ (poly_int _ _ (cf_poly _ _ _ HC)) _ (cf_elem _ _ _ HC) ldlt HS cd p di D x Hx).
Qed.

Print Assumptions C94_reconstruction.
Print Assumptions C94_reconstruction_faces.
Print Assumptions C95_consistency.
Print Assumptions C95_consistency_faces.
Print Assumptions C96_hho_stabilization.
Print Assumptions C96_symmetric_positive.
Print Assumptions C97_hdg_stabilization.
Print Assumptions C97_hdg_stabilization_tensor.
Print Assumptions C97_symmetric_positive.
Print Assumptions C98_kernel.
Print Assumptions C98_kernel_hdg.
Print Assumptions C99_patch.
Print Assumptions C99_patch_hdg.
Print Assumptions C100_projection.
Print Assumptions C100_projection_same.
Print Assumptions C100_projection_id.
