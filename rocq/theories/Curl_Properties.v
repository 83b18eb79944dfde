(** The HHO operators for the curl: theorems. *)
From Coq Require Import List Arith Reals Lra Lia Bool.
From Verif Require Import Poly_Spec Poly_Proofs HHO_Spec VHHO_Spec SymL_Spec Curl_Spec HHO_Model VHHO_Model Curl_Model HHO_Setting VHHO_Setting Curl_Setting
  HHO_Proofs HHO2_Proofs HHO3_Proofs HHO4_Proofs HHO5_Proofs HHO6_Proofs HHO9_Proofs HHOInst_Proofs HHOInst2_Proofs VHHO_Proofs VHHO3_Proofs HHOInst_Properties RefTet_Proofs
  Curl_Proofs Curl2_Proofs Curl3_Proofs Curl4_Proofs Curl5_Proofs Curl6_Proofs CurlInst_Proofs.
Import ListNotations.
Open Scope R_scope.

(** ** C176: curl_reconstruction_pk and curl_reconstruction_nedelec.  The reconstruction C u has degree rd and
    int t . C u = int t . curl uT + sum over the faces of int (t x n) . (uF - uT) for every t of degree rd; the second
    matrix is int C u . C v *)
Theorem C176_reconstruction : forall ldlt, solves_spd ldlt -> forall P c, cell_fits 3 P c ->
  forall cd rd fd tb, Forall2 (tb_fits fd) (po_facets P) tb -> (fd <= rd + 2)%nat -> (rd <= cd + 1)%nat ->
  let N := tdofs c cd tb in
  let '(oper, data) := curl_reconstruction_pk ldlt c cd rd tb in
  let C := oper_fun (vec_basis 3 (el_basis (cl_elem c) rd)) N oper in
  (forall u, vdeg 3 (C u) rd) /\
  (forall u t, vdeg 3 t rd -> vvars 3 3 t ->
     po_int P (vdot 3 t (C u)) = po_int P (vdot 3 t (curlv (vcell_fun 3 c cd u))) +
       vfsum2 (po_facets P) (tfaces c cd tb u) (fun f uF => fa_int f (vdot 3 (pcross t (fa_normal f)) (vsub uF (vcell_fun 3 c cd u))))) /\
  (forall u v, quadf N data u v = po_int P (vdot 3 (C u) (C v))).
Proof.
  intros ldlt HS P c HC cd rd fd tb HT Hq Hr N. pose proof (fits_deg _ _ _ HT) as HD. pose proof (fits_len P c fd tb HC HT) as LT.
  pose proof (ck_deg P c HC ldlt cd rd tb) as A. pose proof (ck_eq P c HC ldlt HS cd rd fd tb HD LT Hq Hr) as B.
  pose proof (ck_data P c HC ldlt HS cd rd fd tb LT Hq Hr) as D. unfold CK in A, B, D. fold N in A, B, D.
  destruct (curl_reconstruction_pk ldlt c cd rd tb) as [oper data]. cbn [fst snd] in A, B, D. cbv zeta. split; [exact A|split; [|exact D]].
  intros u t Dt Vt. rewrite (B u t Dt Vt). apply (ckform_curl P c HC cd tb LT).
Qed.
(** if the unknowns are the projections of V, the reconstruction is the projection of curl V *)
Theorem C176_commutes : forall ldlt, solves_spd ldlt -> forall P c, cell_fits 3 P c ->
  forall cd rd fd tb, Forall2 (tb_fits fd) (po_facets P) tb -> (rd <= fd <= rd + 2)%nat -> (rd <= cd + 1)%nat ->
  forall V u, l2vec (po_int P) 3 cd V (vcell_fun 3 c cd u) -> tprojs fd (po_facets P) (tfaces c cd tb u) V ->
  l2vec (po_int P) 3 rd (curlv V) (oper_fun (vec_basis 3 (el_basis (cl_elem c) rd)) (tdofs c cd tb) (fst (curl_reconstruction_pk ldlt c cd rd tb)) u).
Proof.
  intros ldlt HS P c HC cd rd fd tb HT Hq Hr V u HV HF.
  exact (ck_commutes P c HC ldlt HS cd rd fd tb (fits_deg _ _ _ HT) (fits_len P c fd tb HC HT) (proj2 Hq) Hr V u (proj1 Hq) HV HF).
Qed.
(** the tangential basis of a face: independent, tangent and complete *)
Theorem C176_tangential : forall f e0 e1, frame_fits f e0 e1 -> forall fd b, basis_on (fa_on f) fd (b_size b) (b_poly b) ->
  tb_fits fd f (tang_basis e0 e1 b) /\ tb_spans fd f (tang_basis e0 e1 b).
Proof. intros f e0 e1 HF fd b HB. split; [exact (tang_fits f e0 e1 HF fd b HB)|exact (tang_spans f e0 e1 HF fd b HB)]. Qed.

(** ** C177: curl_reconstruction in space, where the matrix is singular and the solver finds some solution: the system
    has one, int curl t . curl R u = int curl t . curl uT + sum over the faces of int (curl t x n) . (uF - uT) for every t
    of degree rd, and the second matrix is int curl R u . curl R v *)
Theorem C177_reconstruction : forall lu, solves_any lu -> forall P c, cell_fits 3 P c ->
  forall cd rd fd tb, Forall2 (tb_fits fd) (po_facets P) tb -> (1 <= rd)%nat -> (cd <= rd)%nat -> (fd <= rd + 1)%nat ->
  let N := tdofs c cd tb in
  exists oper data, curl_reconstruction lu c cd rd tb = Some (oper, data) /\
  let Rc := drop3_fun (vec_basis 3 (el_basis (cl_elem c) rd)) N oper in
  (forall u, vdeg 3 (Rc u) rd) /\
  (forall u t, vdeg 3 t rd -> vvars 3 3 t ->
     po_int P (vdot 3 (curlv t) (curlv (Rc u))) = po_int P (vdot 3 (curlv t) (curlv (vcell_fun 3 c cd u))) +
       vfsum2 (po_facets P) (tfaces c cd tb u) (fun f uF => fa_int f (vdot 3 (pcross (curlv t) (fa_normal f)) (vsub uF (vcell_fun 3 c cd u))))) /\
  (forall u v, quadf N data u v = po_int P (vdot 3 (curlv (Rc u)) (curlv (Rc v)))) /\
  (forall V u, (rd <= cd + 2)%nat -> (rd <= fd + 1)%nat -> vdeg 3 V rd -> vvars 3 3 V ->
     l2vec (po_int P) 3 cd V (vcell_fun 3 c cd u) -> tprojs fd (po_facets P) (tfaces c cd tb u) V ->
     forall a x, (a < 3)%nat -> po_on P x -> peval (curlv (Rc u) a) x = peval (curlv V a) x).
Proof.
  intros lu HS P c HC cd rd fd tb HT H1 Hcd Hfd N. pose proof (fits_deg _ _ _ HT) as HD. pose proof (fits_len P c fd tb HC HT) as LT.
  pose proof (cr_prog P c HC lu cd rd fd tb LT H1 Hcd Hfd) as E. eexists. eexists. split; [exact E|]. cbv zeta.
  split; [exact (cr_deg P c HC lu cd rd fd tb LT H1 Hcd Hfd)|]. split; [exact (cr_eq P c HC lu HS cd rd fd tb HD LT H1 Hcd Hfd)|].
  split; [intros u v; exact (cr_data P c HC lu HS cd rd fd tb HD LT H1 Hcd Hfd v u)|].
  exact (cr_consistency P c HC lu HS cd rd fd tb HD LT H1 Hcd Hfd).
Qed.
(** with a cell degree above the reconstruction degree the program reads columns that the matrix does not have *)
Theorem C177_out_of_range : forall lu P c, cell_fits 3 P c -> forall cd rd tb,
  curl_reconstruction lu c cd rd tb = None <-> (b_size (el_basis (cl_elem c) rd) < b_size (el_basis (cl_elem c) cd))%nat.
Proof.
  intros lu P c HC cd rd tb. unfold curl_reconstruction, vec_basis. cbn [v_size]. destruct (Nat.leb_spec (3 * b_size (el_basis (cl_elem c) cd)) (3 * b_size (el_basis (cl_elem c) rd)));
    (split; [try discriminate; intros; lia|intros; try lia; reflexivity]).
Qed.
(** curl_reconstruction in the plane is the gradient reconstruction *)
Theorem C177_plane : forall ldlt, solves_spd ldlt -> forall P c, cell_fits 2 P c ->
  forall cd rd fd, (1 <= rd)%nat -> (cd <= rd)%nat -> (fd <= rd + 1)%nat ->
  let fdi := all_faces c fd in let N := num_dofs c cd fdi in
  let energy := fun p q => po_int P (graddot 2 p (kgrad 2 delta q)) in
  exists oper data, curl_reconstruction_2d ldlt c (mkDegs cd fd rd) = Some (oper, data) /\
  (forall u w, pvars 2 w -> deg_le w rd ->
     energy (rec_fun c rd N oper u) w = energy (cell_fun c cd u) w +
       fsum2 (po_facets P) (faces_funs c cd fdi u) (fun f uF => fa_int f (PMul (psubp uF (cell_fun c cd u)) (flux 2 delta (fa_normal f) w)))) /\
  (forall u v, quadf N data u v = energy (rec_fun c rd N oper u) (rec_fun c rd N oper v)) /\
  (forall p di, pvars 2 p -> deg_le p rd -> (rd <= cd + 2)%nat -> (rd <= cd + 2 * di)%nat -> (rd <= fd + 1)%nat -> (rd <= fd + 2 * di)%nat ->
     exists k, forall x, po_on P x -> peval p x = peval (rec_fun c rd N oper (project_hho ldlt c (mkDegs cd fd rd) (peval p) di)) x + k).
Proof.
  intros ldlt HS P c HC cd rd fd H1 Hcd Hfd fdi N energy. eexists. eexists. split; [exact (p2_prog P c HC ldlt rd cd fd Hcd)|].
  split; [exact (p2_eq P c HC ldlt HS rd cd fd H1 Hcd Hfd)|]. split; [exact (p2_data P c HC ldlt HS rd cd fd H1 Hcd Hfd)|].
  exact (p2_consistent P c HC ldlt HS rd cd fd H1 Hcd Hfd).
Qed.

(** ** C178: the stabilisations.  With [ds] the projections, on the functions of each face, of kF uF + kT uT, the matrix
    is s times the sum over the faces of int d(v) . d(u) *)
Definition stab_of (P : polytope) (c : scell) (cd : nat) (tb : list vbasis) (kF kT s : R) (M : mtx) : Prop :=
  let N := tdofs c cd tb in
  let jumps := fun u ds => tjumps kF kT (po_facets P) tb (tfaces c cd tb u) (vcell_fun 3 c cd u) ds in
  (forall u, exists ds, jumps u ds) /\
  (forall u v ds es, jumps u ds -> jumps v es -> quadf N M v u = s * vfsum3 (po_facets P) ds es (fun f a b => fa_int f (vdot 3 a b))) /\
  (forall u v, quadf N M u v = quadf N M v u).
Lemma stab_all ldlt (HS : solves_spd ldlt) P c (HC : cell_fits 3 P c) cd fd tb (HT : Forall2 (tb_fits fd) (po_facets P) tb) (HU : forall f, In f (po_facets P) -> unit_normal f) qd (Hq : (2 * Nat.max cd fd <= qd)%nat) kF kT s :
  stab_of P c cd tb kF kT s (chdg ldlt c cd qd kF kT s tb) /\
  (0 <= s -> forall u, 0 <= quadf (tdofs c cd tb) (chdg ldlt c cd qd kF kT s tb) u u) /\
  (kF + kT = 0 -> forall u v, tprojs fd (po_facets P) (tfaces c cd tb u) (vcell_fun 3 c cd u) -> quadf (tdofs c cd tb) (chdg ldlt c cd qd kF kT s tb) v u = 0).
Proof.
  pose proof (facet_int 3 P c HC) as HF.
  assert (E : forall u, exists ds, tjumps kF kT (po_facets P) tb (tfaces c cd tb u) (vcell_fun 3 c cd u) ds) by (intros u; apply (tjumps_exist P c HC ldlt HS cd fd kF kT tb HT u)).
  assert (F : forall u v ds es, tjumps kF kT (po_facets P) tb (tfaces c cd tb u) (vcell_fun 3 c cd u) ds -> tjumps kF kT (po_facets P) tb (tfaces c cd tb v) (vcell_fun 3 c cd v) es ->
    quadf (tdofs c cd tb) (chdg ldlt c cd qd kF kT s tb) v u = s * vfsum3 (po_facets P) ds es (fun f a b => fa_int f (vdot 3 a b))).
  { intros u v ds es. exact (chdg_form P c HC ldlt HS cd fd qd Hq kF kT s tb HT HU u v ds es). }
  split; [split; [exact E|split; [exact F|]]|split].
  - intros u v. destruct (E u) as (ds & Du). destruct (E v) as (es & Dv). rewrite (F u v ds es Du Dv), (F v u es ds Dv Du). rewrite (vfsum3_sym _ _ _ HF). reflexivity.
  - intros Hs u. destruct (E u) as (ds & Du). rewrite (F u u ds ds Du Du). apply Rmult_le_pos; [exact Hs|]. apply vfsum3_pos, HF.
  - intros K u v HP. destruct (E u) as (ds & Du). destruct (E v) as (es & Dv). rewrite (F u v ds es Du Dv).
    rewrite (tjumps_zero fd kF kT _ tb _ _ ds HF HT K HP Du). ring.
Qed.
Theorem C178_hdg : forall ldlt, solves_spd ldlt -> forall P c, cell_fits 3 P c -> forall cd fd tb, Forall2 (tb_fits fd) (po_facets P) tb ->
  (forall f, In f (po_facets P) -> unit_normal f) ->
  let S := curl_hdg_stabilization ldlt c cd fd tb in let N := tdofs c cd tb in
  stab_of P c cd tb 1 (-1) 1 S /\ (forall u, 0 <= quadf N S u u) /\
  (forall u v, tprojs fd (po_facets P) (tfaces c cd tb u) (vcell_fun 3 c cd u) -> quadf N S v u = 0).
Proof.
  intros ldlt HS P c HC cd fd tb HT HU. destruct (stab_all ldlt HS P c HC cd fd tb HT HU (2 * Nat.max cd fd + 2) ltac:(lia) 1 (-1) 1) as (A & B & C).
  split; [exact A|split; [apply B; lra|apply C; lra]].
Qed.
Theorem C178_nedelec : forall ldlt, solves_spd ldlt -> forall P c, cell_fits 3 P c -> forall cd fd tb, Forall2 (tb_fits fd) (po_facets P) tb ->
  (forall f, In f (po_facets P) -> unit_normal f) ->
  let S := curl_hdg_stabilization_nedelec ldlt c cd fd tb in let N := tdofs c cd tb in
  stab_of P c cd tb 1 (-1) (/ po_diam P) S /\ (forall u, 0 <= quadf N S u u) /\
  (forall u v, tprojs fd (po_facets P) (tfaces c cd tb u) (vcell_fun 3 c cd u) -> quadf N S v u = 0).
Proof.
  intros ldlt HS P c HC cd fd tb HT HU. destruct (stab_all ldlt HS P c HC cd fd tb HT HU (2 * Nat.max cd fd + 2) ltac:(lia) 1 (-1) (/ po_diam P)) as (A & B & C).
  unfold curl_hdg_stabilization_nedelec. rewrite (cf_diam _ _ _ HC).
  split; [exact A|split; [apply B; left; apply Rinv_0_lt_compat, (poly_diam _ _ (cf_poly _ _ _ HC))|apply C; lra]].
Qed.
Theorem C178_Z : forall ldlt, solves_spd ldlt -> forall P c, cell_fits 3 P c -> forall cd fd tb, Forall2 (tb_fits fd) (po_facets P) tb ->
  (forall f, In f (po_facets P) -> unit_normal f) -> forall jwmu0 Z,
  let S := curl_Z_stabilization ldlt c cd fd jwmu0 Z tb in let N := tdofs c cd tb in
  stab_of P c cd tb (- jwmu0 / Z) (jwmu0 / Z) 1 S /\ (forall u, 0 <= quadf N S u u) /\
  (forall u v, tprojs fd (po_facets P) (tfaces c cd tb u) (vcell_fun 3 c cd u) -> quadf N S v u = 0).
Proof.
  intros ldlt HS P c HC cd fd tb HT HU jwmu0 Z. destruct (stab_all ldlt HS P c HC cd fd tb HT HU (2 * Nat.max cd fd) ltac:(lia) (- jwmu0 / Z) (jwmu0 / Z) 1) as (A & B & C).
  split; [exact A|split; [apply B; lra|apply C; unfold Rdiv; ring]].
Qed.

(** ** C179: maxwell_prj.  The cell part is the projection of V on the polynomials of the cell degree; the parts of the
    faces are not the projections on the faces, because their integrals are taken over the cell *)
Theorem C179_cell_partial : forall ldlt, solves_spd ldlt -> forall P c, cell_fits 3 P c -> forall cd fd tb V, vdeg 3 V cd ->
  l2vec (po_int P) 3 cd V (vcell_fun 3 c cd (maxwell_prj ldlt c cd fd tb (fun x a => peval (V a) x))).
Proof. intros ldlt HS P c HC cd fd tb V DV. exact (prj_cell P c HC ldlt HS cd fd tb V DV). Qed.
Theorem C179_faces_refuted : forall ldlt, solves_spd ldlt ->
  exists P c cd fd tb V, cell_fits 3 P c /\ Forall2 (tb_fits fd) (po_facets P) tb /\ vdeg 3 V cd /\ vdeg 3 V fd /\
  ~ tprojs fd (po_facets P) (tfaces c cd tb (maxwell_prj ldlt c cd fd tb (fun x a => peval (V a) x))) V.
Proof.
  intros ldlt HS. exists tet_poly, tet_cell, 1%nat, 1%nat, (tet_tb 1), Vx. split; [exact tet_cell_fits|]. split; [apply tet_tb_fits|].
  assert (D : vdeg 3 Vx 1) by (intros a _; unfold Vx; destruct (a =? 1)%nat; apply deg_le_pdeg; cbn; lia).
  split; [exact D|]. split; [exact D|]. exact (prj_faces_wrong ldlt HS).
Qed.

(** ** C180: mass, impedance and plane-wave terms *)
Theorem C180_mass : forall P c, cell_fits 3 P c -> forall cd tb u v,
  quadf (tdofs c cd tb) (make_vector_mass_oper c cd) v u = po_int P (vdot 3 (vcell_fun 3 c cd v) (vcell_fun 3 c cd u)).
Proof. intros P c HC cd tb u v. apply (mass_oper P c HC). unfold tdofs. lia. Qed.
Theorem C180_impedance : forall P c, cell_fits 3 P c -> forall cd fd tb, Forall2 (tb_fits fd) (po_facets P) tb ->
  forall bnd, length bnd = length (cl_faces c) -> forall z,
  let '(Y, y) := make_impedance_term c cd fd tb bnd z in let N := tdofs c cd tb in
  (forall u v, quadf N Y v u = vsum_on (po_facets P) bnd (tfaces c cd tb v) (tfaces c cd tb u) (fun f a b => z * fa_int f (vdot 3 a b))) /\
  (forall v, sg N (fun i => v i * y i) = vsum_on (po_facets P) bnd (tfaces c cd tb v) (tfaces c cd tb v) (fun f a _ => z * fa_int f (a 2%nat))).
Proof.
  intros P c HC cd fd tb HT bnd LB z.
  assert (G : forall u v, let r := make_impedance_term c cd fd tb bnd z in
    quadf (tdofs c cd tb) (fst r) v u = vsum_on (po_facets P) bnd (tfaces c cd tb v) (tfaces c cd tb u) (fun f a b => z * fa_int f (vdot 3 a b)) /\
    sg (tdofs c cd tb) (fun i => v i * snd r i) = vsum_on (po_facets P) bnd (tfaces c cd tb v) (tfaces c cd tb v) (fun f a _ => z * fa_int f (a 2%nat))).
  { intros u v. destruct (imp_fold fd z (tdofs c cd tb) u v _ _ (faces_fit 3 P c HC) tb (fits_deg _ _ _ HT) (fits_len P c fd tb HC HT) bnd LB
      (v_size (vec_basis 3 (el_basis (cl_elem c) cd))) (zeroM, zeroV) ltac:(unfold tdofs; lia)) as [A B]. cbv zeta. split.
    - refine (eq_trans A _). cbn [fst]. rewrite bil_zero, Rplus_0_l. reflexivity.
    - refine (eq_trans B _). cbn [snd]. rewrite sg_zero by (intros; unfold zeroV; ring). rewrite Rplus_0_l. reflexivity. }
  destruct (make_impedance_term c cd fd tb bnd z) as [Y y]. cbn [fst snd] in G. split; [intros u v; apply (G u v)|intros v; apply (G v v)].
Qed.
Theorem C180_plane_wave : forall f fc, elem_fits (fa_on f) (fa_int f) (fc_elem fc) -> integral (fa_on f) (fa_int f) ->
  forall fd b, tb_fits fd f b -> forall V, vdeg 3 V fd ->
  let '(Y, y) := make_plane_wave_term fc b fd (fun x a => peval (V a) x) in
  (forall i j, (i < v_size b)%nat -> (j < v_size b)%nat -> Y i j = fa_int f (vdot 3 (v_comp b i) (v_comp b j))) /\
  (forall i, (i < v_size b)%nat -> y i = fa_int f (vdot 3 (v_comp b i) V)).
Proof.
  intros f fc FF FI fd b Hb V DV. unfold make_plane_wave_term. split.
  - intros i j Hi Hj. apply (vaccumulate_int 3 _ _ FI _ (fit_quad _ _ _ FF)); [reflexivity|reflexivity|]. apply (deg_le_mono _ (fd + fd)); [lia|]. apply deg_vdot; apply (proj1 Hb); assumption.
  - intros i Hi. apply (load_int _ _ FI _ (fit_quad _ _ _ FF)). apply (deg_le_mono _ (fd + fd)); [lia|]. apply deg_vdot; [apply (proj1 Hb), Hi|exact DV].
Qed.

(** the hypotheses are met on the reference tetrahedron, for every degree of the faces, with the elimination solvers *)
Example C176_ex : forall fd V u, l2vec (po_int tet_poly) 3 fd V (vcell_fun 3 tet_cell fd u) -> tprojs fd (po_facets tet_poly) (tfaces tet_cell fd (tet_tb fd) u) V ->
  l2vec (po_int tet_poly) 3 fd (curlv V) (oper_fun (vec_basis 3 (el_basis (cl_elem tet_cell) fd)) (tdofs tet_cell fd (tet_tb fd)) (fst (curl_reconstruction_pk elim_solve tet_cell fd fd (tet_tb fd))) u).
Proof. intros fd. apply (C176_commutes elim_solve elim_solves tet_poly tet_cell tet_cell_fits fd fd fd (tet_tb fd) (tet_tb_fits fd)); lia. Qed.
Example C177_ex : exists oper data, curl_reconstruction any_solve tet_cell 1 1 (tet_tb 1) = Some (oper, data) /\ v_size (vec_basis 3 (el_basis (cl_elem tet_cell) 1)) = 12%nat.
Proof.
  destruct (C177_reconstruction any_solve any_solves tet_poly tet_cell tet_cell_fits 1 1 1 (tet_tb 1) (tet_tb_fits 1) ltac:(lia) ltac:(lia) ltac:(lia)) as (o & d & E & _).
  exists o, d. split; [exact E|reflexivity].
Qed.
Example C177_plane_ex : exists oper data, curl_reconstruction_2d elim_solve c1 (mkDegs 1 1 2) = Some (oper, data).
Proof. destruct (C177_plane elim_solve elim_solves T1 c1 c1_fits 1 2 1 ltac:(lia) ltac:(lia) ltac:(lia)) as (o & d & E & _). exists o, d. exact E. Qed.
Example C178_ex : forall cd fd, Forall2 (tb_fits fd) (po_facets tet_poly) (tet_tb fd) /\ (forall f, In f (po_facets tet_poly) -> unit_normal f) /\
  forall u, 0 <= quadf (tdofs tet_cell cd (tet_tb fd)) (curl_hdg_stabilization elim_solve tet_cell cd fd (tet_tb fd)) u u.
Proof.
  intros cd fd. split; [apply tet_tb_fits|]. split; [exact tet_unit|].
  apply (C178_hdg elim_solve elim_solves tet_poly tet_cell tet_cell_fits cd fd (tet_tb fd) (tet_tb_fits fd) tet_unit).
Qed.
(** the impedance of the constant field (0, 1, 0) on the face x = 0 alone, of area 1/2 *)
Example C180_ex : exists u, let '(Y, y) := make_impedance_term tet_cell 0 0 (tet_tb 0) [true; false; false; false] 4 in
  quadf (tdofs tet_cell 0 (tet_tb 0)) Y u u = 2.
Proof.
  exists (fun i => if (i =? 3)%nat then 1 else 0).
  pose proof (C180_impedance tet_poly tet_cell tet_cell_fits 0 0 (tet_tb 0) (tet_tb_fits 0) [true; false; false; false] eq_refl 4) as A.
  destruct (make_impedance_term tet_cell 0 0 (tet_tb 0) [true; false; false; false] 4) as [Y y]. destruct A as [A _]. rewrite A.
  destruct (poly_facets _ _ tet_is_polytope _ (or_introl eq_refl : In (tet_facet F0 1 (pt3 (-1) 0 0)) (po_facets tet_poly))) as (FI & _).
  cbn [tet_poly po_facets vsum_on tfaces tet_tb tlist tang_bases combine map vface_funs tet_cell cl_faces tet_frames fst snd].
  rewrite (int_ext _ _ FI _ (PC 1)).
  - cbv -[Rplus Rmult Rinv Rminus Rdiv IZR INR fact pow Ropp]. simpl. field.
  - intros x _. rewrite peval_vdot. cbv -[Rplus Rmult Rinv Rminus Rdiv IZR INR fact pow Ropp]. simpl. ring.
Qed.

Print Assumptions C176_reconstruction.
Print Assumptions C176_commutes.
Print Assumptions C176_tangential.
Print Assumptions C177_reconstruction.
Print Assumptions C177_out_of_range.
Print Assumptions C177_plane.
Print Assumptions C178_hdg.
Print Assumptions C178_nedelec.
Print Assumptions C178_Z.
Print Assumptions C179_cell_partial.
Print Assumptions C179_faces_refuted.
Print Assumptions C180_mass.
Print Assumptions C180_impedance.
Print Assumptions C180_plane_wave.
