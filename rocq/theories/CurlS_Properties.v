(** The other operators for the curl: theorems. *)
From Coq Require Import List Arith Reals Lra Lia Bool.
From Verif Require Import Poly_Spec Poly_Proofs HHO_Spec VHHO_Spec SymL_Spec Curl_Spec HHO_Model VHHO_Model Curl_Model CurlS_Model HHO_Setting VHHO_Setting Curl_Setting CurlS_Setting
  HHO_Proofs HHO2_Proofs HHO3_Proofs HHO4_Proofs HHO5_Proofs HHO6_Proofs HHO7_Proofs HHO9_Proofs HHOInst_Proofs HHOInst2_Proofs VHHO_Proofs VHHO3_Proofs HHOInst_Properties RefTet_Proofs
  Curl_Proofs Curl2_Proofs Curl3_Proofs Curl4_Proofs Curl5_Proofs Curl6_Proofs CurlInst_Proofs CurlS_Proofs CurlD_Proofs CurlP_Proofs Curl_Properties.
Import ListNotations.
Open Scope R_scope.

(** ** C176 and C177 on any face functions that contain the tangential ones of degree rd (C176) or rd - 1 (C177), in
    particular those of curl_reconstruction_nedelec: the unknowns of the faces are the projections of V on the face
    functions themselves *)
Theorem C176_commutes_span : forall ldlt, solves_spd ldlt -> forall P c, cell_fits 3 P c ->
  forall cd rd fd tb, Forall2 (tb_fits fd) (po_facets P) tb -> Forall2 (tb_spans rd) (po_facets P) tb -> (fd <= rd + 2)%nat -> (rd <= cd + 1)%nat ->
  forall V u, l2vec (po_int P) 3 cd V (vcell_fun 3 c cd u) -> sprojs (po_facets P) tb (tfaces c cd tb u) V ->
  l2vec (po_int P) 3 rd (curlv V) (oper_fun (vec_basis 3 (el_basis (cl_elem c) rd)) (tdofs c cd tb) (fst (curl_reconstruction_pk ldlt c cd rd tb)) u).
Proof.
  intros ldlt HS P c HC cd rd fd tb HT HP Hq Hr V u HV HF.
  apply (ck_commutes_gen P c HC ldlt HS cd rd fd tb (fits_deg _ _ _ HT) (fits_len P c fd tb HC HT) Hq Hr V u HV).
  intros t Ht. exact (sprojs_sum rd V t _ tb _ (facet_int 3 P c HC) HP HF Ht).
Qed.
Theorem C177_consistent_span : forall lu, solves_any lu -> forall P c, cell_fits 3 P c ->
  forall cd rd fd tb, Forall2 (tb_fits fd) (po_facets P) tb -> Forall2 (tb_spans (rd - 1)) (po_facets P) tb ->
  (1 <= rd)%nat -> (cd <= rd)%nat -> (rd <= cd + 2)%nat -> (fd <= rd + 1)%nat ->
  forall oper data, curl_reconstruction lu c cd rd tb = Some (oper, data) ->
  forall V u, vdeg 3 V rd -> vvars 3 3 V ->
  l2vec (po_int P) 3 cd V (vcell_fun 3 c cd u) -> sprojs (po_facets P) tb (tfaces c cd tb u) V ->
  forall a x, (a < 3)%nat -> po_on P x ->
  peval (curlv (drop3_fun (vec_basis 3 (el_basis (cl_elem c) rd)) (tdofs c cd tb) oper u) a) x = peval (curlv V a) x.
Proof.
  intros lu HS P c HC cd rd fd tb HT HP H1 Hcd Hr Hfd oper data E V u DV VV HV HF.
  pose proof (fits_deg _ _ _ HT) as HD. pose proof (fits_len P c fd tb HC HT) as LT.
  rewrite (cr_prog P c HC lu cd rd fd tb LT H1 Hcd Hfd) in E. injection E as <- _.
  apply (cr_consistency_gen P c HC lu HS cd rd fd tb HD LT H1 Hcd Hfd V u Hr DV VV HV).
  intros t Ht. exact (sprojs_sum (rd - 1) V t _ tb _ (facet_int 3 P c HC) HP HF Ht).
Qed.

(** ** C181: curl_hho_stabilization.  [recop] is any operator with the rows of curl_reconstruction's; R u is its
    function.  The matrix is the sum over the faces of 1/h int d(v) . d(u), where d(u) is the projection on the functions
    of the face of uF - R u + p - uT, and p is the projection of R u on the polynomials of degree cd of the cell *)
Theorem C181_stabilization : forall ldlt, solves_spd ldlt -> forall P c, cell_fits 3 P c ->
  forall cd rd fd tb, Forall2 (tb_fits fd) (po_facets P) tb -> (forall f, In f (po_facets P) -> unit_normal f) -> (cd <= rd)%nat -> (fd <= rd)%nat ->
  forall recop, let N := tdofs c cd tb in
  let Rc := drop3_fun (vec_basis 3 (el_basis (cl_elem c) rd)) N recop in
  let jumps := fun u ds => rec_jumps P cd tb (vcell_fun 3 c cd u) (tfaces c cd tb u) (Rc u) ds in
  exists S, curl_hho_stabilization ldlt c cd rd tb recop = Some S /\
  (forall u, exists ds, jumps u ds) /\
  (forall u v ds es, jumps u ds -> jumps v es -> quadf N S v u = vfsum3 (po_facets P) ds es (fun f a b => / fa_diam f * fa_int f (vdot 3 a b))) /\
  (forall u v, quadf N S u v = quadf N S v u) /\
  ((forall f, In f (po_facets P) -> 0 < fa_diam f) -> forall u, 0 <= quadf N S u u) /\
  (forall V u, l2vec (po_int P) 3 cd V (vcell_fun 3 c cd u) -> sprojs (po_facets P) tb (tfaces c cd tb u) V -> vdeg 3 (vsub (Rc u) V) cd ->
     forall v, quadf N S v u = 0).
Proof.
  intros ldlt HS P c HC cd rd fd tb HT HU Hcd Hfd recop N Rc jumps. pose proof (facet_int 3 P c HC) as HF. pose proof (fits_len P c fd tb HC HT) as LT.
  destruct (chho_prog P c HC ldlt HS cd rd fd Hcd Hfd tb LT recop HT HU) as (S & E & F). exists S.
  assert (X : forall u, exists ds, jumps u ds) by (intros u; exact (rec_jumps_exist P c HC ldlt HS cd rd fd Hcd Hfd tb LT recop HT u)).
  assert (G : forall u v ds es, jumps u ds -> jumps v es -> quadf N S v u = wsum (po_facets P) ds es).
  { intros u v ds es Ju Jv. rewrite bil_quadf. exact (F u v ds es Ju Jv). }
  split; [exact E|]. split; [exact X|]. split; [exact G|]. split; [|split].
  - intros u v. destruct (X u) as (ds & Du). destruct (X v) as (es & Dv). rewrite (G u v ds es Du Dv), (G v u es ds Dv Du). apply wsum_sym, HF.
  - intros HD u. destruct (X u) as (ds & Du). rewrite (G u u ds ds Du Du). apply wsum_pos. intros f K. split; [apply HF, K|apply HD, K].
  - intros V u HV HP DV v. destruct (X u) as (ds & Du). destruct (X v) as (es & Dv). rewrite (G u v ds es Du Dv).
    exact (rec_jumps_zero P c HC cd rd tb recop V u ds es HV HP DV Du).
Qed.
(** with the same degree in the cell and in the reconstruction, the stabilisation of curl_reconstruction's operator is zero
    on the projections of every field of that degree *)
Theorem C181_consistent : forall ldlt, solves_spd ldlt -> forall lu P c, cell_fits 3 P c ->
  forall rd fd tb, Forall2 (tb_fits fd) (po_facets P) tb -> (forall f, In f (po_facets P) -> unit_normal f) -> (1 <= rd)%nat -> (fd <= rd)%nat ->
  exists oper data S, curl_reconstruction lu c rd rd tb = Some (oper, data) /\ curl_hho_stabilization ldlt c rd rd tb oper = Some S /\
  forall V u, vdeg 3 V rd -> l2vec (po_int P) 3 rd V (vcell_fun 3 c rd u) -> sprojs (po_facets P) tb (tfaces c rd tb u) V ->
  forall v, quadf (tdofs c rd tb) S v u = 0.
Proof.
  intros ldlt HS lu P c HC rd fd tb HT HU H1 Hfd. pose proof (fits_len P c fd tb HC HT) as LT.
  pose proof (cr_prog P c HC lu rd rd fd tb LT H1 (le_n _) ltac:(lia)) as E. eexists. eexists.
  match type of E with _ = Some (?o, ?d) => destruct (C181_stabilization ldlt HS P c HC rd rd fd tb HT HU (le_n _) Hfd o) as (S & ES & _ & _ & _ & _ & Z) end.
  exists S. split; [exact E|]. split; [exact ES|]. intros V u DV HV HF v. apply (Z V u HV HF). intros a Ha. apply deg_le_sub; [|apply DV, Ha].
  apply (cr_deg P c HC lu rd rd fd tb LT H1 (le_n _) ltac:(lia) u), Ha.
Qed.

(** ** C182: curl_reconstruction_div.  The system, which is singular, has a solution; every solution that the solver finds
    satisfies the equation of curl_reconstruction, has the moments of uT against the gradients of degree rd and its mean;
    the second matrix is int curl R u . curl R v *)
Theorem C182_reconstruction : forall lu, solves_any lu -> forall P c, cell_fits 3 P c ->
  forall cd rd fd tb, Forall2 (tb_fits fd) (po_facets P) tb -> (1 <= rd)%nat -> (cd <= rd)%nat -> (fd <= rd + 1)%nat ->
  let N := tdofs c cd tb in
  exists oper data, curl_reconstruction_div lu c cd rd tb = Some (oper, data) /\
  let Rc := oper_fun (vec_basis 3 (el_basis (cl_elem c) rd)) N oper in
  (forall u, vdeg 3 (Rc u) rd) /\
  (forall u t, vdeg 3 t rd -> vvars 3 3 t ->
     po_int P (vdot 3 (curlv t) (curlv (Rc u))) = po_int P (vdot 3 (curlv t) (curlv (vcell_fun 3 c cd u))) +
       vfsum2 (po_facets P) (tfaces c cd tb u) (fun f uF => fa_int f (vdot 3 (pcross (curlv t) (fa_normal f)) (vsub uF (vcell_fun 3 c cd u))))) /\
  (forall u p, deg_le p rd -> pvars 3 p -> po_int P (vdot 3 (pgrad p) (Rc u)) = po_int P (vdot 3 (pgrad p) (vcell_fun 3 c cd u))) /\
  (forall u a, (a < 3)%nat -> po_int P (Rc u a) = po_int P (vcell_fun 3 c cd u a)) /\
  (forall u v, quadf N data u v = po_int P (vdot 3 (curlv (Rc u)) (curlv (Rc v)))).
Proof.
  intros lu HS P c HC cd rd fd tb HT H1 Hcd Hfd N. pose proof (fits_deg _ _ _ HT) as HD. pose proof (fits_len P c fd tb HC HT) as LT.
  pose proof (d_prog P c HC lu cd rd fd tb LT H1 Hcd Hfd) as E. eexists. eexists. split; [exact E|]. cbv zeta.
  split; [intros u; apply (Rdeg P c HC rd)|]. split; [intros u t; exact (d_curl P c HC lu HS cd rd fd tb HD LT H1 Hcd Hfd u t)|].
  split; [intros u p; exact (d_div P c HC lu HS cd rd fd tb HD LT H1 Hcd Hfd u p)|].
  split; [intros u a; exact (d_mean P c HC lu HS cd rd fd tb HD LT H1 Hcd Hfd u a)|].
  intros u v. exact (d_data P c HC lu HS cd rd fd tb HD LT H1 Hcd Hfd v u).
Qed.
(** its curl, and so the second matrix, are those of curl_reconstruction, whatever the solvers find: C177 says what this
    curl is on projections *)
Theorem C182_same_curl : forall lu, solves_any lu -> forall lu', solves_any lu' -> forall P c, cell_fits 3 P c ->
  forall cd rd fd tb, Forall2 (tb_fits fd) (po_facets P) tb -> (1 <= rd)%nat -> (cd <= rd)%nat -> (fd <= rd + 1)%nat ->
  forall oper data oper' data',
  curl_reconstruction_div lu c cd rd tb = Some (oper, data) -> curl_reconstruction lu' c cd rd tb = Some (oper', data') ->
  let b := vec_basis 3 (el_basis (cl_elem c) rd) in let N := tdofs c cd tb in
  (forall u a x, (a < 3)%nat -> po_on P x -> peval (curlv (oper_fun b N oper u) a) x = peval (curlv (drop3_fun b N oper' u) a) x) /\
  (forall u v, quadf N data u v = quadf N data' u v).
Proof.
  intros lu HS lu' HS' P c HC cd rd fd tb HT H1 Hcd Hfd oper data oper' data' E E' b N.
  destruct (C182_reconstruction lu HS P c HC cd rd fd tb HT H1 Hcd Hfd) as (o & d & Eo & D & K & _ & _ & DT).
  destruct (C177_reconstruction lu' HS' P c HC cd rd fd tb HT H1 Hcd Hfd) as (o' & d' & Eo' & D' & K' & DT' & _).
  rewrite E in Eo. injection Eo as <- <-. rewrite E' in Eo'. injection Eo' as <- <-. fold b N in D, K, D', K', DT, DT'.
  pose proof (poly_int _ _ (cf_poly _ _ _ HC)) as HI.
  assert (C : forall u a x, (a < 3)%nat -> po_on P x -> peval (curlv (oper_fun b N oper u) a) x = peval (curlv (drop3_fun b N oper' u) a) x).
  { intros u. set (A := oper_fun b N oper u) in *. set (B := drop3_fun b N oper' u) in *. set (W := vsub A B).
    assert (VB : forall j, vvars 3 3 (v_comp b j)).
    { intros j a Ha. unfold b, vec_basis. cbn [v_comp]. destruct (_ =? a)%nat; [apply (cf_vars _ _ _ HC)|exact Logic.I]. }
    assert (VW : vvars 3 3 W).
    { intros a Ha. unfold W, vsub, psubp, pscal. cbn [pvars]. split; [|split; [exact Logic.I|]].
      - unfold A, oper_fun, vlin. apply HHO5_Proofs.pvars_lincomb. intros j. apply VB, Ha.
      - unfold B, drop3_fun, vlin. apply HHO5_Proofs.pvars_lincomb. intros j. apply VB, Ha. }
    assert (DW : vdeg 3 W rd) by (intros a Ha; apply deg_le_sub; [apply (D u), Ha|apply (D' u), Ha]).
    assert (CW : forall a x, peval (curlv W a) x = peval (vsub (curlv A) (curlv B) a) x).
    { intros a x. unfold W, vsub, curlv, psubp, pscal. cbn [pdiff peval]. ring. }
    assert (Z : po_int P (vdot 3 (curlv W) (curlv W)) = 0).
    { rewrite (vdot_ext _ _ HI 3 (curlv W) (curlv W) (curlv W) (vsub (curlv A) (curlv B))) by (auto; intros; apply CW).
      rewrite (vdot_sub3 _ _ HI). unfold A, B. rewrite (K u W DW VW), (K' u W DW VW). ring. }
    intros a x Ha Hx. pose proof (vdot_sq_def _ _ HI 3 _ Z a x Ha Hx) as Q. rewrite CW in Q. unfold vsub, psubp, pscal in Q. cbn [peval] in Q. lra. }
  split; [exact C|]. intros u v. rewrite DT, DT'. apply (vdot_ext _ _ HI 3); intros; apply C; assumption.
Qed.
(** a cell degree above the reconstruction degree leaves the matrix *)
Theorem C182_out_of_range : forall lu c cd rd tb,
  curl_reconstruction_div lu c cd rd tb = None <-> (b_size (el_basis (cl_elem c) rd) < b_size (el_basis (cl_elem c) cd))%nat.
Proof.
  intros lu c cd rd tb. unfold curl_reconstruction_div, vec_basis. cbn [v_size]. destruct (Nat.leb_spec (3 * b_size (el_basis (cl_elem c) cd)) (3 * b_size (el_basis (cl_elem c) rd)));
    (split; [try discriminate; intros; lia|intros; try lia; reflexivity]).
Qed.

(** ** C183: curl_hdg_stabilization in the plane is the sum over the faces of 1/h int d(v) d(u), with d(u) the projection
    of uT - uF on the polynomials of the face; make_curl_curl_matrix is int curl u . curl v *)
Theorem C183_plane : forall ldlt, solves_spd ldlt -> forall d P c, cell_fits d P c -> forall cd fd,
  let fdi := all_faces c fd in let N := num_dofs c cd fdi in
  let S := curl_hdg_stabilization_2d ldlt c cd fd in
  let diff := fun u ds => jumps (po_facets P) fdi (faces_funs c cd fdi u) (cell_fun c cd u) ds in
  (forall u, exists ds, diff u ds) /\
  (forall u v ds es, diff u ds -> diff v es -> quadf N S v u = fsum3 (po_facets P) ds es (fun f a b => / fa_diam f * fa_int f (PMul a b))).
Proof.
  intros ldlt HS d P c HC cd fd fdi N S diff. split.
  - intros u. apply (face_jumps_exist d P c HC ldlt HS cd fdi u (cell_fun c cd u)). unfold fdi, all_faces. apply map_length.
  - intros u v ds es Du Dv. rewrite bil_quadf. exact (chdg2_form d P c HC ldlt HS cd fd u v ds es Du Dv).
Qed.
Theorem C183_curl_curl : forall P c, cell_fits 3 P c -> forall k di u v,
  quadf (v_size (vec_basis 3 (el_basis (cl_elem c) k))) (make_curl_curl_matrix c k di) u v =
  po_int P (vdot 3 (curlv (vcell_fun 3 c k u)) (curlv (vcell_fun 3 c k v))).
Proof.
  intros P c HC k di u v. pose proof (poly_int _ _ (cf_poly _ _ _ HC)) as HI. set (b := vec_basis 3 (el_basis (cl_elem c) k)).
  rewrite (vdot_ext _ _ HI 3 (curlv (vcell_fun 3 c k u)) (curlv (vcell_fun 3 c k v)) (vlin (v_size b) u (fun j => curlv (v_comp b j))) (vlin (v_size b) v (fun j => curlv (v_comp b j))))
    by (intros; unfold vcell_fun; fold b; rewrite curlv_lin, peval_vlin; reflexivity).
  rewrite (vdot_lin_l _ _ HI). unfold quadf. apply sg_ext. intros i Hi. f_equal. rewrite (vdot_lin_r _ _ HI). apply sg_ext. intros j Hj. rewrite Rmult_comm. f_equal.
  unfold make_curl_curl_matrix. rewrite vaccumulate_eq. unfold zeroM. rewrite Rplus_0_l.
  assert (DB : forall l, (l < v_size b)%nat -> vdeg 3 (v_comp b l) k) by (intros l Hl; apply (d_rbdeg P c HC k l Hl)).
  rewrite (qsum_ext _ _ (peval (vdot 3 (curlv (v_comp b i)) (curlv (v_comp b j))))).
  - apply (exact_int _ _ HI _ (fit_quad _ _ _ (cf_elem _ _ _ HC))). apply (deg_le_mono _ ((k - 1) + (k - 1))); [lia|]. apply deg_vdot; apply deg_curlv; apply DB; assumption.
  - intros x. rewrite peval_vdot. apply sg_ext. intros a Ha. rewrite !eval_curls2_eq by exact Ha. reflexivity.
Qed.

(** the hypotheses are met on the reference tetrahedron, for every degree, with the elimination solvers *)
Lemma tet_tb_spans fd : Forall2 (tb_spans fd) (po_facets tet_poly) (tet_tb fd).
Proof. apply (tang_bases_fit fd _ _ (faces_fit 3 tet_poly tet_cell tet_cell_fits)). exact tet_frames_fit. Qed.
Example C176_span_ex : forall rd V u, l2vec (po_int tet_poly) 3 rd V (vcell_fun 3 tet_cell rd u) -> sprojs (po_facets tet_poly) (tet_tb rd) (tfaces tet_cell rd (tet_tb rd) u) V ->
  l2vec (po_int tet_poly) 3 rd (curlv V) (oper_fun (vec_basis 3 (el_basis (cl_elem tet_cell) rd)) (tdofs tet_cell rd (tet_tb rd)) (fst (curl_reconstruction_pk elim_solve tet_cell rd rd (tet_tb rd))) u).
Proof. intros rd. apply (C176_commutes_span elim_solve elim_solves tet_poly tet_cell tet_cell_fits rd rd rd (tet_tb rd) (tet_tb_fits rd) (tet_tb_spans rd)); lia. Qed.
Example C177_span_ex : exists oper data, curl_reconstruction any_solve tet_cell 1 2 (tet_tb 1) = Some (oper, data) /\
  forall V u, vdeg 3 V 2 -> vvars 3 3 V -> l2vec (po_int tet_poly) 3 1 V (vcell_fun 3 tet_cell 1 u) -> sprojs (po_facets tet_poly) (tet_tb 1) (tfaces tet_cell 1 (tet_tb 1) u) V ->
  forall a x, (a < 3)%nat -> po_on tet_poly x -> peval (curlv (drop3_fun (vec_basis 3 (el_basis (cl_elem tet_cell) 2)) (tdofs tet_cell 1 (tet_tb 1)) oper u) a) x = peval (curlv V a) x.
Proof.
  destruct (C177_reconstruction any_solve any_solves tet_poly tet_cell tet_cell_fits 1 2 1 (tet_tb 1) (tet_tb_fits 1) ltac:(lia) ltac:(lia) ltac:(lia)) as (o & d & E & _).
  exists o, d. split; [exact E|].
  exact (C177_consistent_span any_solve any_solves tet_poly tet_cell tet_cell_fits 1 2 1 (tet_tb 1) (tet_tb_fits 1) (tet_tb_spans 1) ltac:(lia) ltac:(lia) ltac:(lia) ltac:(lia) o d E).
Qed.
Example C181_ex : forall recop, exists M, curl_hho_stabilization elim_solve tet_cell 1 2 (tet_tb 1) recop = Some M /\ (forall u, 0 <= quadf (tdofs tet_cell 1 (tet_tb 1)) M u u).
Proof.
  intros recop. destruct (C181_stabilization elim_solve elim_solves tet_poly tet_cell tet_cell_fits 1 2 1 (tet_tb 1) (tet_tb_fits 1) tet_unit ltac:(lia) ltac:(lia) recop) as (M & E & _ & _ & _ & Q & _).
  exists M. split; [exact E|]. apply Q. intros f [<-|[<-|[<-|[<-|[]]]]]; cbn; lra.
Qed.
Example C181_consistent_ex : exists oper data M, curl_reconstruction any_solve tet_cell 1 1 (tet_tb 1) = Some (oper, data) /\ curl_hho_stabilization elim_solve tet_cell 1 1 (tet_tb 1) oper = Some M.
Proof.
  destruct (C181_consistent elim_solve elim_solves any_solve tet_poly tet_cell tet_cell_fits 1 1 (tet_tb 1) (tet_tb_fits 1) tet_unit ltac:(lia) ltac:(lia)) as (o & d & M & E & ES & _).
  exists o, d, M. split; [exact E|exact ES].
Qed.
Example C182_ex : exists oper data, curl_reconstruction_div any_solve tet_cell 0 1 (tet_tb 1) = Some (oper, data) /\
  forall u, po_int tet_poly (oper_fun (vec_basis 3 (el_basis (cl_elem tet_cell) 1)) (tdofs tet_cell 0 (tet_tb 1)) oper u 0%nat) = u 0%nat * / 6.
Proof.
  destruct (C182_reconstruction any_solve any_solves tet_poly tet_cell tet_cell_fits 0 1 1 (tet_tb 1) (tet_tb_fits 1) ltac:(lia) ltac:(lia) ltac:(lia)) as (o & d & E & _ & _ & _ & M & _).
  exists o, d. split; [exact E|]. intros u. rewrite M by lia.
  cbv -[Rplus Rmult Rinv Rminus Rdiv IZR INR fact pow Ropp]. simpl. field.
Qed.
Example C183_ex : forall cd fd u, exists ds, jumps (po_facets T1) (all_faces c1 fd) (faces_funs c1 cd (all_faces c1 fd) u) (cell_fun c1 cd u) ds.
Proof. intros cd fd. exact (proj1 (C183_plane elim_solve elim_solves 2 T1 c1 c1_fits cd fd)). Qed.

Print Assumptions C176_commutes_span.
Print Assumptions C177_consistent_span.
Print Assumptions C181_stabilization.
Print Assumptions C181_consistent.
Print Assumptions C182_reconstruction.
Print Assumptions C182_same_curl.
Print Assumptions C182_out_of_range.
Print Assumptions C183_plane.
Print Assumptions C183_curl_curl.
