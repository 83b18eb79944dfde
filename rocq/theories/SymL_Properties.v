(** C165-C169: the symmetric reconstruction of vectors, and the HHO and DG stabilisations of vectors. *)
From Coq Require Import List Arith Reals Lra Lia Bool.
From Verif Require Import Poly_Spec Poly_Proofs HHO_Spec HHO_Model HHO_Setting HHO_Proofs HHO2_Proofs HHO3_Proofs HHO4_Proofs HHO5_Proofs HHO6_Proofs HHO7_Proofs HHO8_Proofs
  HHO9_Proofs HHOInst_Proofs HHOInst2_Proofs HHOInst_Properties
  VHHO_Spec VHHO_Model VHHO_Setting VHHO_Proofs VHHO3_Proofs VHHO4_Proofs VHHO5_Proofs
  Stab_Model Stab_Proofs SymL_Spec SymL_Model SymL_Proofs SymL3_Proofs SymL4_Proofs SymL5_Proofs SymL6_Proofs SymL7_Proofs.
Import ListNotations.
Open Scope R_scope.

(** ** C165: the reconstruction r of the vector unknowns has degree [rd], and for every such vector w
    (strain w, strain r) = (strain w, strain uT) + sum over the faces with unknowns of (uF - uT, (strain w) n);
    the mean of its rotation is zero; the matrix returned with it is (strain r(u), strain r(v)) *)
Theorem C165_reconstruction : forall lu, solves_sym lu -> forall d P c, (d = 2 \/ d = 3)%nat -> cell_fits d P c ->
  forall rd cd fdi, (1 <= rd)%nat -> (cd <= rd)%nat ->
  let N := vnum_dofs d c cd fdi in
  let '(oper, data) := symmetric_laplacian lu d c rd cd fdi in
  let r u := vrec_fun d c rd N oper u in
  forall u,
  vdeg d (r u) rd /\
  (forall w, vdeg d w rd -> vvars d d w ->
     po_int P (vdot (d * d) (strain d w) (strain d (r u))) =
     po_int P (vdot (d * d) (strain d w) (strain d (vcell_fun d c cd u))) +
     vfsum2 (po_facets P) (vfaces_funs d c cd fdi u) (fun f uF => fa_int f (vdot d (vsub uF (vcell_fun d c cd u)) (mnrm d (fa_normal f) (strain d w))))) /\
  (forall a b, (a < b)%nat -> (b < d)%nat -> po_int P (rotp a b (r u)) = 0) /\
  (forall v, quadf N data u v = po_int P (vdot (d * d) (strain d (r u)) (strain d (r v)))).
Proof.
  intros lu HU d P c Hd HC rd cd fdi Hrd Hcd N.
  pose proof (s_deg d Hd P c HC rd Hrd cd fdi lu) as A. pose proof (s_eq d Hd P c HC rd Hrd cd Hcd fdi lu HU) as B.
  pose proof (s_rot d Hd P c HC rd Hrd cd Hcd fdi lu HU) as C. pose proof (s_data d Hd P c HC rd Hrd cd Hcd fdi lu HU) as E. unfold srec in A, B, C, E.
  destruct (symmetric_laplacian lu d c rd cd fdi) as [oper data]. cbn [fst snd] in A, B, C, E. cbv zeta. intros u.
  split; [apply A|]. split; [apply B|]. split; [apply C|apply E].
Qed.
(** these conditions determine it up to a constant vector *)
Theorem C165_unique : forall lu, solves_sym lu -> forall d P c, (d = 2 \/ d = 3)%nat -> cell_fits d P c ->
  forall rd cd fdi, (1 <= rd)%nat -> (cd <= rd)%nat ->
  let N := vnum_dofs d c cd fdi in
  let r u := vrec_fun d c rd N (fst (symmetric_laplacian lu d c rd cd fdi)) u in
  forall u X, vdeg d X rd -> vvars d d X -> (forall a b, (a < b)%nat -> (b < d)%nat -> po_int P (rotp a b X) = 0) ->
  (forall w, vdeg d w rd -> vvars d d w ->
     po_int P (vdot (d * d) (strain d w) (strain d X)) =
     po_int P (vdot (d * d) (strain d w) (strain d (vcell_fun d c cd u))) +
     vfsum2 (po_facets P) (vfaces_funs d c cd fdi u) (fun f uF => fa_int f (vdot d (vsub uF (vcell_fun d c cd u)) (mnrm d (fa_normal f) (strain d w))))) ->
  forall a, (a < d)%nat -> exists g, forall x, po_on P x -> peval (X a) x = peval (r u a) x + g.
Proof. intros lu HU d P c Hd HC rd cd fdi Hrd Hcd N r u X. apply (s_unique d Hd P c HC lu HU rd Hrd cd Hcd fdi u X). Qed.
(** the strain of the reconstruction of the interpolate of a vector of degree [rd] is its strain; the reconstruction is
    the vector itself up to a rigid motion *)
Theorem C165_interpolates : forall lu, solves_sym lu -> forall d P c, (d = 2 \/ d = 3)%nat -> cell_fits d P c ->
  forall rd cd fdi, (1 <= rd)%nat -> (cd <= rd)%nat -> length fdi = length (cl_faces c) -> ~ In None fdi ->
  (forall k, In (Some k) fdi -> (rd <= k + 1)%nat) -> (rd <= cd + 2)%nat ->
  let N := vnum_dofs d c cd fdi in
  let r u := vrec_fun d c rd N (fst (symmetric_laplacian lu d c rd cd fdi)) u in
  forall u V, vdeg d V rd -> vvars d d V -> l2vec (po_int P) d cd V (vcell_fun d c cd u) -> vprojs d (po_facets P) fdi (vfaces_funs d c cd fdi u) V ->
  (forall e x, (e < d * d)%nat -> po_on P x -> peval (strain d (r u) e) x = peval (strain d V e) x) /\
  exists g W, (forall a b, (a < d)%nat -> (b < d)%nat -> W a b = - W b a) /\
    (forall a b, (a < d)%nat -> (b < d)%nat -> (a < b)%nat -> po_int P (rotp a b V) = - 2 * W a b * po_int P (PC 1)) /\
    forall a x, (a < d)%nat -> po_on P x -> peval (r u a) x = peval (V a) x + (g a + sg d (fun b => W a b * x b)).
Proof.
  intros lu HU d P c Hd HC rd cd fdi Hrd Hcd HL Hn HK Hr N r u V DV VV Pc Pf.
  pose proof (k_strain d Hd P c HC lu HU rd Hrd cd Hcd fdi HL HK u V Hn Hr DV VV Pc Pf) as S0. split.
  - intros e x He Hx. specialize (S0 e x He Hx). rewrite strain_vsub in S0 by exact He. unfold srec in S0. fold N in S0. unfold r. lra.
  - destruct (rigid_motion d P c HC (vsub (srec d c rd cd fdi lu u) V) rd) as (g & W & AW & EX & RX); [| |exact S0|].
    + apply vsub_vars; [apply (s_vars d P c HC)|exact VV].
    + apply vdeg_sub; [apply (s_deg d Hd P c HC rd Hrd)|exact DV].
    + exists g, W. split; [exact AW|]. split.
      * intros a b Ha Hb Hab. specialize (RX a b Ha Hb). rewrite (rot_vsub d P c HC), (s_rot d Hd P c HC rd Hrd cd Hcd fdi lu HU u a b Hab Hb) in RX. lra.
      * intros a x Ha Hx. rewrite <- (EX a x Ha Hx). unfold vsub, psubp, pscal, r, srec. cbn [peval]. fold N. ring.
Qed.

(** with one face degree k for the cell, the overload without a degree per face reconstructs in degree k + 1: vectors of
    degree k + 1 are reproduced up to a rigid motion *)
Theorem C165_common : forall lu, solves_sym lu -> forall d P c, (d = 2 \/ d = 3)%nat -> cell_fits d P c ->
  forall cd k rd, (k <= cd + 1)%nat -> (cd <= k + 1)%nat ->
  let fdi := all_faces c k in let N := vnum_dofs d c cd fdi in
  let '(oper, data) := symmetric_laplacian_hdi lu d c (mkDegs cd k rd) in
  let r u := vrec_fun d c (k + 1) N oper u in
  (forall u v, quadf N data u v = po_int P (vdot (d * d) (strain d (r u)) (strain d (r v)))) /\
  forall u V, vdeg d V (k + 1) -> vvars d d V -> l2vec (po_int P) d cd V (vcell_fun d c cd u) -> vprojs d (po_facets P) fdi (vfaces_funs d c cd fdi u) V ->
  (forall e x, (e < d * d)%nat -> po_on P x -> peval (strain d (r u) e) x = peval (strain d V e) x) /\
  exists g W, (forall a b, (a < d)%nat -> (b < d)%nat -> W a b = - W b a) /\
    forall a x, (a < d)%nat -> po_on P x -> peval (r u a) x = peval (V a) x + (g a + sg d (fun b => W a b * x b)).
Proof.
  intros lu HU d P c Hd HC cd k rd H1 H2 fdi N.
  pose proof (C165_reconstruction lu HU d P c Hd HC (k + 1) cd fdi ltac:(lia) ltac:(lia)) as A. cbv zeta in A.
  assert (HL : length fdi = length (cl_faces c)) by apply map_length.
  assert (HN : ~ In None fdi) by (intros H; apply in_map_iff in H as (f & E & _); discriminate).
  assert (HK : forall k', In (Some k') fdi -> (k + 1 <= k' + 1)%nat) by (intros k' H; apply in_map_iff in H as (f & E & _); injection E; lia).
  pose proof (C165_interpolates lu HU d P c Hd HC (k + 1) cd fdi ltac:(lia) ltac:(lia) HL HN HK ltac:(lia)) as B. cbv zeta in B. fold N in A, B.
  unfold symmetric_laplacian_hdi. cbn [face_degree cell_degree]. change (map (fun _ : sface => Some k) (cl_faces c)) with fdi.
  destruct (symmetric_laplacian lu d c (k + 1) cd fdi) as [oper data]. cbn [fst] in B. split.
  - intros u v. apply A.
  - intros u V DV VV Pc Pf. destruct (B u V DV VV Pc Pf) as (B1 & g & W & B2 & _ & B3). split; [exact B1|]. exists g, W. split; assumption.
Qed.

(** ** C166: for any reconstruction R the HHO stabilisation is the sum over the faces of 1/h times the products of the
    projections on the face of R u + (uT - projection of R u) - uF *)
Theorem C166_form : forall ldlt llt, solves_spd ldlt -> solves_spd llt -> forall d P c, (0 < d)%nat -> cell_fits d P c ->
  forall rd cd fdi rec hF, (cd <= rd)%nat -> length fdi = length (cl_faces c) ->
  let N := vnum_dofs d c cd fdi in
  let S := vector_hho_stabilization ldlt llt d c rd cd fdi rec hF in
  let R u := vrec_fun d c rd N rec u in
  let jumps u ru du := l2vec (po_int P) d cd (R u) ru /\
     vjumps d (po_facets P) fdi (vfaces_funs d c cd fdi u) (vaddf (R u) (vsub (vcell_fun d c cd u) ru)) du in
  forall u v,
  (exists ru du, jumps u ru du) /\
  (forall ru du rv dv, jumps u ru du -> jumps v rv dv ->
    quadf N S v u = vfsum3 (po_facets P) du dv (fun f a b => / (if hF then fa_diam f else po_diam P) * fa_int f (vdot d a b))) /\
  quadf N S u v = quadf N S v u /\ 0 <= quadf N S u u.
Proof.
  intros ldlt llt HS HS' d P c Hd HC rd cd fdi rec hF Hcd HL N S R jumps u v.
  split; [apply (vh_exist d Hd P c HC ldlt HS cd rd Hcd fdi HL rec u)|].
  split; [intros ru du rv dv (Pu & Ju) (Pv & Jv); apply (vhho_form d Hd P c HC ldlt llt HS HS' cd rd Hcd fdi rec hF u v ru rv du dv Pu Pv Ju Jv)|].
  split; [apply (vh_sym d Hd P c HC ldlt llt HS HS' cd rd Hcd fdi HL rec hF u v)|apply (vh_pos d Hd P c HC ldlt llt HS HS' cd rd Hcd fdi HL rec hF u)].
Qed.

(** ** C167: with the symmetric reconstruction the energy vanishes exactly on the interpolates of the rigid motions:
    uT is a rigid motion and every face carries its projection, whatever the degrees of the faces and even when some
    have no unknowns *)
Theorem C167_kernel : forall lu ldlt llt, solves_sym lu -> solves_spd ldlt -> solves_spd llt ->
  forall d P c, (d = 2 \/ d = 3)%nat -> cell_fits d P c ->
  forall rd cd fdi hF, (1 <= rd)%nat -> (cd <= rd)%nat -> length fdi = length (cl_faces c) -> (forall k, In (Some k) fdi -> (rd <= k + 1)%nat) ->
  let N := vnum_dofs d c cd fdi in
  let '(oper, data) := symmetric_laplacian lu d c rd cd fdi in
  let A := maddm data (vector_hho_stabilization ldlt llt d c rd cd fdi oper hF) in
  forall u, 0 <= quadf N A u u /\
  (quadf N A u u = 0 <->
   (exists g W, (forall a b, (a < d)%nat -> (b < d)%nat -> W a b = - W b a) /\
     forall a x, (a < d)%nat -> po_on P x -> peval (vcell_fun d c cd u a) x = g a + sg d (fun b => W a b * x b)) /\
   vprojs d (po_facets P) fdi (vfaces_funs d c cd fdi u) (vcell_fun d c cd u)).
Proof.
  intros lu ldlt llt HU HS HS' d P c Hd HC rd cd fdi hF Hrd Hcd HL HK N.
  pose proof (k_kernel d Hd P c HC lu ldlt llt HU HS HS' rd Hrd cd Hcd fdi HL hF HK) as K. pose proof (s_data d Hd P c HC rd Hrd cd Hcd fdi lu HU) as E.
  destruct (symmetric_laplacian lu d c rd cd fdi) as [oper data]. cbn [fst snd] in K, E. cbv zeta. intros u. split.
  - rewrite bil_quadf, bil_add. apply Rplus_le_le_0_compat; [|apply (vh_pos d (dim_pos d Hd) P c HC ldlt llt HS HS' cd rd Hcd fdi HL oper hF u)].
    change (0 <= quadf N data u u). rewrite E. apply (vdot_sq_pos _ _ (poly_int _ _ (cf_poly _ _ _ HC))).
  - rewrite bil_quadf. fold N in K. rewrite (K u). split.
    + intros (Z & J). split; [|exact J]. destruct (rigid_motion d P c HC (vcell_fun d c cd u) cd (vcell_vars d P c HC cd u) (vcell_deg d P c HC cd u) Z) as (g & W & AW & EX & _).
      exists g, W. split; assumption.
    + intros ((g & W & AW & EX) & J). split; [|exact J]. intros e x He Hx.
      apply (motion_strain d P c HC (vcell_fun d c cd u) cd g W (vcell_vars d P c HC cd u) (vcell_deg d P c HC cd u) AW EX e x He Hx).
Qed.

(** ** C168: the stabilisation with the symmetric reconstruction vanishes on the interpolates of the vectors of degree
    [rd].  This needs cell unknowns of degree 1, or a vector whose mean rotation is zero: the reconstruction has none *)
Theorem C168_consistent_partial : forall lu ldlt llt, solves_sym lu -> solves_spd ldlt -> solves_spd llt ->
  forall d P c, (d = 2 \/ d = 3)%nat -> cell_fits d P c ->
  forall rd cd fdi hF, (1 <= rd)%nat -> (cd <= rd)%nat -> length fdi = length (cl_faces c) -> ~ In None fdi ->
  (forall k, In (Some k) fdi -> (rd <= k + 1)%nat) -> (rd <= cd + 2)%nat ->
  let N := vnum_dofs d c cd fdi in
  let S := vector_hho_stabilization ldlt llt d c rd cd fdi (fst (symmetric_laplacian lu d c rd cd fdi)) hF in
  forall u V, vdeg d V rd -> vvars d d V -> l2vec (po_int P) d cd V (vcell_fun d c cd u) -> vprojs d (po_facets P) fdi (vfaces_funs d c cd fdi u) V ->
  ((1 <= cd)%nat \/ forall a b, (a < b)%nat -> (b < d)%nat -> po_int P (rotp a b V) = 0) ->
  forall v, quadf N S v u = 0.
Proof.
  intros lu ldlt llt HU HS HS' d P c Hd HC rd cd fdi hF Hrd Hcd HL Hn HK Hr N S u V DV VV Pc Pf HR v.
  apply (k_consistent d Hd P c HC lu ldlt llt HU HS HS' rd Hrd cd Hcd fdi HL hF HK u V Hn Hr DV VV Pc Pf HR v).
Qed.
(** with unknowns of degree 0 the interpolate of the rotation (-y, x) on the triangle (0,0), (2,0), (0,1) has energy *)
Theorem C168_consistent_refuted : exists lu ldlt llt P c fdi V u, solves_sym lu /\ solves_spd ldlt /\ solves_spd llt /\ cell_fits 2 P c /\
  length fdi = length (cl_faces c) /\ ~ In None fdi /\ (forall k, In (Some k) fdi -> (1 <= k + 1)%nat) /\
  vdeg 2 V 1 /\ vvars 2 2 V /\ (forall e x, (e < 2 * 2)%nat -> peval (strain 2 V e) x = 0) /\
  l2vec (po_int P) 2 0 V (vcell_fun 2 c 0 u) /\ vprojs 2 (po_facets P) fdi (vfaces_funs 2 c 0 fdi u) V /\
  forall hF, quadf (vnum_dofs 2 c 0 fdi) (vector_hho_stabilization ldlt llt 2 c 1 0 fdi (fst (symmetric_laplacian lu 2 c 1 0 fdi)) hF) u u <> 0.
Proof.
  exists sym_solve, elim_solve, elim_solve, T1, c1, [Some 0%nat; Some 0%nat; Some 0%nat]. eexists. eexists.
  split; [exact sym_solves|]. split; [exact elim_solves|]. split; [exact elim_solves|]. split; [exact c1_fits|]. split; [reflexivity|].
  split; [intros [H|[H|[H|[]]]]; discriminate|]. split; [intros; lia|]. split; [exact spin_deg|]. split; [exact spin_vars|]. split; [exact spin_strain|].
  split; [exact (proj1 spin_interp)|]. split; [exact (proj2 spin_interp)|]. exact spin_energy.
Qed.

(** ** C169: the DG stabilisation of vectors is the sum over the faces of 1/h times the integral of (uF - uT).(vF - vT);
    with the symmetric reconstruction the energy vanishes exactly where uT is a rigid motion and the faces agree with it *)
Theorem C169_form : forall d P c, (0 < d)%nat -> cell_fits d P c -> forall cd fdi hF, length fdi = length (cl_faces c) ->
  forall u v,
  quadf (vnum_dofs d c cd fdi) (vector_dg_stabilization d c cd fdi hF) v u =
  vfsum3 (po_facets P) (vfaces_funs d c cd fdi u) (vfaces_funs d c cd fdi v)
    (fun f uF vF => / (if hF : bool then fa_diam f else po_diam P) * fa_int f (vdot d (vsub uF (vcell_fun d c cd u)) (vsub vF (vcell_fun d c cd v)))).
Proof. intros d P c Hd HC cd fdi hF HL u v. apply (vdg_form d Hd P c HC cd fdi HL hF u v). Qed.
Theorem C169_kernel : forall lu, solves_sym lu -> forall d P c, (d = 2 \/ d = 3)%nat -> cell_fits d P c ->
  forall rd cd fdi hF, (1 <= rd)%nat -> (cd <= rd)%nat -> length fdi = length (cl_faces c) ->
  let N := vnum_dofs d c cd fdi in
  let A := maddm (snd (symmetric_laplacian lu d c rd cd fdi)) (vector_dg_stabilization d c cd fdi hF) in
  forall u, quadf N A u u = 0 <->
   (exists g W, (forall a b, (a < d)%nat -> (b < d)%nat -> W a b = - W b a) /\
     forall a x, (a < d)%nat -> po_on P x -> peval (vcell_fun d c cd u a) x = g a + sg d (fun b => W a b * x b)) /\
   von_facets (po_facets P) (vfaces_funs d c cd fdi u) (fun f uF => forall a x, (a < d)%nat -> fa_on f x -> peval (uF a) x = peval (vcell_fun d c cd u a) x).
Proof.
  intros lu HU d P c Hd HC rd cd fdi hF Hrd Hcd HL N A u. unfold N, A. rewrite (vdg_kernel d Hd P c HC lu HU rd Hrd cd Hcd fdi HL hF u). split.
  - intros (Z & J). split; [|exact J]. destruct (rigid_motion d P c HC (vcell_fun d c cd u) cd (vcell_vars d P c HC cd u) (vcell_deg d P c HC cd u) Z) as (g & W & AW & EX & _).
    exists g, W. split; assumption.
  - intros ((g & W & AW & EX) & J). split; [|exact J]. intros e x He Hx.
    apply (motion_strain d P c HC (vcell_fun d c cd u) cd g W (vcell_vars d P c HC cd u) (vcell_deg d P c HC cd u) AW EX e x He Hx).
Qed.

(** ** the hypotheses are met by the triangle (0,0), (2,0), (0,1), also with faces of different degrees or without unknowns *)
Example solver_symmetric : solves_sym sym_solve.
Proof. exact sym_solves. Qed.
Example symmetric_triangle : forall u a b, (a < b)%nat -> (b < 2)%nat ->
  po_int T1 (rotp a b (vrec_fun 2 c1 2 (vnum_dofs 2 c1 1 [Some 1%nat; None; Some 2%nat]) (fst (symmetric_laplacian sym_solve 2 c1 2 1 [Some 1%nat; None; Some 2%nat])) u)) = 0.
Proof.
  intros u. pose proof (C165_reconstruction sym_solve sym_solves 2 T1 c1 ltac:(left; reflexivity) c1_fits 2 1 [Some 1%nat; None; Some 2%nat] ltac:(lia) ltac:(lia)) as H.
  cbv zeta in H. destruct (symmetric_laplacian sym_solve 2 c1 2 1 [Some 1%nat; None; Some 2%nat]) as [oper data]. exact (proj1 (proj2 (proj2 (H u)))).
Qed.
Example kernel_motions : forall hF u,
  let fdi := [Some 1%nat; None; Some 2%nat] in
  let A := maddm (snd (symmetric_laplacian sym_solve 2 c1 2 1 fdi)) (vector_hho_stabilization elim_solve elim_solve 2 c1 2 1 fdi (fst (symmetric_laplacian sym_solve 2 c1 2 1 fdi)) hF) in
  quadf (vnum_dofs 2 c1 1 fdi) A u u = 0 <->
   (exists g W, (forall a b, (a < 2)%nat -> (b < 2)%nat -> W a b = - W b a) /\
     forall a x, (a < 2)%nat -> po_on T1 x -> peval (vcell_fun 2 c1 1 u a) x = g a + sg 2 (fun b => W a b * x b)) /\
   vprojs 2 (po_facets T1) fdi (vfaces_funs 2 c1 1 fdi u) (vcell_fun 2 c1 1 u).
Proof.
  intros hF u fdi. assert (HK : forall k, In (Some k) fdi -> (2 <= k + 1)%nat) by (intros k [H|[H|[H|[]]]]; [injection H as <-; lia|discriminate|injection H as <-; lia]).
  pose proof (C167_kernel sym_solve elim_solve elim_solve sym_solves elim_solves elim_solves 2 T1 c1 ltac:(left; reflexivity) c1_fits 2 1 fdi hF ltac:(lia) ltac:(lia) eq_refl HK) as H.
  cbv zeta in H. destruct (symmetric_laplacian sym_solve 2 c1 2 1 fdi) as [oper data]. exact (proj2 (H u)).
Qed.

Print Assumptions C165_reconstruction.
Print Assumptions C165_unique.
Print Assumptions C165_interpolates.
Print Assumptions C165_common.
Print Assumptions C166_form.
Print Assumptions C167_kernel.
Print Assumptions C168_consistent_partial.
Print Assumptions C168_consistent_refuted.
Print Assumptions C169_form.
Print Assumptions C169_kernel.
