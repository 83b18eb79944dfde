(** The curl reconstruction in the plane. *)
From Coq Require Import List Arith Reals Lra Lia Bool.
From Verif Require Import Poly_Spec Poly_Proofs HHO_Spec VHHO_Spec Curl_Spec HHO_Model VHHO_Model Curl_Model HHO_Setting
  HHO_Proofs HHO2_Proofs HHO3_Proofs HHO4_Proofs HHO5_Proofs HHO6_Proofs HHO7_Proofs HHO8_Proofs HHO9_Proofs VHHO_Proofs Curl_Proofs.
Import ListNotations.
Open Scope R_scope.

Lemma cross2_flux b x n i : cross2 (eval_curls2_2d b x i) n = peval (flux 2 delta n (b_poly b i)) x.
Proof. unfold cross2, eval_curls2_2d, flux, kgrad, psum, pscal, delta, dphi. cbn. ring. Qed.
Section Plane.
  Context (P : polytope) (c : scell) (HC : cell_fits 2 P c).
  Let HP := cf_poly _ _ _ HC.
  Let HI := poly_int _ _ HP.
  Context (ldlt : nat -> mtx -> (nat -> R) -> nat -> R) (HS : solves_spd ldlt).
  Context (rd cd fd : nat) (Hrd : (1 <= rd)%nat) (Hcd : (cd <= rd)%nat) (Hfd : (fd <= rd + 1)%nat).
  Let rb := el_basis (cl_elem c) rd.
  Let cb := el_basis (cl_elem c) cd.
  Let fdi := all_faces c fd.
  Let N := num_dofs c cd fdi.
  Definition p2_stiff : mtx := vaccumulate 2 (el_quad (cl_elem c) (2 * rd)) (eval_curls2_2d rb) (eval_curls2_2d rb) zeroM.
  Lemma p2_stiff_eq i j : (i < b_size rb)%nat -> (j < b_size rb)%nat -> p2_stiff i j = en 2 P delta (b_poly rb j) (b_poly rb i).
  Proof.
    intros Hi Hj. unfold p2_stiff. rewrite (vaccumulate_eq 2). unfold zeroM. rewrite Rplus_0_l.
    unfold en. rewrite <- (exact_int _ _ HI _ (fit_quad _ _ _ (cf_elem _ _ _ HC)) (2 * rd)).
    - apply qsum_ext. intros x. unfold eval_curls2_2d, graddot, kgrad, psum, pscal, delta, dphi. cbn. ring.
    - apply (deg_le_mono _ (rd - 1 + (rd - 1))); [lia|]. apply deg_graddot; [apply (basis_deg _ _ _ (cf_elem _ _ _ HC)); assumption|].
      intros k. apply deg_kgrad. apply (basis_deg _ _ _ (cf_elem _ _ _ HC)); assumption.
  Qed.
  Definition p2_lhs : mtx := shift 1 1 p2_stiff.
  Definition p2_rhs : mtx := snd (fold_left (curl2_face rb cb rd fd) (cl_faces c) (b_size cb, add_cols zeroM 0 (b_size cb) (shift 1 0 p2_stiff))).
  Lemma p2_lhs_eq i j : (i < b_size rb - 1)%nat -> (j < b_size rb - 1)%nat -> lap_lhs 2 None c rd rb i j = p2_lhs i j.
  Proof. intros Hi Hj. unfold p2_lhs, shift. cbn [Nat.add]. rewrite p2_stiff_eq by lia. apply (lhs_eq 2 P c HC None rd); fold rb; lia. Qed.
  Lemma p2_qps u f fc off M i : face_fit f fc -> (S i < b_size rb)%nat -> (b_size cb <= N)%nat -> (off + b_size (el_basis (fc_elem fc) fd) <= N)%nat ->
    mv N (snd (curl2_face rb cb rd fd (off, M) fc)) u i = mv N M u i + face_term 2 c None u rd cd i f (lincomb (b_size (el_basis (fc_elem fc) fd)) (fun j => u (off + j)%nat) (b_poly (el_basis (fc_elem fc) fd))).
  Proof.
    intros ((FF & Hn & _) & FI) Hi Hc Hf.
    pose proof (qps_int 2 P c HC None N u rd cd f fc fd off (2 * rd) M i FF FI Hn Hi ltac:(lia) ltac:(lia) Hc Hf false) as Q. cbv zeta in Q.
    unfold face_term. refine (eq_trans _ Q). clear Q. rewrite face_qps_row by assumption. unfold curl2_face. cbn [snd].
    set (q := el_quad (fc_elem fc) (2 * rd)). revert M. induction q as [|[x w] q IH]; intros M; cbn [fold_left qsum]; [ring|].
    rewrite IH, !mv_add_cols by (cbn; assumption). rewrite !Rplus_assoc. f_equal. rewrite <- !Rplus_assoc. f_equal. rewrite Hn. change (tensor_of None) with delta. fold cb.
    rewrite !peval_lincomb. unfold mv. cbn [Nat.add].
    rewrite (sg_ext (b_size cb) _ (fun j => - (w * peval (flux 2 delta (fa_normal f) (b_poly rb (S i))) x) * (u j * phi cb x j))) by (intros; rewrite cross2_flux; ring).
    rewrite (sg_ext (b_size (el_basis (fc_elem fc) fd)) (fun j => _ * u (off + j)%nat) (fun j => (w * peval (flux 2 delta (fa_normal f) (b_poly rb (S i))) x) * (u (off + j)%nat * phi (el_basis (fc_elem fc) fd) x j))) by (intros; rewrite cross2_flux; ring).
    rewrite !sg_scal. unfold phi. fold rb. ring.
  Qed.
  Lemma p2_rows u i : (S i < b_size rb)%nat -> (b_size cb <= N)%nat ->
    forall fs fcs, Forall2 face_fit fs fcs -> forall off M, (off + face_dofs (bases_l (map (fun fc => (fc, Some fd)) fcs)) <= N)%nat ->
    mv N (snd (fold_left (curl2_face rb cb rd fd) fcs (off, M))) u i =
    mv N M u i + fsum2 fs (face_funs off (bases_l (map (fun fc => (fc, Some fd)) fcs)) u) (face_term 2 c None u rd cd i).
  Proof.
    intros Hi Hc fs fcs H. induction H as [|f fc fs fcs Hf H IH]; intros off M Hoff; cbn [fold_left]; [simpl; lra|].
    cbn [map bases_l fst snd face_dofs] in Hoff.
    pose proof (p2_qps u f fc off M i Hf Hi Hc ltac:(lia)) as Q.
    destruct (curl2_face rb cb rd fd (off, M) fc) as [off' M'] eqn:EM.
    assert (O : off' = (off + b_size (el_basis (fc_elem fc) fd))%nat) by (unfold curl2_face in EM; apply pair_equal_spec in EM as [<- _]; reflexivity).
    subst off'. rewrite IH by (unfold bases_l in *; cbn [map] in *; lia). cbn [snd] in Q. rewrite Q.
    cbn [map bases_l fst snd face_funs fsum2]. apply Rplus_assoc.
  Qed.
  Lemma p2_row u i : (i < b_size rb - 1)%nat -> mv N p2_rhs u i = form 2 P c None cd fdi u (b_poly rb (S i)).
  Proof.
    intros Hi. unfold p2_rhs.
    assert (Hc : (b_size cb <= N)%nat) by (unfold N, num_dofs; fold cb; lia).
    rewrite (p2_rows u i ltac:(lia) Hc _ _ (faces_fit 2 P c HC)) by (unfold N, num_dofs, fdi; rewrite bases_all; fold cb; lia).
    rewrite mv_add_cols by (cbn; exact Hc). rewrite mv_zero, Rplus_0_l. unfold form, rhs_form, faces_funs. unfold fdi. rewrite bases_all. f_equal.
    unfold cell_fun. rewrite (en_lincomb_l 2 P HP). fold cb. unfold mv. apply sg_ext. intros j Hj. unfold shift. cbn [Nat.add].
    destruct (cf_nested _ _ _ HC cd rd Hcd) as (Nle & Neq). fold rb cb in Nle, Neq.
    rewrite (p2_stiff_eq (S i) j) by lia. rewrite (Neq j Hj). simpl. ring.
  Qed.
  Lemma p2_prog : curl_reconstruction_2d ldlt c (mkDegs cd fd rd) = Some (solveM ldlt (b_size rb - 1) p2_lhs p2_rhs, mprod (b_size rb - 1) (mtrans p2_rhs) (solveM ldlt (b_size rb - 1) p2_lhs p2_rhs)).
  Proof.
    unfold curl_reconstruction_2d. cbn [reconstruction_degree cell_degree face_degree]. fold rb cb. pose proof (proj1 (cf_nested _ _ _ HC cd rd Hcd)) as L. fold rb cb in L.
    rewrite (proj2 (Nat.leb_le _ _) L). reflexivity.
  Qed.
  Lemma p2_lhs_mv x i : (i < b_size rb - 1)%nat -> mv (b_size rb - 1) p2_lhs x i = en 2 P delta (tailf c rd x) (b_poly rb (S i)).
  Proof. intros Hi. refine (eq_trans _ (lhs_mv 2 P c HC None rd x i Hi)). unfold mv. apply sg_ext. intros j Hj. rewrite <- (p2_lhs_eq i j Hi Hj). reflexivity. Qed.
  Lemma p2_lhs_spd : spd (b_size rb - 1) p2_lhs.
  Proof. apply (spd_ext _ (lap_lhs 2 None c rd rb)); [exact p2_lhs_eq|]. apply (lhs_spd 2 P c HC None (spd_delta 2) rd). Qed.
  Let oper := solveM ldlt (b_size rb - 1) p2_lhs p2_rhs.
  Lemma p2_eq u w : pvars 2 w -> deg_le w rd -> en 2 P delta (rec_fun c rd N oper u) w = form 2 P c None cd fdi u w.
  Proof. apply (core_eq 2 P c HC None ldlt HS rd cd fdi p2_lhs p2_rhs p2_lhs_mv p2_lhs_spd p2_row). Qed.
  Lemma p2_data u v : quadf N (mprod (b_size rb - 1) (mtrans p2_rhs) oper) u v = en 2 P delta (rec_fun c rd N oper u) (rec_fun c rd N oper v).
  Proof. apply (core_data 2 P c HC None ldlt HS rd cd fdi p2_lhs p2_rhs p2_lhs_mv p2_lhs_spd p2_row). Qed.
  Lemma p2_consistent p di : pvars 2 p -> deg_le p rd -> (rd <= cd + 2)%nat -> (rd <= cd + 2 * di)%nat -> (rd <= fd + 1)%nat -> (rd <= fd + 2 * di)%nat ->
    exists k, forall x, po_on P x -> peval p x = peval (rec_fun c rd N oper (project_hho ldlt c (mkDegs cd fd rd) (peval p) di)) x + k.
  Proof.
    intros Vp Dp A B C D. rewrite project_hho_cdi. cbn [cell_degree face_degree]. 
    apply (core_consistent_const 2 P c HC None (spd_delta 2) ldlt HS rd cd fdi p2_lhs p2_rhs p2_lhs_mv p2_lhs_spd p2_row); try assumption.
    - intros k Hk. unfold fdi, all_faces in Hk. apply in_map_iff in Hk as (? & E & _). inversion E; subst. split; assumption.
    - apply all_some.
    - apply len_all.
  Qed.
End Plane.
