(** Proofs about the stabilisation of the curl in the plane and the curl-curl matrix. *)
From Coq Require Import List Arith Reals Lra Lia Bool.
From Verif Require Import Poly_Spec Poly_Proofs HHO_Spec HHO_Model HHO_Setting HHO_Proofs HHO2_Proofs HHO3_Proofs HHO4_Proofs HHO5_Proofs HHO6_Proofs HHO7_Proofs HHO8_Proofs SLapl2_Proofs VHHO_Spec Curl_Spec VHHO_Model Curl_Model CurlS_Model.
Import ListNotations.
Open Scope R_scope.

Section Plane.
  Context (d : nat) (P : polytope) (c : scell) (HC : cell_fits d P c).
  Context (ldlt : nat -> mtx -> (nat -> R) -> nat -> R) (HS : solves_spd ldlt).
  Context (cd fd : nat).
  Let cb := el_basis (cl_elem c) cd.
  Let fdi := all_faces c fd.
  Let N := num_dofs c cd fdi.

  Lemma chdg2_face_form f fc off data : face_fit f fc -> (b_size cb <= N)%nat -> (off + b_size (el_basis (fc_elem fc) fd) <= N)%nat ->
    exists A, chdg2_face ldlt cb cd fd (off, data) fc = ((off + b_size (el_basis (fc_elem fc) fd))%nat, maddm data (mscalm (/ fa_diam f) A)) /\
     face_form N f fd (cell_fun c cd) (fun u => lincomb (b_size (el_basis (fc_elem fc) fd)) (fun j => u (off + j)%nat) (b_poly (el_basis (fc_elem fc) fd))) A.
  Proof.
    intros [[FF [Hn Hd]] FI] Hc HN. unfold chdg2_face. rewrite Hd. eexists. split; [reflexivity|].
    set (fb := el_basis (fc_elem fc) fd) in *. set (q := el_quad _ _).
    set (mass := accumulate q (fun x => phi fb x) (fun x => phi fb x) zeroM).
    set (trace := accumulate q (fun x => phi fb x) (fun x => phi cb x) zeroM).
    assert (M : forall i j, (i < b_size fb)%nat -> (j < b_size fb)%nat -> mass i j = fa_int f (PMul (b_poly fb i) (b_poly fb j))).
    { intros i j Hi Hj. unfold mass. rewrite accumulate_eq. unfold zeroM, phi. rewrite Rplus_0_l. apply (acc_int _ _ FI _ FF).
      apply (deg_le_mono _ (fd + fd)); [lia|]. apply deg_le_mul; apply (basis_deg _ _ _ FF); assumption. }
    assert (T : forall z i, (i < b_size fb)%nat -> mv (b_size cb) trace z i = fa_int f (PMul (b_poly fb i) (cell_fun c cd z))).
    { intros z i Hi. unfold trace, phi. rewrite (acc_mv _ _ _ _ _ _ (b_poly fb i)) by reflexivity. apply (acc_int _ _ FI _ FF).
      apply (deg_le_mono _ (fd + cd)); [lia|].
      apply deg_le_mul; [apply (basis_deg _ _ _ FF), Hi|]. apply (fun_deg _ _ _ (cf_elem _ _ _ HC)). }
    intros u v du dv Ju Jv.
    apply (face_jump_form _ _ FI _ FF fd N _ _ (-1) (cell_fun c cd) (fun u => lincomb (b_size fb) (fun j => u (off + j)%nat) (b_poly fb)) u v du dv ltac:(lra)); try assumption.
    intros z i Hi. fold fb. fold fb in Hi.
    set (P2 := solveM ldlt (b_size fb) mass trace).
    assert (R : forall j, (j < b_size fb)%nat -> mv N (add_cols (add_cols zeroM off (b_size fb) ident) 0 (b_size cb) (mopp P2)) z j = z (off + j)%nat - mv (b_size cb) P2 z j).
    { intros j Hj. rewrite !mv_add_cols by (unfold fb in *; lia). rewrite mv_zero, mv_opp, mv_ident by exact Hj. cbn [Nat.add]. change (fun j => z j) with z. lra. }
    rewrite (I_mul_sub_r _ _ FI).
    assert (Q : fa_int f (PMul (b_poly fb i) (lincomb (b_size fb) (mv (b_size cb) P2 z) (b_poly fb))) = fa_int f (PMul (b_poly fb i) (cell_fun c cd z))).
    { apply (mass_solve _ _ FI ldlt HS fd _ _ _ (2 * fd) _ _ _ _ _ (fit_basis _ _ _ FF fd) (fit_quad _ _ _ FF)); [lia|exact M|intros a Ha; apply T, Ha|exact Hi]. }
    rewrite <- Q.
    rewrite <- (I_mul_sub_r _ _ FI), <- (int_scal _ _ FI). apply (I_ext _ _ FI). intros x. unfold psubp, pscal. cbn [peval]. rewrite !peval_lincomb.
    rewrite (sg_ext _ _ (fun j => z (off + j)%nat * peval (b_poly fb j) x + (-1) * (mv (b_size cb) P2 z j * peval (b_poly fb j) x))) by (intros j Hj; rewrite R by exact Hj; ring).
    rewrite sg_plus, sg_scal. ring.
  Qed.
  Lemma chdg2_form u v du dv :
    jumps (po_facets P) fdi (faces_funs c cd fdi u) (cell_fun c cd u) du ->
    jumps (po_facets P) fdi (faces_funs c cd fdi v) (cell_fun c cd v) dv ->
    bil N (curl_hdg_stabilization_2d ldlt c cd fd) v u = fsum3 (po_facets P) du dv (fun f a b => / fa_diam f * fa_int f (PMul a b)).
  Proof.
    intros Ju Jv. unfold curl_hdg_stabilization_2d. rewrite <- (fold_combine _ fd).
    match goal with |- bil N (snd (fold_left ?st _ _)) v u = _ =>
      rewrite (stab_fold N st (fun k => k = fd) (cell_fun c cd) (fun f => / fa_diam f) (po_facets P) (cl_faces c) (faces_fit d P c HC)) with (du := du) (dv := dv) end.
    - rewrite bil_zero. lra.
    - reflexivity.
    - intros f fc k _ Hf off data -> Hoff. cbn [fst snd].
      apply (chdg2_face_form f fc off data Hf); [unfold N, num_dofs, cb; lia|exact Hoff].
    - intros k Hin. unfold fdi, all_faces in Hin. apply in_map_iff in Hin as (y & Ey & _). congruence.
    - unfold N, num_dofs. rewrite bases_of_l. unfold fdi, all_faces. lia.
    - exact Ju.
    - exact Jv.
  Qed.
End Plane.
