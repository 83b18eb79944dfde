(** Proofs about the HHO stabilisation with a degree per face and with a tensor, and about the fluxes. *)
From Coq Require Import List Arith Reals Lra Lia Bool.
From Verif Require Import Poly_Spec Poly_Proofs HHO_Spec HHO_Model HHO_Setting HHO_Proofs HHO2_Proofs HHO3_Proofs HHO4_Proofs HHO5_Proofs HHO6_Proofs HHO7_Proofs HHO8_Proofs HHO9_Proofs Stab_Model Stab_Spec Stab_Proofs.
Import ListNotations.
Open Scope R_scope.

Lemma lincomb_ext n s b b' : (forall j, (j < n)%nat -> b j = b' j) -> lincomb n s b = lincomb n s b'.
Proof. intros H. unfold lincomb. induction n as [|n IH]; [reflexivity|]. cbn [psum]. rewrite IH by (intros; apply H; lia). rewrite H by lia. reflexivity. Qed.

Section Hho.
  Context (d : nat) (P : polytope) (c : scell) (HC : cell_fits d P c).
  Let HP := cf_poly _ _ _ HC.
  Let HI := poly_int _ _ HP.
  Context (ldlt : nat -> mtx -> (nat -> R) -> nat -> R) (HS : solves_spd ldlt).
  Context (cd rd : nat) (Hcd : (cd <= rd)%nat) (N : nat) (rec : mtx).
  Let cb := el_basis (cl_elem c) cd.
  Let rb := el_basis (cl_elem c) rd.
  Let rbs := b_size rb.
  Let R_ (u : nat -> R) := rec_fun c rd N rec u.
  Let M1 := make_mass_matrix (cl_elem c) rb 0.
  Let pj := cdi_proj1 ldlt (cl_elem c) rb (b_size cb) rec.
  Lemma cdi_size : (b_size cb <= rbs)%nat.
  Proof. apply (cf_nested _ _ _ HC cd rd Hcd). Qed.
  Lemma cdi_poly j : (j < b_size cb)%nat -> b_poly rb j = b_poly cb j.
  Proof. intros Hj. apply (proj2 (cf_nested _ _ _ HC cd rd Hcd)), Hj. Qed.
  Definition cdi_piT (u : nat -> R) : pexp :=
    lincomb (b_size cb) (mv N (solveM ldlt (b_size cb) M1 (mprod (rbs - 1) (shift 0 1 M1) rec)) u) (b_poly cb).
  Lemma cdi_R_deg u : deg_le (R_ u) rd.
  Proof. apply deg_le_lincomb. intros j Hj. apply (basis_deg _ _ _ (cf_elem _ _ _ HC)). lia. Qed.
  Lemma cdi_M1 a b : (a < rbs)%nat -> (b < rbs)%nat -> M1 a b = po_int P (PMul (b_poly rb a) (b_poly rb b)).
  Proof. intros Ha Hb. apply (mass_eq _ _ HI _ (cf_elem _ _ _ HC)); assumption. Qed.
  Lemma cdi_piT_proj u : l2proj (po_int P) cd (R_ u) (cdi_piT u).
  Proof.
    pose proof cdi_size as Sz. unfold cdi_piT. apply (l2_basis _ _ HI _ (cf_elem _ _ _ HC)). fold cb.
    apply (mass_solve _ _ HI ldlt HS cd _ _ _ (2 * cd) _ _ _ _ _ (fit_basis _ _ _ (cf_elem _ _ _ HC) cd) (fit_quad _ _ _ (cf_elem _ _ _ HC))); [lia| |].
    - intros a b Ha Hb. fold cb in Ha, Hb |- *. rewrite cdi_M1 by lia. rewrite !cdi_poly by assumption. reflexivity.
    - intros a Ha. fold cb in Ha |- *. rewrite mv_mprod. unfold R_, rec_fun. fold rb. rewrite (I_mul_lincomb_r _ _ HI). fold rbs. apply sg_ext. intros j Hj. unfold shift.
      rewrite cdi_M1 by lia. cbn [Nat.add]. rewrite (cdi_poly a Ha). apply Rmult_comm.
  Qed.
  (** the function that the faces are compared with *)
  Definition cdi_lift (u : nat -> R) : pexp := PAdd (R_ u) (psubp (cell_fun c cd u) (cdi_piT u)).
  Lemma cdi_face_form mass scale f fc k off data : face_fit f fc -> (b_size cb <= N)%nat -> (off + b_size (el_basis (fc_elem fc) k) <= N)%nat ->
    (forall a b, (a < b_size (el_basis (fc_elem fc) k))%nat -> (b < b_size (el_basis (fc_elem fc) k))%nat ->
       mass (fc_elem fc) k a b = fa_int f (PMul (b_poly (el_basis (fc_elem fc) k) a) (b_poly (el_basis (fc_elem fc) k) b))) ->
    exists A, hho_face_cdi ldlt rb (b_size cb) rd rec pj mass scale (off, data) (fc, Some k) = ((off + b_size (el_basis (fc_elem fc) k))%nat, maddm data (mscalm (scale fc) A)) /\
     face_form N f k cdi_lift (fun u => lincomb (b_size (el_basis (fc_elem fc) k)) (fun j => u (off + j)%nat) (b_poly (el_basis (fc_elem fc) k))) A.
  Proof.
    intros [[FF [Hn Hd]] FI] Hc HN HM. unfold hho_face_cdi. cbn [fst snd]. eexists. split; [reflexivity|]. pose proof cdi_size as Sz.
    set (fb := el_basis (fc_elem fc) k) in *. set (MF := mass (fc_elem fc) k) in *.
    set (tr := accumulate _ (phi fb) (phi rb) zeroM).
    set (BRF := maddm _ _).
    set (uF := fun u : nat -> R => lincomb (b_size fb) (fun j => u (off + j)%nat) (b_poly fb)).
    assert (TR : forall a b, (a < b_size fb)%nat -> (b < rbs)%nat -> tr a b = fa_int f (PMul (b_poly fb a) (b_poly rb b))).
    { intros a b Ha Hb. unfold tr. rewrite accumulate_eq. unfold zeroM, phi. rewrite Rplus_0_l. apply (acc_int _ _ FI _ FF).
      apply (deg_le_mono _ (k + rd)); [lia|]. apply deg_le_mul; [apply (basis_deg _ _ _ FF), Ha|apply (basis_deg _ _ _ (cf_elem _ _ _ HC)), Hb]. }
    assert (P1 : forall z j, (j < b_size cb)%nat -> mv N pj z j = z j - mv N (solveM ldlt (b_size cb) M1 (mprod (rbs - 1) (shift 0 1 M1) rec)) z j).
    { intros z j Hj. unfold pj, cdi_proj1. fold rbs M1. rewrite mv_add_cols by lia. rewrite mv_opp, mv_ident by exact Hj. cbn [Nat.add]. lra. }
    assert (D1 : forall z x, peval (lincomb (b_size cb) (mv N pj z) (b_poly cb)) x = peval (psubp (cell_fun c cd z) (cdi_piT z)) x).
    { intros z x. unfold psubp, pscal, cell_fun, cdi_piT. cbn [peval]. rewrite !peval_lincomb. fold cb. rewrite <- sg_scal, <- sg_plus. apply sg_ext. intros j Hj.
      rewrite (P1 z j Hj). ring. }
    assert (B : forall z i, (i < b_size fb)%nat -> mv N BRF z i = mv N (solveM ldlt (b_size fb) MF (mprod (rbs - 1) (shift 0 1 tr) rec)) z i - z (off + i)%nat +
       mv N (solveM ldlt (b_size fb) MF (mprod (b_size cb) tr pj)) z i).
    { intros z i Hi. unfold BRF. rewrite mv_madd, mv_add_cols by lia. rewrite mv_opp, mv_ident by exact Hi. fold rbs. lra. }
    assert (L : forall z i, (i < b_size fb)%nat -> fa_int f (PMul (b_poly fb i) (lincomb (b_size fb) (mv N BRF z) (b_poly fb))) =
       fa_int f (PMul (b_poly fb i) (psubp (cdi_lift z) (uF z)))).
    { intros z i Hi.
      set (s1 := lincomb (b_size fb) (mv N (solveM ldlt (b_size fb) MF (mprod (rbs - 1) (shift 0 1 tr) rec)) z) (b_poly fb)).
      set (s2 := lincomb (b_size fb) (mv N (solveM ldlt (b_size fb) MF (mprod (b_size cb) tr pj)) z) (b_poly fb)).
      rewrite (I_ext _ _ FI _ (PAdd (PMul (b_poly fb i) (psubp s1 (uF z))) (PMul (b_poly fb i) s2))).
      - rewrite (int_add _ _ FI), !(I_mul_sub_r _ _ FI).
        assert (S1 : fa_int f (PMul (b_poly fb i) s1) = fa_int f (PMul (b_poly fb i) (R_ z))).
        { apply (mass_solve _ _ FI ldlt HS k _ _ _ (2 * k) _ _ _ _ _ (fit_basis _ _ _ FF k) (fit_quad _ _ _ FF)); [lia|exact HM| |exact Hi].
          intros a Ha. fold fb in Ha |- *. rewrite mv_mprod. unfold R_, rec_fun. fold rb. rewrite (I_mul_lincomb_r _ _ FI). fold rbs. apply sg_ext. intros j Hj. unfold shift.
          cbn [Nat.add]. rewrite TR by lia. apply Rmult_comm. }
        assert (S2 : fa_int f (PMul (b_poly fb i) s2) = fa_int f (PMul (b_poly fb i) (psubp (cell_fun c cd z) (cdi_piT z)))).
        { rewrite <- (I_ext _ _ FI (PMul (b_poly fb i) (lincomb (b_size cb) (mv N pj z) (b_poly cb))) (PMul (b_poly fb i) (psubp (cell_fun c cd z) (cdi_piT z)))) by (intros x; cbn [peval]; rewrite D1; reflexivity).
          apply (mass_solve _ _ FI ldlt HS k _ _ _ (2 * k) _ _ _ _ _ (fit_basis _ _ _ FF k) (fit_quad _ _ _ FF)); [lia|exact HM| |exact Hi].
          intros a Ha. fold fb in Ha |- *. rewrite mv_mprod. rewrite (I_mul_lincomb_r _ _ FI). apply sg_ext. intros j Hj.
          rewrite TR by lia. rewrite (cdi_poly j Hj). apply Rmult_comm. }
        unfold cdi_lift. rewrite (I_ext _ _ FI (PMul (b_poly fb i) (PAdd (R_ z) (psubp (cell_fun c cd z) (cdi_piT z)))) (PAdd (PMul (b_poly fb i) (R_ z)) (PMul (b_poly fb i) (psubp (cell_fun c cd z) (cdi_piT z))))) by (intros x; cbn [peval]; ring).
        rewrite (int_add _ _ FI), S1, S2. lra.
      - intros x. unfold psubp, pscal, uF, s1, s2. cbn [peval]. rewrite !peval_lincomb. rewrite <- Rmult_plus_distr_l. f_equal. rewrite <- sg_scal, <- !sg_plus. apply sg_ext. intros j Hj. rewrite (B z j Hj). ring. }
    intros u v du dv Ju Jv. rewrite bil_mass.
    rewrite (sg_ext (b_size fb) _ (fun i => mv N BRF v i * fa_int f (PMul (b_poly fb i) du))).
    - rewrite <- (I_mul_lincomb_l _ _ FI). rewrite (I_comm _ _ FI du). apply (int_ext _ _ FI). intros x Hx. cbn [peval]. f_equal.
      apply (l2_eq _ _ FI _ FF k _ _ _ Jv); [exact (L v)|exact Hx].
    - intros i Hi. f_equal.
      unfold mv at 1. rewrite (sg_ext (b_size fb) _ (fun j => mv N BRF u j * fa_int f (PMul (b_poly fb i) (b_poly fb j)))) by (intros j Hj; rewrite (HM i j Hi Hj); ring).
      rewrite <- (I_mul_lincomb_r _ _ FI). apply (int_ext _ _ FI). intros x Hx. cbn [peval]. f_equal.
      apply (l2_eq _ _ FI _ FF k _ _ _ Ju); [exact (L u)|exact Hx].
  Qed.
End Hho.

Section Cell.
  Context (d : nat) (P : polytope) (c : scell) (HC : cell_fits d P c).
  Let HP := cf_poly _ _ _ HC.
  Let HI := poly_int _ _ HP.
  Context (ldlt : nat -> mtx -> (nat -> R) -> nat -> R) (HS : solves_spd ldlt).
  Lemma lift_jumps cd rd N rec fdi z rz dz : (cd <= rd)%nat -> l2proj (po_int P) cd (rec_fun c rd N rec z) rz ->
    jumps (po_facets P) fdi (faces_funs c cd fdi z) (PAdd (rec_fun c rd N rec z) (psubp (cell_fun c cd z) rz)) dz ->
    jumps (po_facets P) fdi (faces_funs c cd fdi z) (cdi_lift c ldlt cd rd N rec z) dz.
  Proof.
    intros Hcd Pz. apply jumps_ext; [apply (fint d P c HC)|]. intros f x Hf Hx. unfold cdi_lift, psubp. cbn [peval]. f_equal. f_equal. unfold pscal. cbn [peval]. f_equal.
    symmetry. destruct (cdi_piT_proj d P c HC ldlt HS cd rd Hcd N rec z) as (D1 & T1). destruct Pz as (D2 & T2).
    apply (span_eq _ _ HI cd _ _ _ _ (fit_basis _ _ _ (cf_elem _ _ _ HC) cd)); [exact D1|exact D2| |apply (fon d P c HC f x Hf Hx)].
    intros i Hi. pose proof (basis_deg _ _ _ (cf_elem _ _ _ HC) cd i Hi) as Db. rewrite (T1 _ Db), (T2 _ Db). reflexivity.
  Qed.
  Lemma cdi_form cd rd fdi rec hF u v ru rv du dv : (cd <= rd)%nat ->
    let N := num_dofs c cd fdi in
    l2proj (po_int P) cd (rec_fun c rd N rec u) ru -> l2proj (po_int P) cd (rec_fun c rd N rec v) rv ->
    jumps (po_facets P) fdi (faces_funs c cd fdi u) (PAdd (rec_fun c rd N rec u) (psubp (cell_fun c cd u) ru)) du ->
    jumps (po_facets P) fdi (faces_funs c cd fdi v) (PAdd (rec_fun c rd N rec v) (psubp (cell_fun c cd v) rv)) dv ->
    bil N (hho_stabilization_cdi ldlt c rd cd fdi rec hF) v u =
    fsum3 (po_facets P) du dv (fun f a b => / sth P hF f * fa_int f (PMul a b)).
  Proof.
    intros Hcd N Pu Pv Ju Jv. unfold hho_stabilization_cdi.
    match goal with |- bil N (snd (fold_left ?st _ _)) v u = _ =>
      rewrite (stab_fold N st (fun _ => True) (cdi_lift c ldlt cd rd N rec) (fun f => / sth P hF f) (po_facets P) (cl_faces c) (faces_fit d P c HC)) with (du := du) (dv := dv) end.
    - rewrite bil_zero. lra.
    - reflexivity.
    - intros f fc k _ Hf off data _ Hoff.
      destruct (cdi_face_form d P c HC ldlt HS cd rd Hcd N rec (fun e fd => make_mass_matrix e (el_basis e fd) 0) (fun fc => / stab_h c hF fc) f fc k off data Hf) as (A & EA & FA);
          [unfold N, num_dofs; lia|exact Hoff| |].
      { intros a b Ha Hb. apply (mass_eq _ _ (proj2 Hf) _ (proj1 (proj1 Hf))); assumption. }
      exists A. split; [|exact FA]. rewrite <- (stab_h_eq d P c HC hF f fc Hf). exact EA.
    - intros; exact Logic.I.
    - unfold N, num_dofs. rewrite bases_of_l. apply Nat.le_refl.
    - apply (lift_jumps cd rd N rec fdi u ru du Hcd Pu Ju).
    - apply (lift_jumps cd rd N rec fdi v rv dv Hcd Pv Jv).
  Qed.
  Lemma stab2_form cd fd rd rec kappa u v ru rv du dv : (cd <= rd)%nat -> (fd <= rd)%nat ->
    let fdi := all_faces c fd in let N := num_dofs c cd fdi in
    l2proj (po_int P) cd (rec_fun c rd N rec u) ru -> l2proj (po_int P) cd (rec_fun c rd N rec v) rv ->
    jumps (po_facets P) fdi (faces_funs c cd fdi u) (PAdd (rec_fun c rd N rec u) (psubp (cell_fun c cd u) ru)) du ->
    jumps (po_facets P) fdi (faces_funs c cd fdi v) (PAdd (rec_fun c rd N rec v) (psubp (cell_fun c cd v) rv)) dv ->
    bil N (hho_stabilization2 ldlt d c (mkDegs cd fd rd) rec kappa) v u =
    fsum3 (po_facets P) du dv (fun f a b => quadf d kappa (fa_normal f) (fa_normal f) / po_diam P * fa_int f (PMul a b)).
  Proof.
    intros Hcd Hfd fdi N Pu Pv Ju Jv. unfold hho_stabilization2. cbn [cell_degree face_degree reconstruction_degree].
    rewrite <- (fold_combine _ fd).
    match goal with |- bil N (snd (fold_left ?st _ _)) v u = _ =>
      rewrite (stab_fold N st (fun k => k = fd) (cdi_lift c ldlt cd rd N rec) (fun f => quadf d kappa (fa_normal f) (fa_normal f) / po_diam P) (po_facets P) (cl_faces c) (faces_fit d P c HC)) with (du := du) (dv := dv) end.
    - rewrite bil_zero. lra.
    - reflexivity.
    - intros f fc k _ Hf off data -> Hoff. cbn [fst snd].
      destruct (cdi_face_form d P c HC ldlt HS cd rd Hcd N rec (fun e fd => accumulate (el_quad e (rd + fd)) (phi (el_basis e fd)) (phi (el_basis e fd)) zeroM)
        (fun fc => sg d (fun i => fc_normal fc i * sg d (fun j => kappa i j * fc_normal fc j)) / el_diam (cl_elem c)) f fc fd off data Hf) as (A & EA & FA);
          [unfold N, num_dofs; lia|exact Hoff| |].
      { intros a b Ha Hb. destruct Hf as [[FF _] FI]. rewrite accumulate_eq. unfold zeroM, phi. rewrite Rplus_0_l. apply (acc_int _ _ FI _ FF).
        apply (deg_le_mono _ (fd + fd)); [lia|]. apply deg_le_mul; apply (basis_deg _ _ _ FF); assumption. }
      exists A. split; [|exact FA]. rewrite <- (cf_diam _ _ _ HC). destruct Hf as [[_ [Hn _]] _]. rewrite Hn in EA. exact EA.
    - intros k Hin. unfold fdi, all_faces in Hin. apply in_map_iff in Hin as (y & Ey & _). congruence.
    - unfold N, num_dofs. rewrite bases_of_l. unfold fdi, all_faces. lia.
    - apply (lift_jumps cd rd N rec fdi u ru du Hcd Pu Ju).
    - apply (lift_jumps cd rd N rec fdi v rv dv Hcd Pv Jv).
  Qed.
End Cell.
