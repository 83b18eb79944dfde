(** Component-wise operators and the kernel of the symmetric gradient with the HDG stabilisation. *)
From Coq Require Import List Arith Reals Lra Lia Bool.
From Verif Require Import Poly_Spec Poly_Proofs HHO_Spec VHHO_Spec HHO_Model VHHO_Model HHO_Setting VHHO_Setting HHO_Proofs HHO2_Proofs HHO3_Proofs HHO4_Proofs HHO6_Proofs HHO7_Proofs HHO8_Proofs HHO9_Proofs VHHO_Proofs VHHO2_Proofs VHHO3_Proofs VHHO4_Proofs VHHO5_Proofs.
Import ListNotations.
Open Scope R_scope.

Lemma scal_total c cd fdi : scal_total_dofs c cd fdi = num_dofs c cd fdi.
Proof.
  unfold scal_total_dofs, num_dofs, bases_of. generalize (b_size (el_basis (cl_elem c) cd)).
  induction (combine (cl_faces c) fdi) as [|[fc [k|]] l IH]; intros n; cbn [fold_left map fst snd face_dofs]; [lia| |apply IH].
  rewrite IH. lia.
Qed.
Lemma vlin_shift n k B x a : peval (vlin n k B a) x = sg n (fun j => k j * peval (B j a) x).
Proof. apply peval_vlin. Qed.
(** vector Laplacian *)
Lemma vrec_comp d c rd N oper u a x : (a < d)%nat -> (0 < b_size (el_basis (cl_elem c) rd))%nat ->
  peval (vrec_fun d c rd (d * N) (replicate_blocks d (b_size (el_basis (cl_elem c) rd) - 1) N oper) u a) x =
  peval (rec_fun c rd N oper (comp d a u)) x.
Proof.
  intros Ha Hb. unfold vrec_fun, rec_fun. cbn [vec_basis v_size v_comp].
  set (b := el_basis (cl_elem c) rd). replace (d * b_size b - d)%nat with (d * (b_size b - 1))%nat by (rewrite Nat.mul_sub_distr_l; lia).
  rewrite peval_vlin, sg_blocks, peval_lincomb. apply sg_ext. intros i Hi.
  rewrite (sg_ext d _ (fun e => if (a =? e)%nat then sg (d * N) (fun j => replicate_blocks d (b_size b - 1) N oper (d * i + e)%nat j * u j) * peval (b_poly b (S i)) x else 0)).
  - rewrite (sg_pick0 d a) by exact Ha. f_equal. apply (replicate_mv d (b_size b - 1) N oper u i a Ha Hi).
  - intros e He. replace (d + (d * i + e))%nat with (d * S i + e)%nat by lia. rewrite idx_mod, idx_div by exact He. rewrite (Nat.eqb_sym e a).
    destruct (a =? e)%nat; cbn [peval]; ring.
Qed.

(** * faces, component by component *)
Lemma von_of_comps d (V : facet -> tf -> Prop) (Q : nat -> facet -> pexp -> Prop) fs : forall us ps,
  (forall a, (a < d)%nat -> same_faces a us (ps a)) -> (forall a, (a < d)%nat -> on_facets fs (ps a) (Q a)) ->
  (forall f u, In f fs -> (forall a, (a < d)%nat -> exists p, (forall x, peval (u a) x = peval p x) /\ Q a f p) -> V f u) -> von_facets fs us V.
Proof.
  induction fs as [|f fs IH]; intros [|[u|] us] ps S O H; cbn [von_facets]; try exact Logic.I.
  - split.
    + apply H; [left; reflexivity|]. intros a Ha. specialize (S a Ha). specialize (O a Ha). destruct (ps a) as [|[p|] t]; cbn [same_faces] in S; try contradiction. cbn [on_facets] in O. exists p. split; [apply S|apply O].
    + apply (IH us (fun a => tl (ps a))).
      * intros a Ha. specialize (S a Ha). destruct (ps a) as [|[p|] t]; cbn [same_faces] in S; try contradiction. apply S.
      * intros a Ha. specialize (S a Ha). specialize (O a Ha). destruct (ps a) as [|[p|] t]; cbn [same_faces] in S; try contradiction. apply O.
      * intros g w Hg. apply H. right. exact Hg.
  - apply (IH us (fun a => tl (ps a))).
    + intros a Ha. specialize (S a Ha). destruct (ps a) as [|[p|] t]; cbn [same_faces] in S; try contradiction. apply S.
    + intros a Ha. specialize (S a Ha). specialize (O a Ha). destruct (ps a) as [|[p|] t]; cbn [same_faces] in S; try contradiction. apply O.
    + intros g w Hg. apply H. right. exact Hg.
Qed.
Lemma comp_of_von a (V : facet -> tf -> Prop) (Q : facet -> pexp -> Prop) fs : forall us ps, same_faces a us ps -> von_facets fs us V ->
  (forall f u p, In f fs -> (forall x, peval (u a) x = peval p x) -> V f u -> Q f p) -> on_facets fs ps Q.
Proof.
  induction fs as [|f fs IH]; intros [|[u|] us] [|[p|] ps] S O H; cbn [von_facets same_faces on_facets] in *; try tauto.
  - destruct S as [S1 S2], O as [O1 O2]. split; [apply (H f u p (or_introl eq_refl) S1 O1)|]. apply (IH us ps S2 O2). intros g w q Hg. apply H. right. exact Hg.
  - apply (IH us ps S O). intros g w q Hg. apply H. right. exact Hg.
Qed.
Lemma sg_pos_zero n f : (forall i, (i < n)%nat -> 0 <= f i) -> sg n f = 0 -> forall i, (i < n)%nat -> f i = 0.
Proof.
  induction n as [|n IH]; intros Hp Z i Hi; [lia|]. cbn [sg] in Z.
  assert (0 <= sg n f) by (apply sg_le; intros; apply Hp; lia). assert (0 <= f n) by (apply Hp; lia).
  destruct (Nat.eq_dec i n) as [->|]; [lra|]. apply IH; [intros; apply Hp; lia|lra|lia].
Qed.
(** a vector with one component *)
Definition vone (a : nat) (w : pexp) : tf := fun b => if (a =? b)%nat then w else PC 0.
Lemma vone_dot d a w U x : (a < d)%nat -> peval (vdot d (vone a w) U) x = peval w x * peval (U a) x.
Proof.
  intros Ha. rewrite peval_vdot. rewrite (sg_ext d _ (fun b => if (a =? b)%nat then peval w x * peval (U b) x else 0)); [apply sg_pick0, Ha|].
  intros b Hb. unfold vone. destruct (a =? b)%nat; cbn [peval]; ring.
Qed.
Lemma vone_deg d a w k : deg_le w k -> vdeg d (vone a w) k.
Proof. intros D b Hb. unfold vone. destruct (a =? b)%nat; [exact D|apply deg_le_const]. Qed.

Section VHdg.
  Context (d : nat) (P : polytope) (c : scell) (HC : cell_fits d P c).
  Let HP := cf_poly _ _ _ HC.
  Let HI := poly_int _ _ HP.
  Context (ldlt : nat -> mtx -> (nat -> R) -> nat -> R) (HS : solves_spd ldlt) (cd fd : nat) (hF : bool).
  Let fdi := all_faces c fd.
  Let SV := vector_hdg_stabilization ldlt d c cd fdi hF.
  Let N := vnum_dofs d c cd fdi.
  Lemma vhdg_comp u v : (0 < d)%nat -> quadf N SV u v = sg d (fun a => quadf (num_dofs c cd fdi) (hdg_stabilization ldlt c cd fdi hF) (comp d a u) (comp d a v)).
  Proof. intros Hd. unfold N, SV, vector_hdg_stabilization. rewrite vnum_comp, scal_total. apply replicate_quad, Hd. Qed.
  Lemma vhdg_pos u : (0 < d)%nat -> 0 <= quadf N SV u u.
  Proof. intros Hd. rewrite vhdg_comp by exact Hd. apply sg_le. intros a Ha. apply (hdg_pos d P c HC ldlt HS cd fd hF (comp d a u)). Qed.
  Lemma vhdg_zero u : (0 < d)%nat -> quadf N SV u u = 0 <->
    von_facets (po_facets P) (vfaces_funs d c cd fdi u) (fun f uF => forall w, vdeg d w fd -> fa_int f (vdot d w uF) = fa_int f (vdot d w (vcell_fun d c cd u))).
  Proof.
    intros Hd. rewrite vhdg_comp by exact Hd. split.
    - intros Z.
      assert (Za : forall a, (a < d)%nat -> quadf (num_dofs c cd fdi) (hdg_stabilization ldlt c cd fdi hF) (comp d a u) (comp d a u) = 0).
      { intros a Ha. apply (sg_pos_zero d (fun a => quadf (num_dofs c cd fdi) (hdg_stabilization ldlt c cd fdi hF) (comp d a u) (comp d a u))); [|exact Z|exact Ha].
        intros b _. apply (hdg_pos d P c HC ldlt HS cd fd hF (comp d b u)). }
      apply (von_of_comps d _ (fun a f p => forall w, deg_le w fd -> fa_int f (PMul w (psubp (cell_fun c cd (comp d a u)) p)) = 0) _ _ (fun a => faces_funs c cd fdi (comp d a u))).
      + intros a Ha. apply vfaces_comp, Ha.
      + intros a Ha. destruct (faces_jumps d P c HC ldlt HS cd fd (comp d a u) (cell_fun c cd (comp d a u))) as (du & Ju).
        specialize (Za a Ha). pose proof (g_form d P c HC ldlt HS cd fd hF _ _ du du Ju Ju) as F. fold fdi in F. rewrite bil_quadf, F in Za. apply fsum3_def in Za; [|intros; apply (hdg_nonneg d P c HC); assumption].
        apply (jumps_test _ fdi _ _ du fd (fint d P c HC) Ju); [intros k' Hin; rewrite (all_fd c fd k' Hin); lia|].
        revert Za. apply on_facets_impl. intros f p Hf. apply (hdg_sq0 d P c HC hF f p Hf).
      + intros f uF Hf H w Dw. pose proof (fint d P c HC f Hf) as FI.
        assert (G : forall a, (a < d)%nat -> fa_int f (PMul (w a) (uF a)) = fa_int f (PMul (w a) (vcell_fun d c cd u a))).
        { intros a Ha. destruct (H a Ha) as (p & Ep & Q). specialize (Q (w a) (Dw a Ha)).
          rewrite (I_ext _ _ FI (PMul (w a) (uF a)) (PMul (w a) p)) by (intros x; cbn [peval]; rewrite Ep; reflexivity).
          rewrite (I_ext _ _ FI (PMul (w a) (vcell_fun d c cd u a)) (PAdd (PMul (w a) p) (PMul (w a) (psubp (cell_fun c cd (comp d a u)) p)))).
          - rewrite (int_add _ _ FI), Q. lra.
          - intros x. unfold psubp, pscal. cbn [peval]. rewrite vcell_comp by exact Ha. ring. }
        unfold vdot. rewrite !(I_psum _ _ FI). apply sg_ext. intros a Ha. apply G, Ha.
    - intros H. apply sg_zero. intros a Ha.
      destruct (faces_jumps d P c HC ldlt HS cd fd (comp d a u) (cell_fun c cd (comp d a u))) as (du & Ju).
      pose proof (g_form d P c HC ldlt HS cd fd hF _ _ du du Ju Ju) as F. fold fdi in F. rewrite bil_quadf, F. apply fsum3_zero_l.
      assert (D0 : on_facets (po_facets P) du (fun f a => forall x, fa_on f x -> peval a x = 0)).
      { apply (jumps_zero _ fdi (faces_funs c cd fdi (comp d a u)) (cell_fun c cd (comp d a u)) du fd (fint d P c HC) Ju); [intros k'' Hin; rewrite (all_fd c fd k'' Hin); lia|].
        apply (comp_of_von a _ _ _ _ _ (vfaces_comp d c cd fdi u a Ha) H). intros f uF p Hf Ep V w Dw. pose proof (fint d P c HC f Hf) as FI.
        specialize (V (vone a w) (vone_deg d a w fd Dw)).
        rewrite (I_ext _ _ FI (vdot d (vone a w) uF) (PMul w p)) in V by (intros x; rewrite vone_dot by exact Ha; cbn [peval]; rewrite Ep; reflexivity).
        rewrite (I_ext _ _ FI (vdot d (vone a w) (vcell_fun d c cd u)) (PAdd (PMul w p) (PMul w (psubp (cell_fun c cd (comp d a u)) p)))) in V.
        - rewrite (int_add _ _ FI) in V. lra.
        - intros x. rewrite vone_dot by exact Ha. rewrite vcell_comp by exact Ha. unfold psubp, pscal. cbn [peval]. ring. }
      revert D0. apply on_facets_impl. intros f p Hf H0 b. rewrite (I_zero _ _ (fint d P c HC f Hf)); [ring|]. intros x Hx. cbn [peval]. rewrite (H0 x Hx). ring.
  Qed.
End VHdg.

(** * kernel of the elasticity operator *)
Section SymHdg.
  Context (d : nat) (Hd : dim23 d) (P : polytope) (c : scell) (HC : cell_fits d P c).
  Let HP := cf_poly _ _ _ HC.
  Let HI := poly_int _ _ HP.
  Context (ldlt : nat -> mtx -> (nat -> R) -> nat -> R) (HS : solves_spd ldlt) (cd fd gd : nat) (hF : bool) (Hcd : (cd <= gd + 1)%nat) (Hfd : (gd <= fd)%nat).
  Let fdi := all_faces c fd.
  Let N := vnum_dofs d c cd fdi.
  Let A := snd (symmetric_gradrec ldlt d c cd gd fdi).
  Let SV := vector_hdg_stabilization ldlt d c cd fdi hF.
  Lemma form_faces u t : vdeg (d * d) t gd ->
    von_facets (po_facets P) (vfaces_funs d c cd fdi u) (fun f uF => forall w, vdeg d w fd -> fa_int f (vdot d w uF) = fa_int f (vdot d w (vcell_fun d c cd u))) ->
    eform d P c cd fdi u t = po_int P (vdot (d * d) t (msymp d (mgrad d (vcell_fun d c cd u)))).
  Proof.
    intros Dt J. unfold eform. rewrite vfsum2_zero; [lra|]. revert J. apply von_facets_impl. intros f uF Hf H. pose proof (fint d P c HC f Hf) as FI.
    rewrite (vdot_sub_l _ _ FI), !(vdot_comm _ _ FI d _ (mnrm d (fa_normal f) t)), (H (mnrm d (fa_normal f) t)); [lra|].
    intros a Ha. apply (deg_le_mono _ gd); [lia|]. apply (deg_mnrm d _ t gd Dt a Ha).
  Qed.
  Lemma sym_hdg_pos u : 0 <= quadf N (maddm A SV) u u.
  Proof.
    rewrite bil_quadf, bil_add. pose proof (e_data d Hd P c HC ldlt HS cd gd fdi u u) as E. pose proof (vhdg_pos d P c HC ldlt HS cd fd hF u (dim_pos d Hd)) as Q. fold fdi in Q. fold SV N in Q.
    apply Rplus_le_le_0_compat; [|exact Q]. fold N A in E. change (0 <= quadf N A u u). rewrite E. apply (vdot_sq_pos _ _ HI).
  Qed.
  Lemma sym_hdg_kernel u : quadf N (maddm A SV) u u = 0 <->
    (forall e x, (e < d * d)%nat -> po_on P x -> peval (msymp d (mgrad d (vcell_fun d c cd u)) e) x = 0) /\
    von_facets (po_facets P) (vfaces_funs d c cd fdi u) (fun f uF => forall w, vdeg d w fd -> fa_int f (vdot d w uF) = fa_int f (vdot d w (vcell_fun d c cd u))).
  Proof.
    rewrite bil_quadf, bil_add. change (bil N A u u) with (quadf N A u u). change (bil N SV u u) with (quadf N SV u u).
    pose proof (e_data d Hd P c HC ldlt HS cd gd fdi u u) as E. fold N A in E. rewrite E.
    pose proof (vhdg_pos d P c HC ldlt HS cd fd hF u (dim_pos d Hd)) as Q. fold fdi in Q. fold SV N in Q.
    pose proof (vhdg_zero d P c HC ldlt HS cd fd hF u (dim_pos d Hd)) as Z. fold fdi in Z. fold SV N in Z.
    pose proof (vdot_sq_pos _ _ HI (d * d) (VHHO4_Proofs.E d c ldlt cd gd fdi u)) as Q'.
    split.
    - intros Z0. assert (Z1 : quadf N SV u u = 0) by lra. assert (Z2 : po_int P (vdot (d * d) (VHHO4_Proofs.E d c ldlt cd gd fdi u) (VHHO4_Proofs.E d c ldlt cd gd fdi u)) = 0) by lra.
      apply Z in Z1. split; [|exact Z1]. apply (vdot_sq_def _ _ HI).
      set (t := msymp d (mgrad d (vcell_fun d c cd u))).
      assert (Dt : vdeg (d * d) t gd) by (intros e He; apply (deg_le_mono _ (cd - 1)); [lia|]; apply deg_symgrad; [apply (vcell_deg d P c HC cd)|exact He]).
      pose proof (e_eq d Hd P c HC ldlt HS cd gd fdi u t Dt (symgrad_symmetric d _)) as F. rewrite form_faces in F by assumption. fold t in F. rewrite <- F.
      apply (I_zero _ _ HI). intros x Hx. rewrite peval_vdot. apply sg_zero. intros e He. rewrite (vdot_sq_def _ _ HI _ _ Z2 e x He Hx). ring.
    - intros (S0 & J). rewrite (proj2 Z J), Rplus_0_r. set (t := VHHO4_Proofs.E d c ldlt cd gd fdi u).
      pose proof (e_eq d Hd P c HC ldlt HS cd gd fdi u t (e_deg d Hd P c HC ldlt cd gd fdi u) (e_sym d Hd c ldlt cd gd fdi u)) as F. fold t in F. rewrite F.
      rewrite form_faces by (try exact J; apply (e_deg d Hd P c HC)).
      apply (I_zero _ _ HI). intros x Hx. rewrite peval_vdot. apply sg_zero. intros e He. rewrite (S0 e x He Hx). ring.
  Qed.
End SymHdg.
