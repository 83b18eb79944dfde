(** Kernels of the stabilised operators with a degree per face; the fluxes. *)
From Coq Require Import List Arith Reals Lra Lia Bool.
From Verif Require Import Poly_Spec Poly_Proofs HHO_Spec HHO_Model HHO_Setting HHO_Proofs HHO2_Proofs HHO3_Proofs HHO4_Proofs HHO5_Proofs HHO6_Proofs HHO7_Proofs HHO8_Proofs HHO9_Proofs Stab_Model Stab_Spec Stab_Proofs Stab2_Proofs.
Import ListNotations.
Open Scope R_scope.

Definition zero_on (f : facet) (r : pexp) : Prop := forall x, fa_on f x -> peval r x = 0.
Definition ints (fs : list facet) : Prop := forall f, In f fs -> integral (fa_on f) (fa_int f).
Lemma ints_tail f fs : ints (f :: fs) -> ints fs.
Proof. intros H g Hg. apply H. right; exact Hg. Qed.
(** zero jumps tested against functions of the face *)
Lemma jumps_flux fs g q : forall ds us rs, ints fs -> jumps fs ds us q rs -> on_facets fs rs zero_on ->
  (forall f k, In f fs -> In (Some k) ds -> deg_le (g f) k) -> fsum2 fs us (fun f u => fa_int f (PMul (psubp u q) (g f))) = 0.
Proof.
  induction fs as [|f fs IH]; intros [|[k|] ds] [|[u|] us] [|[r|] rs] HI J Z D; cbn [jumps on_facets fsum2] in *; try contradiction; try reflexivity.
  - destruct J as ((Dr & Hr) & J). destruct Z as (Z0 & Z). pose proof (HI f (or_introl eq_refl)) as FI.
    rewrite (IH ds us rs (ints_tail _ _ HI) J Z) by (intros; apply D; right; assumption). rewrite Rplus_0_r.
    specialize (Hr (g f) (D f k (or_introl eq_refl) (or_introl eq_refl))).
    rewrite (I_zero _ _ FI) in Hr by (intros x Hx; cbn [peval]; rewrite (Z0 x Hx); ring).
    rewrite (I_comm _ _ FI). rewrite (I_mul_sub_r _ _ FI) in Hr |- *. lra.
  - apply (IH ds us rs (ints_tail _ _ HI) J Z). intros; apply D; [right|right]; assumption.
Qed.
Lemma jumps_null fs q : forall ds us rs, ints fs -> jumps fs ds us q rs -> on_facets fs us (fun f u => forall x, fa_on f x -> peval u x = peval q x) -> on_facets fs rs zero_on.
Proof.
  induction fs as [|f fs IH]; intros [|[k|] ds] [|[u|] us] [|[r|] rs] HI J H; cbn [jumps on_facets] in *; try contradiction; try exact Logic.I.
  - destruct J as ((Dr & Hr) & J). destruct H as (H0 & H). pose proof (HI f (or_introl eq_refl)) as FI. split.
    + unfold zero_on. apply (I_sq_def _ _ FI). rewrite (Hr r Dr). apply (I_zero _ _ FI). intros x Hx. unfold psubp, pscal. cbn [peval]. rewrite (H0 x Hx). ring.
    + apply (IH ds us rs (ints_tail _ _ HI) J H).
  - apply (IH ds us rs (ints_tail _ _ HI) J H).
Qed.
(** the jumps of projections vanish *)
Lemma jumps_projs fs q : forall ds us rs, ints fs -> jumps fs ds us q rs -> projs fs ds us q -> on_facets fs rs zero_on.
Proof.
  induction fs as [|f fs IH]; intros [|[k|] ds] [|[u|] us] [|[r|] rs] HI J H; cbn [jumps projs on_facets] in *; try contradiction; try exact Logic.I.
  - destruct J as ((Dr & Hr) & J). destruct H as ((Du & Hu) & H). pose proof (HI f (or_introl eq_refl)) as FI. split.
    + unfold zero_on. apply (I_sq_def _ _ FI). rewrite (Hr r Dr), (I_mul_sub_r _ _ FI), (Hu r Dr). lra.
    + apply (IH ds us rs (ints_tail _ _ HI) J H).
  - apply (IH ds us rs (ints_tail _ _ HI) J H).
Qed.
Lemma projs_flux0 fs g q : forall ds us, ints fs -> projs fs ds us q ->
  (forall f k, In f fs -> In (Some k) ds -> deg_le (g f) k) -> fsum2 fs us (fun f u => fa_int f (PMul (psubp u q) (g f))) = 0.
Proof.
  induction fs as [|f fs IH]; intros [|[k|] ds] [|[u|] us] HI H D; cbn [projs fsum2] in *; try contradiction; try reflexivity.
  - destruct H as ((Du & Hu) & H). pose proof (HI f (or_introl eq_refl)) as FI.
    rewrite (IH ds us (ints_tail _ _ HI) H) by (intros; apply D; right; assumption). rewrite Rplus_0_r.
    specialize (Hu (g f) (D f k (or_introl eq_refl) (or_introl eq_refl))).
    rewrite (I_comm _ _ FI), (I_mul_sub_r _ _ FI). lra.
  - apply (IH ds us (ints_tail _ _ HI) H). intros; apply D; [right|right]; assumption.
Qed.
(** faces with zero jumps to a constant are constant *)
Lemma jumps_same u q kk fs fcs : Forall2 face_fit fs fcs -> forall fdi off rs,
  jumps fs fdi (face_funs off (bases_l (combine fcs fdi)) u) q rs -> on_facets fs rs zero_on ->
  (forall f x, In f fs -> fa_on f x -> peval q x = kk) ->
  on_facets fs (face_funs off (bases_l (combine fcs fdi)) u) (fun f uF => forall x, fa_on f x -> peval uF x = kk).
Proof.
  intros H. induction H as [|f fc fs fcs [[FF _] FI] H IH]; intros [|[k|] fdi] off [|[r|] rs] J Z Q; cbn [combine bases_l map fst snd face_funs jumps on_facets] in *; try contradiction; try exact Logic.I.
  - destruct J as ((Dr & Hr) & J). destruct Z as (Z0 & Z). split.
    + intros x Hx. set (uF := lincomb _ _ _) in *.
      assert (Dw : deg_le (psubp uF (PC kk)) k) by (apply deg_le_sub; [apply (fun_deg _ _ _ FF)|apply deg_le_const]).
      specialize (Hr _ Dw). rewrite (I_zero _ _ FI) in Hr by (intros y Hy; cbn [peval]; rewrite (Z0 y Hy); ring).
      rewrite (int_ext _ _ FI _ (pscal (-1) (PMul (psubp uF (PC kk)) (psubp uF (PC kk))))) in Hr.
      * rewrite (int_scal _ _ FI) in Hr. pose proof (I_sq_def _ _ FI (psubp uF (PC kk)) ltac:(lra) x Hx) as W. unfold psubp, pscal in W. cbn [peval] in W. lra.
      * intros y Hy. unfold psubp, pscal. cbn [peval]. rewrite (Q f y (or_introl eq_refl) Hy). ring.
    + apply (IH fdi _ rs J Z). intros; eapply Q; [right|]; eassumption.
  - apply (IH fdi _ rs J Z). intros; eapply Q; [right|]; eassumption.
Qed.

Lemma fsum3_flip fs us vs g : fsum3 fs us vs g = fsum3 fs vs us (fun f a b => g f b a).
Proof. revert us vs. induction fs as [|f fs IH]; intros [|[u|] us] [|[v|] vs]; cbn [fsum3]; try reflexivity; rewrite IH; reflexivity. Qed.

Section Rec.
  Context (d : nat) (P : polytope) (c : scell) (HC : cell_fits d P c).
  Let HP := cf_poly _ _ _ HC.
  Let HI := poly_int _ _ HP.
  Context (ldlt : nat -> mtx -> (nat -> R) -> nat -> R) (HS : solves_spd ldlt).
  Context (cd rd : nat) (Hrd : (1 <= rd)%nat) (Hcd : (cd <= rd)%nat) (fdi : list (option nat)) (HL : length fdi = length (cl_faces c)).
  Let N := num_dofs c cd fdi.
  Let cb := el_basis (cl_elem c) cd.
  Let oper := fst (hho_laplacian_cdi ldlt d c rd cd fdi).
  Let data := snd (hho_laplacian_cdi ldlt d c rd cd fdi).
  Let rec := rec_fun c rd N oper.
  Let lift := cdi_lift c ldlt cd rd N oper.
  Let fs := po_facets P.
  Notation E := (en d P delta).
  Notation FORM := (form d P c None cd fdi).
  Lemma r_fint : ints fs. Proof. exact (fint d P c HC). Qed.
  Lemma r_eq u w : pvars d w -> deg_le w rd -> E (rec u) w = FORM u w.
  Proof. apply (c_eq d P c HC ldlt HS rd cd Hrd Hcd fdi u w). Qed.
  Lemma r_data u v : bil N data u v = E (rec u) (rec v).
  Proof. apply (c_data d P c HC ldlt HS rd cd Hrd Hcd fdi u v). Qed.
  Lemma r_deg u : deg_le (rec u) rd.
  Proof. apply deg_le_lincomb. intros j Hj. apply (basis_deg _ _ _ (cf_elem _ _ _ HC)). lia. Qed.
  Lemma r_vars u : pvars d (rec u).
  Proof. apply pvars_lincomb. intros; apply (cf_vars _ _ _ HC). Qed.
  Lemma r_cell_vars u : pvars d (cell_fun c cd u).
  Proof. apply pvars_lincomb. intros; apply (cf_vars _ _ _ HC). Qed.
  Lemma r_cell_deg u : deg_le (cell_fun c cd u) cd.
  Proof. apply (fun_deg _ _ _ (cf_elem _ _ _ HC)). Qed.
  Lemma r_jumps u q : exists rs, jumps fs fdi (faces_funs c cd fdi u) q rs.
  Proof. apply (face_jumps_exist d P c HC ldlt HS cd fdi u q HL). Qed.
  Let KD : spd d delta := spd_delta d.
  Lemma r_data_pos u : 0 <= bil N data u u.
  Proof. rewrite r_data. apply (en_pos d P HP delta KD). Qed.
  (** if the reconstruction is a function of the degree of the cell, the faces are compared with the cell function *)
  Lemma lift_cell u p : deg_le p cd -> (forall x, po_on P x -> peval (rec u) x = peval p x) -> forall x, po_on P x -> peval (lift u) x = peval (cell_fun c cd u) x.
  Proof.
    intros Dp H x Hx. destruct (cdi_piT_proj d P c HC ldlt HS cd rd Hcd N oper u) as (D1 & T1).
    assert (E1 : peval (cdi_piT c ldlt cd rd N oper u) x = peval p x).
    { apply (span_eq _ _ HI cd _ _ _ _ (fit_basis _ _ _ (cf_elem _ _ _ HC) cd) D1 Dp); [|exact Hx].
      intros i Hi. rewrite (T1 _ (basis_deg _ _ _ (cf_elem _ _ _ HC) cd i Hi)). apply (int_ext _ _ HI). intros y Hy. cbn [peval]. f_equal. apply (H y Hy). }
    unfold lift, cdi_lift, psubp, pscal. cbn [peval]. rewrite E1. fold (rec u). rewrite (H x Hx). ring.
  Qed.
  Lemma const_cdi u k : (forall x, po_on P x -> peval (cell_fun c cd u) x = k) -> on_facets fs (faces_funs c cd fdi u) (fun f uF => forall x, fa_on f x -> peval uF x = k) ->
    E (rec u) (rec u) = 0.
  Proof.
    intros HT HF. rewrite r_eq by (apply r_vars || apply r_deg). unfold form, rhs_form. cbn [tensor_of].
    rewrite fsum2_zero.
    - rewrite Rplus_0_r. apply (en_grad0 d P c HC None). intros j x Hj Hx.
      assert (Z : E (cell_fun c cd u) (cell_fun c cd u) = 0).
      { rewrite (en_green d P HP). rewrite (int_ext _ _ HI _ (PMul (PC k) (divk d delta (cell_fun c cd u)))) by (intros y Hy; cbn [peval]; rewrite (HT y Hy); reflexivity).
        assert (G : E (PC k) (cell_fun c cd u) = 0) by (apply (en_grad0 d P c HC None); intros; reflexivity).
        rewrite (en_green d P HP) in G. refine (eq_trans _ G). f_equal. apply fsum_ext. intros f Hf.
        apply (int_ext _ _ (r_fint f Hf)). intros y Hy. cbn [peval]. rewrite (HT y (fon d P c HC f y Hf Hy)). reflexivity. }
      apply (en_def_grad d P HP delta KD _ Z j x Hj Hx).
    - revert HF. apply on_facets_impl. intros f uF Hf HF. apply (I_zero _ _ (r_fint f Hf)). intros x Hx. unfold psubp, pscal. cbn [peval].
      rewrite (HF x Hx), (HT x (fon d P c HC f x Hf Hx)). ring.
  Qed.

  (** ** the HHO stabilisation *)
  Context (hF : bool).
  Let Sm := hho_stabilization_cdi ldlt c rd cd fdi oper hF.
  Lemma s_form u v du dv : jumps fs fdi (faces_funs c cd fdi u) (lift u) du -> jumps fs fdi (faces_funs c cd fdi v) (lift v) dv ->
    bil N Sm v u = fsum3 fs du dv (fun f a b => / sth P hF f * fa_int f (PMul a b)).
  Proof.
    intros Ju Jv. apply (cdi_form d P c HC ldlt HS cd rd fdi oper hF u v _ _ du dv Hcd (cdi_piT_proj d P c HC ldlt HS cd rd Hcd N oper u) (cdi_piT_proj d P c HC ldlt HS cd rd Hcd N oper v) Ju Jv).
  Qed.
  Lemma sth_pos f : In f fs -> 0 < / sth P hF f.
  Proof. intros Hf. apply Rinv_0_lt_compat. unfold sth. destruct (poly_diam _ _ HP) as (A & B). destruct hF; [apply B, Hf|exact A]. Qed.
  Lemma s_nonneg f a : In f fs -> 0 <= / sth P hF f * fa_int f (PMul a a).
  Proof. intros Hf. apply Rmult_le_pos; [left; apply sth_pos, Hf|]. apply (I_sq_pos _ _ (r_fint f Hf)). Qed.
  Lemma s_sq0 f a : In f fs -> / sth P hF f * fa_int f (PMul a a) = 0 -> zero_on f a.
  Proof.
    intros Hf H. unfold zero_on. apply (I_sq_def _ _ (r_fint f Hf)). apply Rmult_integral in H as [H|H]; [|exact H]. pose proof (sth_pos f Hf). lra.
  Qed.
  Lemma s_pos u : 0 <= bil N Sm u u.
  Proof. destruct (r_jumps u (lift u)) as (du & Ju). rewrite (s_form u u du du Ju Ju). apply fsum3_pos. intros; apply s_nonneg; assumption. Qed.
  Lemma s_sym u v : bil N Sm u v = bil N Sm v u.
  Proof.
    destruct (r_jumps u (lift u)) as (du & Ju). destruct (r_jumps v (lift v)) as (dv & Jv).
    rewrite (s_form u v du dv Ju Jv), (s_form v u dv du Jv Ju). apply fsum3_swap. intros f a b Hf. rewrite (I_comm _ _ (r_fint f Hf)). reflexivity.
  Qed.
  Lemma s_zero u v du : jumps fs fdi (faces_funs c cd fdi u) (lift u) du -> on_facets fs du zero_on -> bil N Sm v u = 0.
  Proof.
    intros Ju Z. destruct (r_jumps v (lift v)) as (dv & Jv). rewrite (s_form u v du dv Ju Jv). apply fsum3_zero_l. revert Z. apply on_facets_impl.
    intros f a Hf H b. rewrite (I_zero _ _ (r_fint f Hf)); [ring|]. intros x Hx. cbn [peval]. rewrite (H x Hx). ring.
  Qed.
  Lemma s_kernel u : (forall k, In (Some k) fdi -> (rd <= k + 1)%nat) -> (bil N (maddm data Sm) u u = 0 <->
    exists k, (forall x, po_on P x -> peval (cell_fun c cd u) x = k) /\ on_facets fs (faces_funs c cd fdi u) (fun f uF => forall x, fa_on f x -> peval uF x = k)).
  Proof.
    intros Hfd. rewrite bil_add. pose proof (r_data_pos u) as P1. pose proof (s_pos u) as P2. split.
    - intros Z. assert (Z1 : E (rec u) (rec u) = 0) by (rewrite <- r_data; lra). assert (Z2 : bil N Sm u u = 0) by lra.
      destruct (en_def d P HP delta KD _ Z1) as (k1 & Hk1).
      destruct (r_jumps u (lift u)) as (du & Ju). rewrite (s_form u u du du Ju Ju) in Z2. apply fsum3_def in Z2; [|intros; apply s_nonneg; assumption].
      assert (D0 : on_facets fs du zero_on) by (revert Z2; apply on_facets_impl; intros f a Hf; apply s_sq0, Hf).
      assert (Ju' : jumps fs fdi (faces_funs c cd fdi u) (cell_fun c cd u) du).
      { apply (jumps_ext _ _ _ (lift u)); [exact r_fint| |exact Ju]. intros f x Hf Hx.
        apply (lift_cell u (PC k1)); [apply deg_le_const|intros y Hy; apply Hk1, Hy|apply (fon d P c HC f x Hf Hx)]. }
      assert (ZF : FORM u (cell_fun c cd u) = 0).
      { rewrite <- r_eq by (apply r_cell_vars || (apply (deg_le_mono _ cd); [exact Hcd|apply r_cell_deg])). apply (en_grad0 d P c HC None). apply (en_def_grad d P HP delta KD _ Z1). }
      unfold form, rhs_form in ZF. cbn [tensor_of] in ZF.
      pose proof (jumps_flux fs (fun f => flux d delta (fa_normal f) (cell_fun c cd u)) (cell_fun c cd u) fdi (faces_funs c cd fdi u) du r_fint Ju' D0) as JF. cbv beta in JF. unfold fs in JF. rewrite JF in ZF; clear JF.
      + assert (Z' : E (cell_fun c cd u) (cell_fun c cd u) = 0) by lra. destruct (en_def d P HP delta KD _ Z') as (k & Hk). exists k. split; [exact Hk|].
        apply (jumps_same u (cell_fun c cd u) k _ _ (faces_fit d P c HC) fdi _ du Ju' D0). intros f x Hf Hx. apply Hk, (fon d P c HC f x Hf Hx).
      + intros f k Hf Hk. specialize (Hfd k Hk). apply (deg_le_mono _ (cd - 1)); [lia|]. apply deg_flux, r_cell_deg.
    - intros (k & HT & HF). pose proof (const_cdi u k HT HF) as Z1. rewrite r_data, Z1. destruct (r_jumps u (lift u)) as (du & Ju).
      destruct (en_def d P HP delta KD _ Z1) as (k1 & Hk1).
      rewrite (s_zero u u du Ju); [lra|]. apply (jumps_null _ (lift u) fdi (faces_funs c cd fdi u) du r_fint Ju). revert HF. apply on_facets_impl. intros f uF Hf HF x Hx.
      rewrite (HF x Hx), (lift_cell u (PC k1)); [|apply deg_le_const|intros y Hy; apply Hk1, Hy|apply (fon d P c HC f x Hf Hx)]. symmetry. apply HT, (fon d P c HC f x Hf Hx).
  Qed.
  (** it vanishes on the interpolate of a cell function *)
  Lemma rec_cell u : (forall k, In (Some k) fdi -> (rd <= k + 1)%nat) -> projs fs fdi (faces_funs c cd fdi u) (cell_fun c cd u) ->
    exists k, forall x, po_on P x -> peval (rec u) x = peval (psubp (cell_fun c cd u) (PC k)) x.
  Proof.
    intros Hfd Pj.
    assert (F0 : forall w, deg_le w rd -> FORM u w = E (cell_fun c cd u) w).
    { intros w Dw. unfold form, rhs_form. cbn [tensor_of]. pose proof (projs_flux0 fs (fun f => flux d delta (fa_normal f) w) (cell_fun c cd u) fdi (faces_funs c cd fdi u) r_fint Pj) as JF. cbv beta in JF. unfold fs in JF. rewrite JF; clear JF; [lra|].
      intros f k Hf Hk. specialize (Hfd k Hk). apply (deg_le_mono _ (rd - 1)); [lia|]. apply deg_flux, Dw. }
    assert (G : forall k x, (k < d)%nat -> po_on P x -> peval (pdiff k (psubp (rec u) (cell_fun c cd u))) x = 0).
    { apply (en_def_grad d P HP delta KD). rewrite (en_sub_l d P HP delta).
      assert (V : pvars d (psubp (rec u) (cell_fun c cd u))) by (cbn; repeat split; [apply r_vars|apply r_cell_vars]).
      assert (D : deg_le (psubp (rec u) (cell_fun c cd u)) rd) by (apply deg_le_sub; [apply r_deg|apply (deg_le_mono _ cd); [exact Hcd|apply r_cell_deg]]).
      rewrite r_eq by assumption. rewrite F0 by assumption. lra. }
    destruct (poly_point _ _ HP) as (x0 & H0). exists (- peval (psubp (rec u) (cell_fun c cd u)) x0). intros x Hx.
    pose proof (poly_conn _ _ HP _ G x x0 Hx H0) as Q. revert Q. unfold psubp, pscal. cbn [peval]. intros Q. lra.
  Qed.
  Lemma s_cell u v : (forall k, In (Some k) fdi -> (rd <= k + 1)%nat) -> projs fs fdi (faces_funs c cd fdi u) (cell_fun c cd u) -> bil N Sm v u = 0.
  Proof.
    intros Hfd Pj. destruct (rec_cell u Hfd Pj) as (k & Hk). destruct (r_jumps u (lift u)) as (du & Ju). apply (s_zero u v du Ju).
    apply (jumps_projs _ (cell_fun c cd u) fdi (faces_funs c cd fdi u) du r_fint); [|exact Pj].
    apply (jumps_ext _ _ _ (lift u)); [exact r_fint| |exact Ju]. intros f x Hf Hx.
    apply (lift_cell u (psubp (cell_fun c cd u) (PC k))); [apply deg_le_sub; [apply r_cell_deg|apply deg_le_const]|exact Hk|apply (fon d P c HC f x Hf Hx)].
  Qed.
  (** it vanishes on the interpolate of a polynomial of the degree of the reconstruction *)
  Lemma s_interp p di v : pvars d p -> deg_le p rd -> (rd <= cd + 2)%nat -> (rd <= cd + 2 * di)%nat -> ~ In None fdi ->
    (forall k, In (Some k) fdi -> (rd <= k + 1)%nat /\ (rd <= k + 2 * di)%nat) ->
    bil N Sm v (project_cdi ldlt c cd fdi (peval p) di) = 0.
  Proof.
    intros Hv Dp H2 Hdi HNone Hfd. set (u := project_cdi ldlt c cd fdi (peval p) di).
    destruct (project_l2 d P c HC ldlt HS cd fdi p di HL) as (HT & HF); [apply (deg_le_mono _ rd); [lia|exact Dp]|intros k Hk; apply (deg_le_mono _ rd); [apply (Hfd k Hk)|exact Dp]|]. fold u in HT, HF.
    destruct (c_consistent d P c HC ldlt HS rd cd Hrd Hcd fdi p di Hv Dp H2 Hdi HL HNone Hfd) as (k & Hk). fold u in Hk.
    destruct (r_jumps u (lift u)) as (du & Ju). apply (s_zero u v du Ju). apply (jumps_projs _ p fdi (faces_funs c cd fdi u) du r_fint); [|exact HF].
    apply (jumps_ext _ _ _ (lift u)); [exact r_fint| |exact Ju]. intros f x Hf Hx'. pose proof (fon d P c HC f x Hf Hx') as Hx.
    destruct (cdi_piT_proj d P c HC ldlt HS cd rd Hcd N oper u) as (D1 & T1).
    assert (Er : peval (cdi_piT c ldlt cd rd N oper u) x = peval (psubp (cell_fun c cd u) (PC k)) x).
    { apply (span_eq _ _ HI cd _ _ _ _ (fit_basis _ _ _ (cf_elem _ _ _ HC) cd) D1); [apply deg_le_sub; [apply r_cell_deg|apply deg_le_const]| |exact Hx].
      intros i Hi. pose proof (basis_deg _ _ _ (cf_elem _ _ _ HC) cd i Hi) as Db. rewrite (T1 _ Db).
      rewrite (int_ext _ _ HI _ (PMul (b_poly (el_basis (cl_elem c) cd) i) (psubp p (PC k)))).
      - rewrite !(I_mul_sub_r _ _ HI). f_equal. symmetry. apply (proj2 HT), Db.
      - intros y Hy. unfold psubp, pscal. cbn [peval]. rewrite (Hk y Hy). fold N oper. ring. }
    unfold lift, cdi_lift, psubp, pscal in *. cbn [peval] in *. rewrite Er, (Hk x Hx). fold N oper. ring.
  Qed.

  (** ** the DG stabilisation *)
  Let Dg := dg_stabilization c cd fdi hF.
  Lemma dg_pos u : 0 <= bil N Dg u u.
  Proof. unfold N, Dg. rewrite (dg_form d P c HC cd hF fdi u u HL). apply fsum3_pos. intros f a Hf. apply s_nonneg, Hf. Qed.
  Lemma dg_sym u v : bil N Dg u v = bil N Dg v u.
  Proof.
    unfold N, Dg. rewrite !(dg_form d P c HC cd hF fdi _ _ HL). rewrite fsum3_flip. apply fsum3_ext. intros f a b Hf. rewrite (I_comm _ _ (r_fint f Hf)). reflexivity.
  Qed.
  Lemma dg_null u : bil N Dg u u = 0 <-> on_facets fs (faces_funs c cd fdi u) (fun f uF => forall x, fa_on f x -> peval uF x = peval (cell_fun c cd u) x).
  Proof.
    unfold N, Dg. rewrite (dg_form d P c HC cd hF fdi u u HL). split.
    - intros Z. apply fsum3_def in Z; [|intros f a Hf; apply s_nonneg, Hf]. revert Z. apply on_facets_impl. intros f a Hf H x Hx.
      apply (s_sq0 f _ Hf) in H. specialize (H x Hx). unfold psubp, pscal in H. cbn [peval] in H. lra.
    - intros Z. apply fsum3_zero_l. revert Z. apply on_facets_impl. intros f a Hf H b. rewrite (I_zero _ _ (r_fint f Hf)); [ring|].
      intros x Hx. unfold psubp, pscal. cbn [peval]. rewrite (H x Hx). ring.
  Qed.
  Lemma dg_kernel u : bil N (maddm data Dg) u u = 0 <->
    exists k, (forall x, po_on P x -> peval (cell_fun c cd u) x = k) /\ on_facets fs (faces_funs c cd fdi u) (fun f uF => forall x, fa_on f x -> peval uF x = k).
  Proof.
    rewrite bil_add. pose proof (r_data_pos u) as P1. pose proof (dg_pos u) as P2. split.
    - intros Z. assert (Z1 : E (rec u) (rec u) = 0) by (rewrite <- r_data; lra). assert (Z2 : bil N Dg u u = 0) by lra. apply dg_null in Z2.
      assert (Z' : E (cell_fun c cd u) (cell_fun c cd u) = 0).
      { assert (F : FORM u (cell_fun c cd u) = 0).
        { rewrite <- r_eq by (apply r_cell_vars || (apply (deg_le_mono _ cd); [exact Hcd|apply r_cell_deg])). apply (en_grad0 d P c HC None). apply (en_def_grad d P HP delta KD _ Z1). }
        unfold form, rhs_form in F. cbn [tensor_of] in F. rewrite fsum2_zero in F; [lra|]. revert Z2. apply on_facets_impl. intros f a Hf H.
        apply (I_zero _ _ (r_fint f Hf)). intros x Hx. unfold psubp, pscal. cbn [peval]. rewrite (H x Hx). ring. }
      destruct (en_def d P HP delta KD _ Z') as (k & Hk). exists k. split; [exact Hk|]. revert Z2. apply on_facets_impl. intros f a Hf H x Hx.
      rewrite (H x Hx). apply Hk, (fon d P c HC f x Hf Hx).
    - intros (k & HT & HF). pose proof (const_cdi u k HT HF) as Z1. rewrite r_data, Z1.
      rewrite (proj2 (dg_null u)); [lra|]. revert HF. apply on_facets_impl. intros f a Hf H x Hx. rewrite (H x Hx). symmetry. apply HT, (fon d P c HC f x Hf Hx).
  Qed.
End Rec.
