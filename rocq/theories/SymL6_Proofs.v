(** Uniqueness, kernel and consistency of the symmetric reconstruction with the HHO stabilisation. *)
From Coq Require Import List Arith Reals Lra Lia Bool.
From Verif Require Import Poly_Spec Poly_Proofs HHO_Spec HHO_Model HHO_Setting HHO_Proofs HHO2_Proofs HHO3_Proofs HHO4_Proofs HHO5_Proofs HHO6_Proofs HHO7_Proofs
  VHHO_Spec VHHO_Model VHHO_Setting VHHO_Proofs VHHO2_Proofs VHHO3_Proofs VHHO4_Proofs VHHO5_Proofs VHHO6_Proofs
  Stab_Model Stab_Proofs SymL_Spec SymL_Model SymL_Proofs SymL2_Proofs SymL3_Proofs SymL4_Proofs SymL5_Proofs.
Import ListNotations.
Open Scope R_scope.

Section Kernel.
  Context (d : nat) (Hd : dim23 d) (P : polytope) (c : scell) (HC : cell_fits d P c).
  Let HP := cf_poly _ _ _ HC.
  Let HI := poly_int _ _ HP.
  Let Hd0 := dim_pos d Hd.
  Context (lu ldlt llt : nat -> mtx -> (nat -> R) -> nat -> R) (HU : solves_sym lu) (HS : solves_spd ldlt) (HS' : solves_spd llt).
  Context (rd : nat) (Hrd : (1 <= rd)%nat) (cd : nat) (Hcd : (cd <= rd)%nat) (fdi : list (option nat)) (HL : length fdi = length (cl_faces c)) (hF : bool).
  Let N := vnum_dofs d c cd fdi.
  Let oper := fst (symmetric_laplacian lu d c rd cd fdi).
  Let A := snd (symmetric_laplacian lu d c rd cd fdi).
  Let SV := vector_hho_stabilization ldlt llt d c rd cd fdi oper hF.
  Let fs := po_facets P.
  Notation rec u := (srec d c rd cd fdi lu u).
  Notation UT u := (vcell_fun d c cd u).
  Notation UF u := (vfaces_funs d c cd fdi u).
  Let lift u := vlift d c ldlt cd rd N oper u.
  Let FIN f (Hf : In f fs) : integral (fa_on f) (fa_int f) := facet_int d P c HC f Hf.
  Let on_f f x (Hf : In f fs) (Hx : fa_on f x) : po_on P x := proj2 (poly_facets _ _ HP f Hf) x Hx.

  Lemma strain_vsub U V e x : (e < d * d)%nat -> peval (strain d (vsub U V) e) x = peval (strain d U e) x - peval (strain d V e) x.
  Proof. intros He. destruct (entry_split d e He) as (i & j & Hi & Hj & ->). rewrite !strain_eval by assumption. unfold vsub, psubp, pscal. cbn [pdiff peval]. lra. Qed.
  Lemma rot_vsub a b U V : po_int P (rotp a b (vsub U V)) = po_int P (rotp a b U) - po_int P (rotp a b V).
  Proof.
    rewrite (I_ext _ _ HI (rotp a b (vsub U V)) (PAdd (rotp a b U) (pscal (-1) (rotp a b V)))).
    - rewrite (int_add _ _ HI), (int_scal _ _ HI). ring.
    - intros x. unfold rotp, vsub, psubp, pscal. cbn [pdiff peval]. ring.
  Qed.
  Lemma vsub_vars U V : vvars d d U -> vvars d d V -> vvars d d (vsub U V).
  Proof. intros HU' HV a Ha. unfold vsub, psubp, pscal. cbn [pvars]. split; [apply HU', Ha|split; [exact Logic.I|apply HV, Ha]]. Qed.
  Lemma vcell_vars u : vvars d d (UT u).
  Proof.
    intros a Ha. unfold vcell_fun, vlin. apply pvars_lincomb. intros j. unfold vec_basis. cbn [v_comp]. destruct (_ =? a)%nat; [apply (cf_vars _ _ _ HC)|exact Logic.I].
  Qed.

  (** ** uniqueness *)
  Lemma s_unique u X : vdeg d X rd -> vvars d d X -> (forall a b, (a < b)%nat -> (b < d)%nat -> po_int P (rotp a b X) = 0) ->
    (forall w, vdeg d w rd -> vvars d d w -> po_int P (vdot (d * d) (strain d w) (strain d X)) = eform d P c cd fdi u (strain d w)) ->
    forall a, (a < d)%nat -> exists g, forall x, po_on P x -> peval (X a) x = peval (rec u a) x + g.
  Proof.
    intros DX VX RX EX a Ha. set (Y := vsub X (rec u)).
    assert (DY : vdeg d Y rd) by (apply vdeg_sub; [exact DX|apply (s_deg d Hd P c HC rd Hrd)]).
    assert (VY : vvars d d Y) by (apply vsub_vars; [exact VX|apply (s_vars d P c HC)]).
    assert (Z : po_int P (vdot (d * d) (strain d Y) (strain d Y)) = 0).
    { rewrite (vdot_ext _ _ HI (d * d) (strain d Y) (strain d Y) (strain d Y) (vsub (strain d X) (strain d (rec u)))).
      - rewrite (vdot_sub_r _ _ HI), EX, (s_eq d Hd P c HC rd Hrd cd Hcd fdi lu HU u Y DY VY) by assumption. ring.
      - reflexivity.
      - intros e x He _. unfold Y. rewrite strain_vsub by exact He. unfold vsub at 1, psubp, pscal. cbn [peval]. ring. }
    pose proof (vdot_sq_def _ _ HI _ _ Z) as Z0.
    destruct (rigid_const d P c HC Y rd VY DY Z0) with (a := a) as (g & Hg); [|exact Ha|].
    - intros p q Hp Hq. unfold Y. rewrite rot_vsub, RX, (s_rot d Hd P c HC rd Hrd cd Hcd fdi lu HU u p q Hp Hq) by assumption. ring.
    - exists g. intros x Hx. rewrite <- (Hg x Hx). unfold Y, vsub, psubp, pscal. cbn [peval]. ring.
  Qed.

  (** ** the stabilisation *)
  Lemma k_form u v du dv : vjumps d fs fdi (UF u) (lift u) du -> vjumps d fs fdi (UF v) (lift v) dv ->
    bil N SV v u = vfsum3 fs du dv (fun f a b => / sth P hF f * fa_int f (vdot d a b)).
  Proof.
    intros Ju Jv. apply (vhho_form d Hd0 P c HC ldlt llt HS HS' cd rd Hcd fdi oper hF u v _ _ du dv
      (vpiT_proj d Hd0 P c HC ldlt HS cd rd Hcd N oper u) (vpiT_proj d Hd0 P c HC ldlt HS cd rd Hcd N oper v) Ju Jv).
  Qed.
  Lemma k_scale f : In f fs -> 0 < / sth P hF f.
  Proof. intros Hf. apply Rinv_0_lt_compat. unfold sth. destruct (poly_diam _ _ HP) as (X & Y). destruct hF; [apply Y, Hf|exact X]. Qed.
  Lemma k_nonneg f a : In f fs -> 0 <= / sth P hF f * fa_int f (vdot d a a).
  Proof. intros Hf. apply Rmult_le_pos; [left; apply k_scale, Hf|]. apply (vdot_sq_pos _ _ (FIN f Hf)). Qed.
  Lemma k_pos u : 0 <= bil N SV u u.
  Proof.
    destruct (vjumps_exist d Hd0 P c HC cd fdi HL ldlt HS u (lift u)) as (du & Ju). rewrite (k_form u u du du Ju Ju). apply vfsum3_pos. intros; apply k_nonneg; assumption.
  Qed.
  Lemma k_sym u v : bil N SV u v = bil N SV v u.
  Proof.
    destruct (vjumps_exist d Hd0 P c HC cd fdi HL ldlt HS u (lift u)) as (du & Ju). destruct (vjumps_exist d Hd0 P c HC cd fdi HL ldlt HS v (lift v)) as (dv & Jv).
    rewrite (k_form u v du dv Ju Jv), (k_form v u dv du Jv Ju). apply vfsum3_swap. intros f a b Hf. rewrite (vdot_comm _ _ (FIN f Hf)). reflexivity.
  Qed.
  (** it vanishes exactly where the face unknowns are the projections of the lifting *)
  Lemma k_zero u : bil N SV u u = 0 <-> vprojs d fs fdi (UF u) (lift u).
  Proof.
    destruct (vjumps_exist d Hd0 P c HC cd fdi HL ldlt HS u (lift u)) as (du & Ju). rewrite (k_form u u du du Ju Ju).
    pose proof (vjumps_proj d fs (lift u) FIN fdi (UF u) du Ju (vfaces_deg d P c HC cd fdi HL u)) as B. rewrite <- B. split.
    - intros Z. apply (vfsum3_def fs _ k_nonneg) in Z. revert Z. apply von_facets_impl. intros f r Hf Z. apply (vdot_sq_def _ _ (FIN f Hf)).
      apply Rmult_integral in Z as [Z|Z]; [|exact Z]. pose proof (k_scale f Hf). lra.
    - intros Z. apply vfsum3_zero. revert Z. apply von_facets_impl. intros f r Hf Z b. rewrite (vdot_comm _ _ (FIN f Hf)), (vdot_zero_r _ _ (FIN f Hf) d b r Z). ring.
  Qed.
  Lemma k_zero_all u v : vprojs d fs fdi (UF u) (lift u) -> bil N SV v u = 0.
  Proof.
    intros Pr. destruct (vjumps_exist d Hd0 P c HC cd fdi HL ldlt HS u (lift u)) as (du & Ju). destruct (vjumps_exist d Hd0 P c HC cd fdi HL ldlt HS v (lift v)) as (dv & Jv).
    rewrite (k_form u v du dv Ju Jv). pose proof (vjumps_proj d fs (lift u) FIN fdi (UF u) du Ju (vfaces_deg d P c HC cd fdi HL u)) as B. apply B in Pr.
    apply vfsum3_zero. revert Pr. apply von_facets_impl. intros f r Hf Z b. rewrite (vdot_comm _ _ (FIN f Hf)), (vdot_zero_r _ _ (FIN f Hf) d b r Z). ring.
  Qed.
  Lemma vprojs_ext q q' : (forall a x, (a < d)%nat -> po_on P x -> peval (q a) x = peval (q' a) x) -> forall ds us, vprojs d fs ds us q -> vprojs d fs ds us q'.
  Proof.
    intros H. assert (HF : forall f a x, In f fs -> (a < d)%nat -> fa_on f x -> peval (q a) x = peval (q' a) x) by (intros f a x Hf Ha Hx; apply H; [exact Ha|apply (on_f f x Hf Hx)]).
    assert (FF := FIN). clear - HF FF. clearbody fs. induction fs as [|f l IH]; intros [|[k|] ds] [|[u|] us] J; cbn [vprojs] in *; try contradiction; try exact Logic.I.
    - destruct J as (J0 & J). split; [|apply IH; [intros; eapply HF; [right; eassumption|assumption|assumption]|intros; apply FF; right; assumption|exact J]].
      apply (l2vec_src _ _ (FF f (or_introl eq_refl)) d k q q'); [|exact J0]. intros a x Ha Hx. apply (HF f a x (or_introl eq_refl) Ha Hx).
    - apply IH; [intros; eapply HF; [right; eassumption|assumption|assumption]|intros; apply FF; right; assumption|exact J].
  Qed.
  Lemma piT_eq u r a x : l2vec (po_int P) d cd (rec u) r -> (a < d)%nat -> po_on P x -> peval (lift u a) x = peval (rec u a) x + (peval (UT u a) x - peval (r a) x).
  Proof.
    intros Pr Ha Hx. unfold lift, vlift, vaddf, vsub, psubp, pscal. cbn [peval].
    rewrite (l2vec_eq _ _ HI d cd _ _ _ (vpiT_proj d Hd0 P c HC ldlt HS cd rd Hcd N oper u) Pr a x Ha Hx). unfold srec. fold N oper. ring.
  Qed.
  (** if the reconstruction is constant the lifting is the cell unknown *)
  Lemma lift_const u : (forall a, (a < d)%nat -> exists g, forall x, po_on P x -> peval (rec u a) x = g) ->
    forall a x, (a < d)%nat -> po_on P x -> peval (lift u a) x = peval (UT u a) x.
  Proof.
    intros HG a x Ha Hx. destruct (poly_point _ _ HP) as (x0 & H0). set (g := fun a => PC (peval (rec u a) x0) : pexp).
    assert (G : forall a x, (a < d)%nat -> po_on P x -> peval (rec u a) x = peval (g a) x).
    { intros a' y Ha' Hy. destruct (HG a' Ha') as (k & Hk). unfold g. cbn [peval]. rewrite (Hk y Hy), (Hk x0 H0). reflexivity. }
    rewrite (piT_eq u g a x); [rewrite (G a x Ha Hx); ring| |exact Ha|exact Hx].
    split; [intros e He; unfold g; apply deg_le_const|]. intros w _. apply (vdot_ext _ _ HI); [reflexivity|]. intros e y He Hy. symmetry. apply G; assumption.
  Qed.
  (** a reconstruction without strain is constant *)
  Lemma rec_const u : po_int P (vdot (d * d) (strain d (rec u)) (strain d (rec u))) = 0 -> forall a, (a < d)%nat -> exists g, forall x, po_on P x -> peval (rec u a) x = g.
  Proof.
    intros Z. apply (rigid_const d P c HC (rec u) rd); [apply (s_vars d P c HC)|apply (s_deg d Hd P c HC rd Hrd)|apply (vdot_sq_def _ _ HI), Z|].
    intros p q Hp Hq. apply (s_rot d Hd P c HC rd Hrd cd Hcd fdi lu HU u p q Hp Hq).
  Qed.

  Context (HK : forall k, In (Some k) fdi -> (rd <= k + 1)%nat).
  Lemma k_faces u V t : vdeg (d * d) t (rd - 1) -> vprojs d fs fdi (UF u) V ->
    vfsum2 fs (UF u) (fun f uF => fa_int f (vdot d (vsub uF V) (mnrm d (fa_normal f) t))) = 0.
  Proof.
    intros Dt. assert (FF := FIN). revert FF HK. generalize (UF u). clear - Dt. clearbody fs. revert fdi. induction fs as [|f l IH]; intros [|[k|] ds] [|[v|] us] FIN HK J; cbn [vprojs] in J; try contradiction; cbn [vfsum2]; try reflexivity.
    - destruct J as ((Dv & Tv) & J). pose proof (FIN f (or_introl eq_refl)) as FI.
      rewrite (IH ds us (fun f Hf => FIN f (or_intror Hf)) (fun k Hin => HK k (or_intror Hin)) J).
      rewrite (vdot_sub_l _ _ FI), !(vdot_comm _ _ FI d _ (mnrm d (fa_normal f) t)), Tv; [lra|].
      apply (vdeg_mono d _ (rd - 1)); [pose proof (HK k (or_introl eq_refl)); lia|]. apply deg_mnrm, Dt.
    - apply (IH ds us (fun f Hf => FIN f (or_intror Hf)) (fun k Hin => HK k (or_intror Hin)) J).
  Qed.
  Lemma strain_deg V k : vdeg d V k -> vdeg (d * d) (strain d V) (k - 1).
  Proof. apply deg_symgrad. Qed.
  Lemma k_eform u t : vdeg (d * d) t (rd - 1) -> vprojs d fs fdi (UF u) (UT u) -> eform d P c cd fdi u t = po_int P (vdot (d * d) t (strain d (UT u))).
  Proof. intros Dt J. unfold eform. fold fs. rewrite (k_faces u (UT u) t Dt J). unfold strain. ring. Qed.
  Lemma k_kernel u : bil N (maddm A SV) u u = 0 <->
    (forall e x, (e < d * d)%nat -> po_on P x -> peval (strain d (UT u) e) x = 0) /\ vprojs d fs fdi (UF u) (UT u).
  Proof.
    rewrite bil_add. pose proof (s_data d Hd P c HC rd Hrd cd Hcd fdi lu HU u u) as E. fold N A in E. change (quadf N A u u) with (bil N A u u) in E. rewrite E.
    pose proof (vdot_sq_pos _ _ HI (d * d) (strain d (rec u))) as Q. pose proof (k_pos u) as Q'.
    assert (VT := vcell_vars u). assert (DT : vdeg d (UT u) rd) by (apply (vdeg_mono d _ cd); [exact Hcd|apply (vcell_deg d P c HC cd u)]).
    split.
    - intros Z. assert (Z1 : po_int P (vdot (d * d) (strain d (rec u)) (strain d (rec u))) = 0) by lra. assert (Z2 : bil N SV u u = 0) by lra.
      apply k_zero in Z2. apply (vprojs_ext _ _ (lift_const u (rec_const u Z1))) in Z2. split; [|exact Z2].
      apply (vdot_sq_def _ _ HI). rewrite <- (k_eform u); [|apply strain_deg; exact DT|exact Z2]. rewrite <- (s_eq d Hd P c HC rd Hrd cd Hcd fdi lu HU u _ DT VT).
      apply (vdot_zero_r _ _ HI). apply (vdot_sq_def _ _ HI), Z1.
    - intros (Z & J). assert (Z1 : po_int P (vdot (d * d) (strain d (rec u)) (strain d (rec u))) = 0).
      { rewrite (s_eq d Hd P c HC rd Hrd cd Hcd fdi lu HU u (rec u)); [|apply (s_deg d Hd P c HC rd Hrd)|apply (s_vars d P c HC)].
        rewrite k_eform; [|apply strain_deg, (s_deg d Hd P c HC rd Hrd)|exact J]. apply (vdot_zero_r _ _ HI). exact Z. }
      rewrite Z1. assert (Z2 : bil N SV u u = 0); [|lra]. apply k_zero.
      apply (vprojs_ext (UT u)); [|exact J]. intros a x Ha Hx. symmetry. apply (lift_const u (rec_const u Z1) a x Ha Hx).
  Qed.

  (** ** consistency *)
  Lemma k_strain u V : ~ In None fdi -> (rd <= cd + 2)%nat -> vdeg d V rd -> vvars d d V ->
    l2vec (po_int P) d cd V (UT u) -> vprojs d fs fdi (UF u) V ->
    forall e x, (e < d * d)%nat -> po_on P x -> peval (strain d (vsub (rec u) V) e) x = 0.
  Proof.
    intros Hn Hr DV VV Pc Pf. set (Y := vsub (rec u) V).
    assert (DY : vdeg d Y rd) by (apply vdeg_sub; [apply (s_deg d Hd P c HC rd Hrd)|exact DV]).
    assert (VY : vvars d d Y) by (apply vsub_vars; [apply (s_vars d P c HC)|exact VV]).
    apply (vdot_sq_def _ _ HI).
    rewrite (vdot_ext _ _ HI (d * d) (strain d Y) (strain d Y) (strain d Y) (vsub (strain d (rec u)) (strain d V))).
    2: reflexivity.
    2: { intros e x He _. unfold Y. rewrite strain_vsub by exact He. unfold vsub at 1, psubp, pscal. cbn [peval]. ring. }
    rewrite (vdot_sub_r _ _ HI), (s_eq d Hd P c HC rd Hrd cd Hcd fdi lu HU u Y DY VY).
    rewrite (eform_green d P c HC cd fdi u (strain d Y) (symgrad_symmetric d Y) HL Hn).
    pose proof (strain_deg Y rd DY) as DS.
    rewrite (vfsum2_projs d (fun f => mnrm d (fa_normal f) (strain d Y)) V (rd - 1) _ _ _ (fun f Hf => facet_int d P c HC f Hf) Pf).
    - rewrite fmiss_none by exact Hn.
      rewrite (I_ext _ _ HI (vdot (d * d) (strain d Y) (strain d V)) (vdot (d * d) (strain d Y) (mgrad d V))) by (intros x; apply dot_sym, symgrad_symmetric).
      rewrite (green_mat d P HP). rewrite (vdot_comm _ _ HI d (UT u)), (proj2 Pc), (vdot_comm _ _ HI d V); [lra|].
      apply (vdeg_mono d _ (rd - 1 - 1)); [lia|]. apply deg_mdiv, DS.
    - intros k Hin. specialize (HK k Hin). lia.
    - intros f _. apply deg_mnrm, DS.
  Qed.
  Lemma k_consistent u V : ~ In None fdi -> (rd <= cd + 2)%nat -> vdeg d V rd -> vvars d d V ->
    l2vec (po_int P) d cd V (UT u) -> vprojs d fs fdi (UF u) V ->
    ((1 <= cd)%nat \/ forall a b, (a < b)%nat -> (b < d)%nat -> po_int P (rotp a b V) = 0) ->
    forall v, bil N SV v u = 0.
  Proof.
    intros Hn Hr DV VV Pc Pf HR v. apply k_zero_all. apply (vprojs_ext V); [|exact Pf].
    destruct (rigid_motion d P c HC (vsub (rec u) V) rd) as (g & W & AW & EX & RX).
    { apply vsub_vars; [apply (s_vars d P c HC)|exact VV]. }
    { apply vdeg_sub; [apply (s_deg d Hd P c HC rd Hrd)|exact DV]. }
    { apply k_strain; assumption. }
    assert (LL : exists L, vdeg d L cd /\ forall a x, (a < d)%nat -> po_on P x -> peval (rec u a) x = peval (V a) x + peval (L a) x).
    { destruct HR as [HR|HR].
      - exists (fun a => PAdd (PC (g a)) (psum d (fun b => pscal (W a b) (PX b)))). split.
        + intros a _. apply deg_le_add; [apply deg_le_const|]. apply deg_le_psum. intros b _. apply (deg_le_mono _ 1); [exact HR|]. apply deg_le_scal. exists (PX b). split; [cbn; lia|reflexivity].
        + intros a x Ha Hx. specialize (EX a x Ha Hx). unfold vsub, psubp, pscal in EX. cbn [peval] in EX |- *. rewrite linmap_eval. lra.
      - exists (fun a => PC (g a)). split; [intros a _; apply deg_le_const|]. intros a x Ha Hx. specialize (EX a x Ha Hx). unfold vsub, psubp, pscal in EX. cbn [peval] in EX |- *.
        rewrite sg_zero in EX; [lra|]. intros b Hb.
        assert (WZ : forall p q, (p < q)%nat -> (q < d)%nat -> W p q = 0).
        { intros p q Hp Hq. pose proof (RX p q ltac:(lia) Hq) as E. rewrite rot_vsub, (HR p q Hp Hq), (s_rot d Hd P c HC rd Hrd cd Hcd fdi lu HU u p q Hp Hq) in E.
          pose proof (measure_pos d P c HC) as M. assert (2 * W p q = 0); [|lra]. apply (Rmult_eq_reg_r (po_int P (PC 1))); lra. }
        destruct (lt_eq_lt_dec a b) as [[H| ->]|H]; [rewrite WZ by assumption; ring|pose proof (AW b b Hb Hb); replace (W b b) with 0 by lra; ring|].
        rewrite (AW a b Ha Hb), WZ by assumption. ring. }
    destruct LL as (L & DL & EL). intros a x Ha Hx. rewrite (piT_eq u (vaddf (UT u) L) a x); [unfold vaddf; cbn [peval]; rewrite (EL a x Ha Hx); ring| |exact Ha|exact Hx].
    split.
    - intros b Hb. apply deg_le_add; [apply (vcell_deg d P c HC cd u b Hb)|apply DL, Hb].
    - intros w Hw. rewrite (vdot_add_r _ _ HI), (proj2 Pc w Hw), <- (vdot_add_r _ _ HI). apply (vdot_ext _ _ HI); [reflexivity|]. intros b y Hb Hy. unfold vaddf. cbn [peval]. symmetry. apply EL; assumption.
  Qed.
End Kernel.
