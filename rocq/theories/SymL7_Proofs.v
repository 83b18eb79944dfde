(** A solver for symmetric systems, the DG stabilisation of vectors and the lowest-order case. *)
From Coq Require Import List Arith Reals Lra Lia Bool.
From Verif Require Import Poly_Spec Poly_Proofs HHO_Spec HHO_Model HHO_Setting HHO_Proofs HHO2_Proofs HHO3_Proofs HHO4_Proofs HHO5_Proofs HHO6_Proofs HHO7_Proofs
  HHO9_Proofs HHOInst_Proofs HHOInst2_Proofs HHOInst_Properties
  VHHO_Spec VHHO_Model VHHO_Setting VHHO_Proofs VHHO2_Proofs VHHO3_Proofs VHHO4_Proofs VHHO5_Proofs VHHO6_Proofs
  Stab_Model Stab_Spec Stab_Proofs Stab2_Proofs Stab3_Proofs Stab4_Proofs Stab5_Proofs SymL_Spec SymL_Model SymL_Proofs SymL2_Proofs SymL3_Proofs SymL4_Proofs SymL5_Proofs SymL6_Proofs.
Import ListNotations.
Open Scope R_scope.

Definition sym_solve (n : nat) : mtx -> (nat -> R) -> nat -> R := ne_solve n n.
Lemma sym_solves : solves_sym sym_solve.
Proof.
  intros n A b HA Inj. unfold sym_solve, ne_solve. set (z := elim_solve n _ _).
  assert (E : forall i, (i < n)%nat -> sg n (fun k => A k i * sg n (fun j => A k j * z j)) = sg n (fun k => A k i * b k)).
  { intros i Hi. rewrite <- ne_apply. exact (elim_solves n _ (fun i => sg n (fun k => A k i * b k)) (ne_spd n n A Inj) i Hi). }
  intros i Hi. apply Rminus_diag_uniq. revert i Hi. apply (Inj (fun i => sg n (fun j => A i j * z j) - b i)). intros i Hi.
  rewrite (sg_ext n _ (fun k => A k i * sg n (fun j => A k j * z j) + - (A k i * b k))) by (intros k Hk; rewrite (HA i k Hi Hk); ring).
  rewrite sg_plus, sg_opp, (E i Hi). ring.
Qed.

(** * the HHO stabilisation for any reconstruction *)
Lemma v_scale d P c (HC : cell_fits d P c) hF f : In f (po_facets P) -> 0 < / sth P hF f.
Proof. intros Hf. apply Rinv_0_lt_compat. unfold sth. destruct (poly_diam _ _ (cf_poly _ _ _ HC)) as (X & Y). destruct hF; [apply Y, Hf|exact X]. Qed.
Section VHho.
  Context (d : nat) (Hd : (0 < d)%nat) (P : polytope) (c : scell) (HC : cell_fits d P c).
  Context (ldlt llt : nat -> mtx -> (nat -> R) -> nat -> R) (HS : solves_spd ldlt) (HS' : solves_spd llt).
  Context (cd rd : nat) (Hcd : (cd <= rd)%nat) (fdi : list (option nat)) (HL : length fdi = length (cl_faces c)) (rec : mtx) (hF : bool).
  Let N := vnum_dofs d c cd fdi.
  Let SV := vector_hho_stabilization ldlt llt d c rd cd fdi rec hF.
  Lemma vh_exist u : exists ru du, l2vec (po_int P) d cd (vrec_fun d c rd N rec u) ru /\
    vjumps d (po_facets P) fdi (vfaces_funs d c cd fdi u) (vaddf (vrec_fun d c rd N rec u) (vsub (vcell_fun d c cd u) ru)) du.
  Proof.
    exists (vpiT d c ldlt cd rd N rec u). destruct (vjumps_exist d Hd P c HC cd fdi HL ldlt HS u (vaddf (vrec_fun d c rd N rec u) (vsub (vcell_fun d c cd u) (vpiT d c ldlt cd rd N rec u)))) as (du & Ju).
    exists du. split; [apply (vpiT_proj d Hd P c HC ldlt HS cd rd Hcd N rec u)|exact Ju].
  Qed.
  Lemma vh_sym u v : bil N SV u v = bil N SV v u.
  Proof.
    destruct (vh_exist u) as (ru & du & Pu & Ju). destruct (vh_exist v) as (rv & dv & Pv & Jv). unfold N, SV in *.
    rewrite (vhho_form d Hd P c HC ldlt llt HS HS' cd rd Hcd fdi rec hF u v ru rv du dv Pu Pv Ju Jv), (vhho_form d Hd P c HC ldlt llt HS HS' cd rd Hcd fdi rec hF v u rv ru dv du Pv Pu Jv Ju).
    apply vfsum3_swap. intros f a b Hf. rewrite (vdot_comm _ _ (facet_int d P c HC f Hf)). reflexivity.
  Qed.
  Lemma vh_pos u : 0 <= bil N SV u u.
  Proof.
    destruct (vh_exist u) as (ru & du & Pu & Ju). unfold N, SV in *.
    rewrite (vhho_form d Hd P c HC ldlt llt HS HS' cd rd Hcd fdi rec hF u u ru ru du du Pu Pu Ju Ju). apply vfsum3_pos. intros f a Hf.
    apply Rmult_le_pos; [left; apply (v_scale d P c HC hF f Hf)|]. apply (vdot_sq_pos _ _ (facet_int d P c HC f Hf)).
  Qed.
End VHho.

(** * the DG stabilisation of vectors *)
Lemma vfsum3_comps d (g : facet -> tf -> tf -> R) (h : nat -> facet -> pexp -> pexp -> R) fs : forall us vs (ps qs : nat -> list (option pexp)),
  (forall a, (a < d)%nat -> same_faces a us (ps a)) -> (forall a, (a < d)%nat -> same_faces a vs (qs a)) ->
  (forall f u v p q, In f fs -> (forall a x, (a < d)%nat -> peval (u a) x = peval (p a) x) -> (forall a x, (a < d)%nat -> peval (v a) x = peval (q a) x) ->
     g f u v = sg d (fun a => h a f (p a) (q a))) ->
  (0 < d)%nat -> vfsum3 fs us vs g = sg d (fun a => fsum3 fs (ps a) (qs a) (h a)).
Proof.
  induction fs as [|f fs IH]; intros us vs ps qs Su Sv H Hd.
  - cbn [vfsum3]. symmetry. apply sg_zero. intros; reflexivity.
  - destruct us as [|[u|] us].
    + cbn [vfsum3]. symmetry. apply sg_zero. intros a Ha. specialize (Su a Ha). destruct (ps a) as [|[p|] ?]; cbn [same_faces] in Su; try contradiction. reflexivity.
    + destruct vs as [|[v|] vs].
      * cbn [vfsum3]. symmetry. apply sg_zero. intros a Ha. specialize (Sv a Ha). destruct (qs a) as [|[q|] ?]; cbn [same_faces] in Sv; try contradiction. destruct (ps a) as [|[p|] ?]; reflexivity.
      * cbn [vfsum3].
        set (p := fun a => match ps a with Some p :: _ => p | _ => PC 0 end). set (q := fun a => match qs a with Some p :: _ => p | _ => PC 0 end).
        assert (Ep : forall a, (a < d)%nat -> ps a = Some (p a) :: tl (ps a) /\ (forall x, peval (u a) x = peval (p a) x) /\ same_faces a us (tl (ps a))).
        { intros a Ha. specialize (Su a Ha). unfold p. destruct (ps a) as [|[r|] t]; cbn [same_faces tl] in *; try contradiction. destruct Su as (S1 & S2). split; [reflexivity|]. split; assumption. }
        assert (Eq : forall a, (a < d)%nat -> qs a = Some (q a) :: tl (qs a) /\ (forall x, peval (v a) x = peval (q a) x) /\ same_faces a vs (tl (qs a))).
        { intros a Ha. specialize (Sv a Ha). unfold q. destruct (qs a) as [|[r|] t]; cbn [same_faces tl] in *; try contradiction. destruct Sv as (S1 & S2). split; [reflexivity|]. split; assumption. }
        rewrite (H f u v p q (or_introl eq_refl)); [|intros a x Ha; apply (Ep a Ha)|intros a x Ha; apply (Eq a Ha)].
        rewrite (IH us vs (fun a => tl (ps a)) (fun a => tl (qs a))); [|intros a Ha; apply (Ep a Ha)|intros a Ha; apply (Eq a Ha)|intros; apply H; [right; assumption|assumption|assumption]|exact Hd].
        rewrite <- sg_plus. apply sg_ext. intros a Ha. rewrite (proj1 (Ep a Ha)), (proj1 (Eq a Ha)) at 2. reflexivity.
      * cbn [vfsum3]. symmetry. apply sg_zero. intros a Ha. specialize (Su a Ha). specialize (Sv a Ha).
        destruct (ps a) as [|[p|] ?]; cbn [same_faces] in Su; try contradiction. destruct (qs a) as [|[q|] ?]; cbn [same_faces] in Sv; try contradiction. reflexivity.
    + destruct vs as [|[v|] vs].
      * cbn [vfsum3]. symmetry. apply sg_zero. intros a Ha. specialize (Sv a Ha). destruct (qs a) as [|[q|] ?]; cbn [same_faces] in Sv; try contradiction. destruct (ps a) as [|[p|] ?]; reflexivity.
      * cbn [vfsum3]. symmetry. apply sg_zero. intros a Ha. specialize (Su a Ha). specialize (Sv a Ha).
        destruct (ps a) as [|[p|] ?]; cbn [same_faces] in Su; try contradiction. destruct (qs a) as [|[q|] ?]; cbn [same_faces] in Sv; try contradiction. reflexivity.
      * cbn [vfsum3].
        assert (Ep : forall a, (a < d)%nat -> ps a = None :: tl (ps a) /\ same_faces a us (tl (ps a))).
        { intros a Ha. specialize (Su a Ha). destruct (ps a) as [|[r|] t]; cbn [same_faces tl] in *; try contradiction. split; [reflexivity|assumption]. }
        assert (Eq : forall a, (a < d)%nat -> qs a = None :: tl (qs a) /\ same_faces a vs (tl (qs a))).
        { intros a Ha. specialize (Sv a Ha). destruct (qs a) as [|[r|] t]; cbn [same_faces tl] in *; try contradiction. split; [reflexivity|assumption]. }
        rewrite (IH us vs (fun a => tl (ps a)) (fun a => tl (qs a))); [|intros a Ha; apply (Ep a Ha)|intros a Ha; apply (Eq a Ha)|intros; apply H; [right; assumption|assumption|assumption]|exact Hd].
        apply sg_ext. intros a Ha. rewrite (proj1 (Ep a Ha)), (proj1 (Eq a Ha)) at 2. reflexivity.
Qed.
Section VDg.
  Context (d : nat) (Hd : (0 < d)%nat) (P : polytope) (c : scell) (HC : cell_fits d P c) (cd : nat) (fdi : list (option nat)) (HL : length fdi = length (cl_faces c)) (hF : bool).
  Let N := vnum_dofs d c cd fdi.
  Let SV := vector_dg_stabilization d c cd fdi hF.
  Lemma vdg_comp u v : quadf N SV u v = sg d (fun a => quadf (num_dofs c cd fdi) (dg_stabilization c cd fdi hF) (comp d a u) (comp d a v)).
  Proof. unfold N, SV, vector_dg_stabilization. rewrite scal_total, vnum_comp. apply replicate_quad, Hd. Qed.
  Lemma vdg_form u v : quadf N SV v u = vfsum3 (po_facets P) (vfaces_funs d c cd fdi u) (vfaces_funs d c cd fdi v)
    (fun f uF vF => / sth P hF f * fa_int f (vdot d (vsub uF (vcell_fun d c cd u)) (vsub vF (vcell_fun d c cd v)))).
  Proof.
    rewrite vdg_comp.
    rewrite (vfsum3_comps d _ (fun a f p q => / sth P hF f * fa_int f (PMul (psubp p (cell_fun c cd (comp d a u))) (psubp q (cell_fun c cd (comp d a v))))) (po_facets P)
      _ _ (fun a => faces_funs c cd fdi (comp d a u)) (fun a => faces_funs c cd fdi (comp d a v))).
    - apply sg_ext. intros a _. rewrite bil_quadf. apply (dg_form d P c HC cd hF fdi (comp d a u) (comp d a v) HL).
    - intros a Ha. apply vfaces_comp, Ha.
    - intros a Ha. apply vfaces_comp, Ha.
    - intros f U V p q Hf Ep Eq. pose proof (facet_int d P c HC f Hf) as FI. unfold vdot. rewrite (I_psum _ _ FI), sg_scal. f_equal. apply sg_ext. intros a Ha.
      apply (I_ext _ _ FI). intros x. unfold vsub, psubp, pscal. cbn [peval]. rewrite !vcell_comp, Ep, Eq by exact Ha. reflexivity.
    - exact Hd.
  Qed.
End VDg.

(** * the symmetric reconstruction with the DG stabilisation *)
Section SymDg.
  Context (d : nat) (Hd : dim23 d) (P : polytope) (c : scell) (HC : cell_fits d P c) (lu : nat -> mtx -> (nat -> R) -> nat -> R) (HU : solves_sym lu).
  Context (rd : nat) (Hrd : (1 <= rd)%nat) (cd : nat) (Hcd : (cd <= rd)%nat) (fdi : list (option nat)) (HL : length fdi = length (cl_faces c)) (hF : bool).
  Let HP := cf_poly _ _ _ HC.
  Let HI := poly_int _ _ HP.
  Let N := vnum_dofs d c cd fdi.
  Let A := snd (symmetric_laplacian lu d c rd cd fdi).
  Let SV := vector_dg_stabilization d c cd fdi hF.
  Let agree u := von_facets (po_facets P) (vfaces_funs d c cd fdi u) (fun f uF => forall a x, (a < d)%nat -> fa_on f x -> peval (uF a) x = peval (vcell_fun d c cd u a) x).
  Lemma vdg_nonneg u f a : In f (po_facets P) -> 0 <= (fun f uF vF => / sth P hF f * fa_int f (vdot d (vsub uF (vcell_fun d c cd u)) (vsub vF (vcell_fun d c cd u)))) f a a.
  Proof. intros Hf. apply Rmult_le_pos; [left; apply (v_scale d P c HC hF f Hf)|]. apply (vdot_sq_pos _ _ (facet_int d P c HC f Hf)). Qed.
  Lemma vdg_pos u : 0 <= quadf N SV u u.
  Proof. unfold N, SV. rewrite (vdg_form d (dim_pos d Hd) P c HC cd fdi HL hF). apply (vfsum3_pos _ _ (vdg_nonneg u)). Qed.
  Lemma vdg_null u : quadf N SV u u = 0 <-> agree u.
  Proof.
    unfold N, SV. rewrite (vdg_form d (dim_pos d Hd) P c HC cd fdi HL hF). split.
    - intros Z. apply (vfsum3_def _ _ (vdg_nonneg u)) in Z. revert Z. unfold agree. apply von_facets_impl. intros f uF Hf Z a x Ha Hx.
      apply Rmult_integral in Z as [Z|Z]; [pose proof (v_scale d P c HC hF f Hf); lra|].
      pose proof (vdot_sq_def _ _ (facet_int d P c HC f Hf) _ _ Z a x Ha Hx) as E. unfold vsub, psubp, pscal in E. cbn [peval] in E. lra.
    - intros Z. apply vfsum3_zero. revert Z. unfold agree. apply von_facets_impl. intros f uF Hf Z b.
      rewrite (I_zero _ _ (facet_int d P c HC f Hf)); [ring|]. intros x Hx. rewrite peval_vdot. apply sg_zero. intros a Ha. unfold vsub, psubp, pscal. cbn [peval]. rewrite (Z a x Ha Hx). ring.
  Qed.
  Lemma vdg_kernel u : quadf N (maddm A SV) u u = 0 <-> (forall e x, (e < d * d)%nat -> po_on P x -> peval (strain d (vcell_fun d c cd u) e) x = 0) /\ agree u.
  Proof.
    rewrite bil_quadf, bil_add. change (bil N A u u) with (quadf N A u u). change (bil N SV u u) with (quadf N SV u u).
    pose proof (s_data d Hd P c HC rd Hrd cd Hcd fdi lu HU u u) as E. fold N A in E. rewrite E.
    pose proof (vdot_sq_pos _ _ HI (d * d) (strain d (srec d c rd cd fdi lu u))) as Q. pose proof (vdg_pos u) as Q'. pose proof (vdg_null u) as Nu.
    assert (EF : agree u -> forall t, eform d P c cd fdi u t = po_int P (vdot (d * d) t (strain d (vcell_fun d c cd u)))).
    { intros Ag t. unfold eform. rewrite vfsum2_zero; [unfold strain; ring|]. revert Ag. unfold agree. apply von_facets_impl. intros f uF Hf Z.
      apply (I_zero _ _ (facet_int d P c HC f Hf)). intros x Hx. rewrite peval_vdot. apply sg_zero. intros a Ha. unfold vsub, psubp, pscal. cbn [peval]. rewrite (Z a x Ha Hx). ring. }
    split.
    - intros Z. assert (Z1 : po_int P (vdot (d * d) (strain d (srec d c rd cd fdi lu u)) (strain d (srec d c rd cd fdi lu u))) = 0) by lra.
      assert (Ag : agree u) by (apply Nu; lra). split; [|exact Ag]. apply (vdot_sq_def _ _ HI). rewrite <- (EF Ag).
      rewrite <- (s_eq d Hd P c HC rd Hrd cd Hcd fdi lu HU u); [|apply (vdeg_mono d _ cd); [exact Hcd|apply (vcell_deg d P c HC cd u)]|apply (vcell_vars d P c HC cd u)].
      apply (vdot_zero_r _ _ HI), (vdot_sq_def _ _ HI), Z1.
    - intros (Z & Ag). rewrite (proj2 Nu Ag), (s_eq d Hd P c HC rd Hrd cd Hcd fdi lu HU u); [|apply (s_deg d Hd P c HC rd Hrd)|apply (s_vars d P c HC)].
      rewrite (EF Ag), (vdot_zero_r _ _ HI _ _ _ Z). ring.
  Qed.
End SymDg.

(** * the lowest order: cell and face unknowns of degree 0 *)
Section Lowest.
  Let V : tf := fun a => match a with O => pscal (-1) (PX 1) | _ => PX 0 end.
  Let fdi := [Some 0%nat; Some 0%nat; Some 0%nat].
  Let u0 := vproject_cdi elim_solve 2 c1 0 fdi (fun x a => peval (V a) x) 1.
  Let L := symmetric_laplacian sym_solve 2 c1 1 0 fdi.
  Lemma spin_deg : vdeg 2 V 1.
  Proof. intros [|[|a]] Ha; [| |lia]; unfold V; [apply deg_le_scal; exists (PX 1)|exists (PX 0)]; split; (cbn; lia) || reflexivity. Qed.
  Lemma spin_vars : vvars 2 2 V.
  Proof. intros [|[|a]] Ha; [| |lia]; unfold V, pscal; cbn [pvars]; repeat split; lia. Qed.
  Lemma spin_strain e x : (e < 2 * 2)%nat -> peval (strain 2 V e) x = 0.
  Proof. intros He. destruct e as [|[|[|[|e]]]]; [| | | |lia]; unfold strain, msymp, mgrad, V, pscal; cbn; lra. Qed.
  Lemma spin_interp : l2vec (po_int T1) 2 0 V (vcell_fun 2 c1 0 u0) /\ vprojs 2 (po_facets T1) fdi (vfaces_funs 2 c1 0 fdi u0) V.
  Proof.
    apply (vproject_l2 2 ltac:(lia) elim_solve elim_solves V 1 T1 c1 c1_fits 0 fdi eq_refl).
    - apply (vdeg_mono 2 _ 1); [lia|exact spin_deg].
    - intros k _. apply (vdeg_mono 2 _ 1); [lia|exact spin_deg].
  Qed.
  Lemma cell_const u x : peval (vcell_fun 2 c1 0 u 1%nat) x = u 1%nat.
  Proof. cbn. ring. Qed.
  Lemma spin_energy hF : quadf (vnum_dofs 2 c1 0 fdi) (vector_hho_stabilization elim_solve elim_solve 2 c1 1 0 fdi (fst L) hF) u0 u0 <> 0.
  Proof.
    intros Z. destruct spin_interp as (Pc & Pf). assert (D23 : dim23 2) by (left; reflexivity).
    assert (HK : forall k, In (Some k) fdi -> (1 <= k + 1)%nat) by (intros; lia).
    pose proof (poly_int _ _ (cf_poly _ _ _ c1_fits)) as HI.
    pose proof (k_strain 2 D23 T1 c1 c1_fits sym_solve sym_solves 1 ltac:(lia) 0 ltac:(lia) fdi eq_refl HK u0 V
      ltac:(intros [H|[H|[H|[]]]]; discriminate) ltac:(lia) spin_deg spin_vars Pc Pf) as ST.
    assert (Z1 : po_int T1 (vdot (2 * 2) (strain 2 (srec 2 c1 1 0 fdi sym_solve u0)) (strain 2 (srec 2 c1 1 0 fdi sym_solve u0))) = 0).
    { apply (vdot_zero_r _ _ HI). intros e x He Hx. specialize (ST e x He Hx). rewrite strain_vsub, spin_strain in ST by exact He. lra. }
    pose proof (k_kernel 2 D23 T1 c1 c1_fits sym_solve elim_solve elim_solve sym_solves elim_solves elim_solves 1 ltac:(lia) 0 ltac:(lia) fdi eq_refl hF HK u0) as K.
    destruct K as [K _]. destruct K as (_ & Pt).
    { rewrite bil_add. pose proof (s_data 2 D23 T1 c1 c1_fits 1 ltac:(lia) 0 ltac:(lia) fdi sym_solve sym_solves u0 u0) as E.
      rewrite Z1 in E. exact (eq_trans (f_equal2 Rplus E Z) (Rplus_0_l 0)). }
    set (w := fun a : nat => match a with O => PC 0 | _ => PC 1 end : pexp).
    assert (Dw : vdeg 2 w 0) by (intros [|[|a]] Ha; unfold w; apply deg_le_const).
    assert (W : forall f U, In f (po_facets T1) -> fa_int f (vdot 2 w U) = fa_int f (U 1%nat)).
    { intros f U Hf. apply (I_ext _ _ (facet_int 2 T1 c1 c1_fits f Hf)). intros x. rewrite peval_vdot. unfold w. cbn [sg peval]. ring. }
    cbn [T1 tri_poly po_facets fdi vprojs vfaces_funs vbases_of c1 tri_cell cl_faces combine map fst snd vface_funs] in Pf, Pt, W.
    destruct Pf as ((_ & F1) & _ & (_ & F3) & _). destruct Pt as ((_ & G1) & _ & (_ & G3) & _).
    pose proof (eq_trans (eq_sym (F1 w Dw)) (G1 w Dw)) as E1. pose proof (eq_trans (eq_sym (F3 w Dw)) (G3 w Dw)) as E3.
    rewrite !W in E1 by (left; reflexivity). rewrite !W in E3 by (right; right; left; reflexivity). clear F1 F3 G1 G3.
    assert (I1 : integral (fa_on (nth 0 (po_facets T1) (mkFacet (fun _ => False) (fun _ => 0) 0 (fun _ => 0)))) (fa_int (nth 0 (po_facets T1) (mkFacet (fun _ => False) (fun _ => 0) 0 (fun _ => 0)))))
      by (apply (facet_int 2 T1 c1 c1_fits); left; reflexivity).
    assert (I3 : integral (fa_on (nth 2 (po_facets T1) (mkFacet (fun _ => False) (fun _ => 0) 0 (fun _ => 0)))) (fa_int (nth 2 (po_facets T1) (mkFacet (fun _ => False) (fun _ => 0) 0 (fun _ => 0)))))
      by (apply (facet_int 2 T1 c1 c1_fits); right; right; left; reflexivity).
    cbn [T1 tri_poly po_facets nth] in I1, I3.
    set (f1 := seg_facet 0 0 2 0 _) in *. set (f3 := seg_facet 0 0 0 1 _) in *.
    assert (C0 : u0 1%nat = 0).
    { destruct (Req_dec (u0 1%nat) 0) as [E|E]; [exact E|exfalso].
      assert (Z3 : fa_int f3 (V 1%nat) = 0).
      { apply (I_zero _ _ I3). intros x (y & _ & Hy). unfold V. cbn [peval]. rewrite Hy. cbn. ring. }
      rewrite Z3 in E3. rewrite (I_ext _ _ I3 _ (pscal (u0 1%nat) (PC 1))) in E3 by (intros x; rewrite cell_const; unfold pscal; cbn [peval]; ring).
      rewrite (int_scal _ _ I3) in E3. symmetry in E3. apply Rmult_integral in E3 as [E3|E3]; [contradiction|].
      assert (O3 : fa_on f3 (pt2 0 0)).
      { unfold f3. cbn [seg_facet fa_on]. exists (fun _ => 0). split; [split; [intros; lra|cbn; lra]|]. intros [|[|i]]; cbn; ring. }
      pose proof (int_def _ _ I3 (PC 1) ltac:(intros; cbn; lra) E3 _ O3) as X. cbn in X. lra. }
    assert (Z1' : fa_int f1 (V 1%nat) = 0).
    { rewrite E1. apply (I_zero _ _ I1). intros x _. rewrite cell_const. exact C0. }
    assert (O1 : fa_on f1 (pt2 2 0)).
    { unfold f1. cbn [seg_facet fa_on]. exists (fun i => match i with O => 1 | _ => 0 end). split; [split; [intros [|i] Hi; lra|cbn; lra]|]. intros [|[|i]]; cbn; ring. }
    pose proof (int_def _ _ I1 (V 1%nat)) as X. specialize (fun H => X H Z1' _ O1). cbv beta in X. unfold V in X at 2. cbn in X. assert (2 = 0); [|lra]. apply X.
    intros x (y & (Hy & _) & E). unfold V. cbn [peval]. rewrite E. pose proof (Hy 0%nat ltac:(lia)). cbn. lra.
  Qed.
End Lowest.
