(** The HHO stabilisation of vectors, for any reconstruction. *)
From Coq Require Import List Arith Reals Lra Lia Bool.
From Verif Require Import Poly_Spec Poly_Proofs HHO_Spec HHO_Model HHO_Setting HHO_Proofs HHO2_Proofs HHO3_Proofs HHO4_Proofs HHO5_Proofs HHO6_Proofs HHO7_Proofs
  VHHO_Spec VHHO_Model VHHO_Setting VHHO_Proofs VHHO2_Proofs VHHO3_Proofs VHHO4_Proofs VHHO5_Proofs VHHO6_Proofs
  Stab_Model Stab_Proofs SymL_Spec SymL_Model SymL_Proofs.
Import ListNotations.
Open Scope R_scope.

Section Vec.
  Context (on : pt -> Prop) (I : pexp -> R) (HI : integral on I) (m : nat).
  Lemma vdot_add_l U V W : I (vdot m (vaddf U V) W) = I (vdot m U W) + I (vdot m V W).
  Proof.
    rewrite <- (int_add _ _ HI). apply (I_ext _ _ HI). intros x. cbn [peval]. rewrite !peval_vdot, <- sg_plus. apply sg_ext. intros. unfold vaddf. cbn [peval]. ring.
  Qed.
  Lemma vdot_add_r U V W : I (vdot m W (vaddf U V)) = I (vdot m W U) + I (vdot m W V).
  Proof. rewrite (vdot_comm _ _ HI), vdot_add_l, (vdot_comm _ _ HI _ U W), (vdot_comm _ _ HI _ V W). reflexivity. Qed.
  Lemma vdot_sub_r U V W : I (vdot m W (vsub U V)) = I (vdot m W U) - I (vdot m W V).
  Proof. rewrite (vdot_comm _ _ HI), (vdot_sub_l _ _ HI), (vdot_comm _ _ HI _ U W), (vdot_comm _ _ HI _ V W). reflexivity. Qed.
  Lemma vdeg_sub U V k : vdeg m U k -> vdeg m V k -> vdeg m (vsub U V) k.
  Proof. intros A B a Ha. apply deg_le_sub; [apply A|apply B]; exact Ha. Qed.
  Lemma vdeg_mono U k k' : (k <= k')%nat -> vdeg m U k -> vdeg m U k'.
  Proof. intros H A a Ha. apply (deg_le_mono _ k); [exact H|apply A, Ha]. Qed.
  Lemma vdot_zero_r U V : (forall a x, (a < m)%nat -> on x -> peval (V a) x = 0) -> I (vdot m U V) = 0.
  Proof. intros H. apply (I_zero _ _ HI). intros x Hx. rewrite peval_vdot. apply sg_zero. intros a Ha. rewrite (H a x Ha Hx). ring. Qed.
  (** projections are determined *)
  Lemma l2vec_eq k q r s : l2vec I m k q r -> l2vec I m k q s -> forall a x, (a < m)%nat -> on x -> peval (r a) x = peval (s a) x.
  Proof.
    intros (Dr & Tr) (Ds & Ts) a x Ha Hx. assert (Z : I (vdot m (vsub r s) (vsub r s)) = 0).
    { rewrite vdot_sub_r, Tr, Ts by (apply vdeg_sub; assumption). ring. }
    pose proof (vdot_sq_def _ _ HI m _ Z a x Ha Hx) as W. unfold vsub, psubp, pscal in W. cbn [peval] in W. lra.
  Qed.
  Context (e : selem) (F : elem_fits on I e).
  Lemma l2vec_basis k q r : let b := vec_basis m (el_basis e k) in vdeg m r k -> (forall i, (i < v_size b)%nat -> I (vdot m (v_comp b i) r) = I (vdot m (v_comp b i) q)) -> l2vec I m k q r.
  Proof.
    intros b D H. split; [exact D|]. intros w Hw. destruct (vec_span on k m (el_basis e k) (fit_basis _ _ _ F k) w Hw) as (s & Hs). fold b in Hs.
    rewrite (vdot_ext _ _ HI m w r (vlin (v_size b) s (v_comp b)) r) by (auto; intros; apply Hs; assumption).
    rewrite (vdot_ext _ _ HI m w q (vlin (v_size b) s (v_comp b)) q) by (auto; intros; apply Hs; assumption).
    rewrite !(vdot_lin_l _ _ HI). apply sg_ext. intros j Hj. rewrite H by exact Hj. reflexivity.
  Qed.
  Lemma vec_fun_deg k s : let b := vec_basis m (el_basis e k) in vdeg m (vlin (v_size b) s (v_comp b)) k.
  Proof. apply vdeg_vlin. intros j Hj. apply (vec_deg on); [apply (fit_basis _ _ _ F)|exact Hj]. Qed.
End Vec.

Definition vface_form (d N : nat) (f : facet) (k : nat) (q : (nat -> R) -> tf) (uF : (nat -> R) -> tf) (A : mtx) : Prop :=
  forall u v du dv, l2vec (fa_int f) d k (vsub (q u) (uF u)) du -> l2vec (fa_int f) d k (vsub (q v) (uF v)) dv ->
    bil N A v u = fa_int f (vdot d du dv).
Lemma vstab_fold d N (step : nat * mtx -> sface * option nat -> nat * mtx) q (scale : facet -> R) fs fcs :
  Forall2 face_fit fs fcs ->
  (forall fc off data, step (off, data) (fc, None) = (off, data)) ->
  (forall f fc k, In f fs -> face_fit f fc -> forall off data,
     let b := vec_basis d (el_basis (fc_elem fc) k) in (off + v_size b <= N)%nat -> exists A,
     step (off, data) (fc, Some k) = ((off + v_size b)%nat, maddm data (mscalm (scale f) A)) /\
     vface_form d N f k q (fun u => vlin (v_size b) (fun j => u (off + j)%nat) (v_comp b)) A) ->
  forall fdi off data u v du dv, (off + vface_dofs (vbases_l d (combine fcs fdi)) <= N)%nat ->
  vjumps d fs fdi (vface_funs off (vbases_l d (combine fcs fdi)) u) (q u) du -> vjumps d fs fdi (vface_funs off (vbases_l d (combine fcs fdi)) v) (q v) dv ->
  bil N (snd (fold_left step (combine fcs fdi) (off, data))) v u =
  bil N data v u + vfsum3 fs du dv (fun f a b => scale f * fa_int f (vdot d a b)).
Proof.
  intros H H0. induction H as [|f fc fs fcs Hf H IH]; intros H1 fdi off data u v du dv Hoff Ju Jv; [simpl; lra|].
  assert (IH' := IH (fun f' fc' k' Hin => H1 f' fc' k' (or_intror Hin))). clear IH.
  destruct fdi as [|[k|] fdi]; [contradiction| |].
  - cbn [combine vbases_l map fst snd vface_dofs vface_funs fold_left] in *. destruct du as [|[du|] dus]; try contradiction. destruct dv as [|[dv|] dvs]; try contradiction.
    cbn [vjumps] in Ju, Jv. destruct Ju as (Ju & Jus). destruct Jv as (Jv & Jvs).
    destruct (H1 f fc k (or_introl eq_refl) Hf off data ltac:(cbn [v_size vec_basis] in *; lia)) as (A & EA & FA). rewrite EA.
    rewrite (IH' fdi _ _ u v dus dvs) by (try assumption; unfold vbases_l; lia). cbn [vfsum3]. rewrite bil_add, bil_scal, (FA u v du dv Ju Jv). ring.
  - cbn [combine vbases_l map fst snd vface_dofs vface_funs fold_left] in *. destruct du as [|[du|] dus]; try contradiction. destruct dv as [|[dv|] dvs]; try contradiction.
    cbn [vjumps] in Ju, Jv. rewrite H0. rewrite (IH' fdi _ _ u v dus dvs) by assumption. reflexivity.
Qed.

Section Hho.
  Context (d : nat) (Hd : (0 < d)%nat) (P : polytope) (c : scell) (HC : cell_fits d P c).
  Let HP := cf_poly _ _ _ HC.
  Let HI := poly_int _ _ HP.
  Let CE := cf_elem _ _ _ HC.
  Context (ldlt llt : nat -> mtx -> (nat -> R) -> nat -> R) (HS : solves_spd ldlt) (HS' : solves_spd llt).
  Context (cd rd : nat) (Hcd : (cd <= rd)%nat) (N : nat) (rec : mtx).
  Let cb := vec_basis d (el_basis (cl_elem c) cd).
  Let rb := vec_basis d (el_basis (cl_elem c) rd).
  Let ho := (v_size rb - d)%nat.
  Let R_ (u : nat -> R) := vrec_fun d c rd N rec u.
  Let M1 := vmass d (cl_elem c) rb 0.
  Let pj := vhho_proj1 ldlt d (cl_elem c) rb (v_size cb) rec.
  Lemma v_size_le : (v_size cb <= v_size rb)%nat.
  Proof. unfold rb, cb, vec_basis. cbn [v_size]. apply Nat.mul_le_mono_l. apply (cf_nested _ _ _ HC cd rd Hcd). Qed.
  Lemma v_ho : (v_size rb = d + ho)%nat.
  Proof. unfold ho. pose proof (proj1 (cf_one _ _ _ HC rd)) as H. unfold rb, vec_basis. cbn [v_size]. nia. Qed.
  Lemma v_nest j : (j < v_size cb)%nat -> v_comp rb j = v_comp cb j.
  Proof.
    intros Hj. unfold rb, cb, vec_basis in *. cbn [v_comp v_size] in *.
    rewrite (proj2 (cf_nested _ _ _ HC cd rd Hcd) (j / d)%nat); [reflexivity|]. apply Nat.div_lt_upper_bound; [lia|exact Hj].
  Qed.
  Lemma v_rb_deg j : (j < v_size rb)%nat -> vdeg d (v_comp rb j) rd.
  Proof. apply (vec_deg (po_on P)), (fit_basis _ _ _ CE). Qed.
  Definition vpiT (u : nat -> R) : tf := vlin (v_size cb) (mv N (solveM ldlt (v_size cb) M1 (mprod ho (shift 0 d M1) rec)) u) (v_comp cb).
  Lemma v_R_deg u : vdeg d (R_ u) rd.
  Proof. apply vdeg_vlin. intros j Hj. apply v_rb_deg. pose proof v_ho. unfold ho in *. fold rb in Hj. lia. Qed.
  Lemma v_M1 a b : (a < v_size rb)%nat -> (b < v_size rb)%nat -> M1 a b = po_int P (vdot d (v_comp rb a) (v_comp rb b)).
  Proof. intros Ha Hb. apply (vmass_gram _ _ HI _ CE d rd); try assumption; [apply (fit_deg _ _ _ CE)|apply v_rb_deg]. Qed.
  Lemma vpiT_proj u : l2vec (po_int P) d cd (R_ u) (vpiT u).
  Proof.
    pose proof v_size_le as Sz. pose proof v_ho as Ho. apply (l2vec_basis _ _ HI d _ CE); [apply (vec_fun_deg _ _ d _ CE)|]. fold cb. intros i Hi.
    unfold vpiT. refine (eq_trans (vrec_eq (po_on P) (po_int P) HI d ldlt HS (v_size cb) (v_comp cb) _ M1 _ N _ u i Hi) _).
    - apply (vec_indep _ cd); [exact Hd|apply (fit_basis _ _ _ CE)].
    - intros a b Ha Hb. rewrite v_M1 by lia. rewrite !v_nest by assumption. reflexivity.
    - rewrite mv_mprod. unfold R_, vrec_fun. fold rb. fold ho. rewrite (vdot_lin_r _ _ HI). apply sg_ext. intros j Hj. unfold shift. cbn [Nat.add].
      rewrite v_M1 by lia. rewrite (v_nest i Hi). apply Rmult_comm.
  Qed.
  Definition vlift (u : nat -> R) : tf := vaddf (R_ u) (vsub (vcell_fun d c cd u) (vpiT u)).
  Lemma vhho_face_form hF f fc k off data : face_fit f fc -> (v_size cb <= N)%nat -> let fb := vec_basis d (el_basis (fc_elem fc) k) in (off + v_size fb <= N)%nat ->
    exists A, vhho_face llt d c rb (v_size cb) rd rec pj hF (off, data) (fc, Some k) = ((off + v_size fb)%nat, maddm data (mscalm (/ stab_h c hF fc) A)) /\
     vface_form d N f k vlift (fun u => vlin (v_size fb) (fun j => u (off + j)%nat) (v_comp fb)) A.
  Proof.
    intros [[FF [Hn Hdm]] FI] Hc fb HN. unfold vhho_face. cbn [fst snd]. eexists. split; [reflexivity|]. pose proof v_size_le as Sz. pose proof v_ho as Ho. fold fb.
    set (MF := vmass d (fc_elem fc) fb 0) in *.
    set (tr := vaccumulate _ _ (vphi fb) (vphi rb) zeroM). fold ho.
    set (BRF := maddm _ _).
    set (uF := fun u : nat -> R => vlin (v_size fb) (fun j => u (off + j)%nat) (v_comp fb)).
    assert (Df : forall a, (a < v_size fb)%nat -> vdeg d (v_comp fb a) k) by (apply (vec_deg (fa_on f)), (fit_basis _ _ _ FF)).
    assert (HM : forall a b, (a < v_size fb)%nat -> (b < v_size fb)%nat -> MF a b = fa_int f (vdot d (v_comp fb a) (v_comp fb b))).
    { intros a b Ha Hb. apply (vmass_gram _ _ FI _ FF d k); try assumption. apply (fit_deg _ _ _ FF). }
    assert (Ind : vindep (fa_on f) d (v_size fb) (v_comp fb)) by (apply (vec_indep _ k); [exact Hd|apply (fit_basis _ _ _ FF)]).
    assert (TR : forall a b, (a < v_size fb)%nat -> (b < v_size rb)%nat -> tr a b = fa_int f (vdot d (v_comp fb a) (v_comp rb b))).
    { intros a b Ha Hb. unfold tr. rewrite vaccumulate_eq. unfold zeroM, vphi. rewrite Rplus_0_l.
      rewrite <- (exact_int _ _ FI _ (fit_quad _ _ _ FF) (rd + k)).
      - apply Poly_Proofs.qsum_ext. intros x. rewrite peval_vdot. reflexivity.
      - apply (deg_le_mono _ (k + rd)); [lia|]. apply deg_vdot; [apply Df, Ha|apply v_rb_deg, Hb]. }
    assert (P1 : forall z j, (j < v_size cb)%nat -> mv N pj z j = z j - mv N (solveM ldlt (v_size cb) M1 (mprod ho (shift 0 d M1) rec)) z j).
    { intros z j Hj. unfold pj, vhho_proj1. fold M1. fold ho. rewrite mv_add_cols by lia. rewrite mv_opp, mv_ident by exact Hj. cbn [Nat.add]. lra. }
    assert (D1 : forall z a x, peval (vlin (v_size cb) (mv N pj z) (v_comp cb) a) x = peval (vsub (vcell_fun d c cd z) (vpiT z) a) x).
    { intros z a x. unfold vsub, psubp, pscal, vcell_fun, vpiT. cbn [peval]. rewrite !peval_vlin. fold cb. rewrite <- sg_scal, <- sg_plus. apply sg_ext. intros j Hj.
      rewrite (P1 z j Hj). ring. }
    assert (B : forall z i, (i < v_size fb)%nat -> mv N BRF z i = mv N (solveM llt (v_size fb) MF (mprod ho (shift 0 d tr) rec)) z i - z (off + i)%nat +
       mv N (solveM llt (v_size fb) MF (mprod (v_size cb) tr pj)) z i).
    { intros z i Hi. unfold BRF. rewrite mv_madd, mv_add_cols by lia. rewrite mv_opp, mv_ident by exact Hi. lra. }
    assert (L : forall z i, (i < v_size fb)%nat -> fa_int f (vdot d (v_comp fb i) (vlin (v_size fb) (mv N BRF z) (v_comp fb))) =
       fa_int f (vdot d (v_comp fb i) (vsub (vlift z) (uF z)))).
    { intros z i Hi.
      set (s1 := vlin (v_size fb) (mv N (solveM llt (v_size fb) MF (mprod ho (shift 0 d tr) rec)) z) (v_comp fb)).
      set (s2 := vlin (v_size fb) (mv N (solveM llt (v_size fb) MF (mprod (v_size cb) tr pj)) z) (v_comp fb)).
      assert (S1 : fa_int f (vdot d (v_comp fb i) s1) = fa_int f (vdot d (v_comp fb i) (R_ z))).
      { refine (eq_trans (vrec_eq (fa_on f) (fa_int f) FI d llt HS' (v_size fb) (v_comp fb) Ind MF HM N _ z i Hi) _).
        rewrite mv_mprod. unfold R_, vrec_fun. fold rb. fold ho. rewrite (vdot_lin_r _ _ FI). apply sg_ext. intros j Hj. unfold shift. cbn [Nat.add]. rewrite TR by lia. apply Rmult_comm. }
      assert (S2 : fa_int f (vdot d (v_comp fb i) s2) = fa_int f (vdot d (v_comp fb i) (vsub (vcell_fun d c cd z) (vpiT z)))).
      { rewrite <- (vdot_ext _ _ FI d (v_comp fb i) (vlin (v_size cb) (mv N pj z) (v_comp cb)) (v_comp fb i) (vsub (vcell_fun d c cd z) (vpiT z))) by (auto; intros; apply D1).
        refine (eq_trans (vrec_eq (fa_on f) (fa_int f) FI d llt HS' (v_size fb) (v_comp fb) Ind MF HM N _ z i Hi) _).
        rewrite mv_mprod. rewrite (vdot_lin_r _ _ FI). apply sg_ext. intros j Hj. rewrite TR by lia. rewrite (v_nest j Hj). apply Rmult_comm. }
      rewrite (vdot_ext _ _ FI d (v_comp fb i) _ (v_comp fb i) (vaddf (vsub s1 (uF z)) s2)).
      - rewrite (vdot_add_r _ _ FI), !(vdot_sub_r _ _ FI), S1, S2. unfold vlift. rewrite (vdot_add_r _ _ FI). lra.
      - reflexivity.
      - intros a x _ _. unfold vaddf, vsub, psubp, pscal, uF, s1, s2. cbn [peval]. rewrite !peval_vlin. rewrite <- sg_scal, <- !sg_plus. apply sg_ext. intros j Hj. rewrite (B z j Hj). ring. }
    assert (Pr : forall z, l2vec (fa_int f) d k (vsub (vlift z) (uF z)) (vlin (v_size fb) (mv N BRF z) (v_comp fb))).
    { intros z. apply (l2vec_basis _ _ FI d _ FF); [apply (vec_fun_deg _ _ d _ FF)|]. exact (L z). }
    intros u v du dv Ju Jv. rewrite bil_mass.
    rewrite (sg_ext (v_size fb) _ (fun i => mv N BRF v i * fa_int f (vdot d (v_comp fb i) du))).
    - rewrite <- (vdot_lin_l _ _ FI). rewrite (vdot_comm _ _ FI). apply (vdot_ext _ _ FI); [reflexivity|]. intros a x Ha Hx. apply (l2vec_eq _ _ FI d k _ _ _ (Pr v) Jv a x Ha Hx).
    - intros i Hi. f_equal.
      unfold mv at 1. rewrite (sg_ext (v_size fb) _ (fun j => mv N BRF u j * fa_int f (vdot d (v_comp fb i) (v_comp fb j)))) by (intros j Hj; rewrite (HM i j Hi Hj); ring).
      rewrite <- (vdot_lin_r _ _ FI). apply (vdot_ext _ _ FI); [reflexivity|]. intros a x Ha Hx. apply (l2vec_eq _ _ FI d k _ _ _ (Pr u) Ju a x Ha Hx).
  Qed.
End Hho.

Lemma l2vec_src on I (HI : integral on I) m k q q' r : (forall a x, (a < m)%nat -> on x -> peval (q a) x = peval (q' a) x) -> l2vec I m k q r -> l2vec I m k q' r.
Proof. intros H (D & T). split; [exact D|]. intros w Hw. rewrite (T w Hw). apply (vdot_ext _ _ HI); auto. Qed.
Lemma vjumps_ext m fs q q' : (forall f, In f fs -> integral (fa_on f) (fa_int f)) -> (forall f a x, In f fs -> (a < m)%nat -> fa_on f x -> peval (q a) x = peval (q' a) x) ->
  forall ds us rs, vjumps m fs ds us q rs -> vjumps m fs ds us q' rs.
Proof.
  induction fs as [|f fs IH]; intros HF H [|[k|] ds] [|[u|] us] [|[r|] rs] J; cbn [vjumps] in *; try contradiction; try exact Logic.I.
  - destruct J as (J0 & J). split.
    + apply (l2vec_src _ _ (HF f (or_introl eq_refl)) m k (vsub q u) (vsub q' u)); [|exact J0]. intros a x Ha Hx. unfold vsub, psubp. cbn [peval].
      rewrite (H f a x (or_introl eq_refl) Ha Hx). reflexivity.
    + apply IH; [intros; apply HF; right; assumption|intros; eapply H; [right; eassumption|assumption|assumption]|exact J].
  - apply IH; [intros; apply HF; right; assumption|intros; eapply H; [right; eassumption|assumption|assumption]|exact J].
Qed.
Section Cell.
  Context (d : nat) (Hd : (0 < d)%nat) (P : polytope) (c : scell) (HC : cell_fits d P c).
  Let HP := cf_poly _ _ _ HC.
  Let HI := poly_int _ _ HP.
  Context (ldlt llt : nat -> mtx -> (nat -> R) -> nat -> R) (HS : solves_spd ldlt) (HS' : solves_spd llt).
  Context (cd rd : nat) (Hcd : (cd <= rd)%nat) (fdi : list (option nat)) (rec : mtx) (hF : bool).
  Let N := vnum_dofs d c cd fdi.
  Lemma vlift_jumps z rz dz : l2vec (po_int P) d cd (vrec_fun d c rd N rec z) rz ->
    vjumps d (po_facets P) fdi (vfaces_funs d c cd fdi z) (vaddf (vrec_fun d c rd N rec z) (vsub (vcell_fun d c cd z) rz)) dz ->
    vjumps d (po_facets P) fdi (vfaces_funs d c cd fdi z) (vlift d c ldlt cd rd N rec z) dz.
  Proof.
    intros Pz. apply vjumps_ext; [apply (facet_int d P c HC)|]. intros f a x Hf Ha Hx. unfold vlift, vaddf, vsub, psubp. cbn [peval]. f_equal. f_equal. unfold pscal. cbn [peval]. f_equal.
    symmetry. apply (l2vec_eq _ _ HI d cd _ _ _ (vpiT_proj d Hd P c HC ldlt HS cd rd Hcd N rec z) Pz a x Ha). apply (proj2 (poly_facets _ _ HP f Hf)), Hx.
  Qed.
  Lemma vhho_form u v ru rv du dv :
    l2vec (po_int P) d cd (vrec_fun d c rd N rec u) ru -> l2vec (po_int P) d cd (vrec_fun d c rd N rec v) rv ->
    vjumps d (po_facets P) fdi (vfaces_funs d c cd fdi u) (vaddf (vrec_fun d c rd N rec u) (vsub (vcell_fun d c cd u) ru)) du ->
    vjumps d (po_facets P) fdi (vfaces_funs d c cd fdi v) (vaddf (vrec_fun d c rd N rec v) (vsub (vcell_fun d c cd v) rv)) dv ->
    bil N (vector_hho_stabilization ldlt llt d c rd cd fdi rec hF) v u =
    vfsum3 (po_facets P) du dv (fun f a b => / sth P hF f * fa_int f (vdot d a b)).
  Proof.
    intros Pu Pv Ju Jv. unfold vector_hho_stabilization.
    match goal with |- bil N (snd (fold_left ?st _ _)) v u = _ =>
      rewrite (vstab_fold d N st (vlift d c ldlt cd rd N rec) (fun f => / sth P hF f) (po_facets P) (cl_faces c) (faces_fit d P c HC)) with (du := du) (dv := dv) end.
    - rewrite bil_zero. lra.
    - reflexivity.
    - intros f fc k _ Hf off data b Hoff.
      destruct (vhho_face_form d Hd P c HC ldlt llt HS' cd rd Hcd N rec hF f fc k off data Hf) as (A & EA & FA);
          [unfold N, vnum_dofs; lia|exact Hoff|].
      exists A. split; [|exact FA]. rewrite <- (stab_h_eq d P c HC hF f fc Hf). exact EA.
    - unfold N, vnum_dofs. apply Nat.le_refl.
    - apply (vlift_jumps u ru du Pu Ju).
    - apply (vlift_jumps v rv dv Pv Jv).
  Qed.
End Cell.
