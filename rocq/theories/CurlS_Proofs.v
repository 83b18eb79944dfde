(** The stabilisation of the curl that uses the reconstruction. *)
From Coq Require Import List Arith Reals Lra Lia Bool.
From Verif Require Import Poly_Spec Poly_Proofs HHO_Spec VHHO_Spec SymL_Spec Curl_Spec HHO_Model VHHO_Model Curl_Model CurlS_Model HHO_Setting VHHO_Setting Curl_Setting CurlS_Setting
  HHO_Proofs HHO2_Proofs HHO3_Proofs HHO4_Proofs HHO6_Proofs HHO7_Proofs HHO8_Proofs HHO9_Proofs VHHO_Proofs VHHO2_Proofs VHHO3_Proofs VHHO4_Proofs SymL4_Proofs Curl_Proofs Curl2_Proofs Curl3_Proofs.
Import ListNotations.
Open Scope R_scope.

Lemma vdot_sub3 on I (HI : integral on I) W U V : I (vdot 3 W (vsub U V)) = I (vdot 3 W U) - I (vdot 3 W V).
Proof.
  rewrite (I_ext _ _ HI _ (psubp (vdot 3 W U) (vdot 3 W V))); [apply (I_sub _ _ HI)|].
  intros x. unfold psubp at 1, pscal. cbn [peval]. rewrite !peval_vdot. unfold vsub, psubp, pscal. cbn [sg peval]. ring.
Qed.
(** weighted sums over the faces *)
Definition wsum (fs : list facet) (ds es : list (option tf)) : R := vfsum3 fs ds es (fun f a b => / fa_diam f * fa_int f (vdot 3 a b)).
Lemma wsum_pos fs : forall ds, (forall f, In f fs -> integral (fa_on f) (fa_int f) /\ 0 < fa_diam f) -> 0 <= wsum fs ds ds.
Proof.
  unfold wsum. induction fs as [|f fs IH]; intros [|[d|] ds] HF; cbn [vfsum3]; try lra; pose proof (IH ds (fun f' K => HF f' (or_intror K))); [|lra].
  destruct (HF f (or_introl eq_refl)) as [FI Df]. pose proof (vdot_sq_pos _ _ FI 3 d) as Q. pose proof (Rinv_0_lt_compat _ Df).
  pose proof (Rmult_le_pos _ _ (Rlt_le _ _ H0) Q). lra.
Qed.
Lemma wsum_sym fs : forall ds es, (forall f, In f fs -> integral (fa_on f) (fa_int f)) -> wsum fs ds es = wsum fs es ds.
Proof.
  unfold wsum. induction fs as [|f fs IH]; intros [|[d|] ds] [|[e|] es] HF; cbn [vfsum3]; try reflexivity; rewrite (IH ds es (fun f' K => HF f' (or_intror K))); [|reflexivity].
  rewrite (vdot_comm _ _ (HF f (or_introl eq_refl))). reflexivity.
Qed.

Lemma neg_jumps_zero (on : pt -> Prop) V W : (forall a x, (a < 3)%nat -> on x -> peval (W a) x = - peval (V a) x) ->
  forall fs, (forall f, In f fs -> integral (fa_on f) (fa_int f)) -> (forall f, In f fs -> forall x, fa_on f x -> on x) ->
  forall tb us ds es, sprojs fs tb us V -> tjumps 1 1 fs tb us W ds -> wsum fs ds es = 0.
Proof.
    intros E. induction fs as [|f fs IH]; intros FIs Fon [|b tb'] [|[w|] us] [|[d|] ds] [|[e|] es]; unfold wsum; cbn [tjumps sprojs vfsum3]; try contradiction; try reflexivity.
    intros [Hw HF] [J1 J]. fold (wsum fs ds es). rewrite (IH (fun f' K => FIs f' (or_intror K)) (fun f' K => Fon f' (or_intror K)) tb' us ds es HF J). pose proof (FIs f (or_introl eq_refl)) as FI.
    rewrite (vdot_ext _ _ FI 3 d e (fun _ => PC 0) e); [rewrite (I_zero _ _ FI); [lra|intros x _; rewrite peval_vdot; apply sg_zero; intros; cbn; ring]| |reflexivity].
    intros a x Ha Hx. apply (l2span_unique f FI (v_size b) (v_comp b) (vcombo 1 w 1 W) (fun _ => PC 0) d (fun _ => PC 0) J1); [| |exact Ha|exact Hx].
    - split; [exists (fun _ => 0); intros a' y _ _; rewrite peval_vlin; symmetry; cbn [peval]; apply sg_zero; intros; ring|reflexivity].
    - intros j Hj. rewrite (vdot_combo _ _ FI), (proj2 Hw j Hj).
      rewrite (I_zero _ _ FI (vdot 3 (v_comp b j) (fun _ => PC 0))) by (intros y _; rewrite peval_vdot; apply sg_zero; intros; cbn; ring).
      rewrite (vdot_ext _ _ FI 3 (v_comp b j) W (v_comp b j) (fun a => pscal (-1) (V a))).
      + rewrite (I_ext _ _ FI (vdot 3 (v_comp b j) (fun a => pscal (-1) (V a))) (pscal (-1) (vdot 3 (v_comp b j) V))); [rewrite (int_scal _ _ FI); ring|].
        intros y. unfold pscal at 2. cbn [peval]. rewrite !peval_vdot. cbn [sg pscal peval]. ring.
      + reflexivity.
      + intros a' y Ha' Hy. rewrite (E a' y Ha' (Fon f (or_introl eq_refl) y Hy)). unfold pscal. cbn [peval]. ring.
Qed.

(** projections on the functions of the faces have the moments of V against the tangential functions that these span *)
Lemma sprojs_sum k V t fs : forall tb us, (forall f, In f fs -> integral (fa_on f) (fa_int f)) -> Forall2 (tb_spans k) fs tb -> sprojs fs tb us V -> vdeg 3 t k ->
  vfsum2 fs us (fun f uF => fa_int f (vdot 3 (pcross t (fa_normal f)) uF)) = fsum fs (fun f => fa_int f (vdot 3 V (pcross t (fa_normal f)))).
Proof.
  induction fs as [|f fs IH]; intros [|b tb] [|[u|] us] HF HT HP Ht; cbn [sprojs] in HP; try contradiction; cbn [vfsum2 fsum]; [reflexivity|].
  destruct HP as ((_ & Hu) & HP). inversion HT as [|? ? ? ? Hb HT']; subst. rewrite (IH tb us (fun f' H => HF f' (or_intror H)) HT' HP Ht).
  pose proof (HF f (or_introl eq_refl)) as Hf. rewrite (vdot_comm _ _ Hf 3 V). f_equal.
  destruct (Hb (pcross t (fa_normal f)) (deg_pcross t _ k Ht) (cross_tangent f t)) as (s & Hs).
  rewrite (vdot_ext _ _ Hf 3 _ u (vlin (v_size b) s (v_comp b)) u) by (auto; intros; apply Hs; assumption).
  rewrite (vdot_ext _ _ Hf 3 (pcross t (fa_normal f)) V (vlin (v_size b) s (v_comp b)) V) by (auto; intros; apply Hs; assumption).
  rewrite !(vdot_lin_l _ _ Hf). apply sg_ext. intros j Hj. rewrite (Hu j Hj). reflexivity.
Qed.

Section Chho.
  Context (P : polytope) (c : scell) (HC : cell_fits 3 P c).
  Let HP := cf_poly _ _ _ HC.
  Let HI := poly_int _ _ HP.
  Context (ldlt : nat -> mtx -> (nat -> R) -> nat -> R) (HS : solves_spd ldlt) (cd rd fd : nat) (Hcd : (cd <= rd)%nat) (Hfd : (fd <= rd)%nat).
  Context (tb : list vbasis) (LT : length tb = length (cl_faces c)) (recop : mtx).
  Let cb := vec_basis 3 (el_basis (cl_elem c) cd).
  Let rb := vec_basis 3 (el_basis (cl_elem c) rd).
  Let N := tdofs c cd tb.
  Let n := (v_size rb - 3)%nat.
  Let Rc := drop3_fun rb N recop.
  Let uT (u : nat -> R) : tf := vcell_fun 3 c cd u.
  Let Rtrace := vaccumulate 3 (el_quad (cl_elem c) (2 * rd)) (vphi cb) (vphi rb) zeroM.
  Let RprojC := add_cols (solveM ldlt (v_size cb) Rtrace (mprod n (shift 0 3 Rtrace) recop)) 0 (v_size cb) (mopp ident).
  Lemma one3 : (3 <= v_size rb)%nat.
  Proof. unfold rb, vec_basis. cbn [v_size]. pose proof (proj1 (cf_one _ _ _ HC rd)). lia. Qed.
  Lemma ccle : (v_size cb <= v_size rb)%nat.
  Proof. pose proof (proj1 (cf_nested _ _ _ HC cd rd Hcd)). unfold cb, rb, vec_basis. cbn [v_size]. lia. Qed.
  Lemma cc_eq j : (j < v_size cb)%nat -> v_comp rb j = v_comp cb j.
  Proof.
    intros Hj. unfold rb, cb, vec_basis in *. cbn [v_comp v_size] in *.
    rewrite (proj2 (cf_nested _ _ _ HC cd rd Hcd) (j / 3)%nat); [reflexivity|]. apply Nat.div_lt_upper_bound; lia.
  Qed.
  Lemma cbdeg j : (j < v_size cb)%nat -> vdeg 3 (v_comp cb j) cd.
  Proof. apply (vec_deg (po_on P)). apply (fit_basis _ _ _ (cf_elem _ _ _ HC)). Qed.
  Lemma rbdeg' j : (j < v_size rb)%nat -> vdeg 3 (v_comp rb j) rd.
  Proof. apply (vec_deg (po_on P)). apply (fit_basis _ _ _ (cf_elem _ _ _ HC)). Qed.
  Lemma rtrace_eq i j : (i < v_size cb)%nat -> (j < v_size rb)%nat -> Rtrace i j = po_int P (vdot 3 (v_comp cb i) (v_comp rb j)).
  Proof.
    intros Hi Hj. apply (vaccumulate_int 3 _ _ HI _ (fit_quad _ _ _ (cf_elem _ _ _ HC))); [reflexivity|reflexivity|].
    apply (deg_le_mono _ (cd + rd)); [lia|]. apply deg_vdot; [apply cbdeg|apply rbdeg']; assumption.
  Qed.
  Let GC := fun i j => po_int P (vdot 3 (v_comp cb i) (v_comp cb j)).
  Lemma cmass_eq i j : (i < v_size cb)%nat -> (j < v_size cb)%nat -> Rtrace i j = GC i j.
  Proof. intros Hi Hj. rewrite rtrace_eq by (pose proof ccle; lia). rewrite cc_eq by exact Hj. reflexivity. Qed.
  Lemma cmass_spd : spd (v_size cb) Rtrace.
  Proof.
    apply (spd_ext _ GC Rtrace); [intros; symmetry; apply cmass_eq; assumption|]. apply (vgram_spd _ _ HI 3).
    apply (vec_indep (po_on P) cd 3); [lia|]. apply (fit_basis _ _ _ (cf_elem _ _ _ HC)).
  Qed.
  (** the function of the cell matrix: the projection of R u, minus uT *)
  Let pT (u : nat -> R) : tf := vlin (v_size cb) (mv N RprojC u) (v_comp cb).
  Lemma pT_eq u : l2vec (po_int P) 3 cd (vsub (Rc u) (uT u)) (pT u).
  Proof.
    apply (l2vec_basis (po_on P) (po_int P) HI 3 (cl_elem c) (cf_elem _ _ _ HC) cd).
    - apply vdeg_vlin, cbdeg.
    - fold cb. intros i Hi. rewrite (vdot_sub3 _ _ HI). unfold pT. rewrite <- (vgram_lin _ _ HI). fold GC.
      rewrite (mv_ext _ GC (mv N RprojC u) (fun j => mv N (solveM ldlt (v_size cb) Rtrace (mprod n (shift 0 3 Rtrace) recop)) u j + - u j)).
      2:{ intros j Hj. unfold RprojC. rewrite mv_add_cols by (unfold N, tdofs; fold cb; lia). rewrite mv_opp, mv_ident by exact Hj. reflexivity. }
      rewrite (mv_ext_m' _ GC Rtrace) by (intros; symmetry; apply cmass_eq; assumption).
      transitivity (mv (v_size cb) Rtrace (mv N (solveM ldlt (v_size cb) Rtrace (mprod n (shift 0 3 Rtrace) recop)) u) i - mv (v_size cb) Rtrace u i).
      { unfold mv at 1 3 5. unfold Rminus. rewrite <- sg_opp, <- sg_plus. apply sg_ext. intros. ring. }
      rewrite (mv_solveM ldlt N (v_size cb) Rtrace _ u i HS cmass_spd Hi). rewrite mv_mprod. f_equal.
      + unfold Rc, drop3_fun. rewrite (vdot_lin_r _ _ HI). fold n. unfold mv at 1. apply sg_ext. intros j Hj. unfold shift. cbn [Nat.add].
        rewrite rtrace_eq by (try exact Hi; pose proof one3; unfold n in Hj; lia). unfold mv. ring.
      + f_equal. rewrite (mv_ext_m' _ Rtrace GC) by (intros; apply cmass_eq; assumption). unfold GC. rewrite (vgram_lin _ _ HI). reflexivity.
  Qed.
  Lemma pT_face u p : l2vec (po_int P) 3 cd (Rc u) p -> forall f, In f (po_facets P) -> forall a x, (a < 3)%nat -> fa_on f x ->
    peval (vsub (pT u) (Rc u) a) x = peval (vsub (vsub p (uT u)) (Rc u) a) x.
  Proof.
    intros Hp f Hf a x Ha Hx. destruct (poly_facets _ _ HP f Hf) as (_ & Fon).
    assert (E : l2vec (po_int P) 3 cd (vsub (Rc u) (uT u)) (vsub p (uT u))).
    { destruct Hp as [Dp Tp]. split; [apply vdeg_sub; [exact Dp|apply vdeg_vlin, cbdeg]|]. intros w Hw. rewrite !(vdot_sub3 _ _ HI), (Tp w Hw). reflexivity. }
    pose proof (l2vec_eq (po_on P) (po_int P) HI 3 cd _ _ _ (pT_eq u) E a x Ha (Fon x Hx)) as K.
    unfold vsub, psubp, pscal in K |- *. cbn [peval] in K |- *. rewrite K. reflexivity.
  Qed.
  Lemma chho_face_form f fc b off data : face_fit f fc -> tb_fits fd f b -> unit_normal f -> (off + v_size b <= N)%nat ->
    exists A, chho_face ldlt cb rb rd recop RprojC (off, data) (fc, b) = ((off + v_size b)%nat, maddm data (mscalm (/ fa_diam f) A)) /\
      exists w, (forall u, l2span f (v_size b) (v_comp b) (vcombo 1 (vlin (v_size b) (fun j => u (off + j)%nat) (v_comp b)) 1 (vsub (pT u) (Rc u))) (w u)) /\
      forall u v, bil N A v u = fa_int f (vdot 3 (w u) (w v)).
  Proof.
    intros [[FF [Hn Hd]] FI] [Hb Ib] Un HN. unfold chho_face. cbn [fst snd]. rewrite Hd. eexists. split; [reflexivity|].
    set (m := v_size b) in *. set (mass := vaccumulate 3 _ (vphi b) (vphi b) zeroM). set (ctr := vaccumulate 3 _ (vphi b) (fun x j => cross3 (fc_normal fc) (cross3 (vphi cb x j) (fc_normal fc))) zeroM).
    set (rtr := vaccumulate 3 _ (vphi b) (fun x j => cross3 (fc_normal fc) (cross3 (vphi rb x _) (fc_normal fc))) zeroM).
    set (G := fun i j => fa_int f (vdot 3 (v_comp b i) (v_comp b j))).
    assert (EM : forall i j, (i < m)%nat -> (j < m)%nat -> mass i j = G i j).
    { intros i j Hi Hj. apply (vaccumulate_int 3 _ _ FI _ (fit_quad _ _ _ FF)); [reflexivity|reflexivity|].
      apply (deg_le_mono _ (fd + fd)); [lia|]. apply deg_vdot; apply Hb; assumption. }
    assert (SG : spd m G) by exact (vgram_spd _ _ FI 3 m (v_comp b) Ib).
    assert (SM : spd m mass) by (apply (spd_ext m G mass); [intros; symmetry; apply EM; assumption|exact SG]).
    assert (EC : forall i j, (i < m)%nat -> (j < v_size cb)%nat -> ctr i j = fa_int f (vdot 3 (v_comp b i) (v_comp cb j))).
    { intros i j Hi Hj. unfold ctr. rewrite (vaccumulate_int 3 _ _ FI _ (fit_quad _ _ _ FF) (2 * rd) _ _ (v_comp b i) (ptang (v_comp cb j) (fa_normal f))).
      - apply (int_ext _ _ FI). intros x Hx. apply dot_tang; [exact Hx|apply Hb, Hi|exact Un].
      - reflexivity.
      - intros x a Ha. rewrite Hn. apply tang_eq, Ha.
      - apply (deg_le_mono _ (fd + cd)); [lia|]. apply deg_vdot; [apply Hb, Hi|]. apply deg_ptang, cbdeg, Hj. }
    assert (ER : forall i j, (i < m)%nat -> (j < n)%nat -> rtr i j = fa_int f (vdot 3 (v_comp b i) (v_comp rb (3 + j)))).
    { intros i j Hi Hj. unfold rtr. rewrite (vaccumulate_int 3 _ _ FI _ (fit_quad _ _ _ FF) (2 * rd) _ _ (v_comp b i) (ptang (v_comp rb (3 + j)) (fa_normal f))).
      - apply (int_ext _ _ FI). intros x Hx. apply dot_tang; [exact Hx|apply Hb, Hi|exact Un].
      - reflexivity.
      - intros x a Ha. rewrite Hn. apply tang_eq, Ha.
      - apply (deg_le_mono _ (fd + rd)); [lia|]. apply deg_vdot; [apply Hb, Hi|]. apply deg_ptang, rbdeg'. unfold n in Hj. pose proof one3. lia. }
    set (rhs := maddm _ _). exists (fun u => vlin m (mv N rhs u) (v_comp b)). split.
    - intros u. split; [exists (mv N rhs u); reflexivity|]. intros i Hi.
      rewrite (vdot_combo _ _ FI), (vdot_sub3 _ _ FI), <- !(vgram_lin _ _ FI m (v_comp b)). fold G.
      set (X := mv N (solveM ldlt m mass (mprod n rtr recop)) u). set (Y := mv N (solveM ldlt m mass (mprod (v_size cb) ctr RprojC)) u).
      rewrite (mv_ext m G (mv N rhs u) (fun j => u (off + j)%nat - X j + Y j)).
      2:{ intros j Hj. unfold rhs. rewrite mv_madd, mv_add_cols by exact HN. rewrite mv_opp, mv_ident by exact Hj. fold n. fold X Y. ring. }
      transitivity (mv m G (fun j => u (off + j)%nat) i - mv m mass X i + mv m mass Y i).
      { rewrite (mv_ext_m' m mass G X), (mv_ext_m' m mass G Y) by (intros; apply EM; assumption). unfold mv at 1 2 3 4. unfold Rminus. rewrite <- sg_opp, <- !sg_plus. apply sg_ext. intros. ring. }
      unfold X, Y. rewrite !(mv_solveM ldlt N m mass _ u i HS SM Hi), !mv_mprod.
      rewrite (mv_ext_m' n rtr (fun i j => fa_int f (vdot 3 (v_comp b i) (v_comp rb (3 + j))))) by (intros; apply ER; assumption).
      rewrite (mv_ext_m' (v_size cb) ctr (fun i j => fa_int f (vdot 3 (v_comp b i) (v_comp cb j)))) by (intros; apply EC; assumption).
      assert (E1 : mv n (fun i j => fa_int f (vdot 3 (v_comp b i) (v_comp rb (3 + j)))) (mv N recop u) i = fa_int f (vdot 3 (v_comp b i) (Rc u))).
      { unfold Rc, drop3_fun. rewrite (vdot_lin_r _ _ FI). fold n. unfold mv at 1. apply sg_ext. intros j Hj. unfold mv. ring. }
      assert (E2 : mv (v_size cb) (fun i j => fa_int f (vdot 3 (v_comp b i) (v_comp cb j))) (mv N RprojC u) i = fa_int f (vdot 3 (v_comp b i) (pT u))).
      { unfold pT. rewrite (vdot_lin_r _ _ FI). unfold mv at 1. apply sg_ext. intros. ring. }
      rewrite E1, E2. ring.
    - intros u v. rewrite bil_mass. rewrite (vdot_comm _ _ FI), (vdot_lin_l _ _ FI). apply sg_ext. intros i Hi. f_equal.
      rewrite (mv_ext_m' m mass G) by (intros; apply EM; assumption). unfold G. rewrite (vgram_lin _ _ FI m (v_comp b)). reflexivity.
  Qed.
  Lemma chho_fold fs fcs : Forall2 face_fit fs fcs -> forall tb', Forall2 (tb_fits fd) fs tb' -> (forall f, In f fs -> unit_normal f /\ In f (po_facets P)) ->
    forall off M u v p q ds es, (off + vface_dofs (tlist tb') <= N)%nat -> l2vec (po_int P) 3 cd (Rc u) p -> l2vec (po_int P) 3 cd (Rc v) q ->
    tjumps 1 1 fs tb' (vface_funs off (tlist tb') u) (vsub (vsub p (uT u)) (Rc u)) ds -> tjumps 1 1 fs tb' (vface_funs off (tlist tb') v) (vsub (vsub q (uT v)) (Rc v)) es ->
    bil N (snd (fold_left (chho_face ldlt cb rb rd recop RprojC) (combine fcs tb') (off, M))) v u = bil N M v u + wsum fs ds es.
  Proof.
    intros H. induction H as [|f fc fs fcs Hf H IH]; intros tb' HT HU off M u v p q ds es Hoff Hp Hq Ju Jv; inversion HT as [|? b ? tb2 Hb HT']; subst.
    - destruct ds; [|contradiction]. unfold wsum. cbn. ring.
    - cbn [tlist map vface_funs tjumps] in Ju, Jv. fold (tlist tb2) in Ju, Jv. destruct ds as [|[du|] ds]; try contradiction. destruct es as [|[dv|] es]; try contradiction.
      cbn [tlist map vface_dofs] in Hoff. fold (tlist tb2) in Hoff. destruct Ju as [Du Ju]. destruct Jv as [Dv Jv].
      destruct (HU f (or_introl eq_refl)) as [Un Hin].
      destruct (chho_face_form f fc b off M Hf Hb Un ltac:(lia)) as (A & EA & w & Hw & HA).
      cbn [combine fold_left]. rewrite EA. rewrite (IH tb2 HT' (fun f' K => HU f' (or_intror K)) (off + v_size b)%nat _ u v p q ds es ltac:(lia) Hp Hq Ju Jv). unfold wsum. cbn [vfsum3].
      rewrite bil_add, bil_scal, HA. pose proof (proj2 Hf) as FI.
      assert (EX : forall u p d, l2vec (po_int P) 3 cd (Rc u) p -> l2span f (v_size b) (v_comp b) (vcombo 1 (vlin (v_size b) (fun j => u (off + j)%nat) (v_comp b)) 1 (vsub (vsub p (uT u)) (Rc u))) d ->
        forall a x, (a < 3)%nat -> fa_on f x -> peval (d a) x = peval (w u a) x).
      { intros u' p' d Hp' D a x Ha Hx. apply (l2span_unique f FI _ _ _ _ _ _ D (Hw u')); auto. intros j Hj. rewrite !(vdot_combo _ _ FI). f_equal. f_equal.
        apply (vdot_ext _ _ FI); [reflexivity|]. intros a' y Ha' Hy. symmetry. apply (pT_face u' p' Hp' f Hin); assumption. }
      rewrite (vdot_ext _ _ FI 3 du dv (w u) (w v)); [ring| |]; intros a x Ha Hx; [apply (EX u p)|apply (EX v q)]; assumption.
  Qed.
  Context (HT : Forall2 (tb_fits fd) (po_facets P) tb) (HU : forall f, In f (po_facets P) -> unit_normal f).
  Lemma chho_prog : exists S, curl_hho_stabilization ldlt c cd rd tb recop = Some S /\
    forall u v ds es, rec_jumps P cd tb (uT u) (tfaces c cd tb u) (Rc u) ds -> rec_jumps P cd tb (uT v) (tfaces c cd tb v) (Rc v) es -> bil N S v u = wsum (po_facets P) ds es.
  Proof.
    unfold curl_hho_stabilization. fold cb rb. rewrite (proj2 (Nat.leb_le _ _) ccle). fold Rtrace. fold n. fold RprojC. eexists. split; [reflexivity|].
    intros u v ds es (p & Hp & Ju) (q & Hq & Jv).
    rewrite (chho_fold _ _ (faces_fit 3 P c HC) tb HT (fun f K => conj (HU f K) K) _ _ u v p q ds es); [rewrite bil_zero; ring|unfold N, tdofs; reflexivity| | | |]; assumption.
  Qed.
  Lemma rec_jumps_exist u : exists ds, rec_jumps P cd tb (uT u) (tfaces c cd tb u) (Rc u) ds.
  Proof.
    set (b := fun i => po_int P (vdot 3 (v_comp cb i) (Rc u))). set (p := vlin (v_size cb) (ldlt (v_size cb) GC b) (v_comp cb)).
    assert (Hp : l2vec (po_int P) 3 cd (Rc u) p).
    { apply (l2vec_basis (po_on P) (po_int P) HI 3 (cl_elem c) (cf_elem _ _ _ HC) cd); [apply vdeg_vlin, cbdeg|]. fold cb. intros i Hi. unfold p. rewrite <- (vgram_lin _ _ HI). fold GC.
      apply (HS (v_size cb) GC b); [|exact Hi]. apply (spd_ext _ Rtrace GC); [intros; apply cmass_eq; assumption|exact cmass_spd]. }
    destruct (tjumps_exist P c HC ldlt HS cd fd 1 1 tb HT u (vsub (vsub p (uT u)) (Rc u))) as (ds & J). exists ds, p. split; assumption.
  Qed.
  (** no jump for an interpolate whose reconstruction is exact up to degree cd *)
  Lemma rec_jumps_zero V u ds es : l2vec (po_int P) 3 cd V (uT u) -> sprojs (po_facets P) tb (tfaces c cd tb u) V -> vdeg 3 (vsub (Rc u) V) cd ->
    rec_jumps P cd tb (uT u) (tfaces c cd tb u) (Rc u) ds -> wsum (po_facets P) ds es = 0.
  Proof.
    intros HV HF HD (p & Hp & J).
    assert (E : forall a x, (a < 3)%nat -> po_on P x -> peval (vsub (vsub p (uT u)) (Rc u) a) x = - peval (V a) x).
    { intros a x Ha Hx.
      assert (K : l2vec (po_int P) 3 cd (vsub (Rc u) V) (vsub p (uT u))).
      { destruct Hp as [Dp Tp]. destruct HV as [DV TV]. split; [apply vdeg_sub; assumption|]. intros w Hw. rewrite !(vdot_sub3 _ _ HI), (Tp w Hw), (TV w Hw). reflexivity. }
      pose proof (l2vec_eq (po_on P) (po_int P) HI 3 cd _ _ _ K (conj HD (fun w _ => eq_refl)) a x Ha Hx) as Q.
      unfold vsub, psubp, pscal in Q |- *. cbn [peval] in Q |- *. lra. }
    exact (neg_jumps_zero (po_on P) V _ E (po_facets P) (facet_int 3 P c HC) (fun f K => proj2 (poly_facets _ _ HP f K)) tb _ ds es HF J).
  Qed.
End Chho.
