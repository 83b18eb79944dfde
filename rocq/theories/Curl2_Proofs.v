(** The stabilisations of the curl operators, and the projection on the faces. *)
From Coq Require Import List Arith Reals Lra Lia Bool.
From Verif Require Import Poly_Spec Poly_Proofs HHO_Spec VHHO_Spec SymL_Spec Curl_Spec HHO_Model VHHO_Model Curl_Model HHO_Setting VHHO_Setting Curl_Setting
  HHO_Proofs HHO2_Proofs HHO3_Proofs HHO4_Proofs HHO6_Proofs HHO7_Proofs HHO8_Proofs HHO9_Proofs VHHO_Proofs VHHO2_Proofs VHHO3_Proofs VHHO4_Proofs Curl_Proofs.
Import ListNotations.
Open Scope R_scope.

Lemma mv_ext_m' n A B u i : (forall j, (j < n)%nat -> A i j = B i j) -> mv n A u i = mv n B u i.
Proof. intros H. apply sg_ext. intros j Hj. rewrite H by exact Hj. reflexivity. Qed.
Lemma vgram_lin on I (HI : integral on I) n B k i : mv n (fun i j => I (vdot 3 (B i) (B j))) k i = I (vdot 3 (B i) (vlin n k B)).
Proof. rewrite (vdot_lin_r _ _ HI). unfold mv. apply sg_ext. intros. ring. Qed.
Lemma vdot_combo on I (HI : integral on I) W h U k V : I (vdot 3 W (vcombo h U k V)) = h * I (vdot 3 W U) + k * I (vdot 3 W V).
Proof.
  rewrite (I_ext _ _ HI _ (PAdd (pscal h (vdot 3 W U)) (pscal k (vdot 3 W V)))).
  - rewrite (int_add _ _ HI), !(int_scal _ _ HI). reflexivity.
  - intros x. unfold vcombo, pscal. cbn [peval]. rewrite !peval_vdot. cbn [sg peval]. ring.
Qed.
Lemma l2span_unique f (HF : integral (fa_on f) (fa_int f)) n B V V' r r' : l2span f n B V r -> l2span f n B V' r' ->
  (forall j, (j < n)%nat -> fa_int f (vdot 3 (B j) V) = fa_int f (vdot 3 (B j) V')) -> forall a x, (a < 3)%nat -> fa_on f x -> peval (r a) x = peval (r' a) x.
Proof.
  intros [[k Hk] Hr] [[k' Hk'] Hr'] E a x Ha Hx.
  assert (D : forall a x, (a < 3)%nat -> fa_on f x -> peval (vsub r r' a) x = peval (vlin n (fun j => k j - k' j) B a) x).
  { intros b y Hb Hy. unfold vsub, psubp, pscal. cbn [peval]. rewrite Hk, Hk' by assumption. rewrite !peval_vlin.
    rewrite (sg_ext n (fun j => (k j - k' j) * _) (fun j => k j * peval (B j b) y + (-1) * (k' j * peval (B j b) y))) by (intros; ring). rewrite sg_plus, sg_scal. ring. }
  assert (Z : fa_int f (vdot 3 (vsub r r') (vsub r r')) = 0).
  { rewrite (vdot_ext _ _ HF 3 (vsub r r') (vsub r r') (vlin n (fun j => k j - k' j) B) (vsub r r')) by (auto; intros; apply D; assumption).
    rewrite (vdot_lin_l _ _ HF). apply sg_zero. intros j Hj.
    rewrite (I_ext _ _ HF (vdot 3 (B j) (vsub r r')) (psubp (vdot 3 (B j) r) (vdot 3 (B j) r'))).
    - rewrite (I_sub _ _ HF), Hr, Hr', E by exact Hj. ring.
    - intros y. unfold psubp at 1, pscal. cbn [peval]. rewrite !peval_vdot. unfold vsub, psubp, pscal. cbn [sg peval]. ring. }
  pose proof (vdot_sq_def _ _ HF 3 _ Z a x Ha Hx) as K. unfold vsub, psubp, pscal in K. cbn [peval] in K. lra.
Qed.
(** the tangential part *)
Lemma dot_tang f w V x : fa_on f x -> tangent f w -> unit_normal f -> peval (vdot 3 w (ptang V (fa_normal f))) x = peval (vdot 3 w V) x.
Proof.
  intros Hx T U. specialize (T x Hx). unfold unit_normal in U. rewrite !peval_vdot. cbn [sg] in T, U.
  set (n := fa_normal f) in *.
  transitivity ((n 0%nat * n 0%nat + n 1%nat * n 1%nat + n 2%nat * n 2%nat) * sg 3 (fun a => peval (w a) x * peval (V a) x)
     - sg 3 (fun a => n a * peval (V a) x) * (n 0%nat * peval (w 0%nat) x + n 1%nat * peval (w 1%nat) x + n 2%nat * peval (w 2%nat) x)).
  - unfold ptang, pcross, psubp, pscal, nxx. cbn [sg nx peval]. ring.
  - replace (n 0%nat * n 0%nat + n 1%nat * n 1%nat + n 2%nat * n 2%nat) with 1 by lra.
    replace (n 0%nat * peval (w 0%nat) x + n 1%nat * peval (w 1%nat) x + n 2%nat * peval (w 2%nat) x) with 0 by lra. ring.
Qed.
Lemma tang_lin n k B nn a x : peval (ptang (vlin n k B) nn a) x = sg n (fun j => k j * peval (ptang (B j) nn a) x).
Proof. unfold ptang, psubp, pscal. cbn [peval]. rewrite !pcross_lin, <- !sg_scal, <- sg_plus. apply sg_ext. intros. ring. Qed.

Section Chdg.
  Context (P : polytope) (c : scell) (HC : cell_fits 3 P c).
  Context (ldlt : nat -> mtx -> (nat -> R) -> nat -> R) (HS : solves_spd ldlt) (cd fd qd : nat) (Hq : (2 * Nat.max cd fd <= qd)%nat) (kF kT s : R).
  Let cb := vec_basis 3 (el_basis (cl_elem c) cd).
  Let uT (u : nat -> R) : tf := vcell_fun 3 c cd u.
  Lemma chdg_face_form N f fc b off data : face_fit f fc -> tb_fits fd f b -> unit_normal f -> (v_size cb <= N)%nat -> (off + v_size b <= N)%nat ->
    exists A, chdg_face ldlt cb qd kF kT s (off, data) (fc, b) = ((off + v_size b)%nat, maddm data (mscalm s A)) /\
      exists w, (forall u, l2span f (v_size b) (v_comp b) (vcombo kF (vlin (v_size b) (fun j => u (off + j)%nat) (v_comp b)) kT (uT u)) (w u)) /\
      forall u v, bil N A v u = fa_int f (vdot 3 (w u) (w v)).
  Proof.
    intros [[FF [Hn _]] FI] [Hb Ib] Un Hc HN. unfold chdg_face. cbn [fst snd]. eexists. split; [reflexivity|].
    set (n := v_size b) in *. set (mass := vaccumulate 3 _ (vphi b) (vphi b) zeroM). set (trace := vaccumulate 3 _ (vphi b) _ zeroM).
    set (G := fun i j => fa_int f (vdot 3 (v_comp b i) (v_comp b j))).
    assert (EM : forall i j, (i < n)%nat -> (j < n)%nat -> mass i j = G i j).
    { intros i j Hi Hj. apply (vaccumulate_int 3 _ _ FI _ (fit_quad _ _ _ FF)); [reflexivity|reflexivity|].
      apply (deg_le_mono _ (fd + fd)); [lia|]. apply deg_vdot; apply Hb; assumption. }
    assert (SG : spd n G) by exact (vgram_spd _ _ FI 3 n (v_comp b) Ib).
    assert (SM : spd n mass) by (apply (spd_ext n G mass); [intros; symmetry; apply EM; assumption|exact SG]).
    assert (ET : forall u i, (i < n)%nat -> mv (v_size cb) trace u i = fa_int f (vdot 3 (v_comp b i) (uT u))).
    { intros u i Hi. unfold uT, vcell_fun. fold cb. rewrite (vdot_lin_r _ _ FI). unfold mv. apply sg_ext. intros j Hj. rewrite Rmult_comm. f_equal.
      unfold trace. rewrite (vaccumulate_int 3 _ _ FI _ (fit_quad _ _ _ FF) qd _ _ (v_comp b i) (ptang (v_comp cb j) (fa_normal f))).
      - apply (int_ext _ _ FI). intros x Hx. apply dot_tang; [exact Hx|apply Hb, Hi|exact Un].
      - reflexivity.
      - intros x a Ha. rewrite Hn. apply tang_eq, Ha.
      - apply (deg_le_mono _ (fd + cd)); [lia|]. apply deg_vdot; [apply Hb, Hi|]. apply deg_ptang.
        apply (vec_deg (po_on P)); [apply (fit_basis _ _ _ (cf_elem _ _ _ HC))|exact Hj]. }
    set (rhs := add_cols _ _ _ _). exists (fun u => vlin n (mv N rhs u) (v_comp b)).
    assert (ER : forall u i, (i < n)%nat -> mv N rhs u i = kF * u (off + i)%nat + kT * mv (v_size cb) (solveM ldlt n mass trace) u i).
    { intros u i Hi. unfold rhs. rewrite mv_add_cols by lia. rewrite mv_add_cols by lia. rewrite mv_zero, !mv_mscal, mv_ident by exact Hi. rewrite Rplus_0_l. reflexivity. }
    split.
    - intros u. split; [exists (mv N rhs u); reflexivity|]. intros i Hi. rewrite (vdot_combo _ _ FI), <- (ET u i Hi), <- !(vgram_lin _ _ FI n (v_comp b)). fold G.
      rewrite (mv_ext n G (mv N rhs u) (fun j => kF * u (off + j)%nat + kT * mv (v_size cb) (solveM ldlt n mass trace) u j)) by (intros; apply ER; assumption).
      rewrite <- (mv_solveM ldlt (v_size cb) n mass trace u i HS SM Hi).
      rewrite (mv_ext_m' n mass G) by (intros; apply EM; assumption).
      unfold mv. rewrite <- !sg_scal, <- sg_plus. apply sg_ext. intros. ring.
    - intros u v. rewrite bil_mass. rewrite (vdot_comm _ _ FI), (vdot_lin_l _ _ FI). apply sg_ext. intros i Hi. f_equal.
      rewrite (mv_ext_m' n mass G) by (intros; apply EM; assumption). unfold G. rewrite (vgram_lin _ _ FI n (v_comp b)). reflexivity.
  Qed.
  Lemma chdg_fold N fs fcs : Forall2 face_fit fs fcs -> (v_size cb <= N)%nat -> forall tb, Forall2 (tb_fits fd) fs tb -> (forall f, In f fs -> unit_normal f) ->
    forall off M u v ds es, (off + vface_dofs (tlist tb) <= N)%nat ->
    tjumps kF kT fs tb (vface_funs off (tlist tb) u) (uT u) ds -> tjumps kF kT fs tb (vface_funs off (tlist tb) v) (uT v) es ->
    bil N (snd (fold_left (chdg_face ldlt cb qd kF kT s) (combine fcs tb) (off, M))) v u = bil N M v u + s * vfsum3 fs ds es (fun f a b => fa_int f (vdot 3 a b)).
  Proof.
    intros H Hc. induction H as [|f fc fs fcs Hf H IH]; intros tb HT HU off M u v ds es Hoff Ju Jv; inversion HT as [|? b ? tb' Hb HT']; subst.
    - destruct ds; [|contradiction]. cbn. ring.
    - cbn [tlist map vface_funs tjumps] in Ju, Jv. fold (tlist tb') in Ju, Jv. destruct ds as [|[du|] ds]; try contradiction. destruct es as [|[dv|] es]; try contradiction.
      cbn [tlist map vface_dofs] in Hoff. fold (tlist tb') in Hoff. destruct Ju as [Du Ju]. destruct Jv as [Dv Jv].
      destruct (chdg_face_form N f fc b off M Hf Hb (HU f (or_introl eq_refl)) Hc ltac:(lia)) as (A & EA & w & Hw & HA).
      cbn [combine fold_left]. rewrite EA. rewrite (IH tb' HT' (fun f' K => HU f' (or_intror K)) (off + v_size b)%nat _ u v ds es ltac:(lia) Ju Jv). cbn [vfsum3].
      rewrite bil_add, bil_scal, HA. pose proof (proj2 Hf) as FI.
      rewrite (vdot_ext _ _ FI 3 du dv (w u) (w v)); [ring| |]; intros a x Ha Hx.
      + apply (l2span_unique f FI _ _ _ _ _ _ Du (Hw u)); auto.
      + apply (l2span_unique f FI _ _ _ _ _ _ Dv (Hw v)); auto.
  Qed.
  Context (tb : list vbasis) (HT : Forall2 (tb_fits fd) (po_facets P) tb) (HU : forall f, In f (po_facets P) -> unit_normal f).
  Let N := tdofs c cd tb.
  Lemma chdg_form u v ds es : tjumps kF kT (po_facets P) tb (tfaces c cd tb u) (uT u) ds -> tjumps kF kT (po_facets P) tb (tfaces c cd tb v) (uT v) es ->
    bil N (chdg ldlt c cd qd kF kT s tb) v u = s * vfsum3 (po_facets P) ds es (fun f a b => fa_int f (vdot 3 a b)).
  Proof.
    intros Ju Jv. unfold chdg. fold cb. rewrite (chdg_fold N _ _ (faces_fit 3 P c HC) ltac:(unfold N, tdofs; fold cb; lia) tb HT HU _ _ u v ds es); [|unfold N, tdofs; reflexivity|exact Ju|exact Jv].
    rewrite bil_zero. ring.
  Qed.
  Lemma tjumps_exist u V : exists ds, tjumps kF kT (po_facets P) tb (tfaces c cd tb u) V ds.
  Proof.
    unfold tfaces. fold cb. generalize (v_size cb). pose proof (facet_int 3 P c HC) as HF. clear - HF HT HS.
    induction HT as [|f b fs tb Hb H IH]; intros off; [exists []; exact I|]. destruct (IH H (fun f' K => HF f' (or_intror K)) (off + v_size b)%nat) as (ds & J).
    pose proof (HF f (or_introl eq_refl)) as FI. set (W := vcombo kF (vlin (v_size b) (fun j => u (off + j)%nat) (v_comp b)) kT V).
    set (G := fun i j => fa_int f (vdot 3 (v_comp b i) (v_comp b j))).
    exists (Some (vlin (v_size b) (ldlt (v_size b) G (fun i => fa_int f (vdot 3 (v_comp b i) W))) (v_comp b)) :: ds). cbn [tlist map vface_funs tjumps]. split; [|exact J].
    split; [eexists; reflexivity|]. intros i Hi. rewrite <- (vgram_lin _ _ FI). fold G. fold W.
    apply (HS (v_size b) G (fun i => fa_int f (vdot 3 (v_comp b i) W))); [|exact Hi]. exact (vgram_spd _ _ FI 3 _ _ (proj2 Hb)).
  Qed.
  Lemma vfsum3_pos fs : forall ds, (forall f, In f fs -> integral (fa_on f) (fa_int f)) -> 0 <= vfsum3 fs ds ds (fun f a b => fa_int f (vdot 3 a b)).
  Proof.
    induction fs as [|f fs IH]; intros [|[d|] ds] HF; cbn [vfsum3]; try lra; pose proof (IH ds (fun f' K => HF f' (or_intror K))); [|lra].
    pose proof (vdot_sq_pos _ _ (HF f (or_introl eq_refl)) 3 d). lra.
  Qed.
  Lemma vfsum3_sym fs : forall ds es, (forall f, In f fs -> integral (fa_on f) (fa_int f)) -> vfsum3 fs ds es (fun f a b => fa_int f (vdot 3 a b)) = vfsum3 fs es ds (fun f a b => fa_int f (vdot 3 a b)).
  Proof.
    induction fs as [|f fs IH]; intros [|[d|] ds] [|[e|] es] HF; cbn [vfsum3]; try reflexivity; rewrite (IH ds es (fun f' K => HF f' (or_intror K))); [|reflexivity].
    rewrite (vdot_comm _ _ (HF f (or_introl eq_refl))). reflexivity.
  Qed.
  (** the jumps of the projection of the cell function are zero *)
  Lemma tjumps_zero fs : forall tb us V ds, (forall f, In f fs -> integral (fa_on f) (fa_int f)) -> Forall2 (tb_fits fd) fs tb -> kF + kT = 0 -> tprojs fd fs us V -> tjumps kF kT fs tb us V ds ->
    forall es, vfsum3 fs ds es (fun f a b => fa_int f (vdot 3 a b)) = 0.
  Proof.
    induction fs as [|f fs IH]; intros [|b tb0] [|[u|] us] V [|[d|] ds] HF HB K HP J [|[e|] es]; cbn [tjumps tprojs vfsum3] in *; try contradiction; try reflexivity.
    destruct HP as [(Du & Tu & Hu) HP]. destruct J as [J1 J]. inversion HB as [|? ? ? ? Hb HB']; subst.
    rewrite (IH tb0 us V ds (fun f' K => HF f' (or_intror K)) HB' K HP J). pose proof (HF f (or_introl eq_refl)) as FI.
    rewrite (vdot_ext _ _ FI 3 d e (fun _ => PC 0) e); [rewrite (I_zero _ _ FI); [lra|intros x _; rewrite peval_vdot; apply sg_zero; intros; cbn; ring]| |reflexivity].
    intros a x Ha Hx. apply (l2span_unique f FI (v_size b) (v_comp b) (vcombo kF u kT V) (fun _ => PC 0) d (fun _ => PC 0) J1); [| |exact Ha|exact Hx].
    - split; [exists (fun _ => 0); intros a' y _ _; rewrite peval_vlin; symmetry; cbn [peval]; apply sg_zero; intros; ring|reflexivity].
    - intros j Hj. rewrite (vdot_combo _ _ FI), (Hu (v_comp b j)) by (apply (proj1 Hb), Hj).
      rewrite (I_zero _ _ FI (vdot 3 (v_comp b j) (fun _ => PC 0))) by (intros y _; rewrite peval_vdot; apply sg_zero; intros; cbn; ring).
      replace kF with (- kT) by lra. ring.
  Qed.
End Chdg.
