(** Proofs about the scalar HHO operators: consistency and kernel of the stabilised operator. *)
From Coq Require Import List Arith Reals Lra Lia Bool.
From Verif Require Import Poly_Spec Poly_Proofs HHO_Spec HHO_Model HHO_Setting HHO_Proofs HHO2_Proofs HHO3_Proofs HHO4_Proofs HHO5_Proofs HHO6_Proofs HHO7_Proofs.
Import ListNotations.
Open Scope R_scope.

Lemma funs_deg fs fcs fd u : Forall2 face_fit fs fcs -> forall off,
  on_facets fs (face_funs off (bases_l (combine fcs (map (fun _ => Some fd) fcs))) u) (fun f uF => deg_le uF fd).
Proof.
  intros H. induction H as [|f fc fs fcs [[FF _] FI] H IH]; intros off; cbn [map combine bases_l fst snd face_funs on_facets]; [exact Logic.I|].
  split; [|apply IH]. apply (fun_deg _ _ _ FF).
Qed.
Lemma on_facets_and fs us (Q Q' : facet -> pexp -> Prop) : on_facets fs us Q -> on_facets fs us Q' -> on_facets fs us (fun f u => Q f u /\ Q' f u).
Proof.
  revert us. induction fs as [|f fs IH]; intros [|[u|] us]; cbn [on_facets]; try tauto.
  - intros (A & B) (A' & B'). repeat split; try assumption. apply IH; assumption.
  - apply IH.
Qed.
Lemma on_facets_all fs us (Q : facet -> pexp -> Prop) : (forall f u, In f fs -> Q f u) -> on_facets fs us Q.
Proof.
  revert us. induction fs as [|f fs IH]; intros [|[u|] us] H; cbn [on_facets]; try exact Logic.I.
  - split; [apply H; left; reflexivity|]. apply IH. intros; apply H; right; assumption.
  - apply IH. intros; apply H; right; assumption.
Qed.
Lemma fsum3_zero_l fs us vs g : on_facets fs us (fun f a => forall b, g f a b = 0) -> fsum3 fs us vs g = 0.
Proof.
  revert us vs. induction fs as [|f fs IH]; intros [|[u|] us] [|[v|] vs]; cbn [on_facets fsum3]; try reflexivity.
  - intros (A & B). rewrite A, (IH _ _ B). lra.
  - apply IH.
Qed.
(** every face has unknowns *)
Lemma fsum_faces d KK uT w fs fcs fd u : Forall2 face_fit fs fcs -> forall off,
  fsum fs (fun f => fa_int f (PMul uT (flux d KK (fa_normal f) w))) +
  fsum2 fs (face_funs off (bases_l (combine fcs (map (fun _ => Some fd) fcs))) u) (fun f uF => fa_int f (PMul (psubp uF uT) (flux d KK (fa_normal f) w))) =
  fsum2 fs (face_funs off (bases_l (combine fcs (map (fun _ => Some fd) fcs))) u) (fun f uF => fa_int f (PMul uF (flux d KK (fa_normal f) w))).
Proof.
  intros H. induction H as [|f fc fs fcs [[FF _] FI] H IH]; intros off; cbn [map combine bases_l fst snd face_funs fsum fsum2]; [lra|].
  rewrite (I_mul_sub_l _ _ FI). specialize (IH (off + b_size (el_basis (fc_elem fc) fd))%nat). unfold bases_l in IH. lra.
Qed.
(** the functions of an interpolate are projections *)
Lemma interp_test ldlt (HS : solves_spd ldlt) p di fd fs fcs : Forall2 face_fit fs fcs -> deg_le p (fd + 2 * di) ->
  forall uF, Forall2 (is_proj ldlt p di) uF (combine fcs (map (fun _ => Some fd) fcs)) ->
  on_facets fs uF (fun f u => forall w, deg_le w fd -> fa_int f (PMul w (psubp p u)) = 0).
Proof.
  intros H Dp. induction H as [|f fc fs fcs [[FF _] FI] H IH]; intros uF PF; cbn [map combine] in PF; inversion PF as [|o fi uF' l' PF1 PF2]; subst; cbn [on_facets]; [exact Logic.I|].
  unfold is_proj in PF1. cbn [fst snd] in PF1. destruct o as [o|]; [|contradiction]. split; [|apply IH; assumption].
  intros w Dw. rewrite (I_mul_sub_r _ _ FI). rewrite (I_ext _ _ FI (PMul w o) (PMul w (proj (fc_elem fc) ldlt fd p di))) by (intros x; cbn [peval]; rewrite PF1; ring).
  rewrite (proj_test _ _ FI _ FF ldlt HS) by assumption. lra.
Qed.

Section Hdi.
  Context (d : nat) (P : polytope) (c : scell) (HC : cell_fits d P c) (K : option mtx) (HK : spd d (tensor_of K)).
  Let HP := cf_poly _ _ _ HC.
  Let HI := poly_int _ _ HP.
  Let KK := tensor_of K.
  Context (ldlt : nat -> mtx -> (nat -> R) -> nat -> R) (HS : solves_spd ldlt).
  Context (rd cd fd : nat) (Hrd : (1 <= rd)%nat) (Hcd : (cd <= rd)%nat).
  Context (proj : bool) (Hproj : (proj = true -> fd <= rd /\ rd <= fd + 1)%nat).
  Let fdi := all_faces c fd.
  Let N := num_dofs c cd fdi.
  Let prog := make_scalar_hho_laplacian ldlt d K proj c (mkDegs cd fd rd).
  Notation E := (en d P KK).
  Notation FORM := (form d P c K cd fdi).
  Definition rec (u : nat -> R) : pexp := rec_fun c rd N (fst prog) u.

  Let rb := el_basis (cl_elem c) rd.
  Lemma h_eq u w : pvars d w -> deg_le w rd -> E (rec u) w = FORM u w.
  Proof.
    unfold rec, prog. rewrite hdi_prog. cbn [fst].
    apply (core_eq d P c HC K ldlt HS rd cd fdi (lap_lhs d K c rd rb) (hdi_rhs d c K ldlt rd cd proj fd)).
    - intros x i Hi. apply (lhs_mv d P c HC K rd x i Hi).
    - apply (lhs_spd d P c HC K HK rd).
    - intros z i Hi. apply (hdi_row d P c HC K ldlt HS rd cd Hrd Hcd proj fd Hproj z i Hi).
  Qed.
  Lemma h_data u v : bil N (snd prog) u v = E (rec u) (rec v).
  Proof.
    unfold rec, prog. rewrite hdi_prog. cbn [fst snd].
    apply (core_data d P c HC K ldlt HS rd cd fdi (lap_lhs d K c rd rb) (hdi_rhs d c K ldlt rd cd proj fd)).
    - intros x i Hi. apply (lhs_mv d P c HC K rd x i Hi).
    - apply (lhs_spd d P c HC K HK rd).
    - intros z i Hi. apply (hdi_row d P c HC K ldlt HS rd cd Hrd Hcd proj fd Hproj z i Hi).
  Qed.
  Lemma h_deg u : deg_le (rec u) rd.
  Proof. apply deg_le_lincomb. intros j Hj. apply (basis_deg _ _ _ (cf_elem _ _ _ HC)). lia. Qed.
  Lemma h_vars u : pvars d (rec u).
  Proof. apply pvars_lincomb. intros; apply (cf_vars _ _ _ HC). Qed.
  Lemma cell_vars u : pvars d (cell_fun c cd u).
  Proof. apply pvars_lincomb. intros; apply (cf_vars _ _ _ HC). Qed.
  Lemma cell_deg u : deg_le (cell_fun c cd u) cd.
  Proof. apply (fun_deg _ _ _ (cf_elem _ _ _ HC)). Qed.
  Lemma len_all : length fdi = length (cl_faces c).
  Proof. apply map_length. Qed.
  Lemma all_some : ~ In None fdi.
  Proof. unfold fdi, all_faces. intros H. apply in_map_iff in H as (y & Ey & _). discriminate. Qed.
  Lemma all_fd k : In (Some k) fdi -> k = fd.
  Proof. unfold fdi, all_faces. intros H. apply in_map_iff in H as (y & Ey & _). congruence. Qed.

  (** a zero gradient on the cell *)
  Lemma en_grad0 p w : (forall k x, (k < d)%nat -> po_on P x -> peval (pdiff k p) x = 0) -> E p w = 0.
  Proof.
    intros H. apply (I_zero _ _ HI). intros x Hx. unfold graddot. rewrite peval_psum. apply sg_zero. intros k Hk. cbn [peval]. rewrite (H k x Hk Hx). ring.
  Qed.

  (** * kernel *)
  Lemma kernel_only u : (rd <= fd + 1)%nat -> E (rec u) (rec u) = 0 ->
    on_facets (po_facets P) (faces_funs c cd fdi u) (fun f uF => forall w, deg_le w fd -> fa_int f (PMul w (psubp (cell_fun c cd u) uF)) = 0) ->
    exists k, (forall x, po_on P x -> peval (cell_fun c cd u) x = k) /\
      on_facets (po_facets P) (faces_funs c cd fdi u) (fun f uF => forall x, fa_on f x -> peval uF x = k).
  Proof.
    intros Hfd ER J.
    assert (Z : FORM u (cell_fun c cd u) = 0).
    { rewrite <- h_eq; [|apply cell_vars|apply (deg_le_mono _ cd); [exact Hcd|apply cell_deg]].
      apply en_grad0. apply (en_def_grad d P HP KK HK). exact ER. }
    unfold form, rhs_form in Z. fold KK in Z. rewrite fsum2_zero in Z.
    - assert (Z' : E (cell_fun c cd u) (cell_fun c cd u) = 0) by lra.
      destruct (en_def d P HP KK HK _ Z') as (k & Hk). exists k. split; [exact Hk|].
      pose proof (funs_deg _ _ fd u (faces_fit d P c HC) (b_size (el_basis (cl_elem c) cd))) as D.
      change (on_facets (po_facets P) (faces_funs c cd fdi u) (fun f uF => deg_le uF fd)) in D.
      pose proof (on_facets_and _ _ _ _ J D) as G. revert G. apply on_facets_impl. clear J D.
      intros f uF Hf (J & D) x Hx. pose proof (fint d P c HC f Hf) as FI.
      assert (Dw : deg_le (psubp uF (PC k)) fd) by (apply deg_le_sub; [exact D|apply deg_le_const]).
      specialize (J _ Dw).
      rewrite (int_ext _ _ FI _ (pscal (-1) (PMul (psubp uF (PC k)) (psubp uF (PC k))))) in J.
      + rewrite (int_scal _ _ FI) in J. pose proof (I_sq_def _ _ FI (psubp uF (PC k)) ltac:(lra) x Hx) as Q. unfold psubp, pscal in Q. cbn [peval] in Q. lra.
      + intros y Hy. unfold psubp, pscal. cbn [peval]. rewrite (Hk y (fon d P c HC f y Hf Hy)). ring.
    - revert J. apply on_facets_impl. intros f uF Hf J. pose proof (fint d P c HC f Hf) as FI.
      assert (Dw : deg_le (flux d KK (fa_normal f) (cell_fun c cd u)) fd).
      { apply (deg_le_mono _ (cd - 1)); [lia|]. apply deg_flux, cell_deg. }
      specialize (J _ Dw). rewrite (I_mul_sub_r _ _ FI) in J. rewrite (I_mul_sub_l _ _ FI).
      rewrite (I_comm _ _ FI uF), (I_comm _ _ FI (cell_fun c cd u)). lra.
  Qed.
  (** a cell function that is constant on the cell is constant *)
  Lemma cell_const u k : (forall x, po_on P x -> peval (cell_fun c cd u) x = k) -> forall x, peval (cell_fun c cd u) x = k.
  Proof.
    intros H x. destruct (cf_one _ _ _ HC cd) as (Hs & H1). set (b := el_basis (cl_elem c) cd) in *.
    destruct (fit_basis _ _ _ (cf_elem _ _ _ HC) cd) as (_ & Ind & _). fold b in Ind.
    set (z := fun j => u j - (if (j =? 0)%nat then k else 0)).
    assert (G : forall y, peval (lincomb (b_size b) z (b_poly b)) y = peval (cell_fun c cd u) y - k).
    { intros y. unfold cell_fun. fold b. rewrite !peval_lincomb. unfold z.
      rewrite (sg_ext (b_size b) _ (fun j => u j * peval (b_poly b j) y + (-1) * (delta 0 j * (k * peval (b_poly b j) y)))).
      - rewrite sg_plus, sg_scal, sg_delta by exact Hs. rewrite H1. lra.
      - intros j Hj. unfold delta. rewrite (Nat.eqb_sym 0 j). destruct (j =? 0)%nat; ring. }
    assert (Z : forall j, (j < b_size b)%nat -> z j = 0) by (apply Ind; intros y Hy; rewrite G, (H y Hy); lra).
    specialize (G x). rewrite peval_lincomb, (sg_zero _ _ (fun j Hj => eq_trans (f_equal (fun t => t * peval (b_poly b j) x) (Z j Hj)) (Rmult_0_l _))) in G. lra.
  Qed.
  Lemma const_form u k : (forall x, po_on P x -> peval (cell_fun c cd u) x = k) ->
    on_facets (po_facets P) (faces_funs c cd fdi u) (fun f uF => forall x, fa_on f x -> peval uF x = k) -> forall w, FORM u w = 0.
  Proof.
    intros HT HF w. unfold form, rhs_form. fold KK.
    rewrite (en_ext d P HP KK _ w (PC k) w) by (intros x; try reflexivity; apply (cell_const u k HT)).
    rewrite en_grad0 by (intros; reflexivity). rewrite fsum2_zero; [lra|]. revert HF. apply on_facets_impl. intros f uF Hf HF.
    apply (I_zero _ _ (fint d P c HC f Hf)). intros x Hx. unfold psubp, pscal. cbn [peval]. rewrite (HF x Hx), (HT x (fon d P c HC f x Hf Hx)). ring.
  Qed.
  Lemma const_rec u : (forall w, pvars d w -> deg_le w rd -> FORM u w = 0) ->
    E (rec u) (rec u) = 0 /\ exists k, forall x, po_on P x -> peval (rec u) x = k.
  Proof.
    intros H. assert (Z : E (rec u) (rec u) = 0) by (rewrite h_eq by (apply h_vars || apply h_deg); apply H; [apply h_vars|apply h_deg]).
    split; [exact Z|]. apply (en_def d P HP KK HK _ Z).
  Qed.

  (** projections of functions that agree with a low-degree function on the cell *)
  Lemma l2_id q r : deg_le q cd -> l2proj (po_int P) cd q r -> forall x, po_on P x -> peval r x = peval q x.
  Proof.
    intros D (Dr & Hr). apply (span_eq _ _ HI cd _ _ _ _ (fit_basis _ _ _ (cf_elem _ _ _ HC) cd) Dr D).
    intros i Hi. apply Hr. apply (basis_deg _ _ _ (cf_elem _ _ _ HC) cd i Hi).
  Qed.

  (** * the stabilised operators *)
  Notation hhoS := (make_scalar_hho_stabilization ldlt c (mkDegs cd fd rd) (fst prog)).
  Lemma ptest u : exists r, l2proj (po_int P) cd (rec u) r.
  Proof. apply (l2_proj_exists _ _ HI _ (cf_elem _ _ _ HC) ldlt HS). Qed.
  Lemma faces_jumps u q : exists rs, jumps (po_facets P) fdi (faces_funs c cd fdi u) q rs.
  Proof. apply (face_jumps_exist d P c HC ldlt HS cd fdi u q len_all). Qed.
  Lemma h_nonneg f a : In f (po_facets P) -> 0 <= / po_diam P * fa_int f (PMul a a).
  Proof.
    intros Hf. apply Rmult_le_pos; [left; apply Rinv_0_lt_compat, (poly_diam _ _ HP)|]. apply (I_sq_pos _ _ (fint d P c HC f Hf)).
  Qed.
  Lemma h_form u v ru rv du dv : l2proj (po_int P) cd (rec u) ru -> l2proj (po_int P) cd (rec v) rv ->
    jumps (po_facets P) fdi (faces_funs c cd fdi u) (PAdd (rec u) (psubp (cell_fun c cd u) ru)) du ->
    jumps (po_facets P) fdi (faces_funs c cd fdi v) (PAdd (rec v) (psubp (cell_fun c cd v) rv)) dv ->
    bil N hhoS v u = fsum3 (po_facets P) du dv (fun f a b => / po_diam P * fa_int f (PMul a b)).
  Proof. apply (hho_form d P c HC ldlt HS cd fd rd (fst prog) u v ru rv du dv Hcd). Qed.
  Lemma hho_pos u : 0 <= bil N hhoS u u.
  Proof.
    destruct (ptest u) as (r & Hr). destruct (faces_jumps u (PAdd (rec u) (psubp (cell_fun c cd u) r))) as (du & Ju).
    rewrite (h_form u u r r du du Hr Hr Ju Ju).
    apply fsum3_pos. intros; apply h_nonneg; assumption.
  Qed.
  Lemma hho_sym u v : bil N hhoS u v = bil N hhoS v u.
  Proof.
    destruct (ptest u) as (r & Hr). destruct (faces_jumps u (PAdd (rec u) (psubp (cell_fun c cd u) r))) as (du & Ju).
    destruct (ptest v) as (s & Hs). destruct (faces_jumps v (PAdd (rec v) (psubp (cell_fun c cd v) s))) as (dv & Jv).
    rewrite (h_form u v r s du dv Hr Hs Ju Jv).
    rewrite (h_form v u s r dv du Hs Hr Jv Ju).
    apply fsum3_swap. intros f a b Hf. rewrite (I_comm _ _ (fint d P c HC f Hf)). reflexivity.
  Qed.
  Lemma sq0_jump f a : In f (po_facets P) -> / po_diam P * fa_int f (PMul a a) = 0 -> forall x, fa_on f x -> peval a x = 0.
  Proof.
    intros Hf H. apply (I_sq_def _ _ (fint d P c HC f Hf)). apply Rmult_integral in H as [H|H]; [|exact H].
    pose proof (Rinv_0_lt_compat _ (proj1 (poly_diam _ _ HP))). lra.
  Qed.
  Lemma hho_kernel u : (rd <= fd + 1)%nat -> (bil N (maddm (snd prog) hhoS) u u = 0 <->
    exists k, (forall x, po_on P x -> peval (cell_fun c cd u) x = k) /\
      on_facets (po_facets P) (faces_funs c cd fdi u) (fun f uF => forall x, fa_on f x -> peval uF x = k)).
  Proof.
    intros Hfd. rewrite bil_add, h_data. destruct (ptest u) as (r & Hr). set (q := PAdd (rec u) (psubp (cell_fun c cd u) r)).
    destruct (faces_jumps u q) as (du & Ju).
    pose proof (h_form u u r r du du Hr Hr Ju Ju) as F.
    assert (RK : forall k, (forall x, po_on P x -> peval (rec u) x = k) -> forall x, po_on P x -> peval q x = peval (cell_fun c cd u) x).
    { intros k Hk x Hx. assert (Er : peval r x = k).
      { assert (Hr' : l2proj (po_int P) cd (PC k) r).
        { destruct Hr as (Dr & Hr). split; [exact Dr|]. intros w Dw. rewrite (Hr w Dw). apply (int_ext _ _ HI). intros y Hy. cbn [peval]. rewrite (Hk y Hy). reflexivity. }
        rewrite (l2_id (PC k) r (deg_le_const _ _) Hr' x Hx). reflexivity. }
      unfold q, psubp, pscal. cbn [peval]. rewrite Er, (Hk x Hx). ring. }
    split.
    - intros Z. pose proof (hho_pos u) as Pos. pose proof (en_pos d P HP KK HK (rec u)) as Pos'.
      assert (Z1 : E (rec u) (rec u) = 0) by (fold KK in Z; lra). assert (Z2 : bil N hhoS u u = 0) by (fold KK in Z; lra).
      apply (kernel_only u Hfd Z1). destruct (en_def d P HP KK HK _ Z1) as (k & Hk).
      rewrite F in Z2. apply fsum3_def in Z2; [|intros; apply h_nonneg; assumption].
      assert (D0 : on_facets (po_facets P) du (fun f a => forall x, fa_on f x -> peval a x = 0)).
      { revert Z2. apply on_facets_impl. intros f a Hf. apply sq0_jump, Hf. }
      apply (jumps_ext _ _ _ _ (cell_fun c cd u)) in Ju; [|apply (fint d P c HC)|intros f x Hf Hx; apply (RK k Hk), (fon d P c HC f x Hf Hx)].
      apply (jumps_test _ fdi _ _ du fd (fint d P c HC) Ju); [intros k' Hin; rewrite (all_fd k' Hin); lia|exact D0].
    - intros (k & HT & HF). destruct (const_rec u) as (Z1 & k' & Hk'); [intros; apply (const_form u k HT HF)|]. fold KK. rewrite Z1, F.
      rewrite fsum3_zero_l; [lra|].
      assert (D0 : on_facets (po_facets P) du (fun f a => forall x, fa_on f x -> peval a x = 0)).
      { apply (jumps_zero _ fdi (faces_funs c cd fdi u) q du fd (fint d P c HC) Ju); [intros k'' Hin; rewrite (all_fd k'' Hin); lia|].
        revert HF. apply on_facets_impl. intros f uF Hf HF w Dw. apply (I_zero _ _ (fint d P c HC f Hf)). intros x Hx. unfold psubp, pscal. cbn [peval].
        pose proof (fon d P c HC f x Hf Hx) as Px. rewrite (RK k' Hk' x Px), (HT x Px), (HF x Hx). ring. }
      revert D0. apply on_facets_impl. intros f a Hf H b. rewrite (I_zero _ _ (fint d P c HC f Hf)); [ring|]. intros x Hx. cbn [peval]. rewrite (H x Hx). ring.
  Qed.

  (** * with the HDG stabilisation *)
  Notation hdgS hF := (hdg_stabilization ldlt c cd fdi hF).
  Lemma hdg_nonneg hF f a : In f (po_facets P) -> 0 <= / (if hF : bool then fa_diam f else po_diam P) * fa_int f (PMul a a).
  Proof.
    intros Hf. apply Rmult_le_pos; [left; apply Rinv_0_lt_compat; destruct hF; apply (poly_diam _ _ HP); assumption|]. apply (I_sq_pos _ _ (fint d P c HC f Hf)).
  Qed.
  Lemma hdg_sq0 hF f a : In f (po_facets P) -> / (if hF : bool then fa_diam f else po_diam P) * fa_int f (PMul a a) = 0 -> forall x, fa_on f x -> peval a x = 0.
  Proof.
    intros Hf H. apply (I_sq_def _ _ (fint d P c HC f Hf)). apply Rmult_integral in H as [H|H]; [|exact H]. exfalso.
    assert (0 < (if hF then fa_diam f else po_diam P)) as L by (destruct hF; apply (poly_diam _ _ HP); assumption).
    apply Rinv_0_lt_compat in L. lra.
  Qed.
  Lemma g_form hF u v du dv : jumps (po_facets P) fdi (faces_funs c cd fdi u) (cell_fun c cd u) du ->
    jumps (po_facets P) fdi (faces_funs c cd fdi v) (cell_fun c cd v) dv ->
    bil N (hdgS hF) v u = fsum3 (po_facets P) du dv (fun f a b => / (if hF then fa_diam f else po_diam P) * fa_int f (PMul a b)).
  Proof. apply (hdg_form d P c HC ldlt HS cd fdi hF u v du dv). Qed.
  Lemma hdg_pos hF u : 0 <= bil N (hdgS hF) u u.
  Proof. destruct (faces_jumps u (cell_fun c cd u)) as (du & Ju). rewrite (g_form hF u u du du Ju Ju). apply fsum3_pos. intros; apply hdg_nonneg; assumption. Qed.
  Lemma hdg_sym hF u v : bil N (hdgS hF) u v = bil N (hdgS hF) v u.
  Proof.
    destruct (faces_jumps u (cell_fun c cd u)) as (du & Ju). destruct (faces_jumps v (cell_fun c cd v)) as (dv & Jv).
    rewrite (g_form hF u v du dv Ju Jv), (g_form hF v u dv du Jv Ju). apply fsum3_swap. intros f a b Hf. rewrite (I_comm _ _ (fint d P c HC f Hf)). reflexivity.
  Qed.
  Lemma hdg_kernel hF u : (rd <= fd + 1)%nat -> (bil N (maddm (snd prog) (hdgS hF)) u u = 0 <->
    exists k, (forall x, po_on P x -> peval (cell_fun c cd u) x = k) /\
      on_facets (po_facets P) (faces_funs c cd fdi u) (fun f uF => forall x, fa_on f x -> peval uF x = k)).
  Proof.
    intros Hfd. rewrite bil_add, h_data. destruct (faces_jumps u (cell_fun c cd u)) as (du & Ju).
    pose proof (g_form hF u u du du Ju Ju) as F. split.
    - intros Z. pose proof (hdg_pos hF u) as Pos. pose proof (en_pos d P HP KK HK (rec u)) as Pos'.
      assert (Z1 : E (rec u) (rec u) = 0) by (fold KK in Z; lra). assert (Z2 : bil N (hdgS hF) u u = 0) by (fold KK in Z; lra).
      apply (kernel_only u Hfd Z1). rewrite F in Z2. apply fsum3_def in Z2; [|intros; apply hdg_nonneg; assumption].
      assert (D0 : on_facets (po_facets P) du (fun f a => forall x, fa_on f x -> peval a x = 0)).
      { revert Z2. apply on_facets_impl. intros f a Hf. apply hdg_sq0, Hf. }
      apply (jumps_test _ fdi _ _ du fd (fint d P c HC) Ju); [intros k' Hin; rewrite (all_fd k' Hin); lia|exact D0].
    - intros (k & HT & HF). destruct (const_rec u) as (Z1 & _); [intros; apply (const_form u k HT HF)|]. fold KK. rewrite Z1, F.
      rewrite fsum3_zero_l; [lra|].
      assert (D0 : on_facets (po_facets P) du (fun f a => forall x, fa_on f x -> peval a x = 0)).
      { apply (jumps_zero _ fdi (faces_funs c cd fdi u) (cell_fun c cd u) du fd (fint d P c HC) Ju); [intros k'' Hin; rewrite (all_fd k'' Hin); lia|].
        revert HF. apply on_facets_impl. intros f uF Hf HF w Dw. apply (I_zero _ _ (fint d P c HC f Hf)). intros x Hx. unfold psubp, pscal. cbn [peval].
        rewrite (HT x (fon d P c HC f x Hf Hx)), (HF x Hx). ring. }
      revert D0. apply on_facets_impl. intros f a Hf H b. rewrite (I_zero _ _ (fint d P c HC f Hf)); [ring|]. intros x Hx. cbn [peval]. rewrite (H x Hx). ring.
  Qed.

  (** * interpolates of polynomials *)
  Context (p : pexp) (di : nat) (Hv : pvars d p) (Hp : deg_le p rd).
  Let Ip := project_hho ldlt c (mkDegs cd fd rd) (peval p) di.
  Lemma Ip_cdi : Ip = project_cdi ldlt c cd fdi (peval p) di.
  Proof. unfold Ip. rewrite project_hho_cdi. reflexivity. Qed.
  Context (H2 : (rd <= cd + 2)%nat) (Hf1 : (rd <= fd + 1)%nat) (Hci : (rd <= cd + 2 * di)%nat) (Hfi : (rd <= fd + 2 * di)%nat).
  Lemma h_fd : forall k, In (Some k) fdi -> (rd <= k + 1)%nat /\ (rd <= k + 2 * di)%nat.
  Proof. intros k Hin. rewrite (all_fd k Hin). lia. Qed.
  Lemma h_consistent : exists k, forall x, po_on P x -> peval p x = peval (rec Ip) x + k.
  Proof.
    rewrite Ip_cdi. unfold rec, prog. rewrite hdi_prog. cbn [fst].
    apply (core_consistent_const d P c HC K HK ldlt HS rd cd fdi (lap_lhs d K c rd rb) (hdi_rhs d c K ldlt rd cd proj fd)); try assumption.
    - intros x i Hi. apply (lhs_mv d P c HC K rd x i Hi).
    - apply (lhs_spd d P c HC K HK rd).
    - intros z i Hi. apply (hdi_row d P c HC K ldlt HS rd cd Hrd Hcd proj fd Hproj z i Hi).
    - apply h_fd.
    - apply all_some.
    - apply len_all.
  Qed.
  Lemma h_form_interp w : deg_le w rd -> FORM Ip w = E p w.
  Proof.
    rewrite Ip_cdi. apply (form_interp d P c HC K ldlt HS rd cd fdi p di); try assumption; [apply h_fd|apply all_some|apply len_all].
  Qed.
  Lemma h_energy v : E (rec v) (rec Ip) = FORM v p.
  Proof.
    rewrite (en_sym d P HP KK HK). rewrite h_eq by (apply h_vars || apply h_deg). rewrite h_form_interp by apply h_deg.
    rewrite (en_sym d P HP KK HK). apply h_eq; assumption.
  Qed.
  (** the lifting of an interpolate is the polynomial *)
  Lemma h_lift r : l2proj (po_int P) cd (rec Ip) r -> forall x, po_on P x -> peval (PAdd (rec Ip) (psubp (cell_fun c cd Ip) r)) x = peval p x.
  Proof.
    intros (Dr & Hr) x Hx. destruct h_consistent as (k & Hk).
    assert (CT : forall y, peval (cell_fun c cd Ip) y = peval (HHO2_Proofs.proj (cl_elem c) ldlt cd p di) y) by (intros y; rewrite Ip_cdi; apply project_cell).
    assert (Er : peval r x = peval (psubp (cell_fun c cd Ip) (PC k)) x).
    { apply (span_eq _ _ HI cd _ _ _ _ (fit_basis _ _ _ (cf_elem _ _ _ HC) cd) Dr); [apply deg_le_sub; [apply cell_deg|apply deg_le_const]| |exact Hx].
      intros i Hi. pose proof (basis_deg _ _ _ (cf_elem _ _ _ HC) cd i Hi) as Db. rewrite (Hr _ Db).
      rewrite (int_ext _ _ HI _ (PMul (b_poly (el_basis (cl_elem c) cd) i) (psubp p (PC k)))).
      - rewrite !(I_mul_sub_r _ _ HI). f_equal.
        rewrite (I_ext _ _ HI (PMul _ (cell_fun c cd Ip)) (PMul (b_poly (el_basis (cl_elem c) cd) i) (HHO2_Proofs.proj (cl_elem c) ldlt cd p di))) by (intros y; cbn [peval]; rewrite CT; ring).
        symmetry. apply (proj_test _ _ HI _ (cf_elem _ _ _ HC) ldlt HS); [apply (deg_le_mono _ rd); [lia|exact Hp]|exact Db].
      - intros y Hy. unfold psubp, pscal. cbn [peval]. rewrite (Hk y Hy). ring. }
    unfold psubp, pscal in *. cbn [peval] in *. rewrite Er, (Hk x Hx). ring.
  Qed.
  Lemma hho_interp v : bil N hhoS v Ip = 0.
  Proof.
    destruct (ptest Ip) as (r & Hr). destruct (faces_jumps Ip (PAdd (rec Ip) (psubp (cell_fun c cd Ip) r))) as (du & Ju).
    destruct (ptest v) as (s & Hs). destruct (faces_jumps v (PAdd (rec v) (psubp (cell_fun c cd v) s))) as (dv & Jv).
    rewrite (h_form Ip v r s du dv Hr Hs Ju Jv). apply fsum3_zero_l.
    apply (jumps_ext _ _ _ _ p) in Ju; [|apply (fint d P c HC)|intros f x Hf Hx; apply (h_lift r Hr), (fon d P c HC f x Hf Hx)].
    assert (T : on_facets (po_facets P) (faces_funs c cd fdi Ip) (fun f u => forall w, deg_le w fd -> fa_int f (PMul w (psubp p u)) = 0)).
    { apply (interp_test ldlt HS p di fd _ _ (faces_fit d P c HC)); [apply (deg_le_mono _ rd); [lia|exact Hp]|]. rewrite Ip_cdi. apply project_faces. }
    apply (jumps_zero _ fdi _ p du fd (fint d P c HC) Ju) in T; [|intros k Hin; rewrite (all_fd k Hin); lia].
    revert T. apply on_facets_impl. intros f a Hf H b. rewrite (I_zero _ _ (fint d P c HC f Hf)); [ring|]. intros x Hx. cbn [peval]. rewrite (H x Hx). ring.
  Qed.
  Lemma patch v : FORM v p = - po_int P (PMul (cell_fun c cd v) (divk d KK p)) +
    fsum2 (po_facets P) (faces_funs c cd fdi v) (fun f vF => fa_int f (PMul vF (flux d KK (fa_normal f) p))).
  Proof.
    unfold form, rhs_form. rewrite (en_green d P HP). fold KK. rewrite Rplus_assoc. f_equal.
    apply (fsum_faces d KK (cell_fun c cd v) p _ _ fd v (faces_fit d P c HC)).
  Qed.
  Lemma hho_patch v : bil N (maddm (snd prog) hhoS) v Ip = - po_int P (PMul (cell_fun c cd v) (divk d KK p)) +
    fsum2 (po_facets P) (faces_funs c cd fdi v) (fun f vF => fa_int f (PMul vF (flux d KK (fa_normal f) p))).
  Proof. rewrite bil_add, h_data, hho_interp, h_energy, patch. lra. Qed.
  (** the HDG stabilisation only sees the interpolates of polynomials of the degree of the cell as smooth *)
  Lemma hdg_interp hF v : deg_le p cd -> bil N (hdgS hF) v Ip = 0.
  Proof.
    intros Dc. destruct (faces_jumps Ip (cell_fun c cd Ip)) as (du & Ju). destruct (faces_jumps v (cell_fun c cd v)) as (dv & Jv).
    rewrite (g_form hF Ip v du dv Ju Jv). apply fsum3_zero_l.
    apply (jumps_ext _ _ _ _ p) in Ju; [|apply (fint d P c HC)|intros f x Hf Hx; rewrite Ip_cdi, project_cell; apply (proj_id _ _ HI _ (cf_elem _ _ _ HC) ldlt HS cd p di Dc), (fon d P c HC f x Hf Hx)].
    assert (T : on_facets (po_facets P) (faces_funs c cd fdi Ip) (fun f u => forall w, deg_le w fd -> fa_int f (PMul w (psubp p u)) = 0)).
    { apply (interp_test ldlt HS p di fd _ _ (faces_fit d P c HC)); [apply (deg_le_mono _ rd); [lia|exact Hp]|]. rewrite Ip_cdi. apply project_faces. }
    apply (jumps_zero _ fdi _ p du fd (fint d P c HC) Ju) in T; [|intros k Hin; rewrite (all_fd k Hin); lia].
    revert T. apply on_facets_impl. intros f a Hf H b. rewrite (I_zero _ _ (fint d P c HC f Hf)); [ring|]. intros x Hx. cbn [peval]. rewrite (H x Hx). ring.
  Qed.
  Lemma hdg_patch hF v : deg_le p cd -> bil N (maddm (snd prog) (hdgS hF)) v Ip = - po_int P (PMul (cell_fun c cd v) (divk d KK p)) +
    fsum2 (po_facets P) (faces_funs c cd fdi v) (fun f vF => fa_int f (PMul vF (flux d KK (fa_normal f) p))).
  Proof. intros Dc. rewrite bil_add, h_data, (hdg_interp hF v Dc), h_energy, patch. lra. Qed.
End Hdi.
