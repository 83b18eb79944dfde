(** The consequences of the equation of the reconstruction and of the form of a stabilisation, for any matrices
    that satisfy them: kernel, consistency, patch test. *)
From Coq Require Import List Arith Reals Lra Lia Bool.
From Verif Require Import Poly_Spec Poly_Proofs HHO_Spec HHO_Model HHO_Setting HHO_Proofs HHO2_Proofs HHO3_Proofs HHO4_Proofs HHO5_Proofs HHO6_Proofs HHO7_Proofs HHO8_Proofs.
Import ListNotations.
Open Scope R_scope.

(** functions on the faces that are projections of [p] *)
Lemma projs_flux d KK p w fs : forall ds us, (forall f, In f fs -> integral (fa_on f) (fa_int f)) -> projs fs ds us p -> ~ In None ds ->
  (forall k f, In (Some k) ds -> In f fs -> deg_le (flux d KK (fa_normal f) w) k) -> forall uT,
  fsum fs (fun f => fa_int f (PMul uT (flux d KK (fa_normal f) w))) +
  fsum2 fs us (fun f u => fa_int f (PMul (psubp u uT) (flux d KK (fa_normal f) w))) =
  fsum fs (fun f => fa_int f (PMul p (flux d KK (fa_normal f) w))).
Proof.
  induction fs as [|f fs IH]; intros [|[k|] ds] [|[u|] us] FI Pj Hn Dw uT; cbn [projs] in Pj; try contradiction; cbn [fsum fsum2]; [lra| |].
  - destruct Pj as (Pf & Pj). rewrite <- (IH ds us) with (uT := uT); [|intros; apply FI; right; assumption|exact Pj|intros H; apply Hn; right; exact H|intros; apply Dw; right; assumption].
    pose proof (FI f (or_introl eq_refl)) as Fi. rewrite (I_mul_sub_l _ _ Fi).
    assert (C : fa_int f (PMul u (flux d KK (fa_normal f) w)) = fa_int f (PMul p (flux d KK (fa_normal f) w))).
    { rewrite (I_comm _ _ Fi u), (I_comm _ _ Fi p). apply (proj2 Pf). apply Dw; left; reflexivity. }
    lra.
  - exfalso. apply Hn. left. reflexivity.
Qed.
Lemma projs_test p fs fd : forall ds us, (forall f, In f fs -> integral (fa_on f) (fa_int f)) -> projs fs ds us p ->
  (forall k, In (Some k) ds -> (fd <= k)%nat) ->
  on_facets fs us (fun f u => forall w, deg_le w fd -> fa_int f (PMul w (psubp p u)) = 0).
Proof.
  induction fs as [|f fs IH]; intros [|[k|] ds] [|[u|] us] FI Pj Hk; cbn [projs] in Pj; try contradiction; cbn [on_facets]; try exact Logic.I.
  - destruct Pj as ((Du & Pf) & Pj). split; [|apply (IH ds us); [intros; apply FI; right; assumption|exact Pj|intros; apply Hk; right; assumption]].
    intros w Dw. rewrite (I_mul_sub_r _ _ (FI f (or_introl eq_refl))), Pf; [lra|]. apply (deg_le_mono _ fd); [apply Hk; left; reflexivity|exact Dw].
  - apply (IH ds us); [intros; apply FI; right; assumption|exact Pj|intros; apply Hk; right; assumption].
Qed.

Section Abs.
  Context (d : nat) (P : polytope) (c : scell) (HC : cell_fits d P c) (K : option mtx) (HK : spd d (tensor_of K)).
  Let HP := cf_poly _ _ _ HC.
  Let HI := poly_int _ _ HP.
  Let KK := tensor_of K.
  Context (ldlt : nat -> mtx -> (nat -> R) -> nat -> R) (HS : solves_spd ldlt).
  Context (rd cd fd : nat) (Hcd : (cd <= rd)%nat).
  Let fdi := all_faces c fd.
  Let N := num_dofs c cd fdi.
  Notation E := (en d P KK).
  Notation FORM := (form d P c K cd fdi).
  Lemma a_len : length fdi = length (cl_faces c).
  Proof. apply map_length. Qed.
  Lemma a_some : ~ In None fdi.
  Proof. unfold fdi, all_faces. intros H. apply in_map_iff in H as (y & Ey & _). discriminate. Qed.
  Lemma a_fd k : In (Some k) fdi -> k = fd.
  Proof. unfold fdi, all_faces. intros H. apply in_map_iff in H as (y & Ey & _). congruence. Qed.
  Lemma a_jumps u q : exists rs, jumps (po_facets P) fdi (faces_funs c cd fdi u) q rs.
  Proof. apply (face_jumps_exist d P c HC ldlt HS cd fdi u q a_len). Qed.
  Lemma a_cell_vars u : pvars d (cell_fun c cd u).
  Proof. apply pvars_lincomb. intros; apply (cf_vars _ _ _ HC). Qed.
  Lemma a_cell_deg u : deg_le (cell_fun c cd u) cd.
  Proof. apply (fun_deg _ _ _ (cf_elem _ _ _ HC)). Qed.
  Lemma a_patch v p : FORM v p = - po_int P (PMul (cell_fun c cd v) (divk d KK p)) +
    fsum2 (po_facets P) (faces_funs c cd fdi v) (fun f vF => fa_int f (PMul vF (flux d KK (fa_normal f) p))).
  Proof.
    unfold form, rhs_form. rewrite (en_green d P HP). fold KK. rewrite Rplus_assoc. f_equal.
    apply (fsum_faces d KK (cell_fun c cd v) p _ _ fd v (faces_fit d P c HC)).
  Qed.

  (** ** a stabilisation, through the function [q] the faces are compared with *)
  Section Stab.
    Context (S : mtx) (q : (nat -> R) -> pexp) (sc : facet -> R) (Hsc : forall f, In f (po_facets P) -> 0 < sc f).
    Context (Hform : forall u v du dv, jumps (po_facets P) fdi (faces_funs c cd fdi u) (q u) du -> jumps (po_facets P) fdi (faces_funs c cd fdi v) (q v) dv ->
      bil N S v u = fsum3 (po_facets P) du dv (fun f a b => sc f * fa_int f (PMul a b))).
    Lemma st_nonneg f a : In f (po_facets P) -> 0 <= sc f * fa_int f (PMul a a).
    Proof. intros Hf. apply Rmult_le_pos; [left; apply Hsc, Hf|]. apply (I_sq_pos _ _ (fint d P c HC f Hf)). Qed.
    Lemma st_sq0 f a : In f (po_facets P) -> sc f * fa_int f (PMul a a) = 0 -> forall x, fa_on f x -> peval a x = 0.
    Proof.
      intros Hf H. apply (I_sq_def _ _ (fint d P c HC f Hf)). apply Rmult_integral in H as [H|H]; [|exact H]. specialize (Hsc f Hf). lra.
    Qed.
    Lemma st_pos u : 0 <= bil N S u u.
    Proof. destruct (a_jumps u (q u)) as (du & Ju). rewrite (Hform u u du du Ju Ju). apply fsum3_pos. intros; apply st_nonneg; assumption. Qed.
    Lemma st_sym u v : bil N S u v = bil N S v u.
    Proof.
      destruct (a_jumps u (q u)) as (du & Ju). destruct (a_jumps v (q v)) as (dv & Jv).
      rewrite (Hform u v du dv Ju Jv), (Hform v u dv du Jv Ju). apply fsum3_swap. intros f a b Hf. rewrite (I_comm _ _ (fint d P c HC f Hf)). reflexivity.
    Qed.
    (** it vanishes when the faces agree with [p] and so does [q] *)
    Lemma st_zero u p : (forall f x, In f (po_facets P) -> fa_on f x -> peval (q u) x = peval p x) ->
      on_facets (po_facets P) (faces_funs c cd fdi u) (fun f uF => forall w, deg_le w fd -> fa_int f (PMul w (psubp p uF)) = 0) ->
      forall v, bil N S v u = 0.
    Proof.
      intros Hq T v. destruct (a_jumps u (q u)) as (du & Ju). destruct (a_jumps v (q v)) as (dv & Jv).
      rewrite (Hform u v du dv Ju Jv). apply fsum3_zero_l.
      apply (jumps_ext _ _ _ _ p) in Ju; [|apply (fint d P c HC)|exact Hq].
      apply (jumps_zero _ fdi _ p du fd (fint d P c HC) Ju) in T; [|intros k Hin; rewrite (a_fd k Hin); lia].
      revert T. apply on_facets_impl. intros f a Hf H b. rewrite (I_zero _ _ (fint d P c HC f Hf)); [ring|]. intros x Hx. cbn [peval]. rewrite (H x Hx). ring.
    Qed.
    Lemma st_null u : bil N S u u = 0 ->
      on_facets (po_facets P) (faces_funs c cd fdi u) (fun f uF => forall w, deg_le w fd -> fa_int f (PMul w (psubp (q u) uF)) = 0).
    Proof.
      intros Z. destruct (a_jumps u (q u)) as (du & Ju). rewrite (Hform u u du du Ju Ju) in Z. apply fsum3_def in Z; [|intros; apply st_nonneg; assumption].
      assert (D0 : on_facets (po_facets P) du (fun f a => forall x, fa_on f x -> peval a x = 0)).
      { revert Z. apply on_facets_impl. intros f a Hf. apply st_sq0, Hf. }
      apply (jumps_test _ fdi _ _ du fd (fint d P c HC) Ju); [intros k' Hin; rewrite (a_fd k' Hin); lia|exact D0].
    Qed.
  End Stab.

  (** ** a reconstruction *)
  Context (oper data : mtx).
  Notation rec := (rec_fun c rd N oper).
  Context (Heq : forall u w, pvars d w -> deg_le w rd -> E (rec u) w = FORM u w) (Hdata : forall u v, bil N data u v = E (rec u) (rec v)).
  Lemma a_deg u : deg_le (rec u) rd.
  Proof. apply deg_le_lincomb. intros j Hj. apply (basis_deg _ _ _ (cf_elem _ _ _ HC)). lia. Qed.
  Lemma a_vars u : pvars d (rec u).
  Proof. apply pvars_lincomb. intros; apply (cf_vars _ _ _ HC). Qed.
  Lemma a_kernel_only u : (rd <= fd + 1)%nat -> E (rec u) (rec u) = 0 ->
    on_facets (po_facets P) (faces_funs c cd fdi u) (fun f uF => forall w, deg_le w fd -> fa_int f (PMul w (psubp (cell_fun c cd u) uF)) = 0) ->
    exists k, (forall x, po_on P x -> peval (cell_fun c cd u) x = k) /\
      on_facets (po_facets P) (faces_funs c cd fdi u) (fun f uF => forall x, fa_on f x -> peval uF x = k).
  Proof.
    intros Hfd ER J.
    assert (Z : FORM u (cell_fun c cd u) = 0).
    { rewrite <- Heq; [|apply a_cell_vars|apply (deg_le_mono _ cd); [exact Hcd|apply a_cell_deg]].
      apply (en_grad0 d P c HC). apply (en_def_grad d P HP KK HK). exact ER. }
    unfold form, rhs_form in Z. fold KK in Z. rewrite fsum2_zero in Z.
    - assert (Z' : E (cell_fun c cd u) (cell_fun c cd u) = 0) by lra.
      destruct (en_def d P HP KK HK _ Z') as (k & Hk). exists k. split; [exact Hk|].
      pose proof (funs_deg _ _ fd u (faces_fit d P c HC) (b_size (el_basis (cl_elem c) cd))) as D.
      change (on_facets (po_facets P) (faces_funs c cd fdi u) (fun f uF => deg_le uF fd)) in D.
      pose proof (on_facets_and _ _ _ _ J D) as G. revert G. apply on_facets_impl. clear J D.
      intros f uF Hf (J & D) x Hx. pose proof (fint d P c HC f Hf) as FI.
      assert (Dw : deg_le (psubp uF (PC k)) fd) by (apply deg_le_sub; [exact D|apply deg_le_const]).
      specialize (J _ Dw).
      rewrite (int_ext _ _ FI _ (pscal (-1) (PMul (psubp uF (PC k)) (psubp uF (PC k))))) in J.
      + rewrite (int_scal _ _ FI) in J. pose proof (I_sq_def _ _ FI (psubp uF (PC k)) ltac:(lra) x Hx) as Q. unfold psubp, pscal in Q. cbn [peval] in Q. lra.
      + intros y Hy. unfold psubp, pscal. cbn [peval]. rewrite (Hk y (fon d P c HC f y Hf Hy)). ring.
    - revert J. apply on_facets_impl. intros f uF Hf J. pose proof (fint d P c HC f Hf) as FI.
      assert (Dw : deg_le (flux d KK (fa_normal f) (cell_fun c cd u)) fd).
      { apply (deg_le_mono _ (cd - 1)); [lia|]. apply deg_flux, a_cell_deg. }
      specialize (J _ Dw). rewrite (I_mul_sub_r _ _ FI) in J. rewrite (I_mul_sub_l _ _ FI).
      rewrite (I_comm _ _ FI uF), (I_comm _ _ FI (cell_fun c cd u)). lra.
  Qed.
  Lemma a_const_rec u : (forall w, pvars d w -> deg_le w rd -> FORM u w = 0) ->
    E (rec u) (rec u) = 0 /\ exists k, forall x, po_on P x -> peval (rec u) x = k.
  Proof.
    intros H. assert (Z : E (rec u) (rec u) = 0) by (rewrite Heq by (apply a_vars || apply a_deg); apply H; [apply a_vars|apply a_deg]).
    split; [exact Z|]. apply (en_def d P HP KK HK _ Z).
  Qed.
  Lemma a_data_pos u : 0 <= bil N data u u.
  Proof. rewrite Hdata. apply (en_pos d P HP KK HK). Qed.
  Lemma a_data_sym u v : bil N data u v = bil N data v u.
  Proof. rewrite !Hdata. apply (en_sym d P HP KK HK). Qed.
  (** reconstruction plus stabilisation *)
  Lemma a_kernel S q sc (Hsc : forall f, In f (po_facets P) -> 0 < sc f)
    (Hform : forall u v du dv, jumps (po_facets P) fdi (faces_funs c cd fdi u) (q u) du -> jumps (po_facets P) fdi (faces_funs c cd fdi v) (q v) dv ->
      bil N S v u = fsum3 (po_facets P) du dv (fun f a b => sc f * fa_int f (PMul a b)))
    (Hq : forall u k, (forall x, po_on P x -> peval (rec u) x = k) -> forall x, po_on P x -> peval (q u) x = peval (cell_fun c cd u) x) u :
    (rd <= fd + 1)%nat -> (bil N (maddm data S) u u = 0 <->
    exists k, (forall x, po_on P x -> peval (cell_fun c cd u) x = k) /\
      on_facets (po_facets P) (faces_funs c cd fdi u) (fun f uF => forall x, fa_on f x -> peval uF x = k)).
  Proof.
    intros Hfd. rewrite bil_add. pose proof (a_data_pos u) as P1. pose proof (st_pos S q sc Hsc Hform u) as P2. split.
    - intros Z. assert (Z1 : E (rec u) (rec u) = 0) by (rewrite <- Hdata; lra). assert (Z2 : bil N S u u = 0) by lra.
      apply (a_kernel_only u Hfd Z1). destruct (en_def d P HP KK HK _ Z1) as (k & Hk).
      pose proof (st_null S q sc Hsc Hform u Z2) as T. revert T. apply on_facets_impl. intros f uF Hf T w Dw. rewrite <- (T w Dw).
      apply (int_ext _ _ (fint d P c HC f Hf)). intros x Hx. unfold psubp, pscal. cbn [peval]. rewrite (Hq u k Hk x (fon d P c HC f x Hf Hx)). ring.
    - intros (k & HT & HF). destruct (a_const_rec u) as (Z1 & k' & Hk').
      { intros. apply (const_form d P c HC K cd fd u k HT HF). }
      rewrite Hdata, Z1. rewrite (st_zero S q sc Hform u (PC k)); [lra| |].
      + intros f x Hf Hx. rewrite (Hq u k' Hk' x (fon d P c HC f x Hf Hx)). apply (HT x (fon d P c HC f x Hf Hx)).
      + revert HF. apply on_facets_impl. intros f uF Hf HF w Dw. apply (I_zero _ _ (fint d P c HC f Hf)). intros x Hx. unfold psubp, pscal. cbn [peval]. rewrite (HF x Hx). ring.
  Qed.

  (** ** interpolates *)
  Context (p : pexp) (Hv : pvars d p) (Hp : deg_le p rd) (Ip : nat -> R).
  Context (HT : l2proj (po_int P) cd p (cell_fun c cd Ip)) (HF : projs (po_facets P) fdi (faces_funs c cd fdi Ip) p).
  Context (H2 : (rd <= cd + 2)%nat) (Hf1 : (rd <= fd + 1)%nat).
  Lemma a_form_interp w : deg_le w rd -> FORM Ip w = E p w.
  Proof.
    intros Dw. unfold form, rhs_form. rewrite !(en_green d P HP). fold KK.
    assert (A : po_int P (PMul (cell_fun c cd Ip) (divk d KK w)) = po_int P (PMul p (divk d KK w))).
    { rewrite (I_comm _ _ HI), (I_comm _ _ HI p). apply (proj2 HT). apply (deg_le_mono _ (rd - 2)); [lia|]. apply deg_divk, Dw. }
    rewrite A. rewrite Rplus_assoc. f_equal.
    apply (projs_flux d KK p w (po_facets P) fdi _ (fint d P c HC) HF a_some).
    intros k f Hk Hf. rewrite (a_fd k Hk). apply (deg_le_mono _ (rd - 1)); [lia|]. apply deg_flux, Dw.
  Qed.
  Lemma a_consistent : exists k, forall x, po_on P x -> peval p x = peval (rec Ip) x + k.
  Proof.
    assert (G : forall k x, (k < d)%nat -> po_on P x -> peval (pdiff k (psubp (rec Ip) p)) x = 0).
    { apply (en_def_grad d P HP KK HK). rewrite (en_sub_l d P HP KK).
      assert (V : pvars d (psubp (rec Ip) p)) by (cbn; repeat split; [apply a_vars|exact Hv]).
      assert (D : deg_le (psubp (rec Ip) p) rd) by (apply deg_le_sub; [apply a_deg|exact Hp]).
      rewrite Heq by assumption. rewrite a_form_interp by assumption. lra. }
    destruct (poly_point _ _ HP) as (x0 & H0). exists (- peval (psubp (rec Ip) p) x0). intros x Hx.
    pose proof (poly_conn _ _ HP _ G x x0 Hx H0) as Q. revert Q. unfold psubp, pscal. cbn [peval]. intros Q. lra.
  Qed.
  Lemma a_energy v : bil N data v Ip = FORM v p.
  Proof.
    rewrite Hdata, (en_sym d P HP KK HK). rewrite Heq by (apply a_vars || apply a_deg). rewrite a_form_interp by apply a_deg.
    rewrite (en_sym d P HP KK HK). apply Heq; assumption.
  Qed.
  Lemma a_lift r : l2proj (po_int P) cd (rec Ip) r -> forall x, po_on P x -> peval (PAdd (rec Ip) (psubp (cell_fun c cd Ip) r)) x = peval p x.
  Proof.
    intros (Dr & Hr) x Hx. destruct a_consistent as (k & Hk).
    assert (Er : peval r x = peval (psubp (cell_fun c cd Ip) (PC k)) x).
    { apply (span_eq _ _ HI cd _ _ _ _ (fit_basis _ _ _ (cf_elem _ _ _ HC) cd) Dr); [apply deg_le_sub; [apply a_cell_deg|apply deg_le_const]| |exact Hx].
      intros i Hi. pose proof (basis_deg _ _ _ (cf_elem _ _ _ HC) cd i Hi) as Db. rewrite (Hr _ Db).
      rewrite (int_ext _ _ HI _ (PMul (b_poly (el_basis (cl_elem c) cd) i) (psubp p (PC k)))).
      - rewrite !(I_mul_sub_r _ _ HI). f_equal. symmetry. apply (proj2 HT), Db.
      - intros y Hy. unfold psubp, pscal. cbn [peval]. rewrite (Hk y Hy). ring. }
    unfold psubp, pscal in *. cbn [peval] in *. rewrite Er, (Hk x Hx). ring.
  Qed.
  Lemma a_test : on_facets (po_facets P) (faces_funs c cd fdi Ip) (fun f u => forall w, deg_le w fd -> fa_int f (PMul w (psubp p u)) = 0).
  Proof. apply (projs_test p _ fd fdi _ (fint d P c HC) HF). intros k Hk. rewrite (a_fd k Hk). lia. Qed.
End Abs.
