(** Proofs about the scalar HHO operators: the stabilisations as bilinear forms. *)
From Coq Require Import List Arith Reals Lra Lia Bool.
From Verif Require Import Poly_Spec Poly_Proofs HHO_Spec HHO_Model HHO_Setting HHO_Proofs HHO2_Proofs HHO3_Proofs HHO4_Proofs HHO5_Proofs.
Import ListNotations.
Open Scope R_scope.

(** v^T A u *)
Definition bil (N : nat) (A : mtx) (v u : nat -> R) : R := sg N (fun i => v i * mv N A u i).
Lemma bil_add N A B v u : bil N (maddm A B) v u = bil N A v u + bil N B v u.
Proof. unfold bil. rewrite <- sg_plus. apply sg_ext. intros. rewrite mv_madd. ring. Qed.
Lemma bil_scal N k A v u : bil N (mscalm k A) v u = k * bil N A v u.
Proof. unfold bil. rewrite <- sg_scal. apply sg_ext. intros. rewrite mv_mscal. ring. Qed.
Lemma bil_zero N v u : bil N zeroM v u = 0.
Proof. unfold bil. apply sg_zero. intros. rewrite mv_zero. ring. Qed.
Lemma bil_mass N n B M v u : bil N (mprod n (mprod n (mtrans B) M) B) v u = sg n (fun k => mv N B v k * mv n M (mv N B u) k).
Proof.
  unfold bil. rewrite (sg_ext N _ (fun i => sg n (fun k => v i * (B k i * mv n M (mv N B u) k)))).
  - rewrite sg_swap. apply sg_ext. intros k _. change (mv N B v k) with (sg N (fun j => B k j * v j)).
    rewrite (Rmult_comm (sg _ _)), <- sg_scal. apply sg_ext. intros. ring.
  - intros i _. rewrite mv_mprod, mv_mprod. unfold mv at 1, mtrans. rewrite <- sg_scal. reflexivity.
Qed.

Lemma l2_eq on I (HI : integral on I) e (F : elem_fits on I e) k q s r : l2proj I k q r ->
  (forall i, (i < b_size (el_basis e k))%nat -> I (PMul (b_poly (el_basis e k) i) (lincomb (b_size (el_basis e k)) s (b_poly (el_basis e k)))) = I (PMul (b_poly (el_basis e k) i) q)) ->
  forall x, on x -> peval (lincomb (b_size (el_basis e k)) s (b_poly (el_basis e k))) x = peval r x.
Proof.
  intros (Dr & Hr) H. apply (span_eq _ _ HI k _ _ _ _ (fit_basis _ _ _ F k)); [apply (fun_deg _ _ _ F)|exact Dr|].
  intros i Hi. rewrite (H i Hi). symmetry. apply Hr, (basis_deg _ _ _ F), Hi.
Qed.
Lemma l2_basis on I (HI : integral on I) e (F : elem_fits on I e) k q s :
  (forall i, (i < b_size (el_basis e k))%nat -> I (PMul (b_poly (el_basis e k) i) (lincomb (b_size (el_basis e k)) s (b_poly (el_basis e k)))) = I (PMul (b_poly (el_basis e k) i) q)) ->
  l2proj I k q (lincomb (b_size (el_basis e k)) s (b_poly (el_basis e k))).
Proof. intros H. split; [apply (fun_deg _ _ _ F)|]. apply (span_test _ _ HI k _ _ _ _ (fit_basis _ _ _ F k)), H. Qed.
Lemma l2_proj_exists on I (HI : integral on I) e (F : elem_fits on I e) ldlt (HS : solves_spd ldlt) k q : exists r, l2proj I k q r.
Proof.
  exists (proj e ldlt k q (pdeg q)). split; [apply (proj_deg _ _ _ F)|]. intros w Dw.
  apply (proj_test _ _ HI _ F ldlt HS); [apply deg_le_pdeg; lia|exact Dw].
Qed.

(** what one face contributes: the scaled product of the jumps *)
Definition face_form (N : nat) (f : facet) (k : nat) (q : (nat -> R) -> pexp) (uF : (nat -> R) -> pexp) (A : mtx) : Prop :=
  forall u v du dv, l2proj (fa_int f) k (psubp (q u) (uF u)) du -> l2proj (fa_int f) k (psubp (q v) (uF v)) dv ->
    bil N A v u = fa_int f (PMul du dv).
Lemma stab_fold N (step : nat * mtx -> sface * option nat -> nat * mtx) (okd : nat -> Prop) q (scale : facet -> R) fs fcs :
  Forall2 face_fit fs fcs ->
  (forall f fc, In f fs -> face_fit f fc -> forall off data, step (off, data) (fc, None) = (off, data)) ->
  (forall f fc k, In f fs -> face_fit f fc -> forall off data, okd k ->
     (off + b_size (el_basis (fc_elem fc) k) <= N)%nat -> exists A,
     step (off, data) (fc, Some k) = ((off + b_size (el_basis (fc_elem fc) k))%nat, maddm data (mscalm (scale f) A)) /\
     face_form N f k q (fun u => lincomb (b_size (el_basis (fc_elem fc) k)) (fun j => u (off + j)%nat) (b_poly (el_basis (fc_elem fc) k))) A) ->
  forall fdi off data u v du dv, (forall k, In (Some k) fdi -> okd k) -> (off + face_dofs (bases_l (combine fcs fdi)) <= N)%nat ->
  jumps fs fdi (face_funs off (bases_l (combine fcs fdi)) u) (q u) du -> jumps fs fdi (face_funs off (bases_l (combine fcs fdi)) v) (q v) dv ->
  bil N (snd (fold_left step (combine fcs fdi) (off, data))) v u =
  bil N data v u + fsum3 fs du dv (fun f a b => scale f * fa_int f (PMul a b)).
Proof.
  intros H. induction H as [|f fc fs fcs Hf H IH]; intros H0 H1 fdi off data u v du dv Hk Hoff Ju Jv; [simpl; lra|].
  assert (IH' := IH (fun f' fc' Hin => H0 f' fc' (or_intror Hin)) (fun f' fc' k' Hin => H1 f' fc' k' (or_intror Hin))). clear IH.
  destruct fdi as [|[k|] fdi]; [contradiction| |].
  - cbn [combine bases_l map fst snd face_dofs face_funs fold_left] in *. destruct du as [|[du|] dus]; try contradiction. destruct dv as [|[dv|] dvs]; try contradiction.
    cbn [jumps] in Ju, Jv. destruct Ju as (Ju & Jus). destruct Jv as (Jv & Jvs).
    destruct (H1 f fc k (or_introl eq_refl) Hf off data (Hk k (or_introl eq_refl)) ltac:(lia)) as (A & EA & FA). rewrite EA.
    rewrite (IH' fdi _ _ u v dus dvs (fun k' Hin => Hk k' (or_intror Hin))) by (try assumption; unfold bases_l; lia). cbn [fsum3]. rewrite bil_add, bil_scal, (FA u v du dv Ju Jv). ring.
  - cbn [combine bases_l map fst snd face_dofs face_funs fold_left] in *. destruct du as [|[du|] dus]; try contradiction. destruct dv as [|[dv|] dvs]; try contradiction.
    cbn [jumps] in Ju, Jv. rewrite (H0 f fc (or_introl eq_refl) Hf). rewrite (IH' fdi _ _ u v dus dvs (fun k' Hin => Hk k' (or_intror Hin))) by assumption. reflexivity.
Qed.

Section Stab.
  Context (d : nat) (P : polytope) (c : scell) (HC : cell_fits d P c).
  Let HP := cf_poly _ _ _ HC.
  Let HI := poly_int _ _ HP.
  Context (ldlt : nat -> mtx -> (nat -> R) -> nat -> R) (HS : solves_spd ldlt).
  Context (cd : nat).
  Let cb := el_basis (cl_elem c) cd.
  Lemma cb_deg : b_deg cb = cd.
  Proof. apply (fit_deg _ _ _ (cf_elem _ _ _ HC)). Qed.

  (** ** HDG *)
  Lemma hdg_face_form N f fc k off data scale : face_fit f fc -> (b_size cb <= N)%nat -> (off + b_size (el_basis (fc_elem fc) k) <= N)%nat ->
    exists A, hdg_face ldlt cb scale (off, data) (fc, Some k) = ((off + b_size (el_basis (fc_elem fc) k))%nat, maddm data (mscalm (scale fc) A)) /\
     face_form N f k (cell_fun c cd) (fun u => lincomb (b_size (el_basis (fc_elem fc) k)) (fun j => u (off + j)%nat) (b_poly (el_basis (fc_elem fc) k))) A.
  Proof.
    intros [[FF [Hn Hd]] FI] Hc HN. unfold hdg_face. cbn [fst snd]. eexists. split; [reflexivity|]. rewrite cb_deg.
    set (fb := el_basis (fc_elem fc) k) in *. set (mass := make_mass_matrix (fc_elem fc) fb 0).
    set (trace := accumulate (el_quad (fc_elem fc) (k + cd)) (phi fb) (phi cb) zeroM).
    set (oper := add_cols _ 0 (b_size cb) (solveM ldlt (b_size fb) mass trace)).
    set (tr := add_cols _ 0 (b_size cb) trace).
    intros u v du dv Ju Jv.
    set (uF := fun u : nat -> R => lincomb (b_size fb) (fun j => u (off + j)%nat) (b_poly fb)).
    assert (T : forall z i, (i < b_size fb)%nat -> mv (b_size cb) trace z i = fa_int f (PMul (b_poly fb i) (cell_fun c cd z))).
    { intros z i Hi. unfold trace, phi. rewrite (acc_mv _ _ _ _ _ _ (b_poly fb i)) by reflexivity. apply (acc_int _ _ FI _ FF).
      apply deg_le_mul; [apply (basis_deg _ _ _ FF), Hi|]. apply (fun_deg _ _ _ (cf_elem _ _ _ HC)). }
    assert (TR : forall z i, (i < b_size fb)%nat -> mv N tr z i = fa_int f (PMul (b_poly fb i) (psubp (cell_fun c cd z) (uF z)))).
    { intros z i Hi. unfold tr. rewrite !mv_add_cols by lia. rewrite mv_zero, mv_opp. unfold mass, fb. rewrite (mass_mv _ _ FI _ FF) by exact Hi. fold fb.
      change (fun j => z (0 + j)%nat) with z. rewrite T by exact Hi. rewrite (I_mul_sub_r _ _ FI). unfold uF. lra. }
    assert (O : forall z i, (i < b_size fb)%nat -> mv N oper z i = mv (b_size cb) (solveM ldlt (b_size fb) mass trace) z i - z (off + i)%nat).
    { intros z i Hi. unfold oper. rewrite !mv_add_cols by lia. rewrite mv_zero, mv_opp, mv_ident by exact Hi. change (fun j => z (0 + j)%nat) with z. lra. }
    assert (L : forall z i, (i < b_size fb)%nat -> fa_int f (PMul (b_poly fb i) (lincomb (b_size fb) (mv N oper z) (b_poly fb))) =
       fa_int f (PMul (b_poly fb i) (psubp (cell_fun c cd z) (uF z)))).
    { intros z i Hi. rewrite (I_ext _ _ FI _ (PMul (b_poly fb i) (psubp (lincomb (b_size fb) (mv (b_size cb) (solveM ldlt (b_size fb) mass trace) z) (b_poly fb)) (uF z)))).
      - rewrite !(I_mul_sub_r _ _ FI). f_equal.
        apply (mass_solve _ _ FI ldlt HS k _ _ _ (2 * k) _ _ _ _ _ (fit_basis _ _ _ FF k) (fit_quad _ _ _ FF)); [lia| | |exact Hi].
        + intros a b Ha Hb. apply (mass_eq _ _ FI _ FF); assumption.
        + intros a Ha. apply T, Ha.
      - intros x. unfold psubp, pscal, uF. cbn [peval]. rewrite !peval_lincomb. f_equal. rewrite <- sg_scal, <- sg_plus. apply sg_ext. intros j Hj. rewrite (O z j Hj). ring. }
    unfold bil. rewrite (quadf_trans N (b_size fb) oper tr v u) by trivial.
    rewrite (sg_ext (b_size fb) _ (fun i => mv N oper v i * fa_int f (PMul (b_poly fb i) du))).
    - rewrite <- (I_mul_lincomb_l _ _ FI). rewrite (I_comm _ _ FI du). apply (int_ext _ _ FI). intros x Hx. cbn [peval]. f_equal.
      apply (l2_eq _ _ FI _ FF k _ _ _ Jv); [exact (L v)|exact Hx].
    - intros i Hi. f_equal. rewrite (TR u i Hi). symmetry. apply (proj2 Ju), (basis_deg _ _ _ FF), Hi.
  Qed.

  (** ** HHO *)
  Context (rd fd : nat) (Hcd : (cd <= rd)%nat) (N : nat) (rec : mtx).
  Let rb := el_basis (cl_elem c) rd.
  Let rbs := b_size rb.
  Let R_ (u : nat -> R) := rec_fun c rd N rec u.
  Definition hho_proj1 : mtx :=
    let M1 := make_mass_matrix (cl_elem c) cb 0 in
    let M2 := accumulate (el_quad (cl_elem c) (rd + cd)) (phi cb) (fun x j => phi rb x (S j)) zeroM in
    add_cols (mopp (solveM ldlt (b_size cb) M1 (mprod (rbs - 1) M2 rec))) 0 (b_size cb) ident.
  Definition piT (u : nat -> R) : pexp :=
    let M1 := make_mass_matrix (cl_elem c) cb 0 in
    let M2 := accumulate (el_quad (cl_elem c) (rd + cd)) (phi cb) (fun x j => phi rb x (S j)) zeroM in
    lincomb (b_size cb) (mv N (solveM ldlt (b_size cb) M1 (mprod (rbs - 1) M2 rec)) u) (b_poly cb).
  Lemma R_deg u : deg_le (R_ u) rd.
  Proof. apply deg_le_lincomb. intros j Hj. apply (basis_deg _ _ _ (cf_elem _ _ _ HC)). lia. Qed.
  Lemma piT_proj u : l2proj (po_int P) cd (R_ u) (piT u).
  Proof.
    unfold piT. apply (l2_basis _ _ HI _ (cf_elem _ _ _ HC)). fold cb.
    apply (mass_solve _ _ HI ldlt HS cd _ _ _ (2 * cd) _ _ _ _ _ (fit_basis _ _ _ (cf_elem _ _ _ HC) cd) (fit_quad _ _ _ (cf_elem _ _ _ HC))); [lia| |].
    - intros a b Ha Hb. apply (mass_eq _ _ HI _ (cf_elem _ _ _ HC)); assumption.
    - intros a Ha. rewrite mv_mprod. unfold phi. rewrite (acc_mv _ _ _ _ _ _ (b_poly cb a)) by reflexivity.
      apply (acc_int _ _ HI _ (cf_elem _ _ _ HC)). apply (deg_le_mono _ (cd + rd)); [lia|]. apply deg_le_mul; [apply (basis_deg _ _ _ (cf_elem _ _ _ HC)), Ha|apply R_deg].
  Qed.
  (** the function that the faces are compared with *)
  Definition lift (u : nat -> R) : pexp := PAdd (R_ u) (psubp (cell_fun c cd u) (piT u)).
  Lemma hho_face_form f fc off data h : face_fit f fc -> (b_size cb <= N)%nat -> (off + b_size (el_basis (fc_elem fc) fd) <= N)%nat ->
    exists A, stab_face ldlt (mkDegs cd fd rd) rb cb rec hho_proj1 h (off, data) fc = ((off + b_size (el_basis (fc_elem fc) fd))%nat, maddm data (mscalm (/ h) A)) /\
     face_form N f fd lift (fun u => lincomb (b_size (el_basis (fc_elem fc) fd)) (fun j => u (off + j)%nat) (b_poly (el_basis (fc_elem fc) fd))) A.
  Proof.
    intros [[FF [Hn Hd]] FI] Hc HN. unfold stab_face. cbn [face_degree reconstruction_degree]. eexists. split; [reflexivity|].
    set (fb := el_basis (fc_elem fc) fd) in *. set (mass := make_mass_matrix (fc_elem fc) fb 0).
    set (tr := accumulate _ (phi fb) (fun x j => phi rb x (S j)) zeroM). set (tr2 := accumulate _ (phi fb) (phi cb) zeroM).
    set (BRF := maddm _ _).
    set (uF := fun u : nat -> R => lincomb (b_size fb) (fun j => u (off + j)%nat) (b_poly fb)).
    assert (P1 : forall z j, (j < b_size cb)%nat -> mv N hho_proj1 z j = z j - mv N (solveM ldlt (b_size cb) (make_mass_matrix (cl_elem c) cb 0)
        (mprod (rbs - 1) (accumulate (el_quad (cl_elem c) (rd + cd)) (phi cb) (fun x j => phi rb x (S j)) zeroM) rec)) z j).
    { intros z j Hj. unfold hho_proj1. rewrite mv_add_cols by lia. rewrite mv_opp, mv_ident by exact Hj. cbn [Nat.add]. lra. }
    assert (D1 : forall z x, peval (lincomb (b_size cb) (mv N hho_proj1 z) (b_poly cb)) x = peval (psubp (cell_fun c cd z) (piT z)) x).
    { intros z x. unfold psubp, pscal, cell_fun, piT. cbn [peval]. rewrite !peval_lincomb. fold cb. rewrite <- sg_scal, <- sg_plus. apply sg_ext. intros j Hj.
      rewrite (P1 z j Hj). ring. }
    assert (B : forall z i, (i < b_size fb)%nat -> mv N BRF z i = mv N (solveM ldlt (b_size fb) mass (mprod (rbs - 1) tr rec)) z i - z (off + i)%nat +
       mv N (solveM ldlt (b_size fb) mass (mprod (b_size cb) tr2 hho_proj1)) z i).
    { intros z i Hi. unfold BRF. rewrite mv_madd, mv_add_cols by lia. rewrite mv_opp, mv_ident by exact Hi. fold rbs. lra. }
    assert (L : forall z i, (i < b_size fb)%nat -> fa_int f (PMul (b_poly fb i) (lincomb (b_size fb) (mv N BRF z) (b_poly fb))) =
       fa_int f (PMul (b_poly fb i) (psubp (lift z) (uF z)))).
    { intros z i Hi.
      set (s1 := lincomb (b_size fb) (mv N (solveM ldlt (b_size fb) mass (mprod (rbs - 1) tr rec)) z) (b_poly fb)).
      set (s2 := lincomb (b_size fb) (mv N (solveM ldlt (b_size fb) mass (mprod (b_size cb) tr2 hho_proj1)) z) (b_poly fb)).
      rewrite (I_ext _ _ FI _ (PAdd (PMul (b_poly fb i) (psubp s1 (uF z))) (PMul (b_poly fb i) s2))).
      - rewrite (int_add _ _ FI), !(I_mul_sub_r _ _ FI).
        assert (S1 : fa_int f (PMul (b_poly fb i) s1) = fa_int f (PMul (b_poly fb i) (R_ z))).
        { apply (mass_solve _ _ FI ldlt HS fd _ _ _ (2 * fd) _ _ _ _ _ (fit_basis _ _ _ FF fd) (fit_quad _ _ _ FF)); [lia| | |exact Hi].
          + intros a b Ha Hb. apply (mass_eq _ _ FI _ FF); assumption.
          + intros a Ha. rewrite mv_mprod. unfold tr, phi. rewrite (acc_mv _ _ _ _ _ _ (b_poly fb a)) by reflexivity. apply (acc_int _ _ FI _ FF).
            apply (deg_le_mono _ (fd + rd)); [lia|]. apply deg_le_mul; [apply (basis_deg _ _ _ FF), Ha|apply R_deg]. }
        assert (S2 : fa_int f (PMul (b_poly fb i) s2) = fa_int f (PMul (b_poly fb i) (psubp (cell_fun c cd z) (piT z)))).
        { rewrite <- (I_ext _ _ FI (PMul (b_poly fb i) (lincomb (b_size cb) (mv N hho_proj1 z) (b_poly cb))) (PMul (b_poly fb i) (psubp (cell_fun c cd z) (piT z)))) by (intros x; cbn [peval]; rewrite D1; reflexivity).
          apply (mass_solve _ _ FI ldlt HS fd _ _ _ (2 * fd) _ _ _ _ _ (fit_basis _ _ _ FF fd) (fit_quad _ _ _ FF)); [lia| | |exact Hi].
          + intros a b Ha Hb. apply (mass_eq _ _ FI _ FF); assumption.
          + intros a Ha. rewrite mv_mprod. unfold tr2, phi. rewrite (acc_mv _ _ _ _ _ _ (b_poly fb a)) by reflexivity. apply (acc_int _ _ FI _ FF).
            apply (deg_le_mono _ (fd + cd)); [lia|]. apply deg_le_mul; [apply (basis_deg _ _ _ FF), Ha|apply (fun_deg _ _ _ (cf_elem _ _ _ HC))]. }
        unfold lift. rewrite (I_ext _ _ FI (PMul (b_poly fb i) (PAdd (R_ z) (psubp (cell_fun c cd z) (piT z)))) (PAdd (PMul (b_poly fb i) (R_ z)) (PMul (b_poly fb i) (psubp (cell_fun c cd z) (piT z))))) by (intros x; cbn [peval]; ring).
        rewrite (int_add _ _ FI), S1, S2. lra.
      - intros x. unfold psubp, pscal, uF, s1, s2. cbn [peval]. rewrite !peval_lincomb. rewrite <- Rmult_plus_distr_l. f_equal. rewrite <- sg_scal, <- !sg_plus. apply sg_ext. intros j Hj. rewrite (B z j Hj). ring. }
    intros u v du dv Ju Jv. rewrite bil_mass.
    rewrite (sg_ext (b_size fb) _ (fun i => mv N BRF v i * fa_int f (PMul (b_poly fb i) du))).
    - rewrite <- (I_mul_lincomb_l _ _ FI). rewrite (I_comm _ _ FI du). apply (int_ext _ _ FI). intros x Hx. cbn [peval]. f_equal.
      apply (l2_eq _ _ FI _ FF fd _ _ _ Jv); [exact (L v)|exact Hx].
    - intros i Hi. f_equal. unfold mass, fb. rewrite (mass_mv _ _ FI _ FF) by exact Hi. fold fb. apply (int_ext _ _ FI). intros x Hx. cbn [peval]. f_equal.
      apply (l2_eq _ _ FI _ FF fd _ _ _ Ju); [exact (L u)|exact Hx].
  Qed.
End Stab.
