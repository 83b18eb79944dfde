(** Proofs about the scalar HHO operators: the reconstruction. *)
From Coq Require Import List Arith Reals Lra Lia Bool.
From Verif Require Import Poly_Spec Poly_Proofs HHO_Spec HHO_Model HHO_Setting HHO_Proofs HHO2_Proofs HHO3_Proofs HHO4_Proofs.
Import ListNotations.
Open Scope R_scope.

Lemma spd_delta d : spd d delta.
Proof.
  split; [intros i j _ _; unfold delta; rewrite Nat.eqb_sym; reflexivity|]. intros x.
  assert (Q : quadf d delta x x = sg d (fun i => x i * x i)) by (apply sg_ext; intros i Hi; rewrite (sg_delta d i x Hi); reflexivity).
  rewrite Q. split; [apply sg_le; intros; nra|]. intros Z.
  assert (G : forall n, sg n (fun i => x i * x i) = 0 -> forall i, (i < n)%nat -> x i = 0).
  { induction n; intros H i Hi; [lia|]. simpl in H. assert (0 <= sg n (fun i => x i * x i)) by (apply sg_le; intros; nra).
    destruct (Nat.eq_dec i n) as [->|N]; [nra|]. apply IHn; [nra|lia]. }
  apply G, Z.
Qed.

Lemma interp_faces d KK ldlt (HS : solves_spd ldlt) rd p di (Hp : deg_le p rd) w (Dw : deg_le w rd) uT fs fcs : Forall2 face_fit fs fcs ->
  forall fdi, length fdi = length fcs -> ~ In None fdi ->
  (forall fd, In (Some fd) fdi -> (rd <= fd + 1)%nat /\ (rd <= fd + 2 * di)%nat) ->
  forall uF, Forall2 (is_proj ldlt p di) uF (combine fcs fdi) ->
  fsum fs (fun f => fa_int f (PMul uT (flux d KK (fa_normal f) w))) +
  fsum2 fs uF (fun f u => fa_int f (PMul (psubp u uT) (flux d KK (fa_normal f) w))) =
  fsum fs (fun f => fa_int f (PMul p (flux d KK (fa_normal f) w))).
Proof.
  intros FF. induction FF as [|f fc fs fcs [[FF Hn] FI] _ IH]; intros fdi' Hlen' Hall' Hfd' uF PF; [simpl; lra|].
  destruct fdi' as [|[fd|] fdi']; [discriminate| |exfalso; apply Hall'; left; reflexivity].
  cbn [combine] in PF. inversion PF as [|o fi uF' l' PF1 PF2]; subst. unfold is_proj in PF1. cbn [fst snd] in PF1.
  destruct o as [o|]; [|contradiction]. cbn [fsum fsum2].
  assert (IH' := IH fdi' ltac:(simpl in Hlen'; lia) (fun H => Hall' (or_intror H)) (fun fd' H => Hfd' fd' (or_intror H)) uF' PF2).
  assert (C : fa_int f (PMul o (flux d KK (fa_normal f) w)) = fa_int f (PMul p (flux d KK (fa_normal f) w))).
  { rewrite (I_ext _ _ FI _ (PMul (flux d KK (fa_normal f) w) (proj (fc_elem fc) ldlt fd p di))) by (intros x; cbn [peval]; rewrite PF1; ring).
    rewrite (I_comm _ _ FI p). destruct (Hfd' fd (or_introl eq_refl)) as (H1 & H2). apply (proj_test _ _ FI _ FF ldlt HS).
    - apply (deg_le_mono _ rd); [lia|exact Hp].
    - apply (deg_le_mono _ (rd - 1)); [lia|]. apply deg_flux, Dw. }
  rewrite (I_mul_sub_l _ _ FI), C. lra.
Qed.

Section Core.
  Context (d : nat) (P : polytope) (c : scell) (HC : cell_fits d P c) (K : option mtx) (HK : spd d (tensor_of K)).
  Let HP := cf_poly _ _ _ HC.
  Let HI := poly_int _ _ HP.
  Let KK := tensor_of K.
  Context (ldlt : nat -> mtx -> (nat -> R) -> nat -> R) (HS : solves_spd ldlt).
  Context (rd cd : nat) (fdi : list (option nat)).
  Let rb := el_basis (cl_elem c) rd.
  Let rbs := b_size rb.
  Let cb := el_basis (cl_elem c) cd.
  Let N := num_dofs c cd fdi.
  Notation E := (en d P KK).
  Definition form (u : nat -> R) (w : pexp) : R := rhs_form d P K (cell_fun c cd u) (faces_funs c cd fdi u) w.
  Context (lhs rhs : mtx)
    (Hl : forall x i, (i < rbs - 1)%nat -> mv (rbs - 1) lhs x i = E (tailf c rd x) (b_poly rb (S i)))
    (Sl : spd (rbs - 1) lhs)
    (Hr : forall u i, (i < rbs - 1)%nat -> mv N rhs u i = form u (b_poly rb (S i))).
  Let oper := solveM ldlt (rbs - 1) lhs rhs.
  Let data := mprod (rbs - 1) (mtrans rhs) oper.
  Lemma core_tail u : rec_fun c rd N oper u = tailf c rd (mv N oper u).
  Proof. reflexivity. Qed.
  Lemma core_eq u w : pvars d w -> deg_le w rd -> E (rec_fun c rd N oper u) w = form u w.
  Proof.
    apply (forms_agree d P c HC K). intros i Hi. rewrite core_tail. change (tensor_of K) with KK. fold rb rbs in Hi |- *.
    rewrite <- (Hl _ i Hi). unfold oper. rewrite mv_solveM by assumption. apply Hr, Hi.
  Qed.
  Lemma core_data u v : sg N (fun i => u i * mv N data v i) = E (rec_fun c rd N oper u) (rec_fun c rd N oper v).
  Proof.
    unfold data. rewrite quadf_trans by trivial. rewrite (core_tail v). unfold tailf at 1. fold rb rbs.
    rewrite (en_lincomb_r d P HP KK). apply sg_ext. intros k Hk. rewrite (Hr u k Hk).
    rewrite core_eq; [unfold mv; ring|apply (cf_vars _ _ _ HC)|].
    apply (basis_deg _ _ _ (cf_elem _ _ _ HC)). unfold rbs, rb in Hk. lia.
  Qed.
  Lemma rec_deg u : deg_le (rec_fun c rd N oper u) rd.
  Proof.
    apply deg_le_lincomb. intros j Hj. apply (basis_deg _ _ _ (cf_elem _ _ _ HC)). lia.
  Qed.
  Lemma pvars_lincomb n k Q : (forall j, pvars d (Q j)) -> pvars d (lincomb n k Q).
  Proof. intros H. unfold lincomb. induction n; simpl; [exact Logic.I|]. repeat split; [exact IHn|apply H]. Qed.
  Lemma rec_vars u : pvars d (rec_fun c rd N oper u).
  Proof. apply pvars_lincomb. intros; apply (cf_vars _ _ _ HC). Qed.

  (** interpolating a polynomial *)
  Context (p : pexp) (di : nat) (Hv : pvars d p) (Hp : deg_le p rd).
  Context (Hcd : (rd <= cd + 2)%nat) (Hcdi : (rd <= cd + 2 * di)%nat).
  Context (Hfd : forall fd, In (Some fd) fdi -> (rd <= fd + 1)%nat /\ (rd <= fd + 2 * di)%nat)
          (Hall : ~ In None fdi) (Hlen : length fdi = length (cl_faces c)).
  Let Ip := project_cdi ldlt c cd fdi (peval p) di.
  Lemma form_interp w : deg_le w rd -> form Ip w = E p w.
  Proof.
    intros Dw. unfold form, rhs_form. rewrite !(en_green d P HP). fold KK.
    set (PT := proj (cl_elem c) ldlt cd p di).
    assert (CT : forall x, peval (cell_fun c cd Ip) x = peval PT x) by (intros x; apply project_cell).
    assert (A : po_int P (PMul (cell_fun c cd Ip) (divk d KK w)) = po_int P (PMul p (divk d KK w))).
    { rewrite (I_ext _ _ HI _ (PMul (divk d KK w) PT)) by (intros x; cbn [peval]; rewrite CT; ring).
      rewrite (I_comm _ _ HI p). unfold PT. apply (proj_test _ _ HI _ (cf_elem _ _ _ HC) ldlt HS).
      - apply (deg_le_mono _ rd); [lia|exact Hp].
      - apply (deg_le_mono _ (rd - 2)); [lia|]. apply deg_divk, Dw. }
    rewrite A.
    assert (B : fsum (po_facets P) (fun f => fa_int f (PMul (cell_fun c cd Ip) (flux d KK (fa_normal f) w))) +
      fsum2 (po_facets P) (faces_funs c cd fdi Ip) (fun f u => fa_int f (PMul (psubp u (cell_fun c cd Ip)) (flux d KK (fa_normal f) w))) =
      fsum (po_facets P) (fun f => fa_int f (PMul p (flux d KK (fa_normal f) w)))); [|unfold KK in *; lra].
    pose proof (project_faces ldlt c cd fdi p di) as PF. fold Ip in PF.
    pose proof (faces_fit d P c HC) as FF.
    apply (interp_faces d KK ldlt HS rd p di Hp w Dw _ _ _ FF fdi Hlen Hall Hfd _ PF).
  Qed.
  Lemma core_consistent : forall k x, (k < d)%nat -> po_on P x -> peval (pdiff k (psubp (rec_fun c rd N oper Ip) p)) x = 0.
  Proof.
    apply (en_def_grad d P HP KK HK). rewrite (en_sub_l d P HP KK).
    set (w := psubp (rec_fun c rd N oper Ip) p).
    assert (V : pvars d w) by (unfold w; cbn; repeat split; [apply rec_vars|exact Hv]).
    assert (D : deg_le w rd) by (apply deg_le_sub; [apply rec_deg|exact Hp]).
    rewrite core_eq by assumption. rewrite form_interp by assumption. lra.
  Qed.
  Lemma core_consistent_const : exists k, forall x, po_on P x -> peval p x = peval (rec_fun c rd N oper Ip) x + k.
  Proof.
    destruct (poly_point _ _ HP) as (x0 & H0). exists (- peval (psubp (rec_fun c rd N oper Ip) p) x0). intros x Hx.
    pose proof (poly_conn _ _ HP _ core_consistent x x0 Hx H0) as Q. revert Q. unfold psubp, pscal. cbn [peval]. intros Q. lra.
  Qed.
End Core.

(** * the two programs *)
Lemma bases_all c fd : bases_of c (all_faces c fd) = bases_l (map (fun fc => (fc, Some fd)) (cl_faces c)).
Proof. unfold bases_of, bases_l, all_faces. f_equal. induction (cl_faces c) as [|fc l IH]; simpl; [reflexivity|]. rewrite IH. reflexivity. Qed.
Section Programs.
  Context (d : nat) (P : polytope) (c : scell) (HC : cell_fits d P c) (K : option mtx) (HK : spd d (tensor_of K)).
  Let HP := cf_poly _ _ _ HC.
  Let HI := poly_int _ _ HP.
  Let KK := tensor_of K.
  Context (ldlt : nat -> mtx -> (nat -> R) -> nat -> R) (HS : solves_spd ldlt).
  Context (rd cd : nat) (Hrd : (1 <= rd)%nat) (Hcd : (cd <= rd)%nat).
  Let rb := el_basis (cl_elem c) rd.
  Let rbs := b_size rb.
  Let cb := el_basis (cl_elem c) cd.

  Lemma cell_row N u i : (i < rbs - 1)%nat -> (b_size cb <= N)%nat ->
    mv N (lap_rhs_cell d K c rd rb cb) u i = en d P KK (cell_fun c cd u) (b_poly rb (S i)).
  Proof.
    intros Hi HN. unfold lap_rhs_cell. rewrite rhs_cell_row by exact HN. rewrite mv_zero, Rplus_0_l.
    apply (exact_int _ _ HI _ (fit_quad _ _ _ (cf_elem _ _ _ HC))). apply (deg_le_mono _ (cd - 1 + (rd - 1))); [lia|].
    apply deg_graddot; [apply (fun_deg _ _ _ (cf_elem _ _ _ HC))|]. intros k. apply deg_kgrad. apply (basis_deg _ _ _ (cf_elem _ _ _ HC)). unfold rbs, rb in Hi; lia.
  Qed.
  Section Hdi.
    Context (proj : bool) (fd : nat) (Hproj : (proj = true -> fd <= rd /\ rd <= fd + 1)%nat).
    Let fdi := all_faces c fd.
    Definition hdi_rhs : mtx := snd (fold_left (lap_face ldlt d K proj (mkDegs cd fd rd) rb cb) (cl_faces c) (b_size cb, lap_rhs_cell d K c rd rb cb)).
    Lemma hdi_row u i : (i < rbs - 1)%nat -> mv (num_dofs c cd fdi) hdi_rhs u i = form d P c K cd fdi u (b_poly rb (S i)).
    Proof.
      intros Hi. unfold hdi_rhs, rb, cb.
      rewrite (faces_rows d P c HC K ldlt HS (num_dofs c cd fdi) u rd cd Hrd proj fd i ltac:(unfold rbs, rb in Hi; lia) Hproj ltac:(unfold num_dofs; lia)
        (po_facets P) (cl_faces c) (faces_fit d P c HC)) by (unfold num_dofs, fdi; rewrite bases_all; lia).
      pose proof (cell_row (num_dofs c cd fdi) u i Hi ltac:(unfold num_dofs, cb; lia)) as Q. unfold rb, cb, KK in Q. rewrite Q.
      unfold form, rhs_form, faces_funs, fdi. rewrite bases_all. reflexivity.
    Qed.
    Lemma hdi_prog : make_scalar_hho_laplacian ldlt d K proj c (mkDegs cd fd rd) =
      (solveM ldlt (rbs - 1) (lap_lhs d K c rd rb) hdi_rhs,
       mprod (rbs - 1) (mtrans hdi_rhs) (solveM ldlt (rbs - 1) (lap_lhs d K c rd rb) hdi_rhs)).
    Proof. reflexivity. Qed.
  End Hdi.
End Programs.
Section ProgramsCdi.
  Context (d : nat) (P : polytope) (c : scell) (HC : cell_fits d P c).
  Let HP := cf_poly _ _ _ HC.
  Let HI := poly_int _ _ HP.
  Context (ldlt : nat -> mtx -> (nat -> R) -> nat -> R) (HS : solves_spd ldlt).
  Context (rd cd : nat) (Hrd : (1 <= rd)%nat) (Hcd : (cd <= rd)%nat).
  Let rb := el_basis (cl_elem c) rd.
  Let rbs := b_size rb.
  Let cb := el_basis (cl_elem c) cd.
  Lemma stiff_eq i j : (i < rbs)%nat -> (j < rbs)%nat -> make_stiffness_matrix d (cl_elem c) rb i j = en d P delta (b_poly rb j) (b_poly rb i).
  Proof.
    intros Hi Hj. unfold make_stiffness_matrix. unfold rb at 1. rewrite (fit_deg _ _ _ (cf_elem _ _ _ HC)).
    replace (0 <? rd)%nat with true by (symmetry; apply Nat.ltb_lt; lia).
    assert (G : forall q M, fold_left (fun M qp => let '(x, w) := qp in fun i j => M i j + sg d (fun c => w * dphi rb x i c * dphi rb x j c)) q M i j =
        M i j + qsum q (peval (graddot d (b_poly rb j) (kgrad d delta (b_poly rb i))))).
    { induction q as [|[x w] q IH]; intros M; simpl; [lra|]. rewrite IH. unfold graddot. rewrite peval_psum, <- sg_scal.
      rewrite (sg_ext d (fun k => w * dphi rb x i k * dphi rb x j k)
        (fun k => w * peval (PMul (pdiff k (b_poly rb j)) (kgrad d delta (b_poly rb i) k)) x)); [ring|].
      intros k Hk. unfold dphi. cbn [peval]. change delta with (tensor_of None). rewrite <- tens_eq by exact Hk. simpl. ring. }
    rewrite G. unfold zeroM. rewrite Rplus_0_l. unfold rb at 1. rewrite (fit_deg _ _ _ (cf_elem _ _ _ HC)).
    apply (exact_int _ _ HI _ (fit_quad _ _ _ (cf_elem _ _ _ HC))).
    apply (deg_le_mono _ (rd - 1 + (rd - 1))); [lia|]. apply deg_graddot; [apply (basis_deg _ _ _ (cf_elem _ _ _ HC)); assumption|].
    intros k. apply deg_kgrad. apply (basis_deg _ _ _ (cf_elem _ _ _ HC)); assumption.
  Qed.
  Definition cdi_lhs : mtx := shift 1 1 (make_stiffness_matrix d (cl_elem c) rb).
  Lemma cdi_lhs_eq i j : (i < rbs - 1)%nat -> (j < rbs - 1)%nat -> lap_lhs d None c rd rb i j = cdi_lhs i j.
  Proof. intros Hi Hj. unfold cdi_lhs, shift. cbn [Nat.add]. rewrite stiff_eq by lia. apply (lhs_eq d P c HC None rd); unfold rbs, rb in *; lia. Qed.
  Context (fdi : list (option nat)).
  Definition cdi_rhs : mtx := snd (fold_left (lap_face_cdi d rd cd rb (b_size cb)) (combine (cl_faces c) fdi)
                     (b_size cb, add_cols zeroM 0 (b_size cb) (shift 1 0 (make_stiffness_matrix d (cl_elem c) rb)))).
  Lemma cdi_row u i : (i < rbs - 1)%nat -> mv (num_dofs c cd fdi) cdi_rhs u i = form d P c None cd fdi u (b_poly rb (S i)).
  Proof.
    intros Hi. unfold cdi_rhs, rb, cb.
    rewrite (cdi_rows d P c HC None (num_dofs c cd fdi) u rd cd Hrd Hcd i eq_refl ltac:(unfold rbs, rb in Hi; lia) ltac:(unfold num_dofs; lia)
      (po_facets P) (cl_faces c) (faces_fit d P c HC)) by (unfold num_dofs, bases_of; unfold bases_l; lia).
    rewrite mv_add_cols by (unfold num_dofs; lia). rewrite mv_zero, Rplus_0_l. unfold form, rhs_form, faces_funs. f_equal.
    unfold cell_fun. rewrite (en_lincomb_l d P HP). fold cb. unfold mv. apply sg_ext. intros j Hj. unfold shift. cbn [Nat.add].
    destruct (cf_nested _ _ _ HC cd rd Hcd) as (Nle & Neq). fold rb cb in Nle, Neq. fold rbs in Nle.
    pose proof (stiff_eq (S i) j ltac:(lia) ltac:(lia)) as Q. fold rb. rewrite Q, (Neq j Hj). simpl. ring.
  Qed.
End ProgramsCdi.
