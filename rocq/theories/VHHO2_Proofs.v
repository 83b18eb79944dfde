(** Gradient reconstruction. *)
From Coq Require Import List Arith Reals Lra Lia Bool.
From Verif Require Import Poly_Spec Poly_Proofs HHO_Spec VHHO_Spec HHO_Model VHHO_Model HHO_Setting VHHO_Setting HHO_Proofs HHO2_Proofs HHO3_Proofs HHO4_Proofs HHO6_Proofs HHO7_Proofs HHO8_Proofs HHO9_Proofs VHHO_Proofs.
Import ListNotations.
Open Scope R_scope.

(** * divergence theorem *)
Lemma green_vec d P (HP : is_polytope d P) p V :
  po_int P (vdot d V (pgrad p)) = - po_int P (PMul p (pdivv d V)) + fsum (po_facets P) (fun f => fa_int f (PMul p (vnrm d (fa_normal f) V))).
Proof.
  pose proof (poly_int _ _ HP) as HI.
  assert (A : po_int P (vdot d V (pgrad p)) + po_int P (PMul p (pdivv d V)) = po_int P (psum d (fun a => pdiff a (PMul p (V a))))).
  { rewrite <- (int_add _ _ HI). apply (I_ext _ _ HI). intros x. cbn [peval]. unfold pdivv. rewrite peval_vdot, !peval_psum, <- sg_scal, <- sg_plus.
    apply sg_ext. intros. unfold pgrad. cbn [pdiff peval]. ring. }
  rewrite (I_psum _ _ HI) in A. rewrite (sg_ext d _ (fun a => fsum (po_facets P) (fun f => fa_normal f a * fa_int f (PMul p (V a))))) in A.
  2:{ intros a Ha. apply (poly_green _ _ HP), Ha. }
  assert (B : sg d (fun a => fsum (po_facets P) (fun f => fa_normal f a * fa_int f (PMul p (V a)))) = fsum (po_facets P) (fun f => fa_int f (PMul p (vnrm d (fa_normal f) V)))).
  { pose proof (fun f Hf => proj1 (poly_facets _ _ HP f Hf)) as HF. clear A. induction (po_facets P) as [|f l IH]; cbn [fsum]; [apply sg_zero; auto|].
    rewrite sg_plus, IH by (intros; apply HF; right; assumption). f_equal. pose proof (HF f (or_introl eq_refl)) as Hf.
    rewrite (I_ext _ _ Hf _ (psum d (fun a => pscal (fa_normal f a) (PMul p (V a))))).
    - rewrite (I_psum _ _ Hf). apply sg_ext. intros a _. rewrite (int_scal _ _ Hf). reflexivity.
    - intros x. cbn [peval]. unfold vnrm. rewrite !peval_psum, <- sg_scal. apply sg_ext. intros. unfold pscal. cbn [peval]. ring. }
  lra.
Qed.
Lemma peval_vnrm d n V x : peval (vnrm d n V) x = sg d (fun a => n a * peval (V a) x).
Proof. unfold vnrm. rewrite peval_psum. reflexivity. Qed.
Lemma peval_pdivv d V x : peval (pdivv d V) x = sg d (fun a => peval (pdiff a (V a)) x).
Proof. unfold pdivv. rewrite peval_psum. reflexivity. Qed.
Lemma deg_vnrm d n V k : vdeg d V k -> deg_le (vnrm d n V) k.
Proof. intros H. apply deg_le_psum. intros a Ha. apply deg_le_scal, H, Ha. Qed.
Lemma deg_pdivv d V k : vdeg d V k -> deg_le (pdivv d V) (k - 1).
Proof. intros H. apply deg_le_psum. intros a Ha. apply deg_le_diff, H, Ha. Qed.

Lemma fold_add_cols N off n u i (B : pt -> R -> mtx) (g : pt -> R) (q : list (pt * R)) : (off + n <= N)%nat ->
  (forall x w, mv n (B x w) (fun j => u (off + j)%nat) i = w * g x) -> forall M,
  mv N (fold_left (fun M qp => let '(x, w) := qp in add_cols M off n (B x w)) q M) u i = mv N M u i + qsum q g.
Proof.
  intros Hn HB. induction q as [|[x w] q IH]; intros M; cbn [fold_left qsum]; [lra|]. rewrite IH, mv_add_cols, HB by exact Hn. lra.
Qed.

Lemma pdiff_const a p : pdeg p = 0%nat -> forall x, peval (pdiff a p) x = 0.
Proof.
  induction p; intros H x; cbn [pdeg pdiff peval] in *; try lia; try lra.
  - rewrite IHp1, IHp2 by lia. lra.
  - rewrite IHp1, IHp2 by lia. lra.
Qed.
Lemma deg_le_diff0 a p x : deg_le p 0 -> peval (pdiff a p) x = 0.
Proof. intros (q & Hq & E). rewrite <- (pdiff_ext q p a E). apply pdiff_const. lia. Qed.

Lemma fsum2_projs (W : facet -> pexp) p k0 fs : forall ds us, (forall f, In f fs -> integral (fa_on f) (fa_int f)) -> projs fs ds us p ->
  (forall k, In (Some k) ds -> (k0 <= k)%nat) -> (forall f, In f fs -> deg_le (W f) k0) ->
  fsum2 fs us (fun f u => fa_int f (PMul u (W f))) = fsum fs (fun f => fa_int f (PMul p (W f))) - fmiss fs ds (fun f => fa_int f (PMul p (W f))).
Proof.
  induction fs as [|f fs IH]; intros [|[k|] ds] [|[u|] us] HF HP Hk HW; cbn [projs] in HP; try contradiction; cbn [fsum fsum2 fmiss]; [lra| |].
  - destruct HP as ((Du & Hu) & HP). rewrite (IH ds us) by (try assumption; intros; try (apply HF; right; assumption); try (apply HW; right; assumption); apply Hk; right; assumption).
    pose proof (HF f (or_introl eq_refl)) as Hf. rewrite (I_comm _ _ Hf u), (I_comm _ _ Hf p), (Hu (W f)); [lra|].
    apply (deg_le_mono _ k0); [apply Hk; left; reflexivity|apply HW; left; reflexivity].
  - rewrite (IH ds us) by (try assumption; intros; try (apply HF; right; assumption); try (apply HW; right; assumption); apply Hk; right; assumption). lra.
Qed.
Lemma fmiss_none fs ds g : ~ In None ds -> fmiss fs ds g = 0.
Proof.
  revert ds. induction fs as [|f fs IH]; intros [|[k|] ds] H; cbn [fmiss]; try reflexivity.
  - apply IH. intros A. apply H. right. exact A.
  - destruct H. left. reflexivity.
Qed.
Lemma fsum2_split uT (W : facet -> pexp) u fs fcs : Forall2 face_fit fs fcs -> forall fdi off, length fdi = length fcs ->
  let us := face_funs off (bases_l (combine fcs fdi)) u in
  fsum2 fs us (fun f uF => fa_int f (PMul uF (W f))) =
  fsum2 fs us (fun f uF => fa_int f (PMul (psubp uF uT) (W f))) + fsum fs (fun f => fa_int f (PMul uT (W f))) - fmiss fs fdi (fun f => fa_int f (PMul uT (W f))).
Proof.
  intros H. induction H as [|f fc fs fcs [[FF _] FI] H IH]; intros [|[k|] fdi] off L; try discriminate; cbn [combine bases_l map fst snd face_funs fsum2 fsum fmiss]; [lra| |].
  - specialize (IH fdi (off + b_size (el_basis (fc_elem fc) k))%nat ltac:(simpl in L; lia)). unfold bases_l in IH. cbv zeta in IH. rewrite IH, (I_mul_sub_l _ _ FI). lra.
  - specialize (IH fdi off ltac:(simpl in L; lia)). unfold bases_l in IH. cbv zeta in IH. rewrite IH. lra.
Qed.

Section GradRec.
  Context (d : nat) (P : polytope) (c : scell) (HC : cell_fits d P c).
  Let HP := cf_poly _ _ _ HC.
  Let HI := poly_int _ _ HP.
  Context (ldlt : nat -> mtx -> (nat -> R) -> nat -> R) (HS : solves_spd ldlt) (cd gd : nat).
  Let cb := el_basis (cl_elem c) cd.
  Let gb := vec_basis d (el_basis (cl_elem c) gd).
  Lemma gb_deg0 : v_deg gb = gd.
  Proof. apply (fit_deg _ _ _ (cf_elem _ _ _ HC)). Qed.
  Lemma gb_deg j : (j < v_size gb)%nat -> vdeg d (v_comp gb j) gd.
  Proof. apply (vec_deg (po_on P)). apply (fit_basis _ _ _ (cf_elem _ _ _ HC)). Qed.
  Lemma gb_size0 : d = 0%nat -> v_size gb = 0%nat.
  Proof. intros E. unfold gb. cbn [vec_basis v_size]. rewrite E. reflexivity. Qed.
  Lemma gb_indep : vindep (po_on P) d (v_size gb) (v_comp gb).
  Proof.
    destruct (Nat.eq_dec d 0) as [E|]; [intros k _ j Hj; rewrite (gb_size0 E) in Hj; lia|].
    apply (vec_indep _ gd); [lia|]. apply (fit_basis _ _ _ (cf_elem _ _ _ HC)).
  Qed.
  Lemma gradrec_cell_row N u i : (b_size cb <= N)%nat -> (i < v_size gb)%nat ->
    mv N (gradrec_cell d c cd gb) u i = - po_int P (PMul (cell_fun c cd u) (pdivv d (v_comp gb i))).
  Proof.
    intros HN Hi. unfold gradrec_cell. fold cb. rewrite gb_deg0. destruct (Nat.ltb_spec 0 gd).
    - rewrite (fold_add_cols N 0 (b_size cb) u i _ (fun x => - (peval (PMul (cell_fun c cd u) (pdivv d (v_comp gb i))) x))).
      + rewrite mv_zero, Rplus_0_l. rewrite (Poly_Proofs.qsum_ext _ _ (fun x => (-1) * peval (PMul (cell_fun c cd u) (pdivv d (v_comp gb i))) x)) by (intros; ring).
        rewrite qsum_scal. rewrite (exact_int _ _ HI _ (fit_quad _ _ _ (cf_elem _ _ _ HC))); [lra|].
        apply (deg_le_mono _ (cd + (gd - 1))); [lia|]. apply deg_le_mul; [apply (fun_deg _ _ _ (cf_elem _ _ _ HC))|]. apply deg_pdivv, gb_deg, Hi.
      + lia.
      + intros x w. cbn [peval]. unfold cell_fun. fold cb. rewrite peval_lincomb. unfold mv.
        rewrite <- (Ropp_involutive (sg _ _)), <- sg_opp. rewrite peval_pdivv. unfold vdivphi.
        rewrite (sg_ext _ _ (fun j => (w * sg d (fun a => peval (pdiff a (v_comp gb i a)) x)) * (u j * peval (b_poly cb j) x))).
        * rewrite sg_scal. ring.
        * intros j _. cbn [Nat.add]. unfold phi. ring.
    - rewrite mv_zero. symmetry. rewrite (I_zero _ _ HI); [lra|]. intros x _. cbn [peval]. rewrite peval_pdivv, sg_zero; [ring|].
      intros a Ha. apply deg_le_diff0. replace 0%nat with gd by lia. apply gb_deg; assumption.
  Qed.
  Definition gface_term (i : nat) (f : facet) (uF : pexp) : R := fa_int f (PMul uF (vnrm d (fa_normal f) (v_comp gb i))).
  Lemma gradrec_rows N u i : (i < v_size gb)%nat -> forall fs fcs, Forall2 face_fit fs fcs -> forall fdi off M,
    (off + face_dofs (bases_l (combine fcs fdi)) <= N)%nat ->
    mv N (snd (fold_left (gradrec_face d gb) (combine fcs fdi) (off, M))) u i =
    mv N M u i + fsum2 fs (face_funs off (bases_l (combine fcs fdi)) u) (gface_term i).
  Proof.
    intros Hi fs fcs H. induction H as [|f fc fs fcs [[FF [Hn _]] FI] H IH]; intros fdi off M Hoff; [simpl; lra|].
    destruct fdi as [|[fd|] fdi]; cbn [combine fold_left]; [simpl; lra| |].
    - cbn [combine map bases_l fst snd face_dofs] in Hoff. unfold gradrec_face at 2. cbn [fst snd].
      rewrite IH by (unfold bases_l in *; lia). cbn [map bases_l fst snd face_funs fsum2]. rewrite <- Rplus_assoc. f_equal.
      rewrite (fold_add_cols N off _ u i _ (fun x => peval (PMul (lincomb (b_size (el_basis (fc_elem fc) fd)) (fun j => u (off + j)%nat) (b_poly (el_basis (fc_elem fc) fd))) (vnrm d (fa_normal f) (v_comp gb i))) x)).
      + f_equal. unfold gface_term. apply (exact_int _ _ FI _ (fit_quad _ _ _ FF)). rewrite gb_deg0.
        apply (deg_le_mono _ (fd + gd)); [lia|]. apply deg_le_mul; [apply (fun_deg _ _ _ FF)|]. apply deg_vnrm, gb_deg, Hi.
      + lia.
      + intros x w. cbn [peval]. rewrite peval_lincomb, peval_vnrm. unfold mv. rewrite Hn.
        rewrite (sg_ext _ _ (fun j => sg d (fun a => vphi gb x i a * (w * fa_normal f a)) * (u (off + j)%nat * peval (b_poly (el_basis (fc_elem fc) fd) j) x))) by (intros; unfold phi; ring).
        rewrite sg_scal. rewrite (sg_ext d (fun a => vphi gb x i a * (w * fa_normal f a)) (fun a => w * (fa_normal f a * peval (v_comp gb i a) x))) by (intros; unfold vphi; ring).
        rewrite sg_scal. ring.
    - cbn [combine map bases_l fst snd face_dofs] in Hoff. unfold gradrec_face at 2. cbn [fst snd]. rewrite IH by (unfold bases_l in *; lia). reflexivity.
  Qed.
  Variable fdi : list (option nat).
  Let N := num_dofs c cd fdi.
  Let prog := vector_gradrec ldlt d c cd gd fdi.
  Definition G (u : nat -> R) : tf := oper_fun gb N (fst prog) u.
  Definition gform (u : nat -> R) (t : tf) : R :=
    - po_int P (PMul (cell_fun c cd u) (pdivv d t)) + fsum2 (po_facets P) (faces_funs c cd fdi u) (fun f uF => fa_int f (PMul uF (vnrm d (fa_normal f) t))).
  Lemma g_basis u i : (i < v_size gb)%nat -> po_int P (vdot d (v_comp gb i) (G u)) = gform u (v_comp gb i).
  Proof.
    intros Hi. unfold G, oper_fun, prog, vector_gradrec, gradrec_impl. cbn [fst]. fold gb.
    match goal with |- context [solveM ldlt _ ?M ?rhs] => set (MM := M); set (RR := rhs) end.
    refine (eq_trans (vrec_eq (po_on P) (po_int P) HI d ldlt HS (v_size gb) (v_comp gb) gb_indep MM _ N RR u i Hi) _).
    - intros k l Hk Hl. apply (vmass_gram _ _ HI _ (cf_elem _ _ _ HC) d gd); [apply gb_deg0|intros; apply gb_deg; assumption|exact Hk|exact Hl].
    - unfold RR. rewrite (gradrec_rows N u i Hi (po_facets P) (cl_faces c) (faces_fit d P c HC)).
      + rewrite gradrec_cell_row; [reflexivity| |exact Hi]. unfold N, num_dofs. fold cb. lia.
      + unfold N, num_dofs. reflexivity.
  Qed.
  Lemma g_data u v : quadf N (snd prog) u v = po_int P (vdot d (G u) (G v)).
  Proof.
    unfold G, oper_fun, prog, vector_gradrec, gradrec_impl. cbn [fst snd]. fold gb.
    match goal with |- context [solveM ldlt _ ?M ?rhs] => set (MM := M); set (RR := rhs) end.
    refine (vrec_data (po_on P) (po_int P) HI d ldlt HS (v_size gb) (v_comp gb) gb_indep MM _ N RR u v).
    intros k l Hk Hl. apply (vmass_gram _ _ HI _ (cf_elem _ _ _ HC) d gd); [apply gb_deg0|intros; apply gb_deg; assumption|exact Hk|exact Hl].
  Qed.
  Lemma g_deg u : vdeg d (G u) gd.
  Proof. apply vdeg_vlin, gb_deg. Qed.
  Lemma gform_lin u n k B : gform u (vlin n k B) = sg n (fun j => k j * gform u (B j)).
  Proof.
    unfold gform.
    rewrite (I_ext _ _ HI (PMul (cell_fun c cd u) (pdivv d (vlin n k B))) (lincomb n k (fun j => PMul (cell_fun c cd u) (pdivv d (B j))))).
    - rewrite (I_lincomb _ _ HI).
      rewrite (fsum2_ext _ _ _ (fun f uF => sg n (fun j => k j * fa_int f (PMul uF (vnrm d (fa_normal f) (B j)))))).
      + rewrite fsum2_lin, <- sg_opp, <- sg_plus. apply sg_ext. intros. ring.
      + intros f uF Hf. pose proof (facet_int d P c HC f Hf) as HF. rewrite <- (I_lincomb _ _ HF n k (fun j => PMul uF (vnrm d (fa_normal f) (B j)))).
        apply (I_ext _ _ HF). intros x. rewrite peval_lincomb. cbn [peval]. rewrite peval_vnrm.
        rewrite (sg_ext d _ (fun a => sg n (fun j => k j * (fa_normal f a * peval (B j a) x)))) by (intros; rewrite peval_vlin, <- sg_scal; apply sg_ext; intros; ring).
        rewrite sg_swap, <- sg_scal. apply sg_ext. intros j _. rewrite peval_vnrm, sg_scal. ring.
    - intros x. rewrite peval_lincomb. cbn [peval]. rewrite peval_pdivv.
      rewrite (sg_ext d _ (fun a => sg n (fun j => k j * peval (pdiff a (B j a)) x))) by (intros; unfold vlin; rewrite pdiff_lincomb; reflexivity).
      rewrite sg_swap, <- sg_scal. apply sg_ext. intros j _. rewrite peval_pdivv, sg_scal. ring.
  Qed.
  Lemma gform_ext u t t' : (forall a x, (a < d)%nat -> peval (t a) x = peval (t' a) x) -> gform u t = gform u t'.
  Proof.
    intros H. unfold gform. f_equal.
    - f_equal. apply (I_ext _ _ HI). intros x. cbn [peval]. rewrite !peval_pdivv. f_equal. apply sg_ext. intros a Ha. apply pdiff_ext. intros y. apply H, Ha.
    - apply fsum2_ext. intros f uF Hf. apply (I_ext _ _ (facet_int d P c HC f Hf)). intros x. cbn [peval]. rewrite !peval_vnrm. f_equal.
      apply sg_ext. intros a Ha. rewrite H by exact Ha. reflexivity.
  Qed.
  Lemma g_eq u t : vdeg d t gd -> vvars d d t -> po_int P (vdot d t (G u)) = gform u t.
  Proof.
    intros Ht Hv. destruct (vec_span_all d P c HC d gd t Ht Hv) as (k & Hk). fold gb in Hk.
    rewrite (gform_ext u t (vlin (v_size gb) k (v_comp gb))) by (intros; apply Hk; assumption).
    rewrite (vdot_ext _ _ HI d t (G u) (vlin (v_size gb) k (v_comp gb)) (G u)) by (auto; intros; apply Hk; assumption).
    rewrite (vdot_lin_l _ _ HI), gform_lin. apply sg_ext. intros i Hi. rewrite g_basis by exact Hi. reflexivity.
  Qed.
  (** the form with the gradient of the cell function *)
  Lemma gform_grad u t : length fdi = length (cl_faces c) ->
    gform u t = po_int P (vdot d t (pgrad (cell_fun c cd u))) +
      fsum2 (po_facets P) (faces_funs c cd fdi u) (fun f uF => fa_int f (PMul (psubp uF (cell_fun c cd u)) (vnrm d (fa_normal f) t))) -
      fmiss (po_facets P) fdi (fun f => fa_int f (PMul (cell_fun c cd u) (vnrm d (fa_normal f) t))).
  Proof.
    intros L. unfold gform, faces_funs. rewrite (green_vec d P HP), bases_of_l.
    rewrite (fsum2_split (cell_fun c cd u) (fun f => vnrm d (fa_normal f) t) u _ _ (faces_fit d P c HC) fdi _ L). lra.
  Qed.
  (** the reconstruction of an interpolate *)
  Lemma g_interp p di t : length fdi = length (cl_faces c) -> deg_le p (cd + 2 * di) -> (gd <= cd + 1)%nat ->
    (forall k, In (Some k) fdi -> deg_le p (k + 2 * di) /\ (gd <= k)%nat) -> vdeg d t gd ->
    gform (project_cdi ldlt c cd fdi (peval p) di) t = po_int P (vdot d t (pgrad p)) - fmiss (po_facets P) fdi (fun f => fa_int f (PMul p (vnrm d (fa_normal f) t))).
  Proof.
    intros L Dp Hg Hk Ht. destruct (project_l2 d P c HC ldlt HS cd fdi p di L Dp) as (Pc & Pf); [intros k Hin; apply Hk, Hin|]. unfold gform.
    rewrite (fsum2_projs (fun f => vnrm d (fa_normal f) t) p gd _ _ _ (fun f Hf => facet_int d P c HC f Hf) Pf) by (intros; try apply deg_vnrm, Ht; apply Hk; assumption).
    rewrite (green_vec d P HP). rewrite (I_comm _ _ HI (cell_fun _ _ _)), (proj2 Pc), (I_comm _ _ HI p); [lra|].
    apply (deg_le_mono _ (gd - 1)); [lia|]. apply deg_pdivv, Ht.
  Qed.
  Lemma g_commutes p di : length fdi = length (cl_faces c) -> deg_le p (cd + 2 * di) -> (gd <= cd + 1)%nat ->
    (forall k, In (Some k) fdi -> deg_le p (k + 2 * di) /\ (gd <= k)%nat) -> ~ In None fdi ->
    l2vec (po_int P) d gd (pgrad p) (G (project_cdi ldlt c cd fdi (peval p) di)).
  Proof.
    intros L Dp Hg Hk Hn. split; [apply g_deg|]. intros w Hw.
    destruct (vec_span _ gd d _ (fit_basis _ _ _ (cf_elem _ _ _ HC) gd) w Hw) as (k & Kw). fold gb in Kw.
    rewrite (vdot_ext _ _ HI d w _ (vlin (v_size gb) k (v_comp gb)) (G (project_cdi ldlt c cd fdi (peval p) di))) by (auto; intros; apply Kw; assumption).
    rewrite (vdot_ext _ _ HI d w _ (vlin (v_size gb) k (v_comp gb)) (pgrad p)) by (auto; intros; apply Kw; assumption).
    rewrite !(vdot_lin_l _ _ HI). apply sg_ext. intros i Hi. rewrite g_basis by exact Hi. rewrite (g_interp p di _ L Dp Hg Hk) by (apply gb_deg, Hi).
    rewrite fmiss_none by exact Hn. rewrite Rminus_0_r. reflexivity.
  Qed.
  (** with a constant tensor *)
  Lemma tensor_entry K i j : (i < v_size gb)%nat -> (j < v_size gb)%nat ->
    vmass_tensor d (cl_elem c) gb (fun _ => K) 0 i j = po_int P (vdot d (v_comp gb i) (mapply d K (v_comp gb j))).
  Proof.
    intros Hi Hj. unfold vmass_tensor.
    cut (forall q M, fold_left (fun M qp => let '(x, w) := qp in fun i j => M i j + sg d (fun a => vphi gb x i a * sg d (fun e => w * K a e * vphi gb x j e))) q M i j =
      M i j + qsum q (peval (vdot d (v_comp gb i) (mapply d K (v_comp gb j))))).
    - intros H. rewrite H. unfold zeroM. rewrite Rplus_0_l. apply (exact_int _ _ HI _ (fit_quad _ _ _ (cf_elem _ _ _ HC))). rewrite gb_deg0.
      apply (deg_le_mono _ (gd + gd)); [lia|]. apply deg_vdot; [apply gb_deg, Hi|]. intros a Ha. apply deg_le_psum. intros e He. apply deg_le_scal, gb_deg; assumption.
    - induction q as [|[x w] q IH]; intros M; cbn [fold_left qsum]; [lra|]. rewrite IH, peval_vdot, Rplus_assoc. f_equal. f_equal. rewrite <- sg_scal. apply sg_ext. intros a _.
      unfold mapply. rewrite peval_psum. unfold vphi, pscal. cbn [peval]. rewrite (sg_ext d (fun e => w * K a e * peval (v_comp gb j e) x) (fun e => w * (K a e * peval (v_comp gb j e) x))) by (intros; ring).
      rewrite sg_scal. ring.
  Qed.
  Lemma g_tensor K u v : quadf N (snd (vector_gradrec_tensor ldlt d c cd gd fdi (fun _ => K))) u v = po_int P (vdot d (G u) (mapply d K (G v))).
  Proof.
    unfold vector_gradrec_tensor. cbn [snd]. fold gb. rewrite bil_quadf, bil_mass. fold prog.
    unfold G, oper_fun. fold (mv N (fst prog) u). rewrite (vdot_lin_l _ _ HI). unfold quadf. apply sg_ext. intros i Hi. fold prog. f_equal.
    set (y := mv N (fst prog) v).
    rewrite (I_ext _ _ HI _ (lincomb (v_size gb) y (fun j => vdot d (v_comp gb i) (mapply d K (v_comp gb j))))).
    - rewrite (I_lincomb _ _ HI). unfold mv. apply sg_ext. intros j Hj. rewrite tensor_entry by assumption. ring.
    - intros x. rewrite peval_vdot, peval_lincomb. unfold y. rewrite (sg_ext d _ (fun a => sg (v_size gb) (fun j => mv N (fst prog) v j * (peval (v_comp gb i a) x * peval (mapply d K (v_comp gb j) a) x)))).
      + rewrite sg_swap. apply sg_ext. intros j _. rewrite peval_vdot, sg_scal. reflexivity.
      + intros a _. unfold mapply. rewrite !peval_psum. unfold pscal. cbn [peval].
        rewrite (sg_ext d _ (fun e => sg (v_size gb) (fun j => mv N (fst prog) v j * (K a e * peval (v_comp gb j e) x)))).
        * rewrite sg_swap, <- sg_scal. apply sg_ext. intros j _. rewrite sg_scal, peval_psum. cbn [peval]. ring.
        * intros e _. fold (mv N (fst prog) v). rewrite peval_vlin, <- sg_scal. apply sg_ext. intros. unfold mv. ring.
  Qed.
End GradRec.
