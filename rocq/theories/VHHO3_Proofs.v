(** Interpolation of vectors and divergence reconstruction. *)
From Coq Require Import List Arith Reals Lra Lia Bool.
From Verif Require Import Poly_Spec Poly_Proofs HHO_Spec VHHO_Spec HHO_Model VHHO_Model HHO_Setting VHHO_Setting HHO_Proofs HHO2_Proofs HHO3_Proofs HHO4_Proofs HHO6_Proofs HHO7_Proofs HHO8_Proofs HHO9_Proofs VHHO_Proofs VHHO2_Proofs.
Import ListNotations.
Open Scope R_scope.

Definition vbases_l (d : nat) (l : list (sface * option nat)) : list (option (nat * (nat -> tf))) :=
  map (fun fi => match snd fi with
                 | None => None
                 | Some fd => let b := vec_basis d (el_basis (fc_elem (fst fi)) fd) in Some (v_size b, v_comp b)
                 end) l.
Lemma vlin_coef n k k' B a x : (forall j, (j < n)%nat -> k j = k' j) -> peval (vlin n k B a) x = peval (vlin n k' B a) x.
Proof. intros H. rewrite !peval_vlin. apply sg_ext. intros. rewrite H by assumption. reflexivity. Qed.
Lemma l2vec_ext I on (HI : integral on I) m k q r r' : (forall a x, (a < m)%nat -> peval (r a) x = peval (r' a) x) -> l2vec I m k q r -> l2vec I m k q r'.
Proof.
  intros H (D & T). split.
  - intros a Ha. apply (deg_le_ext (r a)); [intros; apply H, Ha|apply D, Ha].
  - intros w Hw. rewrite <- (T w Hw). apply (vdot_ext _ _ HI); auto. intros. symmetry. apply H. assumption.
Qed.

(** * the interpolate of a vector *)
Section VInterp.
  Context (d : nat) (Hd : (0 < d)%nat) (ldlt : nat -> mtx -> (nat -> R) -> nat -> R) (HS : solves_spd ldlt) (V : tf) (di : nat).
  Let f := fun x a => peval (V a) x.
  Lemma vproject_fold l : forall off v j, (j < off)%nat -> snd (fold_left (vproject_face ldlt d f di) l (off, v)) j = v j.
  Proof.
    induction l as [|[fc [fd|]] l IH]; intros off v j H; cbn [fold_left]; [reflexivity| |apply IH, H].
    unfold vproject_face at 2. cbn [fst snd]. rewrite IH by lia. apply set_seg_before, H.
  Qed.
  Lemma vproject_fold_faces fs fcs : Forall2 face_fit fs fcs -> forall fdi off v, length fdi = length fcs ->
    (forall k, In (Some k) fdi -> vdeg d V (k + 2 * di)) ->
    vprojs d fs fdi (vface_funs off (vbases_l d (combine fcs fdi)) (snd (fold_left (vproject_face ldlt d f di) (combine fcs fdi) (off, v)))) V.
  Proof.
    intros H. induction H as [|g fc fs fcs [[FF _] FI] H IH]; intros [|[k|] fdi] off v L D; try discriminate; [exact Logic.I| |].
    - cbn [combine fold_left vbases_l map fst snd vface_funs vprojs]. unfold vproject_face at 2 4. cbn [fst snd]. split.
      + apply (l2vec_ext _ _ FI d k V (vproj (fc_elem fc) d ldlt k V di)).
        * intros a x Ha. apply vlin_coef. intros j Hj. rewrite vproject_fold by lia. rewrite set_seg_in by lia. unfold f. f_equal. lia.
        * apply (vproj_l2 _ _ FI _ FF d Hd ldlt HS). apply D. left. reflexivity.
      + apply IH; [simpl in L; lia|intros; apply D; right; assumption].
    - cbn [combine fold_left vbases_l map fst snd vface_funs vprojs]. unfold vproject_face at 2. cbn [fst snd].
      apply IH; [simpl in L; lia|intros; apply D; right; assumption].
  Qed.
  Context (P : polytope) (c : scell) (HC : cell_fits d P c).
  Lemma vproject_l2 cd fdi : length fdi = length (cl_faces c) -> vdeg d V (cd + 2 * di) -> (forall k, In (Some k) fdi -> vdeg d V (k + 2 * di)) ->
    let u := vproject_cdi ldlt d c cd fdi f di in
    l2vec (po_int P) d cd V (vcell_fun d c cd u) /\ vprojs d (po_facets P) fdi (vfaces_funs d c cd fdi u) V.
  Proof.
    intros L Dc Df u. pose proof (poly_int _ _ (cf_poly _ _ _ HC)) as HI. split.
    - apply (l2vec_ext _ _ HI d cd V (vproj (cl_elem c) d ldlt cd V di)).
      + intros a x Ha. apply vlin_coef. intros j Hj. unfold u, vproject_cdi. rewrite vproject_fold by exact Hj. rewrite set_seg_in by lia. unfold f. f_equal. lia.
      + apply (vproj_l2 _ _ HI _ (cf_elem _ _ _ HC) d Hd ldlt HS), Dc.
    - apply (vproject_fold_faces _ _ (faces_fit d P c HC) fdi _ _ L Df).
  Qed.
End VInterp.

(** * sums over the faces *)
Lemma vfsum2_ext fs us f g : (forall x u, In x fs -> f x u = g x u) -> vfsum2 fs us f = vfsum2 fs us g.
Proof.
  revert us. induction fs as [|x fs IH]; intros [|[u|] us] H; simpl; try reflexivity.
  - rewrite (H x u (or_introl eq_refl)), IH; [reflexivity|]. intros; apply H; right; assumption.
  - apply IH. intros; apply H; right; assumption.
Qed.
Lemma vfsum2_lin fs us n c (f : nat -> facet -> tf -> R) :
  vfsum2 fs us (fun x u => sg n (fun j => c j * f j x u)) = sg n (fun j => c j * vfsum2 fs us (f j)).
Proof.
  revert us. induction fs as [|x fs IH]; intros [|[u|] us]; simpl; try (symmetry; apply sg_zero; intros; ring).
  - rewrite IH, <- sg_plus. apply sg_ext. intros. ring.
  - apply IH.
Qed.
(** [W f] is the function that the values on the face are tested with *)
Lemma vfsum2_projs m (W : facet -> tf) V k0 fs : forall ds us, (forall f, In f fs -> integral (fa_on f) (fa_int f)) -> vprojs m fs ds us V ->
  (forall k, In (Some k) ds -> (k0 <= k)%nat) -> (forall f, In f fs -> vdeg m (W f) k0) ->
  vfsum2 fs us (fun f u => fa_int f (vdot m u (W f))) = fsum fs (fun f => fa_int f (vdot m V (W f))) - fmiss fs ds (fun f => fa_int f (vdot m V (W f))).
Proof.
  induction fs as [|f fs IH]; intros [|[k|] ds] [|[u|] us] HF HP Hk HW; cbn [vprojs] in HP; try contradiction; cbn [fsum vfsum2 fmiss]; [lra| |].
  - destruct HP as ((Du & Hu) & HP). rewrite (IH ds us) by (try assumption; intros; try (apply HF; right; assumption); try (apply HW; right; assumption); apply Hk; right; assumption).
    pose proof (HF f (or_introl eq_refl)) as Hf. rewrite (vdot_comm _ _ Hf m u), (vdot_comm _ _ Hf m V), (Hu (W f)); [lra|].
    intros a Ha. apply (deg_le_mono _ k0); [apply Hk; left; reflexivity|apply HW; [left; reflexivity|exact Ha]].
  - rewrite (IH ds us) by (try assumption; intros; try (apply HF; right; assumption); try (apply HW; right; assumption); apply Hk; right; assumption). lra.
Qed.

(** * divergence theorem for the product of a scalar and a vector *)
Lemma green_div d P (HP : is_polytope d P) V q :
  po_int P (PMul q (pdivv d V)) = - po_int P (vdot d V (pgrad q)) + fsum (po_facets P) (fun f => fa_int f (PMul q (vnrm d (fa_normal f) V))).
Proof. rewrite (green_vec d P HP q V). lra. Qed.
Definition nq (n : pt) (q : pexp) : tf := fun a => pscal (n a) q.
Lemma dot_nq m n q V x : peval (vdot m V (nq n q)) x = peval (PMul q (vnrm m n V)) x.
Proof. rewrite peval_vdot. cbn [peval]. rewrite peval_vnrm, <- sg_scal. apply sg_ext. intros. unfold nq, pscal. cbn [peval]. ring. Qed.

Section DivRec.
  Context (d : nat) (Hd : (0 < d)%nat) (P : polytope) (c : scell) (HC : cell_fits d P c).
  Let HP := cf_poly _ _ _ HC.
  Let HI := poly_int _ _ HP.
  Context (ldlt : nat -> mtx -> (nat -> R) -> nat -> R) (HS : solves_spd ldlt) (cd rd : nat).
  Let cb := vec_basis d (el_basis (cl_elem c) cd).
  Let sb := el_basis (cl_elem c) rd.
  Lemma cb_deg j : (j < v_size cb)%nat -> vdeg d (v_comp cb j) cd.
  Proof. apply (vec_deg (po_on P)). apply (fit_basis _ _ _ (cf_elem _ _ _ HC)). Qed.
  Lemma vcell_deg u : vdeg d (vcell_fun d c cd u) cd.
  Proof. apply vdeg_vlin, cb_deg. Qed.
  Lemma sb_deg j : (j < b_size sb)%nat -> deg_le (b_poly sb j) rd.
  Proof. apply (basis_deg _ _ _ (cf_elem _ _ _ HC)). Qed.
  Lemma divrec_cell_row N u i : (v_size cb <= N)%nat -> (i < b_size sb)%nat ->
    mv N (divrec_cell d c cd rd) u i = - po_int P (vdot d (vcell_fun d c cd u) (pgrad (b_poly sb i))).
  Proof.
    intros HN Hi. unfold divrec_cell. fold cb sb. destruct (Nat.ltb_spec 0 rd).
    - rewrite (fold_add_cols N 0 (v_size cb) u i _ (fun x => - (peval (vdot d (vcell_fun d c cd u) (pgrad (b_poly sb i))) x))).
      + rewrite mv_zero, Rplus_0_l. rewrite (Poly_Proofs.qsum_ext _ _ (fun x => (-1) * peval (vdot d (vcell_fun d c cd u) (pgrad (b_poly sb i))) x)) by (intros; ring).
        rewrite qsum_scal. rewrite (exact_int _ _ HI _ (fit_quad _ _ _ (cf_elem _ _ _ HC))); [lra|].
        apply (deg_le_mono _ (cd + (rd - 1))); [lia|]. apply deg_vdot; [apply vcell_deg|]. intros a _. apply deg_le_diff, sb_deg, Hi.
      + lia.
      + intros x w. rewrite peval_vdot. unfold mv.
        rewrite (sg_ext d (fun a => peval (vcell_fun d c cd u a) x * peval (pgrad (b_poly sb i) a) x)
          (fun a => sg (v_size cb) (fun j => u j * (peval (v_comp cb j a) x * peval (pdiff a (b_poly sb i)) x)))).
        * rewrite sg_swap, <- sg_opp, <- sg_scal. apply sg_ext. intros j _. cbn [Nat.add]. rewrite sg_scal. unfold dphi, vphi.
          rewrite (sg_ext d (fun a => peval (v_comp cb j a) x * peval (pdiff a (b_poly sb i)) x) (fun a => peval (pdiff a (b_poly sb i)) x * peval (v_comp cb j a) x)) by (intros; ring). ring.
        * intros a _. unfold vcell_fun. fold cb. rewrite peval_vlin, Rmult_comm, <- sg_scal. apply sg_ext. intros. unfold pgrad. ring.
    - rewrite mv_zero. symmetry. rewrite (I_zero _ _ HI); [lra|]. intros x _. rewrite peval_vdot. apply sg_zero.
      intros a Ha. unfold pgrad. rewrite deg_le_diff0; [ring|]. replace 0%nat with rd by lia. apply sb_deg, Hi.
  Qed.
  Definition dface_term (i : nat) (f : facet) (uF : tf) : R := fa_int f (PMul (b_poly sb i) (vnrm d (fa_normal f) uF)).
  Lemma divrec_rows N u i : (i < b_size sb)%nat -> forall fs fcs, Forall2 face_fit fs fcs -> forall fdi off M,
    (off + vface_dofs (vbases_l d (combine fcs fdi)) <= N)%nat ->
    mv N (snd (fold_left (divrec_face d sb) (combine fcs fdi) (off, M))) u i =
    mv N M u i + vfsum2 fs (vface_funs off (vbases_l d (combine fcs fdi)) u) (dface_term i).
  Proof.
    intros Hi fs fcs H. induction H as [|f fc fs fcs [[FF [Hn _]] FI] H IH]; intros fdi off M Hoff; [simpl; lra|].
    destruct fdi as [|[fd|] fdi]; cbn [combine fold_left]; [simpl; lra| |].
    - cbn [combine map vbases_l fst snd vface_dofs] in Hoff. unfold divrec_face at 2. cbn [fst snd].
      rewrite IH by (unfold vbases_l in *; lia). cbn [map vbases_l fst snd vface_funs vfsum2]. rewrite <- Rplus_assoc. f_equal.
      set (fb := vec_basis d (el_basis (fc_elem fc) fd)) in *.
      rewrite (fold_add_cols N off _ u i _ (fun x => peval (PMul (b_poly sb i) (vnrm d (fa_normal f) (vlin (v_size fb) (fun j => u (off + j)%nat) (v_comp fb)))) x)).
      + f_equal. unfold dface_term. apply (exact_int _ _ FI _ (fit_quad _ _ _ FF)). replace (b_deg sb) with rd by (symmetry; apply (fit_deg _ _ _ (cf_elem _ _ _ HC))).
        apply (deg_le_mono _ (rd + fd)); [lia|]. apply deg_le_mul; [apply sb_deg, Hi|]. apply deg_vnrm, vdeg_vlin. intros j Hj. apply (vec_deg (fa_on f)); [apply (fit_basis _ _ _ FF)|exact Hj].
      + lia.
      + intros x w. cbn [peval]. rewrite peval_vnrm. unfold mv. rewrite Hn.
        rewrite (sg_ext d (fun a => fa_normal f a * _) (fun a => sg (v_size fb) (fun j => u (off + j)%nat * (fa_normal f a * peval (v_comp fb j a) x)))) by (intros; rewrite peval_vlin, <- sg_scal; apply sg_ext; intros; ring).
        rewrite sg_swap, <- !sg_scal. apply sg_ext. intros j _. unfold phi, vphi. rewrite sg_scal.
        rewrite (sg_ext d (fun a => peval (v_comp fb j a) x * (w * fa_normal f a)) (fun a => w * (fa_normal f a * peval (v_comp fb j a) x))) by (intros; ring).
        rewrite sg_scal. ring.
    - cbn [combine map vbases_l fst snd vface_dofs] in Hoff. unfold divrec_face at 2. cbn [fst snd]. rewrite IH by (unfold vbases_l in *; lia). reflexivity.
  Qed.
  Variable fdi : list (option nat).
  Let N := vnum_dofs d c cd fdi.
  Let prog := divergence_reconstruction ldlt d c cd rd fdi.
  Definition D (u : nat -> R) : pexp := lincomb (b_size sb) (fun i => sg N (fun j => fst prog i j * u j)) (b_poly sb).
  Definition dform (u : nat -> R) (q : pexp) : R :=
    - po_int P (vdot d (vcell_fun d c cd u) (pgrad q)) + vfsum2 (po_facets P) (vfaces_funs d c cd fdi u) (fun f uF => fa_int f (PMul q (vnrm d (fa_normal f) uF))).
  Lemma d_rhs u i : (i < b_size sb)%nat -> mv N (divrec_rhs d c cd rd fdi) u i = dform u (b_poly sb i).
  Proof.
    intros Hi. unfold divrec_rhs. fold sb. rewrite (divrec_rows N u i Hi (po_facets P) (cl_faces c) (faces_fit d P c HC)).
    - rewrite divrec_cell_row; [reflexivity| |exact Hi]. unfold N, vnum_dofs. fold cb. lia.
    - unfold N, vnum_dofs. reflexivity.
  Qed.
  Lemma d_spd : spd (b_size sb) (make_mass_matrix (cl_elem c) sb 0).
  Proof. apply (mass_spd _ _ HI _ (cf_elem _ _ _ HC)). Qed.
  Lemma d_basis u i : (i < b_size sb)%nat -> po_int P (PMul (b_poly sb i) (D u)) = dform u (b_poly sb i).
  Proof.
    intros Hi. rewrite <- d_rhs by exact Hi.
    rewrite <- (mv_solveM ldlt N (b_size sb) (make_mass_matrix (cl_elem c) sb 0) (divrec_rhs d c cd rd fdi) u i HS d_spd Hi).
    change (solveM ldlt (b_size sb) (make_mass_matrix (cl_elem c) sb 0) (divrec_rhs d c cd rd fdi)) with (fst prog).
    unfold D. rewrite (I_mul_lincomb_r _ _ HI). apply sg_ext. intros j Hj.
    pose proof (mass_eq _ _ HI _ (cf_elem _ _ _ HC) rd i j Hi Hj) as Q. fold sb in Q. rewrite Q. unfold mv. ring.
  Qed.
  Lemma d_data u v : quadf N (snd prog) u v = po_int P (PMul (D u) (D v)).
  Proof.
    refine (eq_trans (quadf_trans N (b_size sb) (divrec_rhs d c cd rd fdi) (fst prog) u v (fun _ _ => Logic.I)) _).
    unfold D at 2. rewrite (I_comm _ _ HI), (I_mul_lincomb_l _ _ HI). apply sg_ext. intros i Hi.
    rewrite d_basis, <- d_rhs by exact Hi. unfold mv. ring.
  Qed.
  Lemma dform_lin u n k B : dform u (lincomb n k B) = sg n (fun j => k j * dform u (B j)).
  Proof.
    unfold dform.
    rewrite (I_ext _ _ HI _ (lincomb n k (fun j => vdot d (vcell_fun d c cd u) (pgrad (B j))))).
    - rewrite (I_lincomb _ _ HI).
      rewrite (vfsum2_ext _ _ _ (fun f uF => sg n (fun j => k j * fa_int f (PMul (B j) (vnrm d (fa_normal f) uF))))).
      + rewrite vfsum2_lin, <- sg_opp, <- sg_plus. apply sg_ext. intros. ring.
      + intros f uF Hf. apply (I_mul_lincomb_l _ _ (facet_int d P c HC f Hf)).
    - intros x. rewrite peval_lincomb, peval_vdot.
      rewrite (sg_ext d _ (fun a => sg n (fun j => k j * (peval (vcell_fun d c cd u a) x * peval (pdiff a (B j)) x)))).
      + rewrite sg_swap. apply sg_ext. intros j _. rewrite peval_vdot, sg_scal. reflexivity.
      + intros a _. unfold pgrad. rewrite pdiff_lincomb, <- sg_scal. apply sg_ext. intros. ring.
  Qed.
  Lemma dform_ext u q q' : (forall x, peval q x = peval q' x) -> dform u q = dform u q'.
  Proof.
    intros H. unfold dform. f_equal.
    - f_equal. apply (I_ext _ _ HI). intros x. rewrite !peval_vdot. apply sg_ext. intros a _. unfold pgrad. rewrite (pdiff_ext q q' a H). reflexivity.
    - apply vfsum2_ext. intros f uF Hf. apply (I_ext _ _ (facet_int d P c HC f Hf)). intros x. cbn [peval]. rewrite H. reflexivity.
  Qed.
  Lemma d_eq u q : pvars d q -> deg_le q rd -> po_int P (PMul q (D u)) = dform u q.
  Proof.
    intros Hv Hq. destruct (cf_span _ _ _ HC rd q Hv Hq) as (k & Hk). fold sb in Hk.
    rewrite (dform_ext u q _ Hk), dform_lin. rewrite (I_ext _ _ HI (PMul q (D u)) (PMul (lincomb (b_size sb) k (b_poly sb)) (D u))) by (intros x; cbn [peval]; rewrite Hk; reflexivity).
    rewrite (I_mul_lincomb_l _ _ HI). apply sg_ext. intros i Hi. rewrite d_basis by exact Hi. reflexivity.
  Qed.
  Lemma d_deg u : deg_le (D u) rd.
  Proof. apply deg_le_lincomb, sb_deg. Qed.
  Lemma d_interp V di q : length fdi = length (cl_faces c) -> vdeg d V (cd + 2 * di) -> (rd <= cd + 1)%nat ->
    (forall k, In (Some k) fdi -> vdeg d V (k + 2 * di) /\ (rd <= k)%nat) -> deg_le q rd ->
    dform (vproject_cdi ldlt d c cd fdi (fun x a => peval (V a) x) di) q =
    po_int P (PMul q (pdivv d V)) - fmiss (po_facets P) fdi (fun f => fa_int f (PMul q (vnrm d (fa_normal f) V))).
  Proof.
    intros L Dp Hg Hk Hq. destruct (vproject_l2 d Hd ldlt HS V di P c HC cd fdi L Dp) as (Pc & Pf); [intros k Hin; apply Hk, Hin|]. unfold dform.
    set (u := vproject_cdi ldlt d c cd fdi (fun x a => peval (V a) x) di) in *.
    rewrite (vfsum2_ext _ _ _ (fun f uF => fa_int f (vdot d uF (nq (fa_normal f) q)))) by (intros f uF Hf; apply (I_ext _ _ (facet_int d P c HC f Hf)); intros x; symmetry; apply dot_nq).
    rewrite (vfsum2_projs d (fun f => nq (fa_normal f) q) V rd _ _ _ (fun f Hf => facet_int d P c HC f Hf) Pf).
    - rewrite (green_div d P HP). rewrite (vdot_comm _ _ HI), (proj2 Pc), (vdot_comm _ _ HI).
      + rewrite (fsum_ext _ (fun f => fa_int f (vdot d V (nq (fa_normal f) q))) (fun f => fa_int f (PMul q (vnrm d (fa_normal f) V)))) by (intros f Hf; apply (I_ext _ _ (facet_int d P c HC f Hf)); intros x; apply dot_nq).
        assert (FM : fmiss (po_facets P) fdi (fun f => fa_int f (vdot d V (nq (fa_normal f) q))) = fmiss (po_facets P) fdi (fun f => fa_int f (PMul q (vnrm d (fa_normal f) V)))).
        { pose proof (facet_int d P c HC) as HF. clear - HF. revert fdi HF. generalize (po_facets P). induction l as [|f l IH]; intros [|[k|] ds] HF; cbn [fmiss]; try reflexivity.
          - apply IH. intros; apply HF; right; assumption.
          - rewrite IH by (intros; apply HF; right; assumption). f_equal. apply (I_ext _ _ (HF f (or_introl eq_refl))). intros x. apply dot_nq. }
        rewrite FM. lra.
      + intros a _. apply (deg_le_mono _ (rd - 1)); [lia|]. apply deg_le_diff, Hq.
    - intros k Hin. apply Hk, Hin.
    - intros f _ a _. apply deg_le_scal, Hq.
  Qed.
  Lemma d_commutes V di : length fdi = length (cl_faces c) -> vdeg d V (cd + 2 * di) -> (rd <= cd + 1)%nat ->
    (forall k, In (Some k) fdi -> vdeg d V (k + 2 * di) /\ (rd <= k)%nat) -> ~ In None fdi ->
    l2proj (po_int P) rd (pdivv d V) (D (vproject_cdi ldlt d c cd fdi (fun x a => peval (V a) x) di)).
  Proof.
    intros L Dp Hg Hk Hn. split; [apply d_deg|]. intros w Hw.
    destruct (fit_basis _ _ _ (cf_elem _ _ _ HC) rd) as (_ & _ & Sp). destruct (Sp w Hw) as (k & Kw). fold sb in Kw.
    set (u := vproject_cdi ldlt d c cd fdi (fun x a => peval (V a) x) di).
    rewrite (int_ext _ _ HI (PMul w (D u)) (PMul (lincomb (b_size sb) k (b_poly sb)) (D u))) by (intros x Hx; cbn [peval]; rewrite (Kw x Hx); reflexivity).
    rewrite (int_ext _ _ HI (PMul w (pdivv d V)) (PMul (lincomb (b_size sb) k (b_poly sb)) (pdivv d V))) by (intros x Hx; cbn [peval]; rewrite (Kw x Hx); reflexivity).
    rewrite !(I_mul_lincomb_l _ _ HI). apply sg_ext. intros i Hi. rewrite d_basis by exact Hi. unfold u. rewrite (d_interp V di _ L Dp Hg Hk) by (apply sb_deg, Hi).
    rewrite fmiss_none by exact Hn. rewrite Rminus_0_r. reflexivity.
  Qed.
End DivRec.
