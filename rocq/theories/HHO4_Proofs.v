(** Proofs about the scalar HHO operators: the loops over the faces, the reconstruction, polynomial consistency. *)
From Coq Require Import List Arith Reals Lra Lia Bool.
From Verif Require Import Poly_Spec Poly_Proofs HHO_Spec HHO_Model HHO_Setting HHO_Proofs HHO2_Proofs HHO3_Proofs.
Import ListNotations.
Open Scope R_scope.

Lemma acc_mv q n (f : pt -> nat -> R) b s i p : (forall x, f x i = peval p x) ->
  mv n (accumulate q f (fun x j => peval (b j) x) zeroM) s i = qsum q (fun x => peval p x * peval (lincomb n s b) x).
Proof.
  intros H. unfold mv.
  rewrite (qsum_ext q _ (fun x => sg n (fun j => s j * (peval p x * peval (b j) x)))).
  - rewrite qsum_sg. apply sg_ext. intros j _. rewrite accumulate_eq. unfold zeroM. rewrite Rplus_0_l, Rmult_comm, <- qsum_scal.
    apply qsum_ext. intros x. rewrite H. ring.
  - intros x. rewrite peval_lincomb, <- sg_scal. apply sg_ext. intros. ring.
Qed.
(** a system with the mass matrix of a face *)
Lemma mass_solve (on : pt -> Prop) (I : pexp -> R) (HI : integral on I) ldlt (HS : solves_spd ldlt) deg n b q qd M N B u p :
  basis_on on deg n b -> exact q I -> (2 * deg <= qd)%nat ->
  (forall i j, (i < n)%nat -> (j < n)%nat -> M i j = I (PMul (b i) (b j))) ->
  (forall i, (i < n)%nat -> mv N B u i = I (PMul (b i) p)) ->
  forall i, (i < n)%nat -> I (PMul (b i) (lincomb n (mv N (solveM ldlt n M B) u) b)) = I (PMul (b i) p).
Proof.
  intros HB HE Hq HM HR i Hi.
  assert (SP : spd n M) by (eapply spd_ext; [|apply (gram_spd _ _ HI deg n b HB)]; intros; symmetry; apply HM; assumption).
  rewrite <- (HR i Hi), <- (mv_solveM ldlt N n M B u i HS SP Hi), (I_mul_lincomb_r _ _ HI).
  apply sg_ext. intros j Hj. rewrite HM by assumption. ring.
Qed.

Section Loop.
  Context (d : nat) (P : polytope) (c : scell) (HC : cell_fits d P c) (K : option mtx).
  Let HP := cf_poly _ _ _ HC.
  Let HI := poly_int _ _ HP.
  Let KK := tensor_of K.
  Context (ldlt : nat -> mtx -> (nat -> R) -> nat -> R) (HS : solves_spd ldlt).
  Context (N : nat) (u : nat -> R).
  Context (rd cd : nat).
  Let rb := el_basis (cl_elem c) rd.
  Let cb := el_basis (cl_elem c) cd.
  Let uT := cell_fun c cd u.
  Lemma uT_deg : deg_le uT cd.
  Proof. apply (fun_deg _ _ _ (cf_elem _ _ _ HC)). Qed.
  Lemma rb_deg i : (S i < b_size rb)%nat -> deg_le (b_poly rb (S i)) rd.
  Proof. apply (basis_deg _ _ _ (cf_elem _ _ _ HC)). Qed.

  Lemma qps_int f fc fd off qd M i : elem_fits (fa_on f) (fa_int f) (fc_elem fc) -> integral (fa_on f) (fa_int f) ->
    fc_normal fc = fa_normal f ->
    (S i < b_size rb)%nat -> (rd - 1 + fd <= qd)%nat -> (rd - 1 + cd <= qd)%nat ->
    (b_size cb <= N)%nat -> (off + b_size (el_basis (fc_elem fc) fd) <= N)%nat ->
    let fb := el_basis (fc_elem fc) fd in
    let uF := lincomb (b_size fb) (fun j => u (off + j)%nat) (b_poly fb) in
    forall proj : bool,
    mv N (lap_face_qps d K proj rb cb fb off (fc_normal fc) (el_quad (fc_elem fc) qd) M) u i =
    mv N M u i + fa_int f (PMul (psubp uF (if proj then PC 0 else uT)) (flux d KK (fa_normal f) (b_poly rb (S i)))).
  Proof.
    intros FF FI Hn Hi Hq Hq' Hc Hf fb uF proj. rewrite face_qps_row by assumption. f_equal. fold KK. rewrite Hn.
    rewrite (qsum_ext _ _ (peval (PMul (psubp uF (if proj then PC 0 else uT)) (flux d KK (fa_normal f) (b_poly rb (S i)))))).
    - apply (exact_int _ _ FI _ (fit_quad _ _ _ FF)).
      assert (D : deg_le (flux d KK (fa_normal f) (b_poly rb (S i))) (rd - 1)) by (apply deg_flux, rb_deg, Hi).
      apply (deg_le_mono _ (Nat.max fd cd + (rd - 1))); [lia|]. apply deg_le_mul; [|exact D]. apply deg_le_sub.
      + apply (deg_le_mono _ fd); [lia|]. apply (fun_deg _ _ _ FF).
      + destruct proj; [apply deg_le_const|]. apply (deg_le_mono _ cd); [lia|apply uT_deg].
    - intros x. cbn [peval]. unfold psubp, pscal. cbn [peval]. unfold uF, fb. rewrite !peval_lincomb.
      destruct proj; [simpl; ring|]. unfold uT, cell_fun. rewrite !peval_lincomb. fold cb. ring.
  Qed.

  Lemma face_row proj f fc fd off M i : elem_fits (fa_on f) (fa_int f) (fc_elem fc) -> integral (fa_on f) (fa_int f) ->
    fc_normal fc = fa_normal f -> (1 <= rd)%nat ->
    (S i < b_size rb)%nat -> (proj = true -> fd <= rd /\ rd <= fd + 1)%nat ->
    (b_size cb <= N)%nat -> (off + b_size (el_basis (fc_elem fc) fd) <= N)%nat ->
    let fb := el_basis (fc_elem fc) fd in
    let uF := lincomb (b_size fb) (fun j => u (off + j)%nat) (b_poly fb) in
    mv N (snd (lap_face ldlt d K proj (mkDegs cd fd rd) rb cb (off, M) fc)) u i =
    mv N M u i + fa_int f (PMul (psubp uF uT) (flux d KK (fa_normal f) (b_poly rb (S i)))).
  Proof.
    intros FF FI Hn Hrd Hi Hproj Hc Hf fb uF. unfold lap_face. cbn [snd reconstruction_degree cell_degree face_degree].
    destruct proj.
    - destruct (Hproj eq_refl) as (Hp1 & Hp2). rewrite mv_add_cols by lia. rewrite (qps_int f) by (try assumption; lia).
      rewrite mv_opp, mv_mprod. fold fb.
      set (qd := (rd + Nat.max cd fd)%nat). set (w := flux d KK (fa_normal f) (b_poly rb (S i))).
      set (MF := accumulate (el_quad (fc_elem fc) qd) (phi fb) (phi fb) zeroM).
      set (TF := accumulate (el_quad (fc_elem fc) qd) (phi fb) (phi cb) zeroM).
      cbn [Nat.add].
      set (s := mv (b_size cb) (solveM ldlt (b_size fb) MF TF) (fun j => u j)).
      assert (HB : basis_on (fa_on f) fd (b_size fb) (b_poly fb)) by apply (fit_basis _ _ _ FF fd).
      assert (Dw : deg_le w (rd - 1)) by (apply deg_flux, rb_deg, Hi).
      assert (A : forall k, (k < b_size fb)%nat -> fa_int f (PMul (b_poly fb k) (lincomb (b_size fb) s (b_poly fb))) = fa_int f (PMul (b_poly fb k) uT)).
      { apply (mass_solve _ _ FI ldlt HS fd _ _ _ qd _ _ _ _ _ HB (fit_quad _ _ _ FF)); [unfold qd; lia| |].
        - intros a b Ha Hb. unfold MF. rewrite accumulate_eq. unfold zeroM, phi. rewrite Rplus_0_l.
          apply (acc_int _ _ FI _ FF). apply (deg_le_mono _ (fd + fd)); [unfold qd; lia|]. apply deg_le_mul; apply (basis_deg _ _ _ FF); assumption.
        - intros a Ha. unfold TF, phi. rewrite (acc_mv _ _ _ _ _ _ (b_poly fb a)) by reflexivity.
          apply (acc_int _ _ FI _ FF). apply (deg_le_mono _ (fd + cd)); [unfold qd; lia|]. apply deg_le_mul; [apply (basis_deg _ _ _ FF); assumption|apply uT_deg]. }
      assert (B : fa_int f (PMul w (lincomb (b_size fb) s (b_poly fb))) = fa_int f (PMul w uT)).
      { apply (span_test _ _ FI fd _ _ _ _ HB A). apply (deg_le_mono _ (rd - 1)); [lia|exact Dw]. }
      assert (C : mv (b_size fb) (accumulate (el_quad (fc_elem fc) qd) (rdn d K rb (fc_normal fc)) (phi fb) zeroM) s i =
        fa_int f (PMul w (lincomb (b_size fb) s (b_poly fb)))).
      { unfold phi. rewrite (acc_mv _ _ _ _ _ _ w) by (intros x; rewrite rdn_eq, Hn; reflexivity).
        apply (acc_int _ _ FI _ FF). apply (deg_le_mono _ (rd - 1 + fd)); [unfold qd; lia|]. apply deg_le_mul; [exact Dw|]. apply (fun_deg _ _ _ FF). }
      rewrite C, B. rewrite !(I_mul_sub_l _ _ FI), (I_comm _ _ FI w uT). rewrite (I_zero _ _ FI (PMul (PC 0) _)) by (intros; simpl; ring). fold fb. fold uF. lra.
    - rewrite (qps_int f) by (try assumption; lia). reflexivity.
  Qed.
End Loop.

(** all faces *)
Section Loops.
  Context (d : nat) (P : polytope) (c : scell) (HC : cell_fits d P c) (K : option mtx).
  Let HP := cf_poly _ _ _ HC.
  Let KK := tensor_of K.
  Context (ldlt : nat -> mtx -> (nat -> R) -> nat -> R) (HS : solves_spd ldlt).
  Context (N : nat) (u : nat -> R) (rd cd : nat) (Hrd : (1 <= rd)%nat).
  Let rb := el_basis (cl_elem c) rd.
  Let cb := el_basis (cl_elem c) cd.
  Let uT := cell_fun c cd u.
  Definition face_fit (f : facet) (fc : sface) : Prop :=
    (elem_fits (fa_on f) (fa_int f) (fc_elem fc) /\ fc_normal fc = fa_normal f /\ el_diam (fc_elem fc) = fa_diam f) /\ integral (fa_on f) (fa_int f).
  Lemma faces_fit : Forall2 face_fit (po_facets P) (cl_faces c).
  Proof.
    assert (G : forall fs fcs, (forall f, In f fs -> In f (po_facets P)) ->
      Forall2 (fun f fc => elem_fits (fa_on f) (fa_int f) (fc_elem fc) /\ fc_normal fc = fa_normal f /\ el_diam (fc_elem fc) = fa_diam f) fs fcs -> Forall2 face_fit fs fcs).
    { intros fs fcs Hin H. induction H as [|f fc fs fcs Hf H IH]; constructor.
      - split; [exact Hf|]. apply (poly_facets _ _ HP f). apply Hin. left. reflexivity.
      - apply IH. intros; apply Hin; right; assumption. }
    apply G; [intros; assumption|apply (cf_faces _ _ _ HC)].
  Qed.
  Definition face_term (i : nat) (f : facet) (uF : pexp) : R := fa_int f (PMul (psubp uF uT) (flux d KK (fa_normal f) (b_poly rb (S i)))).
  Lemma faces_rows proj fd i : (S i < b_size rb)%nat -> (proj = true -> fd <= rd /\ rd <= fd + 1)%nat -> (b_size cb <= N)%nat ->
    forall fs fcs, Forall2 face_fit fs fcs -> forall off M, (off + face_dofs (bases_l (map (fun fc => (fc, Some fd)) fcs)) <= N)%nat ->
    mv N (snd (fold_left (lap_face ldlt d K proj (mkDegs cd fd rd) rb cb) fcs (off, M))) u i =
    mv N M u i + fsum2 fs (face_funs off (bases_l (map (fun fc => (fc, Some fd)) fcs)) u) (face_term i).
  Proof.
    intros Hi Hproj Hc fs fcs H. induction H as [|f fc fs fcs [[FF [Hn _]] FI] H IH]; intros off M Hoff; cbn [fold_left]; [simpl; lra|].
    cbn [map bases_l fst snd face_dofs] in Hoff.
    destruct (lap_face ldlt d K proj (mkDegs cd fd rd) rb cb (off, M) fc) as [off' M'] eqn:EM.
    assert (O : off' = (off + b_size (el_basis (fc_elem fc) fd))%nat) by (unfold lap_face in EM; cbn [face_degree] in EM; apply pair_equal_spec in EM as [<- _]; reflexivity).
    subst off'. rewrite IH by (cbn [bases_l map] in Hoff |- *; unfold bases_l in *; lia).
    cbn [map bases_l fst snd face_funs fsum2]. rewrite <- Rplus_assoc. f_equal.
    replace M' with (snd (lap_face ldlt d K proj (mkDegs cd fd rd) rb cb (off, M) fc)) by (rewrite EM; reflexivity).
    apply (face_row d P c HC K ldlt HS N u rd cd proj f fc fd off M i FF FI Hn Hrd Hi Hproj Hc). lia.
  Qed.
  Lemma cdi_rows (nest : (cd <= rd)%nat) i : K = None -> (S i < b_size rb)%nat -> (b_size cb <= N)%nat ->
    forall fs fcs, Forall2 face_fit fs fcs -> forall fdi off M, (off + face_dofs (bases_l (combine fcs fdi)) <= N)%nat ->
    mv N (snd (fold_left (lap_face_cdi d rd cd rb (b_size cb)) (combine fcs fdi) (off, M))) u i =
    mv N M u i + fsum2 fs (face_funs off (bases_l (combine fcs fdi)) u) (face_term i).
  Proof.
    intros HK Hi Hc fs fcs H. induction H as [|f fc fs fcs [[FF [Hn _]] FI] H IH]; intros fdi off M Hoff; [simpl; lra|].
    destruct fdi as [|[fd|] fdi]; cbn [combine fold_left]; [simpl; lra| |].
    - cbn [combine map bases_l fst snd face_dofs] in Hoff. unfold lap_face_cdi at 2. cbn [fst snd].
      rewrite IH by (unfold bases_l in *; lia). cbn [map bases_l fst snd face_funs fsum2]. rewrite <- Rplus_assoc. f_equal.
      pose proof (qps_int d P c HC K N u rd cd f fc fd off (rd - 1 + Nat.max fd cd) M i FF FI Hn Hi ltac:(lia) ltac:(lia) Hc ltac:(lia) false) as Q.
      cbv zeta in Q. rewrite HK in Q. unfold face_term, KK, uT. rewrite HK. refine (eq_trans _ Q). clear Q.
      rewrite face_qps_row by (cbn [b_size]; lia). rewrite face_qps_row by (fold cb; lia). f_equal. apply qsum_ext. intros x. f_equal. f_equal.
      cbn [b_size b_poly]. rewrite !peval_lincomb. apply sg_ext. intros j Hj. unfold rb, cb.
      rewrite (proj2 (cf_nested _ _ _ HC cd rd nest) j Hj). reflexivity.
    - cbn [combine map bases_l fst snd face_dofs] in Hoff. unfold lap_face_cdi at 2. cbn [fst snd]. rewrite IH by (unfold bases_l in *; lia). reflexivity.
  Qed.
End Loops.
