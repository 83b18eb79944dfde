(** Proofs about the scalar Laplacian of hho_slapl.hpp: the reconstruction, the stabilisations, the reduction. *)
From Coq Require Import List Arith Reals Lra Lia Bool.
From Verif Require Import Poly_Spec Poly_Proofs HHO_Spec HHO_Model HHO_Setting HHO_Proofs HHO2_Proofs HHO3_Proofs HHO4_Proofs HHO5_Proofs HHO6_Proofs HHO7_Proofs HHO8_Proofs HHO9_Proofs HHO10_Proofs SLapl_Model SLapl_Proofs.
Import ListNotations.
Open Scope R_scope.

Section Oper.
  Context (d : nat) (P : polytope) (c : scell) (HC : cell_fits d P c).
  Let HP := cf_poly _ _ _ HC.
  Let HI := poly_int _ _ HP.
  Let F := cf_elem _ _ _ HC.
  Context (ldlt : nat -> mtx -> (nat -> R) -> nat -> R) (HS : solves_spd ldlt).
  Context (rd cd fd : nat) (Hrd : (1 <= rd)%nat) (Hcd : (cd <= rd)%nat).
  Let rb := el_basis (cl_elem c) rd.
  Let cb := el_basis (cl_elem c) cd.
  Let rbs := b_size rb.
  Let fdi := all_faces c fd.
  Let N := num_dofs c cd fdi.
  Definition stiff : mtx := integrate_forms (cl_elem c) (grad_ev d rb) (grad_ev d rb).
  Lemma sl_stiff_eq i j : (i < rbs)%nat -> (j < rbs)%nat -> stiff i j = en d P delta (b_poly rb j) (b_poly rb i).
  Proof.
    intros Hi Hj. unfold stiff. rewrite (grad_forms _ _ HI _ (fit_quad _ _ _ F)); try assumption; try apply (fits_graded _ _ _ F).
    apply (I_ext _ _ HI). intros x. unfold graddot. rewrite !peval_psum. apply sg_ext. intros k Hk. cbn [peval]. f_equal.
    change delta with (tensor_of None). rewrite <- tens_eq by exact Hk. reflexivity.
  Qed.
  Definition sl_rhs : mtx := snd (fold_left (oper_face d fd rb cb) (cl_faces c) (b_size cb, add_cols zeroM 0 (b_size cb) (shift 1 0 stiff))).
  Lemma sl_face_row f fc off M u i : face_fit f fc -> (S i < rbs)%nat -> (b_size cb <= N)%nat -> (off + b_size (el_basis (fc_elem fc) fd) <= N)%nat ->
    let fb := el_basis (fc_elem fc) fd in
    let uF := lincomb (b_size fb) (fun j => u (off + j)%nat) (b_poly fb) in
    mv N (snd (oper_face d fd rb cb (off, M) fc)) u i =
    mv N M u i + fa_int f (PMul (psubp uF (cell_fun c cd u)) (flux d delta (fa_normal f) (b_poly rb (S i)))).
  Proof.
    intros [[FF [Hn Hd]] FI] Hi Hc HN fb uF. unfold oper_face. cbn [snd]. fold fb. rewrite !mv_add_cols by (unfold fb; lia). rewrite mv_opp, Hn.
    set (w := flux d delta (fa_normal f) (b_poly rb (S i))).
    assert (A : forall b s, graded b -> mv (b_size b) (shift 1 0 (integrate_forms (fc_elem fc) (scalar_ev b) (dot_ev (grad_ev d rb) (fa_normal f)))) s i =
       fa_int f (PMul w (lincomb (b_size b) s (b_poly b)))).
    { intros b s G. apply (gram_mv _ _ FI). intros j Hj. unfold shift. cbn [Nat.add].
      rewrite (dot_forms _ _ FI _ (fit_quad _ _ _ FF)); [apply (I_comm _ _ FI)|exact G|apply (fits_graded _ _ _ F)|exact Hi|exact Hj]. }
    rewrite (A fb _ (fits_graded _ _ _ FF fd)), (A cb _ (fits_graded _ _ _ F cd)). cbn [Nat.add].
    change (lincomb (b_size cb) (fun j => u j) (b_poly cb)) with (cell_fun c cd u). fold uF.
    rewrite (I_mul_sub_l _ _ FI), (I_comm _ _ FI uF), (I_comm _ _ FI (cell_fun c cd u)). lra.
  Qed.
  Lemma sl_rows u i : (S i < rbs)%nat -> (b_size cb <= N)%nat -> forall fs fcs, Forall2 face_fit fs fcs -> forall off M,
    (off + face_dofs (bases_l (map (fun fc => (fc, Some fd)) fcs)) <= N)%nat ->
    mv N (snd (fold_left (oper_face d fd rb cb) fcs (off, M))) u i =
    mv N M u i + fsum2 fs (face_funs off (bases_l (map (fun fc => (fc, Some fd)) fcs)) u)
      (fun f uF => fa_int f (PMul (psubp uF (cell_fun c cd u)) (flux d delta (fa_normal f) (b_poly rb (S i))))).
  Proof.
    intros Hi Hc fs fcs H. induction H as [|f fc fs fcs Hf H IH]; intros off M Hoff; [simpl; lra|].
    cbn [map bases_l fst snd face_dofs face_funs fsum2 fold_left] in *.
    destruct (oper_face d fd rb cb (off, M) fc) as [off' M'] eqn:EQ.
    assert (O : off' = (off + b_size (el_basis (fc_elem fc) fd))%nat) by (unfold oper_face in EQ; apply (f_equal fst) in EQ; exact (eq_sym EQ)). subst off'.
    pose proof (IH (off + b_size (el_basis (fc_elem fc) fd))%nat M' ltac:(unfold bases_l; lia)) as Q. refine (eq_trans Q _). clear Q IH.
    pose proof (sl_face_row f fc off M u i Hf Hi Hc ltac:(lia)) as Q. rewrite EQ in Q. cbn [snd] in Q. cbv zeta in Q. rewrite Q. unfold bases_l. lra.
  Qed.
  Lemma sl_row u i : (i < rbs - 1)%nat -> mv N sl_rhs u i = form d P c None cd fdi u (b_poly rb (S i)).
  Proof.
    intros Hi. unfold sl_rhs.
    rewrite (sl_rows u i ltac:(lia) ltac:(unfold N, num_dofs, cb; lia) _ _ (faces_fit d P c HC)) by (unfold N, num_dofs, fdi; rewrite bases_all; unfold cb; lia).
    rewrite mv_add_cols by (unfold N, num_dofs, cb; lia). rewrite mv_zero, Rplus_0_l. unfold form, rhs_form, faces_funs, fdi. rewrite bases_all. fold cb. f_equal.
    unfold cell_fun. rewrite (en_lincomb_l d P HP). fold cb. unfold mv. apply sg_ext. intros j Hj. unfold shift. cbn [Nat.add].
    destruct (cf_nested _ _ _ HC cd rd Hcd) as (Nle & Neq). fold rb cb in Nle, Neq. fold rbs in Nle.
    rewrite (sl_stiff_eq (S i) j) by lia. rewrite (Neq j Hj). cbn [tensor_of]. ring.
  Qed.
  Lemma sl_lhs_eq i j : (i < rbs - 1)%nat -> (j < rbs - 1)%nat -> lap_lhs d None c rd rb i j = shift 1 1 stiff i j.
  Proof. intros Hi Hj. unfold shift. cbn [Nat.add]. rewrite sl_stiff_eq by lia. apply (lhs_eq d P c HC None rd); unfold rbs, rb in *; lia. Qed.
  Lemma sl_prog : local_operator ldlt d c (mkDegs cd fd rd) =
    Some (solveM ldlt (rbs - 1) (shift 1 1 stiff) sl_rhs, mprod (rbs - 1) (mtrans sl_rhs) (solveM ldlt (rbs - 1) (shift 1 1 stiff) sl_rhs)).
  Proof.
    unfold local_operator. cbn [cell_degree face_degree reconstruction_degree]. destruct (cf_nested _ _ _ HC cd rd Hcd) as (Nle & _).
    apply Nat.leb_le in Nle. rewrite Nle. reflexivity.
  Qed.
  Lemma sl_lhs_mv x i : (i < rbs - 1)%nat -> mv (rbs - 1) (shift 1 1 stiff) x i = en d P (tensor_of None) (tailf c rd x) (b_poly rb (S i)).
  Proof.
    intros Hi. pose proof (lhs_mv d P c HC None rd x i Hi) as Q. refine (eq_trans _ Q). apply sg_ext. intros j Hj. pose proof (sl_lhs_eq i j Hi Hj) as Q'. fold rb. rewrite Q'. reflexivity.
  Qed.
  Lemma sl_lhs_spd : spd (rbs - 1) (shift 1 1 stiff).
  Proof. eapply spd_ext; [|apply (lhs_spd d P c HC None (spd_delta d) rd)]. intros. apply sl_lhs_eq; assumption. Qed.
  Lemma sl_operator : exists oper data, local_operator ldlt d c (mkDegs cd fd rd) = Some (oper, data) /\
    (forall u w, pvars d w -> deg_le w rd -> en d P (tensor_of None) (rec_fun c rd N oper u) w = form d P c None cd fdi u w) /\
    (forall u v, bil N data u v = en d P (tensor_of None) (rec_fun c rd N oper u) (rec_fun c rd N oper v)).
  Proof.
    eexists. eexists. split; [apply sl_prog|]. split.
    - apply (core_eq d P c HC None ldlt HS rd cd fdi (shift 1 1 stiff) sl_rhs sl_lhs_mv sl_lhs_spd sl_row).
    - apply (core_data d P c HC None ldlt HS rd cd fdi (shift 1 1 stiff) sl_rhs sl_lhs_mv sl_lhs_spd sl_row).
  Qed.
End Oper.

(** ** the stabilisations *)
(** one face: a matrix whose rows hold, up to sign, the coefficients of the jump, and the mass matrix of the face *)
Lemma face_jump_form on I (HI : integral on I) e (F : elem_fits on I e) k N (M B : mtx) (s : R) (q uF : (nat -> R) -> pexp) u v du dv :
  let fb := el_basis e k in
  s * s = 1 ->
  (forall i j, (i < b_size fb)%nat -> (j < b_size fb)%nat -> M i j = I (PMul (b_poly fb i) (b_poly fb j))) ->
  (forall z i, (i < b_size fb)%nat -> I (PMul (b_poly fb i) (lincomb (b_size fb) (mv N B z) (b_poly fb))) = s * I (PMul (b_poly fb i) (psubp (q z) (uF z)))) ->
  l2proj I k (psubp (q u) (uF u)) du -> l2proj I k (psubp (q v) (uF v)) dv ->
  bil N (mprod (b_size fb) (mprod (b_size fb) (mtrans B) M) B) v u = I (PMul du dv).
Proof.
  intros fb Hs HM HB Ju Jv. rewrite bil_mass.
  assert (L : forall z dz, l2proj I k (psubp (q z) (uF z)) dz -> forall x, on x -> peval (lincomb (b_size fb) (mv N B z) (b_poly fb)) x = peval (pscal s dz) x).
  { intros z dz (Dz & Hz). apply (l2_eq _ _ HI _ F k (pscal s (psubp (q z) (uF z)))).
    - split; [apply deg_le_scal, Dz|]. intros w Dw.
      assert (G : forall r, I (PMul w (pscal s r)) = s * I (PMul w r)) by (intros r; rewrite <- (int_scal _ _ HI); apply (I_ext _ _ HI); intros x; unfold pscal; cbn [peval]; ring).
      rewrite !G, (Hz w Dw). reflexivity.
    - intros i Hi. pose proof (HB z i Hi) as Q. fold fb. rewrite Q.
      rewrite <- (int_scal _ _ HI); apply (I_ext _ _ HI); intros x; unfold pscal; cbn [peval]; ring. }
  rewrite (sg_ext (b_size fb) _ (fun i => mv N B v i * I (PMul (b_poly fb i) (pscal s du)))).
  - rewrite <- (I_mul_lincomb_l _ _ HI). rewrite (int_ext _ _ HI _ (pscal (s * s) (PMul du dv))).
    + rewrite (int_scal _ _ HI), Hs. lra.
    + intros x Hx. pose proof (L v dv Jv x Hx) as Q. unfold pscal in *. cbn [peval] in *. rewrite Q. ring.
  - intros i Hi. f_equal. rewrite (gram_mv _ _ HI _ _ _ (b_poly fb) _ (b_poly fb i)) by (intros; apply HM; assumption).
    apply (int_ext _ _ HI). intros x Hx. pose proof (L u du Ju x Hx) as Q. cbn [peval]. rewrite Q. reflexivity.
Qed.
Section Stab.
  Context (d : nat) (P : polytope) (c : scell) (HC : cell_fits d P c).
  Let HP := cf_poly _ _ _ HC.
  Let HI := poly_int _ _ HP.
  Let F := cf_elem _ _ _ HC.
  Context (ldlt : nat -> mtx -> (nat -> R) -> nat -> R) (HS : solves_spd ldlt).
  Context (rd cd fd : nat).
  Let rb := el_basis (cl_elem c) rd.
  Let cb := el_basis (cl_elem c) cd.
  Let fdi := all_faces c fd.
  Let N := num_dofs c cd fdi.
  (** solving with the mass matrix of an element, as an operator *)
  Lemma solve_proj on I (HJ : integral on I) e (G : elem_fits on I e) k n A u p :
    let b := el_basis e k in
    (forall i, (i < b_size b)%nat -> mv n A u i = I (PMul (b_poly b i) p)) ->
    forall i, (i < b_size b)%nat -> I (PMul (b_poly b i) (lincomb (b_size b) (mv n (solveM ldlt (b_size b) (MM e k) A) u) (b_poly b))) = I (PMul (b_poly b i) p).
  Proof.
    intros b HA. apply (mass_solve _ _ HJ ldlt HS k _ _ _ (2 * k) _ _ _ _ _ (fit_basis _ _ _ G k) (fit_quad _ _ _ G)); [lia| |exact HA].
    intros. apply (MM_eq _ _ HJ _ G); assumption.
  Qed.
  (** (other, basis of the element) as an operator *)
  Lemma mixed_mv on I (HJ : integral on I) e (G : elem_fits on I e) k other s i : graded other -> (i < b_size (el_basis e k))%nat ->
    mv (b_size other) (integrate_forms e (scalar_ev other) (scalar_ev (el_basis e k))) s i =
    I (PMul (b_poly (el_basis e k) i) (lincomb (b_size other) s (b_poly other))).
  Proof. intros Go Hi. apply (gram_mv _ _ HJ). intros j Hj. apply (scalar_forms _ _ HJ _ (fit_quad _ _ _ G)); try assumption. apply (fits_graded _ _ _ G). Qed.
  Lemma mixed_tail on I (HJ : integral on I) e (G : elem_fits on I e) k other s i : graded other -> (i < b_size (el_basis e k))%nat ->
    mv (b_size other - 1) (shift 0 1 (integrate_forms e (scalar_ev other) (scalar_ev (el_basis e k)))) s i =
    I (PMul (b_poly (el_basis e k) i) (lincomb (b_size other - 1) s (fun j => b_poly other (S j)))).
  Proof.
    intros Go Hi. apply (gram_mv _ _ HJ). intros j Hj. unfold shift. cbn [Nat.add]. apply (scalar_forms _ _ HJ _ (fit_quad _ _ _ G)); try assumption; [|lia]. apply (fits_graded _ _ _ G).
  Qed.
  (** *** HDG *)
  Lemma sl_hdg_face_form f fc off data sc : face_fit f fc -> (b_size cb <= N)%nat -> (off + b_size (el_basis (fc_elem fc) fd) <= N)%nat ->
    exists A, sl_hdg_face ldlt fd cb sc (off, data) fc = ((off + b_size (el_basis (fc_elem fc) fd))%nat, maddm data (mscalm sc A)) /\
     face_form N f fd (cell_fun c cd) (fun u => lincomb (b_size (el_basis (fc_elem fc) fd)) (fun j => u (off + j)%nat) (b_poly (el_basis (fc_elem fc) fd))) A.
  Proof.
    intros [[FF [Hn Hd]] FI] Hc HN. unfold sl_hdg_face. eexists. split; [reflexivity|]. intros u v du dv Ju Jv.
    set (fb := el_basis (fc_elem fc) fd) in *.
    apply (face_jump_form _ _ FI _ FF fd N _ _ (-1) (cell_fun c cd) (fun u => lincomb (b_size fb) (fun j => u (off + j)%nat) (b_poly fb)) u v du dv ltac:(lra)); try assumption.
    - intros. apply (MM_eq _ _ FI _ FF); assumption.
    - intros z i Hi. fold fb.
      set (P2 := solveM ldlt (b_size fb) (integrate_forms (fc_elem fc) (scalar_ev fb) (scalar_ev fb)) (integrate_forms (fc_elem fc) (scalar_ev cb) (scalar_ev fb))).
      assert (R : forall j, (j < b_size fb)%nat -> mv N (add_cols (add_cols zeroM 0 (b_size cb) (mopp P2)) off (b_size fb) ident) z j = z (off + j)%nat - mv (b_size cb) P2 z j).
      { intros j Hj. rewrite !mv_add_cols by (unfold fb in *; lia). rewrite mv_zero, mv_opp, mv_ident by exact Hj. cbn [Nat.add]. change (fun j => z j) with z. lra. }
      rewrite (I_mul_sub_r _ _ FI).
      pose proof (solve_proj _ _ FI _ FF fd (b_size cb) (integrate_forms (fc_elem fc) (scalar_ev cb) (scalar_ev fb)) z (cell_fun c cd z)
        (fun a Ha => mixed_mv _ _ FI _ FF fd cb z a (fits_graded _ _ _ F cd) Ha) i Hi) as Q. fold fb in Q.
      change (MM (fc_elem fc) fd) with (integrate_forms (fc_elem fc) (scalar_ev fb) (scalar_ev fb)) in Q. fold P2 in Q. rewrite <- Q.
      rewrite <- (I_mul_sub_r _ _ FI), <- (int_scal _ _ FI). apply (I_ext _ _ FI). intros x. unfold psubp, pscal. cbn [peval]. rewrite !peval_lincomb.
      rewrite (sg_ext _ _ (fun j => z (off + j)%nat * peval (b_poly fb j) x + (-1) * (mv (b_size cb) P2 z j * peval (b_poly fb j) x))) by (intros j Hj; rewrite R by exact Hj; ring).
      rewrite sg_plus, sg_scal. ring.
  Qed.
  Lemma sl_hdg_form u v du dv :
    jumps (po_facets P) fdi (faces_funs c cd fdi u) (cell_fun c cd u) du ->
    jumps (po_facets P) fdi (faces_funs c cd fdi v) (cell_fun c cd v) dv ->
    bil N (sl_stabilization_hdg ldlt c (mkDegs cd fd rd)) v u = fsum3 (po_facets P) du dv (fun f a b => 1 * fa_int f (PMul a b)).
  Proof.
    intros Ju Jv. unfold sl_stabilization_hdg. cbn [cell_degree face_degree]. rewrite <- (fold_combine _ fd).
    match goal with |- bil N (snd (fold_left ?st _ _)) v u = _ =>
      rewrite (stab_fold N st (fun k => k = fd) (cell_fun c cd) (fun _ => 1) (po_facets P) (cl_faces c) (faces_fit d P c HC)) with (du := du) (dv := dv) end.
    - rewrite bil_zero. lra.
    - reflexivity.
    - intros f fc k _ Hf off data -> Hoff. cbn [fst snd].
      apply (sl_hdg_face_form f fc off data 1 Hf); [unfold N, num_dofs, cb; lia|exact Hoff].
    - intros k Hin. unfold fdi, all_faces in Hin. apply in_map_iff in Hin as (y & Ey & _). congruence.
    - unfold N, num_dofs. rewrite bases_of_l. unfold fdi, all_faces. lia.
    - exact Ju.
    - exact Jv.
  Qed.
  (** *** HHO *)
  Context (rec : mtx).
  Let R_ (u : nat -> R) := rec_fun c rd N rec u.
  Let MT := integrate_forms (cl_elem c) (scalar_ev cb) (scalar_ev cb).
  Let R2T := shift 0 1 (integrate_forms (cl_elem c) (scalar_ev rb) (scalar_ev cb)).
  Let Q1 := solveM ldlt (b_size cb) MT (mprod (b_size rb - 1) R2T rec).
  Definition sl_P1 : mtx := add_cols (mopp Q1) 0 (b_size cb) ident.
  Definition sl_piT (u : nat -> R) : pexp := lincomb (b_size cb) (mv N Q1 u) (b_poly cb).
  Lemma sl_piT_proj u : l2proj (po_int P) cd (R_ u) (sl_piT u).
  Proof.
    unfold sl_piT. apply (l2_basis _ _ HI _ F). fold cb. apply (solve_proj _ _ HI _ F cd N _ u (R_ u)).
    intros i Hi. rewrite mv_mprod. unfold R2T, R_, rec_fun. fold rb. pose proof (mixed_tail _ _ HI _ F cd rb (mv N rec u) i (fits_graded _ _ _ F rd) Hi) as Q. exact Q.
  Qed.
  Definition sl_lift (u : nat -> R) : pexp := PAdd (R_ u) (psubp (cell_fun c cd u) (sl_piT u)).
  Lemma sl_hho_face_form f fc off data sc : face_fit f fc -> (b_size cb <= N)%nat -> (off + b_size (el_basis (fc_elem fc) fd) <= N)%nat ->
    exists A, sl_stab_face ldlt fd rb cb rec sl_P1 sc (off, data) fc = ((off + b_size (el_basis (fc_elem fc) fd))%nat, maddm data (mscalm sc A)) /\
     face_form N f fd sl_lift (fun u => lincomb (b_size (el_basis (fc_elem fc) fd)) (fun j => u (off + j)%nat) (b_poly (el_basis (fc_elem fc) fd))) A.
  Proof.
    intros [[FF [Hn Hd]] FI] Hc HN. unfold sl_stab_face. eexists. split; [reflexivity|]. intros u v du dv Ju Jv.
    set (fb := el_basis (fc_elem fc) fd) in *.
    apply (face_jump_form _ _ FI _ FF fd N _ _ 1 sl_lift (fun u => lincomb (b_size fb) (fun j => u (off + j)%nat) (b_poly fb)) u v du dv ltac:(lra)); try assumption.
    - intros. apply (MM_eq _ _ FI _ FF); assumption.
    - intros z i Hi. fold fb. rewrite Rmult_1_l.
      set (MF := integrate_forms (fc_elem fc) (scalar_ev fb) (scalar_ev fb)).
      set (P2 := solveM ldlt (b_size fb) MF (mprod (b_size cb) (integrate_forms (fc_elem fc) (scalar_ev cb) (scalar_ev fb)) sl_P1)).
      set (P3 := solveM ldlt (b_size fb) MF (mprod (b_size rb - 1) (shift 0 1 (integrate_forms (fc_elem fc) (scalar_ev rb) (scalar_ev fb))) rec)).
      assert (Rw : forall j, (j < b_size fb)%nat -> mv N (maddm P2 (add_cols P3 off (b_size fb) (mopp ident))) z j = mv N P2 z j + mv N P3 z j - z (off + j)%nat).
      { intros j Hj. rewrite mv_madd, mv_add_cols by (unfold fb in *; lia). rewrite mv_opp, mv_ident by exact Hj. lra. }
      assert (D1 : forall x, peval (lincomb (b_size cb) (mv N sl_P1 z) (b_poly cb)) x = peval (psubp (cell_fun c cd z) (sl_piT z)) x).
      { intros x. unfold psubp, pscal, cell_fun, sl_piT. cbn [peval]. rewrite !peval_lincomb. fold cb. rewrite <- sg_scal, <- sg_plus. apply sg_ext. intros j Hj.
        unfold sl_P1. rewrite mv_add_cols by lia. rewrite mv_opp, mv_ident by exact Hj. cbn [Nat.add]. ring. }
      assert (A2 : fa_int f (PMul (b_poly fb i) (lincomb (b_size fb) (mv N P2 z) (b_poly fb))) = fa_int f (PMul (b_poly fb i) (psubp (cell_fun c cd z) (sl_piT z)))).
      { apply (solve_proj _ _ FI _ FF fd N _ z (psubp (cell_fun c cd z) (sl_piT z))); [|exact Hi]. intros a Ha. rewrite mv_mprod.
        pose proof (mixed_mv _ _ FI _ FF fd cb (mv N sl_P1 z) a (fits_graded _ _ _ F cd) Ha) as Q. fold fb in Q. rewrite Q. apply (I_ext _ _ FI). intros x. cbn [peval]. rewrite D1. reflexivity. }
      assert (A3 : fa_int f (PMul (b_poly fb i) (lincomb (b_size fb) (mv N P3 z) (b_poly fb))) = fa_int f (PMul (b_poly fb i) (R_ z))).
      { apply (solve_proj _ _ FI _ FF fd N _ z (R_ z)); [|exact Hi]. intros a Ha. rewrite mv_mprod.
        pose proof (mixed_tail _ _ FI _ FF fd rb (mv N rec z) a (fits_graded _ _ _ F rd) Ha) as Q. exact Q. }
      rewrite (I_ext _ _ FI _ (PAdd (PMul (b_poly fb i) (lincomb (b_size fb) (mv N P3 z) (b_poly fb)))
         (psubp (PMul (b_poly fb i) (lincomb (b_size fb) (mv N P2 z) (b_poly fb))) (PMul (b_poly fb i) (lincomb (b_size fb) (fun j => z (off + j)%nat) (b_poly fb)))))).
      + rewrite (int_add _ _ FI), (I_sub _ _ FI), A2, A3, (I_mul_sub_r _ _ FI (sl_lift z)).
        assert (L : fa_int f (PMul (b_poly fb i) (sl_lift z)) = fa_int f (PMul (b_poly fb i) (R_ z)) + fa_int f (PMul (b_poly fb i) (psubp (cell_fun c cd z) (sl_piT z)))).
        { rewrite <- (int_add _ _ FI). apply (I_ext _ _ FI). intros x. unfold sl_lift. cbn [peval]. ring. }
        rewrite L. lra.
      + intros x. unfold psubp, pscal. cbn [peval]. rewrite !peval_lincomb.
        rewrite (sg_ext _ _ (fun j => mv N P3 z j * peval (b_poly fb j) x + (mv N P2 z j * peval (b_poly fb j) x + (-1) * (z (off + j)%nat * peval (b_poly fb j) x)))) by (intros j Hj; rewrite Rw by exact Hj; ring).
        rewrite !sg_plus, sg_scal. ring.
  Qed.
  Lemma sl_hho_form u v ru rv du dv :
    l2proj (po_int P) cd (R_ u) ru -> l2proj (po_int P) cd (R_ v) rv ->
    jumps (po_facets P) fdi (faces_funs c cd fdi u) (PAdd (R_ u) (psubp (cell_fun c cd u) ru)) du ->
    jumps (po_facets P) fdi (faces_funs c cd fdi v) (PAdd (R_ v) (psubp (cell_fun c cd v) rv)) dv ->
    bil N (sl_stabilization ldlt c (mkDegs cd fd rd) rec) v u = fsum3 (po_facets P) du dv (fun f a b => / po_diam P * fa_int f (PMul a b)).
  Proof.
    intros Pu Pv Ju Jv. unfold sl_stabilization. cbn [cell_degree face_degree reconstruction_degree]. rewrite <- (fold_combine _ fd).
    assert (LE : forall z rz dz, l2proj (po_int P) cd (R_ z) rz ->
      jumps (po_facets P) fdi (faces_funs c cd fdi z) (PAdd (R_ z) (psubp (cell_fun c cd z) rz)) dz ->
      jumps (po_facets P) fdi (faces_funs c cd fdi z) (sl_lift z) dz).
    { intros z rz dz Pz. apply jumps_ext; [apply (fint d P c HC)|]. intros f x Hf Hx. unfold sl_lift, psubp. cbn [peval]. f_equal. f_equal. unfold pscal. cbn [peval]. f_equal.
      symmetry. destruct (sl_piT_proj z) as (D1 & T1). destruct Pz as (D2 & T2).
      apply (span_eq _ _ HI cd _ _ _ _ (fit_basis _ _ _ F cd)); [exact D1|exact D2| |apply (fon d P c HC f x Hf Hx)].
      intros i Hi. pose proof (basis_deg _ _ _ F cd i Hi) as Db. rewrite (T1 _ Db), (T2 _ Db). reflexivity. }
    match goal with |- bil N (snd (fold_left ?st _ _)) v u = _ =>
      rewrite (stab_fold N st (fun k => k = fd) sl_lift (fun _ => / po_diam P) (po_facets P) (cl_faces c) (faces_fit d P c HC)) with (du := du) (dv := dv) end.
    - rewrite bil_zero. lra.
    - reflexivity.
    - intros f fc k _ Hf off data -> Hoff. cbn [fst snd].
      replace (/ po_diam P) with (1 / el_diam (cl_elem c)) by (rewrite (cf_diam _ _ _ HC); unfold Rdiv; ring).
      apply (sl_hho_face_form f fc off data _ Hf); [unfold N, num_dofs, cb; lia|exact Hoff].
    - intros k Hin. unfold fdi, all_faces in Hin. apply in_map_iff in Hin as (y & Ey & _). congruence.
    - unfold N, num_dofs. rewrite bases_of_l. unfold fdi, all_faces. lia.
    - apply (LE u ru du Pu Ju).
    - apply (LE v rv dv Pv Jv).
  Qed.
  (** the same through one function *)
  Definition sl_q (u : nat -> R) : pexp := PAdd (R_ u) (psubp (cell_fun c cd u) (sl_piT u)).
  Lemma sl_hho_q u v du dv : jumps (po_facets P) fdi (faces_funs c cd fdi u) (sl_q u) du -> jumps (po_facets P) fdi (faces_funs c cd fdi v) (sl_q v) dv ->
    bil N (sl_stabilization ldlt c (mkDegs cd fd rd) rec) v u = fsum3 (po_facets P) du dv (fun f a b => / po_diam P * fa_int f (PMul a b)).
  Proof. intros Ju Jv. apply (sl_hho_form u v (sl_piT u) (sl_piT v)); [apply sl_piT_proj|apply sl_piT_proj|exact Ju|exact Jv]. Qed.
  Lemma sl_q_const u k : (forall x, po_on P x -> peval (R_ u) x = k) -> forall x, po_on P x -> peval (sl_q u) x = peval (cell_fun c cd u) x.
  Proof.
    intros Hk x Hx. assert (Er : peval (sl_piT u) x = k).
    { assert (Hr' : l2proj (po_int P) cd (PC k) (sl_piT u)).
      { destruct (sl_piT_proj u) as (Dr & Hr). split; [exact Dr|]. intros w Dw. rewrite (Hr w Dw). apply (int_ext _ _ HI). intros y Hy. cbn [peval]. rewrite (Hk y Hy). reflexivity. }
      rewrite (l2proj_id _ _ HI _ F cd (PC k) _ (deg_le_const _ _) Hr' x Hx). reflexivity. }
    unfold sl_q, psubp, pscal. cbn [peval]. rewrite Er, (Hk x Hx). ring.
  Qed.
End Stab.

(** ** the reduction *)
Section Reduction.
  Context (ldlt : nat -> mtx -> (nat -> R) -> nat -> R) (HS : solves_spd ldlt).
  Definition red_step (fd : nat) (f : pt -> R) (st : nat * (nat -> R)) (fc : sface) : nat * (nat -> R) :=
    let '(off, ret) := st in
    let phiF := el_basis (fc_elem fc) fd in
    ((off + b_size phiF)%nat, set_seg ret off (b_size phiF) (L2_project ldlt (fc_elem fc) f phiF)).
  Lemma red_before fd f fcs : forall off v j, (j < off)%nat -> snd (fold_left (red_step fd f) fcs (off, v)) j = v j.
  Proof.
    induction fcs as [|fc fcs IH]; intros off v j H; [reflexivity|]. cbn [fold_left]. unfold red_step at 2. rewrite IH by lia. apply set_seg_before, H.
  Qed.
  Lemma red_faces fd p fs fcs : deg_le p (fd + 1) -> Forall2 face_fit fs fcs -> forall off v,
    projs fs (map (fun _ => Some fd) fcs) (face_funs off (bases_l (combine fcs (map (fun _ => Some fd) fcs))) (snd (fold_left (red_step fd (peval p)) fcs (off, v)))) p.
  Proof.
    intros D H. induction H as [|f fc fs fcs [[FF _] FI] H IH]; intros off v; [exact Logic.I|].
    cbn [map combine bases_l fst snd face_funs projs fold_left]. split; [|apply IH].
    pose proof (L2_project_l2 _ _ FI _ FF ldlt HS fd p D) as (Dq & Hq). split.
    - apply (fun_deg _ _ _ FF).
    - intros w Dw. rewrite <- (Hq w Dw). apply (I_ext _ _ FI). intros x. cbn [peval]. f_equal. apply lincomb_coef. intros j Hj.
      unfold red_step at 2. rewrite red_before by lia. rewrite set_seg_in by lia. f_equal. lia.
  Qed.
  Lemma reduction_l2 d P c (HC : cell_fits d P c) cd fd rd p : deg_le p (cd + 1) -> deg_le p (fd + 1) ->
    let u := local_reduction ldlt c (mkDegs cd fd rd) (peval p) in
    l2proj (po_int P) cd p (cell_fun c cd u) /\ projs (po_facets P) (all_faces c fd) (faces_funs c cd (all_faces c fd) u) p.
  Proof.
    intros Dc Df u.
    assert (U : u = snd (fold_left (red_step fd (peval p)) (cl_faces c) (b_size (el_basis (cl_elem c) cd),
       set_seg zeroV 0 (b_size (el_basis (cl_elem c) cd)) (L2_project ldlt (cl_elem c) (peval p) (el_basis (cl_elem c) cd))))) by reflexivity.
    split.
    - pose proof (L2_project_l2 _ _ (poly_int _ _ (cf_poly _ _ _ HC)) _ (cf_elem _ _ _ HC) ldlt HS cd p Dc) as (Dq & Hq). split.
      + apply (fun_deg _ _ _ (cf_elem _ _ _ HC)).
      + intros w Dw. rewrite <- (Hq w Dw). apply (I_ext _ _ (poly_int _ _ (cf_poly _ _ _ HC))). intros x. cbn [peval]. f_equal. apply lincomb_coef. intros j Hj.
        rewrite U, red_before by exact Hj. rewrite set_seg_in by lia. f_equal. lia.
    - unfold faces_funs. rewrite bases_of_l, U. apply (red_faces fd p _ _ Df (faces_fit d P c HC)).
  Qed.
End Reduction.
