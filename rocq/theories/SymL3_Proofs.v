(** The right-hand side of the symmetric reconstruction and the problem it solves. *)
From Coq Require Import List Arith Reals Lra Lia Bool.
From Verif Require Import Poly_Spec Poly_Proofs HHO_Spec HHO_Model HHO_Setting HHO_Proofs HHO2_Proofs HHO3_Proofs HHO4_Proofs HHO5_Proofs HHO6_Proofs HHO7_Proofs
  VHHO_Spec VHHO_Model VHHO_Setting VHHO_Proofs VHHO2_Proofs VHHO3_Proofs VHHO4_Proofs VHHO5_Proofs VHHO6_Proofs HHOInst2_Proofs
  Stab_Model Stab_Proofs SymL_Spec SymL_Model SymL_Proofs SymL2_Proofs.
Import ListNotations.
Open Scope R_scope.

Section SymL.
  Context (d : nat) (Hd : dim23 d) (P : polytope) (c : scell) (HC : cell_fits d P c).
  Let HP := cf_poly _ _ _ HC.
  Let HI := poly_int _ _ HP.
  Context (rd : nat) (Hrd : (1 <= rd)%nat) (cd : nat) (Hcd : (cd <= rd)%nat) (fdi : list (option nat)).
  Let b := el_basis (cl_elem c) rd.
  Let rb := vec_basis d b.
  Let cb := vec_basis d (el_basis (cl_elem c) cd).
  Let ho := (v_size rb - d)%nat.
  Let L := nb_lag d.
  Let dd := (d * d)%nat.
  Let Q := po_int P.
  Let tb := tb d c rd.
  Let vtail := vtail d c rd.
  Let A := symlap_lhs d c rd.
  Let N := vnum_dofs d c cd fdi.
  Let RHS := symlap_rhs d c rd cd fdi.
  Lemma vnested j : (j < v_size cb)%nat -> v_comp rb j = v_comp cb j.
  Proof.
    intros Hj. unfold rb, cb, b, vec_basis in *. cbn [v_comp v_size] in *.
    assert (D0 : d <> 0%nat) by (destruct Hd as [-> | ->]; lia).
    rewrite (proj2 (cf_nested _ _ _ HC cd rd Hcd) (j / d)%nat); [reflexivity|]. apply Nat.div_lt_upper_bound; [exact D0|exact Hj].
  Qed.
  Lemma vnested_size : (v_size cb <= v_size rb)%nat.
  Proof. unfold rb, cb, vec_basis. cbn [v_size]. apply Nat.mul_le_mono_l. apply (cf_nested _ _ _ HC cd rd Hcd). Qed.
  Lemma rhs_cell u i : (i < ho)%nat ->
    mv N (set_block zeroM 0 0 ho (v_size cb) (shift d 0 (symlap_stiff d c rb rd))) u i = Q (vdot dd (strain d (tb i)) (strain d (vcell_fun d c cd u))).
  Proof.
    intros Hi. pose proof (ho_eq d Hd P c HC rd) as Ho. fold b rb ho in Ho. pose proof vnested_size as Sz.
    rewrite (mv_ext_m N _ (add_cols zeroM 0 (v_size cb) (shift d 0 (symlap_stiff d c rb rd)))).
    - rewrite mv_add_cols by (unfold N, vnum_dofs; fold cb; lia). rewrite mv_zero, Rplus_0_l. unfold vcell_fun, Q. fold cb.
      rewrite (vdot_ext _ _ HI dd (strain d (tb i)) (strain d (vlin (v_size cb) u (v_comp cb))) (strain d (tb i)) (vlin (v_size cb) u (fun j => strain d (v_comp cb j)))).
      + rewrite (vdot_lin_r _ _ HI). unfold mv. apply sg_ext. intros j Hj. unfold shift. cbn [Nat.add]. rewrite (stiff_eq d Hd P c HC rd Hrd); fold b rb; [|lia|lia].
        rewrite (vnested j Hj). rewrite Rmult_comm. reflexivity.
      + reflexivity.
      + intros e x He _. apply strain_vlin, He.
    - intros j Hj. unfold set_block, add_cols, in_block, zeroM. replace (i <? 0 + ho)%nat with true by (symmetry; apply Nat.ltb_lt; lia). cbn [Nat.leb andb].
      destruct (j <? 0 + v_size cb)%nat; [|reflexivity]. rewrite !Nat.sub_0_r. lra.
  Qed.
  Definition face_term (u : nat -> R) (i : nat) (f : facet) (uF : tf) : R := fa_int f (vdot d (vsub uF (vcell_fun d c cd u)) (mnrm d (fa_normal f) (strain d (SymL2_Proofs.tb d c rd i)))).
  Lemma rhs_faces u i : (i < ho)%nat -> forall fs fcs, Forall2 face_fit fs fcs -> forall fdi off M,
    (off + vface_dofs (vbases_l d (combine fcs fdi)) <= N)%nat ->
    mv N (snd (fold_left (symlap_face d rb cb ho rd cd) (combine fcs fdi) (off, M))) u i =
    mv N M u i + vfsum2 fs (vface_funs off (vbases_l d (combine fcs fdi)) u) (face_term u i).
  Proof.
    intros Hi fs fcs H. pose proof (ho_eq d Hd P c HC rd) as Ho. fold b rb ho in Ho.
    induction H as [|f fc fs fcs [[FF [Hn _]] FI] H IH]; intros fdi' off M Hoff; [simpl; lra|].
    destruct fdi' as [|[fd|] fdi']; cbn [combine fold_left]; [simpl; lra| |].
    - cbn [combine map vbases_l fst snd vface_dofs] in Hoff. unfold symlap_face at 2. cbn [fst snd].
      rewrite IH by (unfold vbases_l in *; lia). cbn [map vbases_l fst snd vface_funs vfsum2]. rewrite <- Rplus_assoc. f_equal.
      set (fb := vec_basis d (el_basis (fc_elem fc) fd)) in *. set (uF := vlin (v_size fb) (fun j => u (off + j)%nat) (v_comp fb)).
      set (nr := mnrm d (fa_normal f) (strain d (tb i))).
      rewrite (fold_add_blocks N ho off (v_size fb) 0 (v_size cb) u i _ _ (fun x => peval (vdot d (vsub uF (vcell_fun d c cd u)) nr) x)).
      + f_equal. unfold face_term. apply (exact_int _ _ FI _ (fit_quad _ _ _ FF)).
        apply (deg_le_mono _ (Nat.max fd cd + (rd - 1))); [lia|]. apply deg_vdot; [|apply deg_mnrm, deg_symgrad; apply (rb_deg d P c HC rd); fold b rb; lia].
        intros a Ha. apply deg_le_sub.
        * apply (deg_le_mono _ fd); [lia|]. apply (vdeg_vlin d); [|exact Ha]. intros j Hj. apply (vec_deg (fa_on f)); [apply (fit_basis _ _ _ FF)|exact Hj].
        * apply (deg_le_mono _ cd); [lia|]. apply (vcell_deg d P c HC cd), Ha.
      + lia.
      + unfold N, vnum_dofs. fold cb. lia.
      + exact Hi.
      + intros x w. rewrite Hn.
        assert (Gn : forall a, (a < d)%nat -> w * sg d (fun e => vsgrad d rb x (d + i) (d * a + e)%nat * fa_normal f e) = w * peval (nr a) x).
        { intros a Ha. f_equal. unfold nr. rewrite peval_mnrm. apply sg_ext. intros e He. unfold rb, b. rewrite (vsgrad_eq d Hd) by nia. unfold tb, SymL2_Proofs.tb, strain. ring. }
        assert (Gv : forall (n : nat) (vb : nat -> tf) (k : nat -> R), mv n (fun i' j => sg d (fun a => (w * sg d (fun e => vsgrad d rb x (d + i') (d * a + e)%nat * fa_normal f e)) * peval (vb j a) x)) k i =
                  w * sg d (fun a => peval (vlin n k vb a) x * peval (nr a) x)).
        { intros n vb k. unfold mv. rewrite (sg_ext d (fun a => peval (vlin n k vb a) x * _) (fun a => sg n (fun j => k j * (peval (vb j a) x * peval (nr a) x)))).
          - rewrite sg_swap, <- sg_scal. apply sg_ext. intros j _. rewrite sg_scal.
            rewrite (sg_ext d _ (fun a => w * (peval (vb j a) x * peval (nr a) x))) by (intros; rewrite Gn by assumption; ring).
            rewrite sg_scal. ring.
          - intros a _. rewrite peval_vlin, Rmult_comm, <- sg_scal. apply sg_ext. intros. ring. }
        pose proof (Gv (v_size fb) (v_comp fb) (fun j => u (off + j)%nat)) as A1. pose proof (Gv (v_size cb) (v_comp cb) u) as A2. change (fun j => u (0 + j)%nat) with u.
        cbv zeta. unfold vphi.
        match goal with |- _ + mv _ (fun i' j => - ?E i' j) _ _ = _ => idtac | |- mv ?n1 ?B1 ?u1 i + mv ?n2 ?B2 u i = _ => change B2 with (mopp (fun i' j => sg d (fun a => (w * sg d (fun e => vsgrad d rb x (d + i') (d * a + e)%nat * fa_normal f e)) * peval (v_comp cb j a) x))) end.
        rewrite mv_opp, A2, A1. rewrite peval_vdot.
        rewrite (sg_ext d (fun a => peval (vsub uF (vcell_fun d c cd u) a) x * _) (fun a => peval (uF a) x * peval (nr a) x + - (peval (vcell_fun d c cd u a) x * peval (nr a) x))).
        * rewrite sg_plus, sg_opp. unfold uF, vcell_fun. fold cb. ring.
        * intros a _. unfold vsub, psubp, pscal. cbn [peval]. ring.
    - cbn [combine map vbases_l fst snd vface_dofs] in Hoff. unfold symlap_face at 2. cbn [fst snd]. rewrite IH by (unfold vbases_l in *; lia). reflexivity.
  Qed.
  Lemma rhs_row u i : (i < ho)%nat -> mv N RHS u i = eform d P c cd fdi u (strain d (tb i)).
  Proof.
    intros Hi. unfold RHS, symlap_rhs. fold b. fold rb cb. fold ho.
    rewrite (rhs_faces u i Hi (po_facets P)); [|apply (faces_fit d P c HC)|unfold N, vnum_dofs; reflexivity].
    rewrite rhs_cell by exact Hi. reflexivity.
  Qed.
  Lemma rhs_low i j : (ho <= i)%nat -> RHS i j = 0.
  Proof.
    intros Hi. unfold RHS, symlap_rhs. fold b. fold rb cb. fold ho.
    assert (F : forall l off M, M i j = 0 -> snd (fold_left (symlap_face d rb cb ho rd cd) l (off, M)) i j = 0).
    { induction l as [|[fc [fd|]] l IH]; intros off M HM; [exact HM| |]; cbn [fold_left]; unfold symlap_face at 2; cbn [fst snd]; apply IH; [|exact HM].
      refine (eq_trans (fold_rows_keep ho off _ 0 (v_size cb) _ _ _ i j Hi M) HM). }
    apply F. unfold set_block. rewrite in_block_false by lia. reflexivity.
  Qed.
  Context (lu : nat -> mtx -> (nat -> R) -> nat -> R) (HL : solves_sym lu).
  Let sol := fst (symmetric_laplacian lu d c rd cd fdi).
  Definition srec (u : nat -> R) : tf := vrec_fun d c rd (vnum_dofs d c cd fdi) (fst (symmetric_laplacian lu d c rd cd fdi)) u.
  Lemma srec_tail u : srec u = vtail (mv N sol u).
  Proof. reflexivity. Qed.
  Lemma sol_row u i : (i < ho + L)%nat -> sg (ho + L) (fun j => A i j * mv N sol u j) = mv N RHS u i.
  Proof.
    intros Hi. unfold sol, symmetric_laplacian. cbn [fst]. fold b. fold rb. fold ho. unfold solveM, mv.
    rewrite (sg_ext (ho + L) _ (fun j => sg N (fun k => A i j * lu (ho + L)%nat A (fun k0 => RHS k0 k) j * u k))).
    - rewrite sg_swap. apply sg_ext. intros k _. rewrite (sg_ext (ho + L) _ (fun j => u k * (A i j * lu (ho + L)%nat A (fun k0 => RHS k0 k) j))) by (intros; ring).
      rewrite sg_scal, (HL (ho + L)%nat A (fun k0 => RHS k0 k)); [ring| | |exact Hi].
      + apply (lhs_sym d Hd P c HC rd Hrd).
      + apply (lhs_regular d Hd P c HC rd Hrd).
    - intros j _. rewrite <- sg_scal. apply sg_ext. intros. unfold A, RHS, L. ring.
  Qed.
  Lemma s_rot u a e : (a < e)%nat -> (e < d)%nat -> Q (rotp a e (srec u)) = 0.
  Proof.
    intros Ha He. destruct (rpair_all d a e Hd Ha He) as (p & Hp & Ep). pose proof (row_2 d Hd P c HC rd Hrd (mv N sol u) p Hp) as R2. fold b rb ho L A in R2.
    rewrite sol_row in R2 by (fold L in Hp; lia). unfold rt in R2. rewrite Ep in R2. cbn [fst snd] in R2. rewrite srec_tail. unfold Q. unfold vtail. rewrite <- R2.
    unfold mv. apply sg_zero. intros j _. rewrite rhs_low by lia. ring.
  Qed.
  (** the multipliers vanish *)
  Lemma strain_ext V W e x : (forall a y, (a < d)%nat -> peval (V a) y = peval (W a) y) -> (e < dd)%nat -> peval (strain d V e) x = peval (strain d W e) x.
  Proof.
    intros H He. destruct (entry_split d e He) as (i & j & Hi & Hj & ->). rewrite !strain_eval by assumption.
    rewrite (pdiff_ext (V i) (W i) j), (pdiff_ext (V j) (W j) i) by (intros; apply H; assumption). reflexivity.
  Qed.
  Lemma strain_shift (k0 : nat -> R) V w e x : (forall a y, (a < d)%nat -> peval (w a) y = k0 a + peval (V a) y) -> (e < dd)%nat -> peval (strain d w e) x = peval (strain d V e) x.
  Proof.
    intros H He. rewrite (strain_ext w (fun a => PAdd (PC (k0 a)) (V a))) by (try exact He; intros; cbn [peval]; apply H; assumption).
    destruct (entry_split d e He) as (i & j & Hi & Hj & ->). rewrite !strain_eval by assumption. cbn [pdiff peval]. lra.
  Qed.
  Lemma s_mult u w : vdeg d w rd -> vvars d d w ->
    Q (vdot dd (strain d w) (strain d (srec u))) + sg L (fun p => mv N sol u (ho + p) * Q (rt d p w)) = eform d P c cd fdi u (strain d w).
  Proof.
    intros Dw Vw. destruct (vspan_tail d P c HC rd Hrd w Dw Vw) as (k0 & k & Hk).
    rewrite (eform_ext d Hd P c HC cd fdi u (strain d w) (vlin ho k (fun j => strain d (tb j)))).
    - rewrite (eform_lin d P c HC). unfold Q.
      rewrite (vdot_ext _ _ HI dd (strain d w) (strain d (srec u)) (vlin ho k (fun j => strain d (tb j))) (strain d (srec u))).
      + rewrite (vdot_lin_l _ _ HI).
        rewrite (sg_ext L _ (fun p => sg ho (fun j => k j * (mv N sol u (ho + p) * Q (rt d p (tb j)))))).
        * rewrite sg_swap, <- sg_plus. apply sg_ext. intros j Hj. rewrite sg_scal, <- Rmult_plus_distr_l. f_equal.
          rewrite <- rhs_row by exact Hj. rewrite <- sol_row by lia. pose proof (row_1 d Hd P c HC rd Hrd (mv N sol u) j Hj) as R1. fold b rb ho L A in R1. symmetry. exact R1.
        * intros p Hp. rewrite <- (sg_ext ho (fun j => mv N sol u (ho + p) * (k j * Q (rt d p (tb j))))) by (intros; ring). rewrite sg_scal. f_equal.
          apply (rt_tail d Hd P c HC rd Hrd p w k0 k Hp Hk).
      + intros e x He _. rewrite (strain_shift k0 (vtail k) w e x Hk He). apply strain_vlin, He.
      + reflexivity.
    - intros e x He _. rewrite (strain_shift k0 (vtail k) w e x Hk He). apply strain_vlin, He.
  Qed.
  (** the infinitesimal rotation of the pair p *)
  Definition spin (p : nat) : tf := let (i, j) := rpair d p in fun a => if (a =? i)%nat then PX j else if (a =? j)%nat then pscal (-1) (PX i) else PC 0.
  Lemma spin_strain p e x : (p < L)%nat -> (e < dd)%nat -> peval (strain d (spin p) e) x = 0.
  Proof.
    intros Hp He. destruct (entry_split d e He) as (i & j & Hi & Hj & ->). rewrite strain_eval by assumption. unfold spin, L, rpair in *. destruct Hd as [E|E]; rewrite E in *.
    - cbn in Hp. replace p with 0%nat by lia. cbn [Nat.eqb]. destruct i as [|[|i]]; [| |lia]; (destruct j as [|[|j]]; [| |lia]); cbn; lra.
    - cbn in Hp. destruct p as [|[|[|p]]]; [| | |lia]; cbn [Nat.eqb nth]; (destruct i as [|[|[|i]]]; [| | |lia]); (destruct j as [|[|[|j]]]; [| | |lia]); cbn; lra.
  Qed.
  Lemma spin_rot p q : (p < L)%nat -> (q < L)%nat -> Q (rt d q (spin p)) = (if (q =? p)%nat then 2 else 0) * Q (PC 1).
  Proof.
    intros Hp Hq. apply (int_const d P c HC). intros x _. unfold rt. rewrite rotp_eval. unfold spin, rpair, L in *. destruct Hd as [E|E]; rewrite E in *.
    - cbn in Hp, Hq. replace p with 0%nat by lia. replace q with 0%nat by lia. cbn. ring.
    - cbn in Hp, Hq. destruct p as [|[|[|p]]]; [| | |lia]; (destruct q as [|[|[|q]]]; [| | |lia]); cbn; ring.
  Qed.
  Lemma spin_ok p : (p < L)%nat -> vdeg d (spin p) rd /\ vvars d d (spin p).
  Proof.
    intros Hp. destruct (rpair_lt d p Hd Hp) as (H1 & H2). unfold spin. destruct (rpair d p) as (i & j). cbn [fst snd] in *. split; intros a Ha.
    - destruct (a =? i)%nat; [apply deg_le_pdeg; cbn; lia|]. destruct (a =? j)%nat; [apply deg_le_scal, deg_le_pdeg; cbn; lia|apply deg_le_const].
    - destruct (a =? i)%nat; [exact H2|]. destruct (a =? j)%nat; [cbn; split; [exact Logic.I|lia]|exact Logic.I].
  Qed.
  Lemma eform_zero u t : (forall e x, (e < dd)%nat -> po_on P x -> peval (t e) x = 0) -> eform d P c cd fdi u t = 0.
  Proof.
    intros H. rewrite (eform_ext d Hd P c HC cd fdi u t (vlin 0 (fun _ => 0) (fun _ => t))); [rewrite (eform_lin d P c HC); reflexivity|].
    intros e x He Hx. rewrite H by assumption. reflexivity.
  Qed.
  Lemma s_mult0 u p : (p < L)%nat -> mv N sol u (ho + p) = 0.
  Proof.
    intros Hp. destruct (spin_ok p Hp) as (S1 & S2). pose proof (s_mult u (spin p) S1 S2) as E.
    rewrite eform_zero in E by (intros; apply spin_strain; assumption).
    unfold Q in E. rewrite (I_zero _ _ HI) in E.
    - rewrite (sg_ext L _ (fun q => (2 * po_int P (PC 1)) * (mv N sol u (ho + q) * (if (q =? p)%nat then 1 else 0)))) in E.
      + rewrite sg_scal, (sg_one L p (fun q => mv N sol u (ho + q)) Hp) in E. pose proof (measure_pos d P c HC) as M. apply (Rmult_eq_reg_l (2 * po_int P (PC 1))); lra.
      + intros q Hq. pose proof (spin_rot p q Hp Hq) as Z. unfold Q in Z. rewrite Z. destruct (q =? p)%nat; ring.
    - intros x _. rewrite peval_vdot. apply sg_zero. intros e He. rewrite spin_strain by assumption. ring.
  Qed.
  Lemma s_eq u w : vdeg d w rd -> vvars d d w -> Q (vdot dd (strain d w) (strain d (srec u))) = eform d P c cd fdi u (strain d w).
  Proof.
    intros Dw Vw. rewrite <- (s_mult u w Dw Vw), sg_zero; [ring|]. intros p Hp. rewrite (s_mult0 u p Hp). ring.
  Qed.
  Lemma s_deg u : vdeg d (srec u) rd.
  Proof. apply (vtail_deg d Hd P c HC rd); assumption. Qed.
  Lemma s_vars u : vvars d d (srec u).
  Proof. apply (vtail_vars d P c HC rd); assumption. Qed.
  Lemma s_data u v : quadf N (snd (symmetric_laplacian lu d c rd cd fdi)) u v = Q (vdot dd (strain d (srec u)) (strain d (srec v))).
  Proof.
    transitivity (eform d P c cd fdi u (strain d (srec v))).
    - rewrite bil_quadf. unfold symmetric_laplacian. cbn [snd]. fold b. fold rb. fold ho. fold RHS. change (solveM lu (ho + nb_lag d) (symlap_lhs d c rd) RHS) with sol.
      unfold bil. rewrite (sg_ext N _ (fun i => sg ho (fun k => mv N sol v k * (RHS k i * u i)))).
      + rewrite sg_swap. rewrite (eform_ext d Hd P c HC cd fdi u (strain d (srec v)) (vlin ho (mv N sol v) (fun j => strain d (tb j)))).
        * rewrite (eform_lin d P c HC). apply sg_ext. intros k Hk. rewrite sg_scal. f_equal. exact (rhs_row u k Hk).
        * intros e x He _. rewrite srec_tail. apply strain_vlin, He.
      + intros i _. rewrite mv_mprod. unfold mv at 1. rewrite <- sg_scal. apply sg_ext. intros k _. unfold mtrans. ring.
    - rewrite <- (s_eq u (srec v) (s_deg v) (s_vars v)). apply (vdot_comm _ _ HI).
  Qed.
End SymL.
