(** The reconstruction of the curl with a constraint on the divergence. *)
From Coq Require Import List Arith Reals Lra Lia Bool.
From Verif Require Import Poly_Spec Poly_Proofs HHO_Spec VHHO_Spec SymL_Spec Curl_Spec HHO_Model VHHO_Model Stab_Model Curl_Model CurlS_Model HHO_Setting VHHO_Setting Curl_Setting
  HHO_Proofs HHO2_Proofs HHO3_Proofs HHO4_Proofs HHO6_Proofs HHO7_Proofs HHO9_Proofs HHOInst2_Proofs VHHO_Proofs VHHO2_Proofs VHHO3_Proofs VHHO4_Proofs Stab_Proofs SymL_Proofs SymL4_Proofs Curl_Proofs Curl2_Proofs Curl3_Proofs CurlS_Proofs.
Import ListNotations.
Open Scope R_scope.

Lemma blk3 m n w (f g : nat -> nat -> R) z y :
  sg m (fun i => z i * mv n (fun i j => sg 3 (fun a => w * f i a * g j a)) y i) = w * sg 3 (fun a => sg m (fun i => z i * f i a) * sg n (fun j => y j * g j a)).
Proof.
  rewrite (sg_ext m _ (fun i => w * (z i * f i 0%nat) * sg n (fun j => y j * g j 0%nat) + w * (z i * f i 1%nat) * sg n (fun j => y j * g j 1%nat) + w * (z i * f i 2%nat) * sg n (fun j => y j * g j 2%nat))).
  - rewrite !sg_plus. cbn [sg].
    rewrite (sg_ext m (fun i => w * (z i * f i 0%nat) * _) (fun i => w * sg n (fun j => y j * g j 0%nat) * (z i * f i 0%nat))) by (intros; ring).
    rewrite (sg_ext m (fun i => w * (z i * f i 1%nat) * _) (fun i => w * sg n (fun j => y j * g j 1%nat) * (z i * f i 1%nat))) by (intros; ring).
    rewrite (sg_ext m (fun i => w * (z i * f i 2%nat) * _) (fun i => w * sg n (fun j => y j * g j 2%nat) * (z i * f i 2%nat))) by (intros; ring).
    rewrite !sg_scal. ring.
  - intros i _. unfold mv. rewrite <- !sg_scal, <- !sg_plus. apply sg_ext. intros j _. cbn [sg]. ring.
Qed.
Lemma blk1 m n w (f g : nat -> R) z y : sg m (fun i => z i * mv n (fun i j => w * f i * g j) y i) = w * (sg m (fun i => z i * f i) * sg n (fun j => y j * g j)).
Proof.
  rewrite (sg_ext m _ (fun i => w * sg n (fun j => y j * g j) * (z i * f i))); [rewrite sg_scal; ring|].
  intros i _. unfold mv. rewrite (sg_ext n _ (fun j => w * f i * (y j * g j))) by (intros; ring). rewrite sg_scal. ring.
Qed.
Lemma blkopp m n B z y : sg m (fun i => z i * mv n (fun i j => - B i j) y i) = - sg m (fun i => z i * mv n B y i).
Proof. rewrite <- sg_opp. apply sg_ext. intros i _. change (fun i j => - B i j) with (mopp B). rewrite mv_opp. ring. Qed.
Lemma blkm n w (g : nat -> nat -> R) z y : sg 3 (fun i => z i * mv n (fun a j => w * g j a) y i) = w * sg 3 (fun a => z a * sg n (fun j => y j * g j a)).
Proof.
  rewrite <- sg_scal. apply sg_ext. intros a _. unfold mv. rewrite (sg_ext n _ (fun j => w * (y j * g j a))) by (intros; ring). rewrite sg_scal. ring.
Qed.
Lemma bil2_delta m n A i j : (i < m)%nat -> (j < n)%nat -> bil2 m n A (delta i) (delta j) = A i j.
Proof.
  intros Hi Hj. unfold bil2. rewrite (sg_delta m i (fun i => mv n A (delta j) i) Hi). unfold mv. rewrite (sg_ext n _ (fun k => delta j k * A i k)) by (intros; ring). apply (sg_delta n j (fun k => A i k) Hj).
Qed.
Lemma fold_bil2 m n (step : mtx -> pt * R -> mtx) z u g q : (forall M x w, bil2 m n (step M (x, w)) z u = bil2 m n M z u + w * g x) ->
  forall M, bil2 m n (fold_left step q M) z u = bil2 m n M z u + qsum q g.
Proof. intros H. induction q as [|[x w] q IH]; intros M; cbn [fold_left qsum]; [lra|]. rewrite IH, H. ring. Qed.
Lemma add_block_in M r0 c0 nr nc B i j : (r0 <= i < r0 + nr)%nat -> (c0 <= j < c0 + nc)%nat -> add_block M r0 c0 nr nc B i j = M i j + B (i - r0)%nat (j - c0)%nat.
Proof. intros H K. unfold add_block. rewrite (proj2 (in_block_true _ _ _ _ _ _)) by (split; assumption). reflexivity. Qed.
Lemma add_block_out M r0 c0 nr nc B i j : ~ (r0 <= i < r0 + nr /\ c0 <= j < c0 + nc)%nat -> add_block M r0 c0 nr nc B i j = M i j.
Proof. intros H. unfold add_block. rewrite in_block_false by exact H. reflexivity. Qed.
Lemma vfsum2_const (g : facet -> R) u fs : forall tb off, length tb = length fs -> vfsum2 fs (vface_funs off (tlist tb) u) (fun f _ => g f) = fsum fs g.
Proof.
  induction fs as [|f fs IH]; intros [|b tb] off L; try discriminate; cbn [tlist map vface_funs vfsum2 fsum]; [reflexivity|]. fold (tlist tb). rewrite (IH tb) by (cbn in L; lia). reflexivity.
Qed.
Lemma vfsum2_plus fs : forall us g h, vfsum2 fs us (fun f u => g f u + h f u) = vfsum2 fs us g + vfsum2 fs us h.
Proof. induction fs as [|f fs IH]; intros [|[u|] us] g h; cbn [vfsum2]; rewrite ?IH; ring. Qed.

Section Div.
  Context (P : polytope) (c : scell) (HC : cell_fits 3 P c).
  Let HP := cf_poly _ _ _ HC.
  Let HI := poly_int _ _ HP.
  Let HQ := fit_quad _ _ _ (cf_elem _ _ _ HC).
  Context (lu : nat -> mtx -> (nat -> R) -> nat -> R) (HS : solves_any lu) (cd rd fd : nat) (tb : list vbasis).
  Context (HT : Forall (tb_deg fd) tb) (LT : length tb = length (cl_faces c)) (H1 : (1 <= rd)%nat) (Hcd : (cd <= rd)%nat) (Hfd : (fd <= rd + 1)%nat).
  Let rs := el_basis (cl_elem c) rd.
  Let rb := vec_basis 3 rs.
  Let cb := vec_basis 3 (el_basis (cl_elem c) cd).
  Let uT (u : nat -> R) : tf := vcell_fun 3 c cd u.
  Let N := tdofs c cd tb.
  Let rbs := v_size rb.
  Let dbs := b_size rs.
  Let m := (rbs + dbs + 3)%nat.
  (** the functions of a vector of unknowns *)
  Let Rf (z : nat -> R) : tf := vlin rbs z (v_comp rb).
  Let pf (z : nat -> R) : pexp := lincomb dbs (fun j => z (rbs + j)%nat) (b_poly rs).
  Let Lf (z : nat -> R) : tf := fun a => PC (z (rbs + dbs + a)%nat).
  Let Wf (z : nat -> R) : tf := fun a => PAdd (pdiff a (pf z)) (Lf z a).
  Lemma d_rbdeg j : (j < rbs)%nat -> vdeg 3 (v_comp rb j) rd.
  Proof. apply (vec_deg (po_on P)). apply (fit_basis _ _ _ (cf_elem _ _ _ HC)). Qed.
  Lemma d_cbdeg j : (j < v_size cb)%nat -> vdeg 3 (v_comp cb j) cd.
  Proof. apply (vec_deg (po_on P)). apply (fit_basis _ _ _ (cf_elem _ _ _ HC)). Qed.
  Lemma d_le : (v_size cb <= rbs)%nat.
  Proof. pose proof (proj1 (cf_nested _ _ _ HC cd rd Hcd)). unfold rbs, cb, rb, rs, vec_basis. cbn [v_size]. lia. Qed.
  Lemma d_eq j : (j < v_size cb)%nat -> v_comp rb j = v_comp cb j.
  Proof.
    intros Hj. unfold rb, cb, rs, vec_basis in *. cbn [v_comp v_size] in *.
    rewrite (proj2 (cf_nested _ _ _ HC cd rd Hcd) (j / 3)%nat); [reflexivity|]. apply Nat.div_lt_upper_bound; lia.
  Qed.
  Lemma Rdeg z : vdeg 3 (Rf z) rd.
  Proof. apply vdeg_vlin, d_rbdeg. Qed.
  Lemma pdeg z : deg_le (pf z) rd.
  Proof. apply deg_le_lincomb. intros j Hj. apply (proj1 (fit_basis _ _ _ (cf_elem _ _ _ HC) rd)), Hj. Qed.
  Lemma gdeg z : vdeg 3 (pgrad (pf z)) (rd - 1).
  Proof. intros a Ha. apply deg_le_diff, pdeg. Qed.
  Lemma Ldeg z k : vdeg 3 (Lf z) k.
  Proof. intros a Ha. apply (deg_le_mono _ 0); [lia|]. apply deg_le_pdeg. cbn. lia. Qed.
  Lemma Wdeg z : vdeg 3 (Wf z) rd.
  Proof. intros a Ha. apply deg_le_add; [apply (deg_le_mono _ (rd - 1)); [lia|apply gdeg, Ha]|apply Ldeg, Ha]. Qed.
  Lemma curl_eval z a x n : (a < 3)%nat -> sg n (fun i => z i * eval_curls2 rs x i a) = peval (curlv (vlin n z (v_comp rb)) a) x.
  Proof. intros Ha. rewrite curlv_lin. apply sg_ext. intros i _. rewrite eval_curls2_eq by exact Ha. reflexivity. Qed.
  Lemma fun_eval z a x n (B : vbasis) : sg n (fun i => z i * vphi B x i a) = peval (vlin n z (v_comp B) a) x.
  Proof. rewrite peval_vlin. reflexivity. Qed.
  Lemma grad_eval z a x : sg dbs (fun i => z (rbs + i)%nat * dphi rs x i a) = peval (pdiff a (pf z)) x.
  Proof. unfold pf. rewrite pdiff_lincomb. reflexivity. Qed.
  Lemma phi_eval z x : sg dbs (fun i => z (rbs + i)%nat * phi rs x i) = peval (pf z) x.
  Proof. unfold pf. rewrite peval_lincomb. reflexivity. Qed.

  (** the matrix *)
  Let q := el_quad (cl_elem c) (2 * rd).
  Let M0 := fold_left (cdiv_lhs_qp rs) q zeroM.
  Lemma m0_bil z y : bil2 m m M0 z y = po_int P (vdot 3 (curlv (Rf z)) (curlv (Rf y))) + po_int P (vdot 3 (Rf z) (pgrad (pf y))) + po_int P (vdot 3 (Wf z) (Rf y)).
  Proof.
    unfold M0. rewrite (fold_bil2 m m _ z y (peval (PAdd (PAdd (vdot 3 (curlv (Rf z)) (curlv (Rf y))) (vdot 3 (Rf z) (pgrad (pf y)))) (vdot 3 (Wf z) (Rf y))))).
    - unfold q. rewrite (exact_int _ _ HI _ HQ).
      + rewrite !(int_add _ _ HI). unfold bil2. rewrite sg_zero; [ring|]. intros i _. rewrite mv_zero. ring.
      + apply deg_le_add; [apply deg_le_add|].
        * apply (deg_le_mono _ (rd - 1 + (rd - 1))); [lia|]. apply deg_vdot; apply deg_curlv, Rdeg.
        * apply (deg_le_mono _ (rd + (rd - 1))); [lia|]. apply deg_vdot; [apply Rdeg|apply gdeg].
        * apply (deg_le_mono _ (rd + rd)); [lia|]. apply deg_vdot; [apply Wdeg|apply Rdeg].
    - intros M x w. unfold cdiv_lhs_qp. fold rb. fold rbs dbs. cbv zeta. rewrite !bil2_add_block by (unfold m; lia). rewrite !blk3, blkm.
      cbn [peval]. rewrite !peval_vdot. cbn [Nat.add sg].
      rewrite !(curl_eval _ _ x rbs) by lia. rewrite !(fun_eval _ _ x rbs rb). rewrite !grad_eval. fold (Rf z). fold (Rf y). fold (Rf (fun j => y j)). unfold Wf, Lf, pgrad. cbn [peval].
      change (Rf (fun j => y j)) with (Rf y). change (Rf (fun j => z j)) with (Rf z). rewrite !Nat.add_0_r. ring.
  Qed.
  Lemma m0_mean a j : (a < 3)%nat -> (j < rbs)%nat -> M0 (rbs + dbs + a)%nat j = po_int P (v_comp rb j a).
  Proof.
    intros Ha Hj. transitivity (zeroM (rbs + dbs + a)%nat j + qsum q (fun x => vphi rb x j a)).
    - unfold M0. generalize zeroM. generalize q. induction q0 as [|[x w] q0 IH]; intros M; cbn [fold_left qsum]; [lra|]. rewrite IH. unfold cdiv_lhs_qp. fold rb. fold rbs dbs. cbv zeta.
      rewrite add_block_in by lia. rewrite !add_block_out by lia. replace (rbs + dbs + a - (rbs + dbs))%nat with a by lia. rewrite Nat.sub_0_r. ring.
    - unfold zeroM. rewrite Rplus_0_l. unfold q. apply (exact_int _ _ HI _ HQ). apply (deg_le_mono _ rd); [lia|]. apply d_rbdeg; assumption.
  Qed.
  Lemma m0_zero i j : (i < rbs)%nat -> (rbs + dbs <= j)%nat -> M0 i j = 0.
  Proof.
    intros Hi Hj. unfold M0. transitivity (zeroM i j); [|reflexivity]. generalize zeroM. generalize q. induction q0 as [|[x w] q0 IH]; intros M; cbn [fold_left]; [reflexivity|]. rewrite IH.
    unfold cdiv_lhs_qp. fold rb. fold rbs dbs. cbv zeta. rewrite !add_block_out by lia. reflexivity.
  Qed.
  Let lhs := cdiv_lhs rs q.
  Lemma lhs_bil z y : bil2 m m lhs z y = po_int P (vdot 3 (curlv (Rf z)) (curlv (Rf y))) + po_int P (vdot 3 (Rf z) (Wf y)) + po_int P (vdot 3 (Wf z) (Rf y)).
  Proof.
    unfold lhs, cdiv_lhs. fold rb. fold rbs dbs. fold M0.
    rewrite (bil2_ext m m _ (add_block M0 0 (rbs + dbs) rbs 3 (mtrans (shift (rbs + dbs) 0 M0)))).
    2:{ intros i j _ _. apply set_add_block. intros i0 j0 A B. apply m0_zero; lia. }
    rewrite bil2_add_block by (unfold m; lia). rewrite m0_bil.
    rewrite (sg_ext rbs _ (fun i => z i * po_int P (vdot 3 (v_comp rb i) (Lf y)))).
    - rewrite <- (vdot_lin_l _ _ HI). fold (Rf z).
      rewrite (I_ext _ _ HI (vdot 3 (Rf z) (Wf y)) (PAdd (vdot 3 (Rf z) (pgrad (pf y))) (vdot 3 (Rf z) (Lf y)))); [rewrite (int_add _ _ HI); ring|].
      intros x. cbn [peval]. rewrite !peval_vdot. unfold Wf, pgrad. cbn [sg peval]. ring.
    - intros i Hi. cbn [Nat.add]. f_equal.
      rewrite (I_ext _ _ HI (vdot 3 (v_comp rb i) (Lf y)) (lincomb 3 (fun a => y (rbs + dbs + a)%nat) (fun a => v_comp rb i a))).
      + rewrite (I_lincomb _ _ HI). unfold mv. apply sg_ext. intros a Ha. unfold mtrans, shift. cbn [Nat.add]. rewrite m0_mean by assumption. ring.
      + intros x. rewrite peval_vdot, peval_lincomb. apply sg_ext. intros a _. unfold Lf. cbn [peval]. ring.
  Qed.
  Lemma lhs_symm : sym m lhs.
  Proof.
    intros i j Hi Hj. rewrite <- (bil2_delta m m lhs i j Hi Hj), <- (bil2_delta m m lhs j i Hj Hi). rewrite !lhs_bil.
    rewrite (vdot_comm _ _ HI 3 (curlv (Rf (delta i)))), (vdot_comm _ _ HI 3 (Rf (delta i))), (vdot_comm _ _ HI 3 (Wf (delta i))). ring.
  Qed.
  (** the right-hand side *)
  Let R0 := fold_left (cdiv_rhs_qp rs (v_size cb)) q zeroM.
  Let rhs := snd (fold_left (cdiv_face rs cb rd) (combine (cl_faces c) tb) (v_size cb, R0)).
  Lemma cbN : (v_size cb <= N)%nat.
  Proof. unfold N, tdofs. fold cb. lia. Qed.
  Lemma cb_curl u a x : (a < 3)%nat -> sg (v_size cb) (fun j => u j * eval_curls2 rs x j a) = peval (curlv (uT u) a) x.
  Proof. intros Ha. unfold uT, vcell_fun. fold cb. rewrite curlv_lin. apply sg_ext. intros j Hj. rewrite eval_curls2_eq by exact Ha. fold rb. rewrite (d_eq j Hj). reflexivity. Qed.
  Lemma cb_fun u a x : sg (v_size cb) (fun j => u j * vphi rb x j a) = peval (uT u a) x.
  Proof. unfold uT, vcell_fun. fold cb. rewrite peval_vlin. apply sg_ext. intros j Hj. unfold vphi. rewrite (d_eq j Hj). reflexivity. Qed.
  Lemma cb_div u x : sg (v_size cb) (fun j => u j * vdivphi 3 rb x j) = peval (pdivv 3 (uT u)) x.
  Proof.
    unfold uT, vcell_fun. fold cb. rewrite peval_pdivv. rewrite (sg_ext 3 _ (fun a => sg (v_size cb) (fun j => u j * peval (pdiff a (v_comp cb j a)) x))).
    - rewrite sg_swap. apply sg_ext. intros j Hj. rewrite sg_scal. unfold vdivphi. rewrite (d_eq j Hj). reflexivity.
    - intros a _. unfold vlin. apply pdiff_lincomb.
  Qed.
  Lemma r0_bil z u : bil2 m N R0 z u = po_int P (vdot 3 (curlv (Rf z)) (curlv (uT u))) - po_int P (PMul (pf z) (pdivv 3 (uT u))) + po_int P (vdot 3 (Lf z) (uT u)).
  Proof.
    assert (DU : vdeg 3 (uT u) cd) by apply (vcell_deg 3 P c HC cd u).
    unfold R0. rewrite (fold_bil2 m N _ z u (peval (PAdd (psubp (vdot 3 (curlv (Rf z)) (curlv (uT u))) (PMul (pf z) (pdivv 3 (uT u)))) (vdot 3 (Lf z) (uT u))))).
    - unfold q. rewrite (exact_int _ _ HI _ HQ).
      + rewrite (int_add _ _ HI), (I_sub _ _ HI). unfold bil2. rewrite sg_zero; [ring|]. intros i _. rewrite mv_zero. ring.
      + apply deg_le_add; [apply deg_le_sub|].
        * apply (deg_le_mono _ (rd - 1 + (cd - 1))); [lia|]. apply deg_vdot; apply deg_curlv; [apply Rdeg|exact DU].
        * apply (deg_le_mono _ (rd + (cd - 1))); [lia|]. apply deg_le_mul; [apply pdeg|]. apply deg_le_psum. intros a Ha. apply deg_le_diff, DU, Ha.
        * apply (deg_le_mono _ (rd + cd)); [lia|]. apply deg_vdot; [apply Ldeg|exact DU].
    - pose proof cbN. intros M x w. unfold cdiv_rhs_qp. fold rb. fold rbs dbs. cbv zeta. rewrite !bil2_add_block by (unfold m; lia). rewrite blk3, blkm.
      rewrite (blkopp dbs (v_size cb) (fun i j => w * phi rs x i * vdivphi 3 rb x j)), blk1. unfold psubp, pscal. cbn [peval]. rewrite !peval_vdot. cbn [Nat.add sg].
      change (fun j => u j) with u. rewrite !(curl_eval _ _ x rbs), !cb_curl, !cb_fun, cb_div, phi_eval by lia. unfold Lf. cbn [peval]. fold (Rf z). rewrite !Nat.add_0_r. ring.
  Qed.
  Lemma faces_bil z u fs fcs : Forall2 face_fit fs fcs -> forall tb', Forall (tb_deg fd) tb' -> forall off M, (off + vface_dofs (tlist tb') <= N)%nat -> length tb' = length fcs ->
    bil2 m N (snd (fold_left (cdiv_face rs cb rd) (combine fcs tb') (off, M))) z u =
    bil2 m N M z u + vfsum2 fs (vface_funs off (tlist tb') u) (fun f uF => fa_int f (vdot 3 (pcross (curlv (Rf z)) (fa_normal f)) (vsub uF (uT u))) + fa_int f (PMul (pf z) (vnrm 3 (fa_normal f) (uT u)))).
  Proof.
    assert (DU : vdeg 3 (uT u) cd) by apply (vcell_deg 3 P c HC cd u). pose proof cbN as HN.
    intros H. induction H as [|f fc fs fcs [[FF [Hn _]] FI] H IH]; intros tb0 HT0 off M Hoff L; [destruct tb0; [simpl; lra|discriminate]|].
    destruct tb0 as [|fb tb0]; [discriminate|]. inversion HT0 as [|? ? Hb HT1]; subst. cbn [combine fold_left]. unfold cdiv_face at 2. cbn [fst snd].
    cbn [tlist map vface_dofs] in Hoff. fold (tlist tb0) in Hoff. rewrite IH; [|exact HT1|lia|cbn in L; lia]. cbn [tlist map vface_funs vfsum2]. rewrite <- Rplus_assoc. f_equal.
    set (uF := vlin (v_size fb) (fun j => u (off + j)%nat) (v_comp fb)). fold rb. fold rbs dbs.
    rewrite (fold_bil2 m N _ z u (peval (PAdd (vdot 3 (pcross (curlv (Rf z)) (fa_normal f)) (vsub uF (uT u))) (PMul (pf z) (vnrm 3 (fa_normal f) (uT u)))))).
    - f_equal. rewrite (exact_int _ _ FI _ (fit_quad _ _ _ FF)); [apply (int_add _ _ FI)|]. apply deg_le_add.
      + apply (deg_le_mono _ (rd - 1 + (rd + 1))); [lia|]. apply deg_vdot; [apply deg_pcross, deg_curlv, Rdeg|]. intros a Ha. apply deg_le_sub.
        * apply (deg_le_mono _ fd); [exact Hfd|]. apply (vdeg_vlin 3 _ _ _ fd Hb a Ha).
        * apply (deg_le_mono _ cd); [lia|]. apply DU, Ha.
      + apply (deg_le_mono _ (rd + cd)); [lia|]. apply deg_le_mul; [apply pdeg|]. apply deg_le_psum. intros a Ha. apply deg_le_scal, DU, Ha.
    - intros M1 x w. cbv zeta. rewrite !bil2_add_block by (unfold m; lia).
      rewrite (blkopp rbs (v_size cb) (fun i j => sg 3 (fun a => w * cross3 (eval_curls2 rs x i) (fc_normal fc) a * vphi cb x j a))), !blk3, blk1. rewrite phi_eval.
      assert (E : forall a, (a < 3)%nat -> sg rbs (fun i => z (0 + i)%nat * cross3 (eval_curls2 rs x i) (fc_normal fc) a) = peval (pcross (curlv (Rf z)) (fa_normal f) a) x).
      { intros a Ha. rewrite Hn, <- cross3_eq by exact Ha. rewrite (cross3_ext _ (fun b => sg rbs (fun i => z i * eval_curls2 rs x i b)) _ (fa_normal f)) by (auto; intros; symmetry; apply curl_eval; assumption).
        three a; unfold cross3; cbn [Nat.eqb Nat.add]; unfold Rminus; rewrite Ropp_mult_distr_l, <- sg_opp; rewrite !(Rmult_comm (sg _ _)), <- !sg_scal, <- sg_plus; apply sg_ext; intros; ring. }
      assert (E2 : sg (v_size cb) (fun j => u (0 + j)%nat * sg 3 (fun a => vphi cb x j a * fc_normal fc a)) = peval (vnrm 3 (fa_normal f) (uT u)) x).
      { rewrite Hn. unfold vnrm. rewrite peval_psum. unfold pscal, uT, vcell_fun. fold cb.
        rewrite (sg_ext 3 _ (fun a => sg (v_size cb) (fun j => u j * (vphi cb x j a * fa_normal f a)))); [rewrite sg_swap; apply sg_ext; intros; rewrite sg_scal; reflexivity|].
        intros a _. cbn [peval]. rewrite peval_vlin, <- sg_scal. apply sg_ext. intros. unfold vphi. ring. }
      rewrite E2. cbn [peval]. rewrite peval_vdot. cbn [sg]. rewrite !E by lia. rewrite !(fun_eval _ _ x (v_size cb) cb), !(fun_eval _ _ x (v_size fb) fb). fold uF.
      change (vlin (v_size cb) (fun i : nat => u (0 + i)%nat) (v_comp cb)) with (uT u). unfold vsub, psubp, pscal. cbn [peval]. ring.
  Qed.
  Lemma rhs_bil z u : bil2 m N rhs z u = crform P c cd tb u (Rf z) + po_int P (vdot 3 (Wf z) (uT u)).
  Proof.
    unfold rhs. rewrite (faces_bil z u _ _ (faces_fit 3 P c HC) tb HT _ _); [|unfold N, tdofs; reflexivity|exact LT].
    assert (LP : length tb = length (po_facets P)) by (rewrite LT; symmetry; pose proof (faces_fit 3 P c HC) as F; clear - F; induction F; cbn; congruence).
    rewrite vfsum2_plus, (vfsum2_const (fun f => fa_int f (PMul (pf z) (vnrm 3 (fa_normal f) (uT u)))) u _ tb _ LP), r0_bil. unfold crform. fold (uT u). fold cb. unfold tfaces. fold cb.
    rewrite (I_ext _ _ HI (vdot 3 (Wf z) (uT u)) (PAdd (vdot 3 (uT u) (pgrad (pf z))) (vdot 3 (Lf z) (uT u)))).
    - rewrite (int_add _ _ HI), (green_vec 3 P HP). ring.
    - intros x. cbn [peval]. rewrite !peval_vdot. unfold Wf, pgrad. cbn [sg peval]. ring.
  Qed.
  Lemma curlW z a x : peval (curlv (Wf z) a) x = peval (curlv (fun _ => PC 0) a) x.
  Proof. unfold curlv, Wf, Lf, psubp, pscal. cbn [pdiff peval]. rewrite (pdiff_swap (nx a)). ring. Qed.
  Lemma wzero z : (forall k, po_int P (vdot 3 (vlin rbs k (v_comp rb)) (Wf z)) = 0) -> forall a x, (a < 3)%nat -> po_on P x -> peval (Wf z a) x = 0.
  Proof.
    intros H. destruct (vec_span _ rd 3 _ (fit_basis _ _ _ (cf_elem _ _ _ HC) rd) (Wf z) (Wdeg z)) as (k & Kw). fold rs rb in Kw.
    apply (vdot_sq_def _ _ HI 3). rewrite <- (H k). apply (vdot_ext _ _ HI); [exact Kw|reflexivity].
  Qed.
  Lemma d_consistent l : (l < N)%nat -> exists x, forall i, (i < m)%nat -> sg m (fun j => lhs i j * x j) = rhs i l.
  Proof.
    intros Hl. apply fredholm; [apply lhs_symm|]. intros z Hz.
    assert (B : forall y, po_int P (vdot 3 (curlv (Rf y)) (curlv (Rf z))) + po_int P (vdot 3 (Rf y) (Wf z)) + po_int P (vdot 3 (Wf y) (Rf z)) = 0).
    { intros y. rewrite <- lhs_bil. unfold bil2. apply sg_zero. intros i Hi. unfold mv. rewrite (Hz i Hi). ring. }
    set (y := fun i => if (i <? rbs)%nat then 0 else z i).
    assert (Y1 : forall a x, peval (Rf y a) x = 0) by (intros a x; unfold Rf; rewrite peval_vlin; apply sg_zero; intros j Hj; unfold y; rewrite (proj2 (Nat.ltb_lt _ _) Hj); ring).
    assert (Y2 : forall a x, peval (Wf y a) x = peval (Wf z a) x).
    { intros a x. unfold Wf, Lf, pf. cbn [peval]. rewrite !pdiff_lincomb. f_equal; [apply sg_ext; intros j _|]; unfold y; rewrite (proj2 (Nat.ltb_ge _ _)) by lia; reflexivity. }
    assert (E1 : po_int P (vdot 3 (Wf z) (Rf z)) = 0).
    { pose proof (B y) as By. rewrite (I_zero _ _ HI (vdot 3 (curlv (Rf y)) (curlv (Rf z)))) in By.
      - rewrite (I_zero _ _ HI (vdot 3 (Rf y) (Wf z))) in By by (intros x _; rewrite peval_vdot; apply sg_zero; intros; rewrite Y1; ring).
        rewrite (vdot_ext _ _ HI 3 (Wf y) (Rf z) (Wf z) (Rf z)) in By by auto. lra.
      - intros x _. rewrite peval_vdot. apply sg_zero. intros a Ha. rewrite (curlv_ext (Rf y) (fun _ => PC 0)) by (intros; rewrite Y1; reflexivity). unfold curlv, psubp, pscal. cbn [pdiff peval]. ring. }
    assert (Z : forall a x, (a < 3)%nat -> po_on P x -> peval (curlv (Rf z) a) x = 0).
    { apply (vdot_sq_def _ _ HI 3). pose proof (B z) as Bz. rewrite (vdot_comm _ _ HI 3 (Rf z) (Wf z)) in Bz. lra. }
    assert (W : forall a x, (a < 3)%nat -> po_on P x -> peval (Wf z a) x = 0).
    { apply wzero. intros k. set (y' := fun i => if (i <? rbs)%nat then k i else 0). pose proof (B y') as By.
      rewrite (I_zero _ _ HI (vdot 3 (curlv (Rf y')) (curlv (Rf z)))) in By by (intros x Hx; rewrite peval_vdot; apply sg_zero; intros a Ha; rewrite (Z a x Ha Hx); ring).
      rewrite (I_zero _ _ HI (vdot 3 (Wf y') (Rf z))) in By.
      - rewrite (vdot_ext _ _ HI 3 (Rf y') (Wf z) (vlin rbs k (v_comp rb)) (Wf z)) in By; [lra| |reflexivity]. intros a x _ _. unfold Rf. rewrite !peval_vlin. apply sg_ext. intros j Hj. unfold y'. rewrite (proj2 (Nat.ltb_lt _ _) Hj). reflexivity.
      - intros x _. rewrite peval_vdot. apply sg_zero. intros a _. unfold Wf, Lf, pf. cbn [peval]. rewrite pdiff_lincomb. rewrite sg_zero; [unfold y'; rewrite (proj2 (Nat.ltb_ge _ _)) by lia; ring|].
        intros j _. unfold y'. rewrite (proj2 (Nat.ltb_ge _ _)) by lia. ring. }
    transitivity (bil2 m N rhs z (delta l)).
    - unfold bil2. apply sg_ext. intros i Hi. f_equal. unfold mv. rewrite (sg_ext N _ (fun j => delta l j * rhs i j)) by (intros; ring). symmetry. apply (HHO_Proofs.sg_delta N l (fun j => rhs i j) Hl).
    - rewrite rhs_bil. rewrite (crform_ext P c HC cd tb (delta l) (Rf z) (fun _ => PC 0)); [rewrite (crform_zero P c HC)|].
      + rewrite (I_zero _ _ HI (vdot 3 (Wf z) _)); [ring|]. intros x Hx. rewrite peval_vdot. apply sg_zero. intros a Ha. rewrite (W a x Ha Hx). ring.
      + intros a x Ha Hx. rewrite (Z a x Ha Hx). unfold curlv, psubp, pscal. cbn [pdiff peval]. ring.
  Qed.
  Let oper := solveM lu m lhs rhs.
  Let sol (u : nat -> R) (i : nat) : R := sg N (fun j => oper i j * u j).
  Lemma d_solution u y : bil2 m m lhs y (sol u) = bil2 m N rhs y u.
  Proof.
    unfold bil2. apply sg_ext. intros i Hi. f_equal. unfold mv, sol. rewrite (sg_ext m _ (fun j => sg N (fun l => lhs i j * oper j l * u l))) by (intros j _; rewrite <- sg_scal; apply sg_ext; intros; ring).
    rewrite sg_swap. apply sg_ext. intros l Hl. rewrite (sg_ext m _ (fun j => u l * (lhs i j * oper j l))) by (intros; ring). rewrite sg_scal.
    unfold oper, solveM. rewrite (HS m lhs (fun k => rhs k l) (d_consistent l Hl) i Hi). ring.
  Qed.
  Let Rc := oper_fun rb N oper.
  Lemma d_wzero u : forall a x, (a < 3)%nat -> po_on P x -> peval (Wf (sol u) a) x = 0.
  Proof.
    destruct (vec_span _ rd 3 _ (fit_basis _ _ _ (cf_elem _ _ _ HC) rd) (Wf (sol u)) (Wdeg (sol u))) as (k & Kw).
    assert (VW : vvars 3 3 (Wf (sol u))).
    { intros a Ha. unfold Wf, Lf. cbn [pvars]. split; [|exact Logic.I]. apply HHOInst2_Proofs.pvars_diff. unfold pf. apply HHO5_Proofs.pvars_lincomb. intros j. apply (cf_vars _ _ _ HC). }
    destruct (vec_span_all 3 P c HC 3 rd (Wf (sol u)) (Wdeg (sol u)) VW) as (k' & Kv). fold rs rb in Kv. fold rbs in Kv. clear k Kw.
    set (y := fun i => if (i <? rbs)%nat then k' i else 0).
    assert (Y1 : forall a x, (a < 3)%nat -> peval (Rf y a) x = peval (Wf (sol u) a) x).
    { intros a x Ha. rewrite Kv by exact Ha. unfold Rf. rewrite !peval_vlin. apply sg_ext. intros j Hj. unfold y. rewrite (proj2 (Nat.ltb_lt _ _) Hj). reflexivity. }
    assert (Y2 : forall a x, peval (Wf y a) x = 0).
    { intros a x. unfold Wf, Lf, pf. cbn [peval]. rewrite pdiff_lincomb. rewrite sg_zero; [unfold y; rewrite (proj2 (Nat.ltb_ge _ _)) by lia; ring|]. intros j _. unfold y. rewrite (proj2 (Nat.ltb_ge _ _)) by lia. ring. }
    assert (Y3 : forall a x, (a < 3)%nat -> peval (curlv (Rf y) a) x = peval (curlv (fun _ => PC 0) a) x) by (intros a x Ha; rewrite (curlv_ext (Rf y) (Wf (sol u)) Y1); apply curlW).
    assert (C0 : forall a x, peval (curlv (fun _ => PC 0) a) x = 0) by (intros; unfold curlv, psubp, pscal; cbn [pdiff peval]; ring).
    pose proof (d_solution u y) as E. rewrite lhs_bil, rhs_bil in E.
    rewrite (crform_ext P c HC cd tb u (Rf y) (fun _ => PC 0)) in E by (intros; apply Y3; assumption). rewrite (crform_zero P c HC) in E.
    rewrite (I_zero _ _ HI (vdot 3 (curlv (Rf y)) _)) in E by (intros x _; rewrite peval_vdot; apply sg_zero; intros a Ha; rewrite Y3, C0 by exact Ha; ring).
    rewrite (I_zero _ _ HI (vdot 3 (Wf y) (Rf (sol u)))) in E by (intros x _; rewrite peval_vdot; apply sg_zero; intros a Ha; rewrite Y2; ring).
    rewrite (I_zero _ _ HI (vdot 3 (Wf y) (uT u))) in E by (intros x _; rewrite peval_vdot; apply sg_zero; intros a Ha; rewrite Y2; ring).
    apply (vdot_sq_def _ _ HI 3). rewrite (vdot_ext _ _ HI 3 (Rf y) (Wf (sol u)) (Wf (sol u)) (Wf (sol u))) in E by (auto; intros; apply Y1; assumption). lra.
  Qed.
  Lemma d_curl_basis u k : po_int P (vdot 3 (curlv (vlin rbs k (v_comp rb))) (curlv (Rc u))) = crform P c cd tb u (vlin rbs k (v_comp rb)).
  Proof.
    set (y := fun i => if (i <? rbs)%nat then k i else 0).
    assert (Y1 : forall a x, (a < 3)%nat -> peval (Rf y a) x = peval (vlin rbs k (v_comp rb) a) x).
    { intros a x Ha. unfold Rf. rewrite !peval_vlin. apply sg_ext. intros j Hj. unfold y. rewrite (proj2 (Nat.ltb_lt _ _) Hj). reflexivity. }
    assert (Y2 : forall a x, peval (Wf y a) x = 0).
    { intros a x. unfold Wf, Lf, pf. cbn [peval]. rewrite pdiff_lincomb. rewrite sg_zero; [unfold y; rewrite (proj2 (Nat.ltb_ge _ _)) by lia; ring|]. intros j _. unfold y. rewrite (proj2 (Nat.ltb_ge _ _)) by lia. ring. }
    pose proof (d_solution u y) as E. rewrite lhs_bil, rhs_bil in E.
    rewrite (I_zero _ _ HI (vdot 3 (Rf y) (Wf (sol u)))) in E by (intros x Hx; rewrite peval_vdot; apply sg_zero; intros a Ha; rewrite (d_wzero u a x Ha Hx); ring).
    rewrite (I_zero _ _ HI (vdot 3 (Wf y) (Rf (sol u)))) in E by (intros x _; rewrite peval_vdot; apply sg_zero; intros a Ha; rewrite Y2; ring).
    rewrite (I_zero _ _ HI (vdot 3 (Wf y) (uT u))) in E by (intros x _; rewrite peval_vdot; apply sg_zero; intros a Ha; rewrite Y2; ring).
    rewrite (crform_ext P c HC cd tb u (Rf y) (vlin rbs k (v_comp rb))) in E by (intros; apply curlv_ext, Y1).
    rewrite (vdot_ext _ _ HI 3 (curlv (Rf y)) (curlv (Rf (sol u))) (curlv (vlin rbs k (v_comp rb))) (curlv (Rc u))) in E by (try (intros; apply curlv_ext, Y1); reflexivity). lra.
  Qed.
  Lemma d_curl u t : vdeg 3 t rd -> vvars 3 3 t -> po_int P (vdot 3 (curlv t) (curlv (Rc u))) = crform P c cd tb u t.
  Proof.
    intros Ht Hv. destruct (vec_span_all 3 P c HC 3 rd t Ht Hv) as (k & Hk). fold rs rb in Hk. fold rbs in Hk.
    rewrite (crform_ext P c HC cd tb u t (vlin rbs k (v_comp rb))) by (intros; apply curlv_ext, Hk).
    rewrite (vdot_ext _ _ HI 3 (curlv t) _ (curlv (vlin rbs k (v_comp rb))) (curlv (Rc u))) by (auto; intros; apply curlv_ext, Hk). apply d_curl_basis.
  Qed.
  Lemma d_grad u k l : let g := fun a => PAdd (pdiff a (lincomb dbs k (b_poly rs))) (PC (l a)) in po_int P (vdot 3 g (Rc u)) = po_int P (vdot 3 g (uT u)).
  Proof.
    intros g. set (y := fun i => if (i <? rbs)%nat then 0 else if (i <? rbs + dbs)%nat then k (i - rbs)%nat else l (i - (rbs + dbs))%nat).
    assert (Y1 : forall a x, peval (Rf y a) x = 0) by (intros a x; unfold Rf; rewrite peval_vlin; apply sg_zero; intros j Hj; unfold y; rewrite (proj2 (Nat.ltb_lt _ _) Hj); ring).
    assert (Y2 : forall a x, peval (Wf y a) x = peval (g a) x).
    { intros a x. unfold Wf, Lf, pf, g. cbn [peval]. rewrite !pdiff_lincomb. f_equal.
      - apply sg_ext. intros j Hj. unfold y. rewrite (proj2 (Nat.ltb_ge _ _)), (proj2 (Nat.ltb_lt _ _)) by lia. replace (rbs + j - rbs)%nat with j by lia. reflexivity.
      - unfold y. rewrite !(proj2 (Nat.ltb_ge _ _)) by lia. f_equal. lia. }
    assert (Y3 : forall a x, (a < 3)%nat -> peval (curlv (Rf y) a) x = peval (curlv (fun _ => PC 0) a) x) by (intros a x Ha; apply curlv_ext; intros; rewrite Y1; reflexivity).
    pose proof (d_solution u y) as E. rewrite lhs_bil, rhs_bil in E.
    rewrite (crform_ext P c HC cd tb u (Rf y) (fun _ => PC 0)) in E by (intros; apply Y3; assumption). rewrite (crform_zero P c HC) in E.
    rewrite (I_zero _ _ HI (vdot 3 (curlv (Rf y)) _)) in E by (intros x _; rewrite peval_vdot; apply sg_zero; intros a Ha; rewrite Y3 by exact Ha; unfold curlv at 1, psubp, pscal; cbn [pdiff peval]; ring).
    rewrite (I_zero _ _ HI (vdot 3 (Rf y) (Wf (sol u)))) in E by (intros x Hx; rewrite peval_vdot; apply sg_zero; intros a Ha; rewrite Y1; ring).
    rewrite (vdot_ext _ _ HI 3 (Wf y) (Rf (sol u)) g (Rc u)) in E by (auto; reflexivity).
    rewrite (vdot_ext _ _ HI 3 (Wf y) (uT u) g (uT u)) in E by (auto; reflexivity). lra.
  Qed.
  Lemma d_div u p : deg_le p rd -> pvars 3 p -> po_int P (vdot 3 (pgrad p) (Rc u)) = po_int P (vdot 3 (pgrad p) (uT u)).
  Proof.
    intros Dp Vp. destruct (cf_span _ _ _ HC rd p Vp Dp) as (k & Hk). fold rs in Hk. fold dbs in Hk.
    assert (E : forall a x, peval (pgrad p a) x = peval (PAdd (pdiff a (lincomb dbs k (b_poly rs))) (PC 0)) x) by (intros a x; cbn [peval]; unfold pgrad; rewrite (pdiff_ext p _ a Hk); ring).
    rewrite (vdot_ext _ _ HI 3 (pgrad p) (Rc u) _ (Rc u) (fun a x _ _ => E a x) (fun _ _ _ _ => eq_refl)), (vdot_ext _ _ HI 3 (pgrad p) (uT u) _ (uT u) (fun a x _ _ => E a x) (fun _ _ _ _ => eq_refl)).
    apply (d_grad u k (fun _ => 0)).
  Qed.
  Lemma d_mean u a : (a < 3)%nat -> po_int P (Rc u a) = po_int P (uT u a).
  Proof.
    intros Ha. pose proof (d_grad u (fun _ => 0) (fun b => if (b =? a)%nat then 1 else 0)) as E. cbv zeta in E.
    assert (G : forall U : tf, po_int P (vdot 3 (fun b => PAdd (pdiff b (lincomb dbs (fun _ => 0) (b_poly rs))) (PC (if (b =? a)%nat then 1 else 0))) U) = po_int P (U a)).
    { intros U. apply (I_ext _ _ HI). intros x. rewrite peval_vdot. cbn [peval]. rewrite (sg_ext 3 _ (fun b => (if (b =? a)%nat then 1 else 0) * peval (U b) x)).
      - three a; cbn; ring.
      - intros b _. rewrite pdiff_lincomb, sg_zero by (intros; ring). ring. }
    rewrite !G in E. exact E.
  Qed.
  Lemma d_data u v : quadf N (mprod rbs (mtrans rhs) oper) v u = po_int P (vdot 3 (curlv (Rc v)) (curlv (Rc u))).
  Proof.
    rewrite bil_quadf. unfold bil. rewrite (quadf_trans N rbs rhs oper v u) by trivial.
    transitivity (bil2 m N rhs (fun i => if (i <? rbs)%nat then sol u i else 0) v).
    - unfold bil2, m. rewrite <- Nat.add_assoc, sg_split. rewrite (sg_zero (dbs + 3)).
      + rewrite Rplus_0_r. apply sg_ext. intros i Hi. rewrite (proj2 (Nat.ltb_lt _ _) Hi). unfold sol, mv. ring.
      + intros i _. rewrite (proj2 (Nat.ltb_ge _ _)) by lia. ring.
    - rewrite rhs_bil. set (y := fun i => if (i <? rbs)%nat then sol u i else 0).
      assert (Y1 : forall a x, (a < 3)%nat -> peval (Rf y a) x = peval (Rc u a) x).
      { intros a x Ha. unfold Rf, Rc, oper_fun. fold rbs. rewrite !peval_vlin. apply sg_ext. intros j Hj. unfold y. rewrite (proj2 (Nat.ltb_lt _ _) Hj). reflexivity. }
      rewrite (I_zero _ _ HI (vdot 3 (Wf y) _)).
      + rewrite Rplus_0_r, (crform_ext P c HC cd tb v (Rf y) (Rc u)) by (intros; apply curlv_ext, Y1).
        rewrite (vdot_comm _ _ HI 3). symmetry. apply (d_curl_basis v (sol u)).
      + intros x _. rewrite peval_vdot. apply sg_zero. intros a _. unfold Wf, Lf, pf. cbn [peval]. rewrite pdiff_lincomb. rewrite sg_zero; [unfold y; rewrite (proj2 (Nat.ltb_ge _ _)) by lia; ring|].
        intros j _. unfold y. rewrite (proj2 (Nat.ltb_ge _ _)) by lia. ring.
  Qed.
  Lemma d_prog : curl_reconstruction_div lu c cd rd tb = Some (oper, mprod rbs (mtrans rhs) oper).
  Proof. unfold curl_reconstruction_div. fold rs. fold rb cb. fold rbs. rewrite (proj2 (Nat.leb_le _ _) d_le). reflexivity. Qed.
End Div.
