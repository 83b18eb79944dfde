(** The system of the symmetric reconstruction determines its solution; the reconstruction solves the variational
    problem with zero mean rotation. *)
From Coq Require Import List Arith Reals Lra Lia Bool.
From Verif Require Import Poly_Spec Poly_Proofs HHO_Spec HHO_Model HHO_Setting HHO_Proofs HHO2_Proofs HHO3_Proofs HHO4_Proofs HHO5_Proofs HHO6_Proofs
  VHHO_Spec VHHO_Model VHHO_Setting VHHO_Proofs VHHO2_Proofs VHHO3_Proofs VHHO4_Proofs VHHO5_Proofs VHHO6_Proofs HHOInst2_Proofs
  Stab_Model Stab_Proofs SymL_Spec SymL_Model SymL_Proofs.
Import ListNotations.
Open Scope R_scope.

Lemma fold_add_blocks N ho off n off' n' u i (B B' : pt -> R -> mtx) (g : pt -> R) (q : list (pt * R)) : (off + n <= N)%nat -> (off' + n' <= N)%nat -> (i < ho)%nat ->
  (forall x w, mv n (B x w) (fun j => u (off + j)%nat) i + mv n' (B' x w) (fun j => u (off' + j)%nat) i = w * g x) -> forall M,
  mv N (fold_left (fun M qp => let '(x, w) := qp in let M := add_block M 0 off ho n (B x w) in add_block M 0 off' ho n' (B' x w)) q M) u i = mv N M u i + qsum q g.
Proof.
  intros H1 H2 Hi HB. induction q as [|[x w] q IH]; intros M; [simpl; lra|]. cbn [fold_left]. rewrite IH. rewrite !mv_add_block by assumption.
  replace ((0 <=? i) && (i <? 0 + ho))%nat with true by (symmetry; apply andb_true_iff; rewrite Nat.leb_le, Nat.ltb_lt; lia).
  rewrite Nat.sub_0_r. cbn [qsum]. unfold qsum at 2. cbn [fold_right map]. specialize (HB x w). fold (qsum q g). unfold qsum in *. cbn. lra.
Qed.
Lemma fold_rows_keep ho off n off' n' (B B' : pt -> R -> mtx) (q : list (pt * R)) i j : (ho <= i)%nat -> forall M,
  fold_left (fun M qp => let '(x, w) := qp in let M := add_block M 0 off ho n (B x w) in add_block M 0 off' ho n' (B' x w)) q M i j = M i j.
Proof.
  intros Hi. induction q as [|[x w] q IH]; intros M; [reflexivity|]. cbn [fold_left]. rewrite IH. unfold add_block. rewrite !in_block_false by lia. reflexivity.
Qed.

Section SymL.
  Context (d : nat) (Hd : dim23 d) (P : polytope) (c : scell) (HC : cell_fits d P c).
  Let HP := cf_poly _ _ _ HC.
  Let HI := poly_int _ _ HP.
  Context (rd : nat) (Hrd : (1 <= rd)%nat).
  Let b := el_basis (cl_elem c) rd.
  Let rb := vec_basis d b.
  Let ho := (v_size rb - d)%nat.
  Let L := nb_lag d.
  Let dd := (d * d)%nat.
  Let Q := po_int P.
  Definition tb (j : nat) : tf := v_comp (vec_basis d (el_basis (cl_elem c) rd)) (d + j).
  Definition vtail (k : nat -> R) : tf := vlin (v_size (vec_basis d (el_basis (cl_elem c) rd)) - d) k tb.
  Definition rt (p : nat) (V : tf) : pexp := rotp (fst (rpair d p)) (snd (rpair d p)) V.
  Lemma d_pos : (0 < d)%nat.
  Proof. destruct Hd as [-> | ->]; lia. Qed.
  Lemma ho_eq : (v_size rb = d + ho)%nat.
  Proof. unfold ho. pose proof (proj1 (cf_one _ _ _ HC rd)) as H. fold b in H. pose proof d_pos. unfold rb, vec_basis. cbn [v_size]. nia. Qed.
  Lemma rb_deg j : (j < v_size rb)%nat -> vdeg d (v_comp rb j) rd.
  Proof. apply (vec_deg (po_on P)). apply (fit_basis _ _ _ (cf_elem _ _ _ HC)). Qed.
  Lemma rb_vars j : vvars d d (v_comp rb j).
  Proof. intros a Ha. unfold rb, vec_basis. cbn [v_comp]. destruct (_ =? _)%nat; [apply (cf_vars _ _ _ HC)|exact Logic.I]. Qed.
  Lemma vtail_deg k : vdeg d (vtail k) rd.
  Proof. apply vdeg_vlin. intros j Hj. apply rb_deg. pose proof ho_eq. unfold ho, rb, b in *. lia. Qed.
  Lemma vtail_vars k : vvars d d (vtail k).
  Proof. intros a Ha. apply pvars_lincomb. intros j. apply (rb_vars (d + j) a Ha). Qed.
  Lemma vtail_comp k a x : (a < d)%nat -> peval (vtail k a) x = peval (lincomb (b_size b - 1) (comp d a k) (fun j => b_poly b (S j))) x.
  Proof.
    intros Ha. unfold vtail. fold b rb. replace (v_size rb - d)%nat with (d * (b_size b - 1))%nat by (unfold rb, vec_basis; cbn [v_size]; rewrite Nat.mul_sub_distr_l; lia).
    rewrite peval_vlin, sg_blocks, peval_lincomb. apply sg_ext. intros i Hi.
    rewrite (sg_ext d _ (fun e => if (a =? e)%nat then k (d * i + e)%nat * peval (b_poly b (S i)) x else 0)).
    - rewrite (sg_pick0 d a) by exact Ha. reflexivity.
    - intros e He. unfold tb. fold b. unfold vec_basis. cbn [v_comp]. replace (d + (d * i + e))%nat with (d * S i + e)%nat by lia. rewrite idx_mod, idx_div by exact He. rewrite (Nat.eqb_sym e a).
      destruct (a =? e)%nat; cbn [peval]; ring.
  Qed.
  (** a vector of the degree of the reconstruction is constant plus a combination of the other functions *)
  Lemma vspan_tail w : vdeg d w rd -> vvars d d w -> exists (k0 : nat -> R) k, forall a x, (a < d)%nat -> peval (w a) x = k0 a + peval (vtail k a) x.
  Proof.
    intros D V.
    destruct (choose d (fun a k => forall x, peval (w a) x = k 0%nat + peval (lincomb (b_size b - 1) (fun j => k (S j)) (fun j => b_poly b (S j))) x)) as (cs & Hcs).
    - intros a Ha. destruct (span_tail d P c HC rd (w a) (V a Ha) (D a Ha)) as (k0 & k & Hk). exists (fun j => match j with O => k0 | S j => k j end). exact Hk.
    - destruct (vec_combine d (b_size b - 1) (fun a i => cs a (S i))) as (k & Hk). exists (fun a => cs a 0%nat), k. intros a x Ha. rewrite vtail_comp by exact Ha.
      rewrite (Hcs a Ha x). f_equal. rewrite !peval_lincomb. apply sg_ext. intros j Hj. rewrite Hk by exact Ha. reflexivity.
  Qed.
  Lemma vtail_const k : (forall a, (a < d)%nat -> exists g, forall x, po_on P x -> peval (vtail k a) x = g) -> forall i, (i < ho)%nat -> k i = 0.
  Proof.
    intros H i Hi. pose proof d_pos as D0. pose proof ho_eq as E. unfold ho in Hi. unfold rb, vec_basis in Hi. cbn [v_size] in Hi.
    assert (Di : (i = d * (i / d) + i mod d)%nat) by (apply Nat.div_mod; lia). assert (Hm : (i mod d < d)%nat) by (apply Nat.mod_upper_bound; lia).
    destruct (H (i mod d)%nat Hm) as (g & Hg).
    assert (Z : comp d (i mod d) k (i / d)%nat = 0).
    { apply (tail_const d P c HC rd (comp d (i mod d) k)).
      - exists g. intros y Hy. rewrite <- (Hg y Hy). symmetry. apply vtail_comp, Hm.
      - fold b. apply Nat.div_lt_upper_bound; [lia|]. rewrite Nat.mul_sub_distr_l. lia. }
    unfold comp in Z. rewrite <- Di in Z. exact Z.
  Qed.
  (** ** entries *)
  Lemma stiff_eq i j : (i < v_size rb)%nat -> (j < v_size rb)%nat -> symlap_stiff d c rb rd i j = Q (vdot dd (strain d (v_comp rb i)) (strain d (v_comp rb j))).
  Proof.
    intros Hi Hj. unfold symlap_stiff. rewrite vaccumulate_eq. unfold zeroM. rewrite Rplus_0_l.
    rewrite (qsum_ext _ _ (peval (vdot dd (strain d (v_comp rb i)) (strain d (v_comp rb j))))).
    - apply (exact_int _ _ HI _ (fit_quad _ _ _ (cf_elem _ _ _ HC))). apply (deg_le_mono _ ((rd - 1) + (rd - 1))); [lia|].
      apply deg_vdot; apply deg_symgrad, rb_deg; assumption.
    - intros x. rewrite peval_vdot. apply sg_ext. intros e He. unfold rb, b. rewrite !(vsgrad_eq d Hd) by exact He. reflexivity.
  Qed.
  Lemma rot_eq i p : (i < v_size rb)%nat -> (p < L)%nat -> symlap_rot d c b rd i p = Q (rt p (v_comp rb i)).
  Proof.
    intros Hi Hp. unfold symlap_rot.
    assert (F : forall q M, fold_left (fun M qp => let '(x, w) := qp in fun i p => M i p + w * eval_curls d b x i p) q M i p = M i p + qsum q (peval (rt p (v_comp rb i)))).
    { induction q as [|[x w] q IH]; intros M; [unfold qsum; simpl; lra|]. cbn [fold_left]. rewrite IH. rewrite (eval_curls_eq d b x i p Hd Hp). fold rb. unfold rt, qsum. cbn. lra. }
    rewrite F. unfold zeroM. rewrite Rplus_0_l. apply (exact_int _ _ HI _ (fit_quad _ _ _ (cf_elem _ _ _ HC))). unfold rt, rotp. destruct (rpair_lt d p Hd Hp) as (H1 & H2).
    apply deg_le_sub; (eapply deg_le_mono; [|apply deg_le_diff, rb_deg; [exact Hi|lia]]); lia.
  Qed.
  Let A := symlap_lhs d c rd.
  Lemma lhs_11 i j : (i < ho)%nat -> (j < ho)%nat -> A i j = Q (vdot dd (strain d (tb i)) (strain d (tb j))).
  Proof.
    intros Hi Hj. unfold A, symlap_lhs. fold b. fold rb. fold ho. unfold add_block. rewrite !in_block_false by lia. unfold set_block.
    rewrite (proj2 (in_block_true 0 0 ho ho i j)) by lia. unfold shift. rewrite !Nat.sub_0_r. pose proof ho_eq. rewrite stiff_eq by lia. reflexivity.
  Qed.
  Lemma lhs_12 i p : (i < ho)%nat -> (p < L)%nat -> A i (ho + p)%nat = Q (rt p (tb i)).
  Proof.
    intros Hi Hp. unfold A, symlap_lhs. fold b. fold rb. fold ho. fold L. unfold add_block. rewrite (in_block_false ho 0) by lia.
    rewrite (proj2 (in_block_true 0 ho ho L i (ho + p))) by lia. unfold set_block. rewrite in_block_false by lia. unfold shift, zeroM. replace (ho + p - ho)%nat with p by lia. rewrite Nat.sub_0_r.
    pose proof ho_eq. cbn [Nat.add]. rewrite rot_eq by (assumption || lia). unfold tb. fold b rb. lra.
  Qed.
  Lemma lhs_21 p j : (p < L)%nat -> (j < ho)%nat -> A (ho + p)%nat j = Q (rt p (tb j)).
  Proof.
    intros Hp Hj. unfold A, symlap_lhs. fold b. fold rb. fold ho. fold L. unfold add_block. rewrite (proj2 (in_block_true ho 0 L ho (ho + p) j)) by lia.
    rewrite (in_block_false 0 ho) by lia. unfold set_block. rewrite in_block_false by lia. unfold mtrans, shift, zeroM. replace (ho + p - ho)%nat with p by lia. rewrite Nat.sub_0_r.
    pose proof ho_eq. cbn [Nat.add]. rewrite rot_eq by (assumption || lia). unfold tb. fold b rb. lra.
  Qed.
  Lemma lhs_22 p q : (p < L)%nat -> (q < L)%nat -> A (ho + p)%nat (ho + q)%nat = 0.
  Proof.
    intros Hp Hq. unfold A, symlap_lhs. fold b. fold rb. fold ho. fold L. unfold add_block. rewrite !in_block_false by lia. unfold set_block. rewrite in_block_false by lia. reflexivity.
  Qed.
  Lemma split_idx i : (i < ho + L)%nat -> (i < ho)%nat \/ exists p, (p < L)%nat /\ i = (ho + p)%nat.
  Proof. intros H. destruct (Nat.lt_ge_cases i ho) as [H1|H1]; [left; exact H1|right]. exists (i - ho)%nat. lia. Qed.
  Lemma lhs_sym i j : (i < ho + L)%nat -> (j < ho + L)%nat -> A i j = A j i.
  Proof.
    intros Hi Hj. destruct (split_idx i Hi) as [Hi'|(p & Hp & ->)]; destruct (split_idx j Hj) as [Hj'|(q & Hq & ->)].
    - rewrite !lhs_11 by assumption. apply (vdot_comm _ _ HI).
    - rewrite lhs_12, lhs_21 by assumption. reflexivity.
    - rewrite lhs_12, lhs_21 by assumption. reflexivity.
    - rewrite !lhs_22 by assumption. reflexivity.
  Qed.
  Lemma strain_vlin n k B e x : (e < dd)%nat -> peval (strain d (vlin n k B) e) x = peval (vlin n k (fun j => strain d (B j)) e) x.
  Proof. intros He. unfold strain. rewrite symgrad_lin by exact He. rewrite peval_vlin. reflexivity. Qed.
  Lemma strain_tail V k : Q (vdot dd V (strain d (vtail k))) = sg ho (fun j => k j * Q (vdot dd V (strain d (tb j)))).
  Proof.
    unfold vtail. fold b rb ho. rewrite <- (vdot_lin_r _ _ HI). apply (vdot_ext _ _ HI); [reflexivity|]. intros e x He _. apply strain_vlin, He.
  Qed.
  Lemma row_1 x i : (i < ho)%nat -> sg (ho + L) (fun j => A i j * x j) =
    Q (vdot dd (strain d (tb i)) (strain d (vtail x))) + sg L (fun p => x (ho + p)%nat * Q (rt p (tb i))).
  Proof.
    intros Hi. rewrite sg_split, strain_tail. f_equal; apply sg_ext; intros j Hj.
    - rewrite lhs_11 by assumption. ring.
    - rewrite lhs_12 by assumption. ring.
  Qed.
  Lemma row_2 x p : (p < L)%nat -> sg (ho + L) (fun j => A (ho + p)%nat j * x j) = Q (rt p (vtail x)).
  Proof.
    intros Hp. rewrite sg_split. unfold rt, vtail. fold b rb ho. unfold Q. rewrite (rotp_lin _ _ HI). rewrite (sg_zero L), Rplus_0_r.
    - apply sg_ext. intros j Hj. rewrite lhs_21 by assumption. unfold rt, Q. ring.
    - intros q Hq. rewrite lhs_22 by assumption. ring.
  Qed.
  (** the elementary rotation of columns p: coordinate b in component a *)
  Definition turn (p : nat) : tf := fun a => if (a =? fst (rpair d p))%nat then PX (snd (rpair d p)) else PC 0.
  Lemma turn_deg p : vdeg d (turn p) rd.
  Proof. intros a Ha. unfold turn. destruct (_ =? _)%nat; [apply deg_le_pdeg; cbn; lia|apply deg_le_const]. Qed.
  Lemma turn_vars p : (p < L)%nat -> vvars d d (turn p).
  Proof. intros Hp a Ha. unfold turn. destruct (_ =? _)%nat; [|exact Logic.I]. cbn. apply (rpair_lt d p Hd Hp). Qed.
  Lemma turn_rot p q : (p < L)%nat -> (q < L)%nat -> Q (rt q (turn p)) = (if (q =? p)%nat then 1 else 0) * Q (PC 1).
  Proof.
    intros Hp Hq. apply (int_const d P c HC). intros x _. unfold rt. rewrite rotp_eval. unfold turn, L in *. destruct Hd as [E|E]; rewrite E in *.
    - cbn in Hp, Hq. replace p with 0%nat by lia. replace q with 0%nat by lia. cbn. ring.
    - cbn in Hp, Hq. destruct p as [|[|[|p]]]; [| | |lia]; (destruct q as [|[|[|q]]]; [| | |lia]); cbn; ring.
  Qed.
  (** the system determines its solution *)
  Lemma sg_one n p (k : nat -> R) : (p < n)%nat -> sg n (fun q => k q * (if (q =? p)%nat then 1 else 0)) = k p.
  Proof.
    intros Hp. rewrite (sg_ext n _ (fun q => if (p =? q)%nat then k q else 0)); [apply (sg_pick0 n p k Hp)|].
    intros q _. rewrite (Nat.eqb_sym q p). destruct (p =? q)%nat; ring.
  Qed.
  Lemma rt_tail p w k0 k : (p < L)%nat -> (forall a x, (a < d)%nat -> peval (w a) x = k0 a + peval (vtail k a) x) -> Q (rt p w) = sg ho (fun j => k j * Q (rt p (tb j))).
  Proof.
    intros Hp H. destruct (rpair_lt d p Hd Hp) as (A1 & A2). unfold rt, Q. rewrite <- (rotp_lin _ _ HI). apply (I_ext _ _ HI). intros x. rewrite !rotp_eval.
    assert (E : forall a e, (a < d)%nat -> peval (pdiff e (w a)) x = peval (pdiff e (vtail k a)) x).
    { intros a e Ha. rewrite (pdiff_ext (w a) (PAdd (PC (k0 a)) (vtail k a)) e); [cbn [pdiff peval]; lra|]. intros y. cbn [peval]. apply H, Ha. }
    rewrite !E by lia. reflexivity.
  Qed.
  Lemma lhs_regular x : (forall i, (i < ho + L)%nat -> sg (ho + L) (fun j => A i j * x j) = 0) -> forall j, (j < ho + L)%nat -> x j = 0.
  Proof.
    intros H.
    assert (R2 : forall p, (p < L)%nat -> Q (rt p (vtail x)) = 0) by (intros p Hp; rewrite <- row_2 by exact Hp; apply H; lia).
    assert (R1 : forall i, (i < ho)%nat -> Q (vdot dd (strain d (tb i)) (strain d (vtail x))) + sg L (fun p => x (ho + p)%nat * Q (rt p (tb i))) = 0)
      by (intros i Hi; rewrite <- row_1 by exact Hi; apply H; lia).
    assert (E0 : Q (vdot dd (strain d (vtail x)) (strain d (vtail x))) = 0).
    { rewrite strain_tail.
      rewrite (sg_ext ho _ (fun j => - sg L (fun p => x (ho + p)%nat * (x j * Q (rt p (tb j)))))).
      - rewrite sg_opp, sg_swap, sg_zero; [ring|]. intros p Hp. rewrite sg_scal. unfold rt, Q. rewrite <- (rotp_lin _ _ HI).
        pose proof (R2 p Hp) as Z. unfold rt, Q, vtail in Z. fold b rb ho in Z. rewrite Z. ring.
      - intros j Hj. pose proof (R1 j Hj) as Z. unfold Q in *. rewrite (vdot_comm _ _ HI) in Z.
        rewrite (sg_ext L _ (fun p => x j * (x (ho + p)%nat * po_int P (rt p (tb j))))) by (intros; ring). rewrite sg_scal.
        assert (Z' : po_int P (vdot dd (strain d (vtail x)) (strain d (tb j))) = - sg L (fun p => x (ho + p)%nat * po_int P (rt p (tb j)))) by lra. rewrite Z'. ring. }
    assert (T0 : forall j, (j < ho)%nat -> x j = 0).
    { apply vtail_const. apply (rigid_const d P c HC (vtail x) rd); [apply vtail_vars|apply vtail_deg| |].
      - intros e y He Hy. apply (vdot_sq_def _ _ HI dd _ E0 e y He Hy).
      - intros a e Hae He. destruct (rpair_all d a e Hd Hae He) as (p & Hp & Ep). pose proof (R2 p Hp) as Z. unfold rt in Z. rewrite Ep in Z. exact Z. }
    intros j Hj. destruct (split_idx j Hj) as [Hj'|(p & Hp & ->)]; [apply T0, Hj'|].
    destruct (vspan_tail (turn p) (turn_deg p) (turn_vars p Hp)) as (k0 & k & Hk).
    assert (Z : sg L (fun q => x (ho + q)%nat * Q (rt q (turn p))) = 0).
    { rewrite (sg_ext L _ (fun q => sg ho (fun j => k j * (x (ho + q)%nat * Q (rt q (tb j)))))).
      - rewrite sg_swap. apply sg_zero. intros i Hi. rewrite sg_scal. pose proof (R1 i Hi) as Z. rewrite strain_tail, (sg_zero ho) in Z; [rewrite Rplus_0_l in Z; rewrite Z; ring|].
        intros l Hl. rewrite (T0 l Hl). ring.
      - intros q Hq. rewrite (rt_tail q (turn p) k0 k Hq Hk), <- sg_scal. apply sg_ext. intros; ring. }
    rewrite (sg_ext L _ (fun q => Q (PC 1) * (x (ho + q)%nat * (if (q =? p)%nat then 1 else 0)))) in Z by (intros q Hq; rewrite (turn_rot p q Hp Hq); ring).
    rewrite sg_scal, (sg_one L p (fun q => x (ho + q)%nat) Hp) in Z. pose proof (measure_pos d P c HC) as M. unfold Q in Z.
    apply (Rmult_eq_reg_l (po_int P (PC 1))); lra.
  Qed.
End SymL.
