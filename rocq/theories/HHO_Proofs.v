(** Proofs about the scalar HHO operators: sums, polynomials and integrals, the matrices of the model as bilinear
    forms. *)
From Coq Require Import List Arith Reals Lra Lia Bool.
From Verif Require Import Poly_Spec Poly_Proofs HHO_Spec HHO_Model HHO_Setting.
Import ListNotations.
Open Scope R_scope.

(** * Sums *)
Lemma sg_ext n f g : (forall i, (i < n)%nat -> f i = g i) -> sg n f = sg n g.
Proof. induction n; intros H; simpl; [reflexivity|]. rewrite IHn by (intros; apply H; lia). rewrite H by lia. reflexivity. Qed.
Lemma sg_plus n f g : sg n (fun i => f i + g i) = sg n f + sg n g.
Proof. induction n; simpl; [lra|rewrite IHn; lra]. Qed.
Lemma sg_scal n k f : sg n (fun i => k * f i) = k * sg n f.
Proof. induction n; simpl; [lra|rewrite IHn; lra]. Qed.
Lemma sg_zero n f : (forall i, (i < n)%nat -> f i = 0) -> sg n f = 0.
Proof. intros H. induction n; simpl; [reflexivity|]. rewrite IHn by (intros; apply H; lia). rewrite H by lia. lra. Qed.
Lemma sg_opp n f : sg n (fun i => - f i) = - sg n f.
Proof. induction n; simpl; [lra|rewrite IHn; lra]. Qed.
Lemma sg_swap n m (f : nat -> nat -> R) : sg n (fun i => sg m (fun j => f i j)) = sg m (fun j => sg n (fun i => f i j)).
Proof. induction n; simpl; [symmetry; apply sg_zero; reflexivity|]. rewrite IHn, <- sg_plus. reflexivity. Qed.
Lemma sg_delta n i f : (i < n)%nat -> sg n (fun j => delta i j * f j) = f i.
Proof.
  unfold delta. induction n; intros H; [lia|]. simpl. destruct (Nat.eqb_spec i n) as [->|N].
  - rewrite sg_zero; [lra|]. intros j Hj. destruct (Nat.eqb_spec n j); [lia|lra].
  - rewrite IHn by lia. lra.
Qed.
Lemma sg_split n m f : sg (n + m) f = sg n f + sg m (fun j => f (n + j)%nat).
Proof. induction m; simpl; [rewrite Nat.add_0_r; lra|]. rewrite Nat.add_succ_r. simpl. rewrite IHm. lra. Qed.
Lemma sg_first n f : sg (S n) f = f O + sg n (fun j => f (S j)).
Proof. change (S n) with (1 + n)%nat. rewrite sg_split. simpl. lra. Qed.
Lemma sg_le n f : (forall i, (i < n)%nat -> 0 <= f i) -> 0 <= sg n f.
Proof. intros H. induction n; simpl; [lra|]. assert (0 <= f n) by (apply H; lia). assert (0 <= sg n f) by (apply IHn; intros; apply H; lia). lra. Qed.
Lemma sg_cols N off n g u : (off + n <= N)%nat ->
  sg N (fun j => (if ((off <=? j) && (j <? off + n))%nat then g (j - off)%nat else 0) * u j) = sg n (fun j => g j * u (off + j)%nat).
Proof.
  intros H. replace N with (off + (n + (N - off - n)))%nat by lia. rewrite sg_split, sg_split.
  rewrite sg_zero, (sg_zero (N - off - n)).
  - rewrite Rplus_0_l, Rplus_0_r. apply sg_ext. intros j Hj.
    replace ((off <=? off + j) && (off + j <? off + n))%nat with true.
    + do 2 f_equal. lia.
    + symmetry. apply andb_true_iff. split; [apply Nat.leb_le|apply Nat.ltb_lt]; lia.
  - intros j Hj. replace ((off <=? off + (n + j)) && (off + (n + j) <? off + n))%nat with false; [lra|].
    symmetry. apply andb_false_iff. right. apply Nat.ltb_ge. lia.
  - intros j Hj. replace ((off <=? j) && (j <? off + n))%nat with false; [lra|].
    symmetry. apply andb_false_iff. left. apply Nat.leb_gt. lia.
Qed.
Lemma qsum_sg (q : list (pt * R)) n (f : nat -> pt -> R) : qsum q (fun x => sg n (fun j => f j x)) = sg n (fun j => qsum q (f j)).
Proof. induction n; simpl; [apply qsum_zero|]. rewrite qsum_plus, IHn. reflexivity. Qed.

(** * Polynomials *)
Lemma peval_psum n f x : peval (psum n f) x = sg n (fun j => peval (f j) x).
Proof. induction n; simpl; [reflexivity|]. rewrite IHn. reflexivity. Qed.
Lemma peval_lincomb n c P x : peval (lincomb n c P) x = sg n (fun j => c j * peval (P j) x).
Proof. unfold lincomb. rewrite peval_psum. reflexivity. Qed.
Lemma deg_le_pdeg p n : (pdeg p <= n)%nat -> deg_le p n.
Proof. intros H. exists p. split; [exact H|reflexivity]. Qed.
Lemma deg_le_ext p q n : (forall x, peval p x = peval q x) -> deg_le p n -> deg_le q n.
Proof. intros H (p' & D & E). exists p'. split; [exact D|]. intros x. rewrite E. apply H. Qed.
Lemma deg_le_mono p n m : (n <= m)%nat -> deg_le p n -> deg_le p m.
Proof. intros H (p' & D & E). exists p'. split; [lia|exact E]. Qed.
Lemma deg_le_add p q n : deg_le p n -> deg_le q n -> deg_le (PAdd p q) n.
Proof. intros (p' & D & E) (q' & D' & E'). exists (PAdd p' q'). split; [simpl; lia|]. intros x. simpl. rewrite E, E'. reflexivity. Qed.
Lemma deg_le_mul p q n m : deg_le p n -> deg_le q m -> deg_le (PMul p q) (n + m).
Proof. intros (p' & D & E) (q' & D' & E'). exists (PMul p' q'). split; [simpl; lia|]. intros x. simpl. rewrite E, E'. reflexivity. Qed.
Lemma deg_le_const c n : deg_le (PC c) n.
Proof. apply deg_le_pdeg. simpl. lia. Qed.
Lemma deg_le_scal c p n : deg_le p n -> deg_le (pscal c p) n.
Proof. intros H. apply (deg_le_mono _ (0 + n)); [lia|]. apply deg_le_mul; [apply deg_le_const|exact H]. Qed.
Lemma deg_le_psum k f n : (forall j, (j < k)%nat -> deg_le (f j) n) -> deg_le (psum k f) n.
Proof. intros H. induction k; simpl; [apply deg_le_const|]. apply deg_le_add; [apply IHk; intros; apply H; lia|apply H; lia]. Qed.
Lemma deg_le_lincomb k c P n : (forall j, (j < k)%nat -> deg_le (P j) n) -> deg_le (lincomb k c P) n.
Proof. intros H. apply deg_le_psum. intros. apply deg_le_scal, H. assumption. Qed.
Lemma deg_le_sub p q n : deg_le p n -> deg_le q n -> deg_le (psubp p q) n.
Proof. intros H H'. apply deg_le_add; [exact H|apply deg_le_scal, H']. Qed.
Lemma pdeg0_diff p i : pdeg p = O -> forall x, peval (pdiff i p) x = 0.
Proof.
  induction p as [c|j|p IHp q IHq|p IHp q IHq]; simpl; intros H x; [reflexivity|discriminate| |].
  - rewrite IHp, IHq by lia. lra.
  - rewrite IHp, IHq by lia. lra.
Qed.
Lemma pdeg_diff p i : deg_le (pdiff i p) (pdeg p - 1).
Proof.
  induction p as [c|j|p IHp q IHq|p IHp q IHq]; simpl.
  - apply deg_le_const.
  - apply deg_le_const.
  - apply deg_le_add; [eapply deg_le_mono; [|exact IHp]; lia|eapply deg_le_mono; [|exact IHq]; lia].
  - apply deg_le_add.
    + destruct (Nat.eq_dec (pdeg p) 0) as [Z|Z].
      * apply (deg_le_ext (PC 0)); [|apply deg_le_const]. intros x. simpl. rewrite (pdeg0_diff p i Z). lra.
      * apply (deg_le_mono _ (pdeg p - 1 + pdeg q)); [lia|]. apply deg_le_mul; [exact IHp|apply deg_le_pdeg; lia].
    + destruct (Nat.eq_dec (pdeg q) 0) as [Z|Z].
      * apply (deg_le_ext (PC 0)); [|apply deg_le_const]. intros x. simpl. rewrite (pdeg0_diff q i Z). lra.
      * apply (deg_le_mono _ (pdeg p + (pdeg q - 1))); [lia|]. apply deg_le_mul; [apply deg_le_pdeg; lia|exact IHq].
Qed.
(** pdiff is the derivative, hence only depends on the values *)
Definition setc (x : pt) (i : nat) (t : R) : pt := fun k => if Nat.eqb i k then t else x k.
Lemma pdiff_deriv p i x : derivable_pt_lim (fun t => peval p (setc x i t)) (x i) (peval (pdiff i p) x).
Proof.
  assert (E : forall q, peval q (setc x i (x i)) = peval q x).
  { intros q. apply peval_ext. intros k. unfold setc. destruct (Nat.eqb_spec i k); [subst; reflexivity|reflexivity]. }
  induction p as [c|j|p IHp q IHq|p IHp q IHq]; simpl.
  - apply derivable_pt_lim_const.
  - unfold setc. destruct (Nat.eqb_spec i j) as [<-|N].
    + apply derivable_pt_lim_id.
    + apply derivable_pt_lim_const.
  - apply (derivable_pt_lim_plus _ _ _ _ _ IHp IHq).
  - rewrite <- (E p), <- (E q). rewrite (Rmult_comm (peval p _)).
    pose proof (derivable_pt_lim_mult _ _ _ _ _ IHp IHq) as M. unfold mult_fct in M.
    replace (peval (pdiff i p) x * peval q (setc x i (x i)) + peval (pdiff i q) x * peval p (setc x i (x i)))
      with (peval (pdiff i p) x * peval q (setc x i (x i)) + peval p (setc x i (x i)) * peval (pdiff i q) x) by ring. exact M.
Qed.
Lemma pdiff_ext p q i : (forall x, peval p x = peval q x) -> forall x, peval (pdiff i p) x = peval (pdiff i q) x.
Proof.
  intros H x. eapply uniqueness_limite; [apply pdiff_deriv|].
  eapply dl_ext; [|apply pdiff_deriv]. intros y. symmetry. apply H.
Qed.
Lemma deg_le_diff p n i : deg_le p n -> deg_le (pdiff i p) (n - 1).
Proof.
  intros (p' & D & E). apply (deg_le_ext (pdiff i p')); [apply pdiff_ext, E|].
  apply (deg_le_mono _ (pdeg p' - 1)); [lia|apply pdeg_diff].
Qed.
Lemma pdiff_psum n f i x : peval (pdiff i (psum n f)) x = sg n (fun j => peval (pdiff i (f j)) x).
Proof. induction n; simpl; [reflexivity|]. rewrite IHn. reflexivity. Qed.
Lemma pdiff_lincomb n c P i x : peval (pdiff i (lincomb n c P)) x = sg n (fun j => c j * peval (pdiff i (P j)) x).
Proof. unfold lincomb. rewrite pdiff_psum. apply sg_ext. intros j _. simpl. lra. Qed.
Lemma kgrad_lincomb d K n c P k x : peval (kgrad d K (lincomb n c P) k) x = sg n (fun j => c j * peval (kgrad d K (P j) k) x).
Proof.
  unfold kgrad. rewrite peval_psum. rewrite (sg_ext d _ (fun e => sg n (fun j => c j * (K k e * peval (pdiff e (P j)) x)))).
  - rewrite sg_swap. apply sg_ext. intros j _. rewrite peval_psum, <- sg_scal. reflexivity.
  - intros e _. unfold pscal. cbn [peval]. rewrite pdiff_lincomb, <- sg_scal. apply sg_ext. intros j _. ring.
Qed.
Lemma flux_lincomb d K nn n c P x : peval (flux d K nn (lincomb n c P)) x = sg n (fun j => c j * peval (flux d K nn (P j)) x).
Proof.
  unfold flux. rewrite peval_psum. rewrite (sg_ext d _ (fun k => sg n (fun j => c j * (nn k * peval (kgrad d K (P j) k) x)))).
  - rewrite sg_swap. apply sg_ext. intros j _. rewrite peval_psum, <- sg_scal. reflexivity.
  - intros e _. unfold pscal. cbn [peval]. rewrite kgrad_lincomb, <- sg_scal. apply sg_ext. intros j _. ring.
Qed.
Lemma deg_kgrad d K p n k : deg_le p n -> deg_le (kgrad d K p k) (n - 1).
Proof. intros H. apply deg_le_psum. intros. apply deg_le_scal, deg_le_diff, H. Qed.
Lemma deg_flux d K nn p n : deg_le p n -> deg_le (flux d K nn p) (n - 1).
Proof. intros H. apply deg_le_psum. intros. apply deg_le_scal, deg_kgrad, H. Qed.
Lemma deg_graddot d p v n m : deg_le p n -> (forall c, deg_le (v c) m) -> deg_le (graddot d p v) (n - 1 + m).
Proof. intros H H'. apply deg_le_psum. intros. apply deg_le_mul; [apply deg_le_diff, H|apply H']. Qed.
Lemma deg_divk d K p n : deg_le p n -> deg_le (divk d K p) (n - 2).
Proof. intros H. apply deg_le_psum. intros. apply (deg_le_mono _ (n - 1 - 1)); [lia|]. apply deg_le_diff, deg_kgrad, H. Qed.

(** * Integrals *)
Section Integral.
  Context (on : pt -> Prop) (I : pexp -> R) (HI : integral on I).
  Lemma I_ext p q : (forall x, peval p x = peval q x) -> I p = I q.
  Proof. intros H. apply (int_ext _ _ HI). intros; apply H. Qed.
  Lemma I_zero p : (forall x, on x -> peval p x = 0) -> I p = 0.
  Proof.
    intros H. rewrite (int_ext _ _ HI p (pscal 0 p)).
    - rewrite (int_scal _ _ HI). lra.
    - intros x Hx. simpl. rewrite (H x Hx). lra.
  Qed.
  Lemma I_sub p q : I (psubp p q) = I p - I q.
  Proof. unfold psubp. rewrite (int_add _ _ HI), (int_scal _ _ HI). lra. Qed.
  Lemma I_psum n f : I (psum n f) = sg n (fun j => I (f j)).
  Proof. induction n; simpl; [apply I_zero; reflexivity|]. rewrite (int_add _ _ HI), IHn. reflexivity. Qed.
  Lemma I_lincomb n c P : I (lincomb n c P) = sg n (fun j => c j * I (P j)).
  Proof. unfold lincomb. rewrite I_psum. apply sg_ext. intros. apply (int_scal _ _ HI). Qed.
  Lemma I_comm p q : I (PMul p q) = I (PMul q p).
  Proof. apply I_ext. intros. simpl. lra. Qed.
  Lemma I_mul_lincomb_l n c P q : I (PMul (lincomb n c P) q) = sg n (fun j => c j * I (PMul (P j) q)).
  Proof.
    rewrite <- (I_lincomb n c (fun j => PMul (P j) q)). apply I_ext. intros x. cbn [peval]. rewrite !peval_lincomb, Rmult_comm, <- sg_scal.
    apply sg_ext. intros. simpl. ring.
  Qed.
  Lemma I_mul_lincomb_r n c P q : I (PMul q (lincomb n c P)) = sg n (fun j => c j * I (PMul q (P j))).
  Proof. rewrite I_comm, I_mul_lincomb_l. apply sg_ext. intros. rewrite I_comm. reflexivity. Qed.
  Lemma I_mul_sub_l p q r : I (PMul (psubp p q) r) = I (PMul p r) - I (PMul q r).
  Proof. rewrite <- I_sub. apply I_ext. intros x. simpl. ring. Qed.
  Lemma I_mul_sub_r p q r : I (PMul r (psubp p q)) = I (PMul r p) - I (PMul r q).
  Proof. rewrite <- I_sub. apply I_ext. intros x. simpl. ring. Qed.
  Lemma I_sq_pos p : 0 <= I (PMul p p).
  Proof. apply (int_pos _ _ HI). intros x _. simpl. nra. Qed.
  Lemma I_sq_def p : I (PMul p p) = 0 -> forall x, on x -> peval p x = 0.
  Proof.
    intros H x Hx. assert (E : peval (PMul p p) x = 0).
    { apply (int_def _ _ HI); [|exact H|exact Hx]. intros y _. simpl. nra. }
    simpl in E. nra.
  Qed.
  Lemma exact_int q : exact q I -> forall deg p, deg_le p deg -> qsum (q deg) (peval p) = I p.
  Proof. intros H deg p (p' & D & E). rewrite <- (I_ext p' p E), <- (H deg p' D). apply qsum_ext. intros x. symmetry. apply E. Qed.
  (** two elements of the span with the same products with the basis are equal *)
  Lemma span_eq deg n b p q : basis_on on deg n b -> deg_le p deg -> deg_le q deg ->
    (forall i, (i < n)%nat -> I (PMul (b i) p) = I (PMul (b i) q)) -> forall x, on x -> peval p x = peval q x.
  Proof.
    intros (_ & _ & Sp) Dp Dq H x Hx. destruct (Sp (psubp p q) (deg_le_sub _ _ _ Dp Dq)) as (c & Hc).
    assert (E : I (PMul (psubp p q) (psubp p q)) = 0).
    { rewrite (int_ext _ _ HI _ (PMul (lincomb n c b) (psubp p q))).
      - rewrite I_mul_lincomb_l. apply sg_zero. intros j Hj. rewrite I_mul_sub_r, (H j Hj). lra.
      - intros y Hy. cbn [peval]. rewrite <- (Hc y Hy). reflexivity. }
    pose proof (I_sq_def _ E x Hx) as Z. simpl in Z. lra.
  Qed.
  (** products with the basis determine products with every polynomial of the degree *)
  Lemma span_test deg n b p q : basis_on on deg n b ->
    (forall i, (i < n)%nat -> I (PMul (b i) p) = I (PMul (b i) q)) -> forall w, deg_le w deg -> I (PMul w p) = I (PMul w q).
  Proof.
    intros (_ & _ & Sp) H w Dw. destruct (Sp w Dw) as (c & Hc).
    rewrite (int_ext _ _ HI _ (PMul (lincomb n c b) p)) by (intros y Hy; cbn [peval]; rewrite <- (Hc y Hy); reflexivity).
    rewrite (int_ext _ _ HI (PMul w q) (PMul (lincomb n c b) q)) by (intros y Hy; cbn [peval]; rewrite <- (Hc y Hy); reflexivity).
    rewrite !I_mul_lincomb_l. apply sg_ext. intros j Hj. rewrite (H j Hj). reflexivity.
  Qed.
End Integral.

(** * Matrices of the model *)
Definition mv (N : nat) (A : mtx) (u : nat -> R) (i : nat) : R := sg N (fun j => A i j * u j).
Lemma accumulate_eq q u v M i j : accumulate q u v M i j = M i j + qsum q (fun x => u x i * v x j).
Proof.
  unfold accumulate. revert M. induction q as [|[x w] q IH]; intros M; simpl; [lra|]. rewrite IH. ring.
Qed.
Lemma mv_add_cols N M off n B u i : (off + n <= N)%nat -> mv N (add_cols M off n B) u i = mv N M u i + mv n B (fun j => u (off + j)%nat) i.
Proof.
  intros H. unfold mv. rewrite <- (sg_cols N off n (B i) u H), <- sg_plus. apply sg_ext. intros j _. unfold add_cols.
  destruct ((off <=? j) && (j <? off + n))%nat; lra.
Qed.
Lemma mv_mprod N n A B u i : mv N (mprod n A B) u i = mv n A (mv N B u) i.
Proof.
  unfold mv, mprod. rewrite (sg_ext N _ (fun j => sg n (fun k => A i k * (B k j * u j)))).
  - rewrite sg_swap. apply sg_ext. intros k _. rewrite sg_scal. reflexivity.
  - intros j _. rewrite Rmult_comm, <- sg_scal. apply sg_ext. intros. ring.
Qed.
Lemma mv_opp N A u i : mv N (mopp A) u i = - mv N A u i.
Proof. unfold mv, mopp. rewrite <- sg_opp. apply sg_ext. intros. ring. Qed.
Lemma mv_madd N A B u i : mv N (maddm A B) u i = mv N A u i + mv N B u i.
Proof. unfold mv, maddm. rewrite <- sg_plus. apply sg_ext. intros. ring. Qed.
Lemma mv_mscal N k A u i : mv N (mscalm k A) u i = k * mv N A u i.
Proof. unfold mv, mscalm. rewrite <- sg_scal. apply sg_ext. intros. ring. Qed.
Lemma mv_ident N u i : (i < N)%nat -> mv N ident u i = u i.
Proof. intros H. apply sg_delta, H. Qed.
Lemma mv_zero N u i : mv N zeroM u i = 0.
Proof. unfold mv, zeroM. apply sg_zero. intros. lra. Qed.
Lemma mv_ext N A u v i : (forall j, (j < N)%nat -> u j = v j) -> mv N A u i = mv N A v i.
Proof. intros H. apply sg_ext. intros. rewrite H by assumption. reflexivity. Qed.
Lemma mv_solveM ldlt N n A B u i : solves_spd ldlt -> spd n A -> (i < n)%nat ->
  mv n A (mv N (solveM ldlt n A B) u) i = mv N B u i.
Proof.
  intros HS HA Hi. unfold mv at 1 2, solveM.
  rewrite (sg_ext n _ (fun j => sg N (fun l => A i j * ldlt n A (fun k => B k l) j * u l))).
  - rewrite sg_swap. apply sg_ext. intros l _. rewrite <- (HS n A (fun k => B k l) HA i Hi).
    rewrite (Rmult_comm (sg _ _)), <- sg_scal. apply sg_ext. intros. ring.
  - intros j _. rewrite <- sg_scal. apply sg_ext. intros. ring.
Qed.
(** v^T A u *)
Lemma quadf_trans n m A B v u : (forall i, (i < n)%nat -> True) ->
  sg n (fun i => v i * mv n (mprod m (mtrans A) B) u i) = sg m (fun k => mv n A v k * mv n B u k).
Proof.
  intros _. rewrite (sg_ext n _ (fun i => sg m (fun k => v i * (A k i * mv n B u k)))).
  - rewrite sg_swap. apply sg_ext. intros k _. unfold mv at 2. rewrite (Rmult_comm (sg _ _)), <- sg_scal.
    apply sg_ext. intros. ring.
  - intros i _. rewrite mv_mprod. unfold mv at 1, mtrans. rewrite <- sg_scal. reflexivity.
Qed.
