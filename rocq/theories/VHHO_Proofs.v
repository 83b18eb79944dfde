(** Functions with several components: products, Gram matrices, the generic reconstruction. *)
From Coq Require Import List Arith Reals Lra Lia Bool.
From Verif Require Import Poly_Spec Poly_Proofs HHO_Spec VHHO_Spec HHO_Model VHHO_Model HHO_Setting HHO_Proofs HHO2_Proofs HHO6_Proofs.
Import ListNotations.
Open Scope R_scope.

(** * sums over alternating components *)
Lemma sg_blocks d n f : sg (d * n) f = sg n (fun i => sg d (fun a => f (d * i + a)%nat)).
Proof.
  induction n as [|n IH]; [rewrite Nat.mul_0_r; reflexivity|]. rewrite Nat.mul_succ_r, sg_split, IH. reflexivity.
Qed.
Lemma sg_blocks2 d n f : sg (d * n) f = sg d (fun a => sg n (fun i => f (d * i + a)%nat)).
Proof. rewrite sg_blocks, sg_swap. reflexivity. Qed.
Lemma sg_pick n a v f : (a < n)%nat -> sg n (fun b => if (a =? b)%nat then f b else v b) = f a + sg n (fun b => if (a =? b)%nat then 0 else v b).
Proof.
  intros H. assert (E : f a = sg n (fun b => delta a b * f b)) by (symmetry; apply sg_delta, H).
  rewrite E, <- sg_plus. apply sg_ext. intros b Hb. unfold delta. destruct (Nat.eqb_spec a b); subst; lra.
Qed.
Lemma sg_pick0 n a f : (a < n)%nat -> sg n (fun b => if (a =? b)%nat then f b else 0) = f a.
Proof. intros H. rewrite (sg_pick n a (fun _ => 0) f H), sg_zero; [lra|]. intros i _. destruct (a =? i)%nat; reflexivity. Qed.
Lemma idx_mod d i a : (a < d)%nat -> ((d * i + a) mod d)%nat = a.
Proof. intros H. rewrite Nat.add_comm, Nat.mul_comm, Nat.mod_add by lia. apply Nat.mod_small, H. Qed.
Lemma idx_div d i a : (a < d)%nat -> ((d * i + a) / d)%nat = i.
Proof. intros H. rewrite Nat.add_comm, Nat.mul_comm, Nat.div_add by lia. rewrite Nat.div_small by exact H. reflexivity. Qed.

(** * products of functions with several components *)
Lemma peval_vdot m U V x : peval (vdot m U V) x = sg m (fun a => peval (U a) x * peval (V a) x).
Proof. unfold vdot. rewrite peval_psum. reflexivity. Qed.
Lemma peval_vlin n c B a x : peval (vlin n c B a) x = sg n (fun j => c j * peval (B j a) x).
Proof. apply peval_lincomb. Qed.
Lemma vdeg_vlin m n c B k : (forall j, (j < n)%nat -> vdeg m (B j) k) -> vdeg m (vlin n c B) k.
Proof. intros H a Ha. apply deg_le_lincomb. intros j Hj. apply H; assumption. Qed.
Lemma deg_vdot m U V k l : vdeg m U k -> vdeg m V l -> deg_le (vdot m U V) (k + l).
Proof. intros HU HV. apply deg_le_psum. intros a Ha. apply deg_le_mul; [apply HU|apply HV]; exact Ha. Qed.

Section VIntegral.
  Context (on : pt -> Prop) (I : pexp -> R) (HI : integral on I) (m : nat).
  Lemma vdot_ext U V U' V' : (forall a x, (a < m)%nat -> on x -> peval (U a) x = peval (U' a) x) ->
    (forall a x, (a < m)%nat -> on x -> peval (V a) x = peval (V' a) x) -> I (vdot m U V) = I (vdot m U' V').
  Proof. intros HU HV. apply (int_ext _ _ HI). intros x Hx. rewrite !peval_vdot. apply sg_ext. intros a Ha. rewrite HU, HV by assumption. reflexivity. Qed.
  Lemma vdot_comm U V : I (vdot m U V) = I (vdot m V U).
  Proof. apply (I_ext _ _ HI). intros x. rewrite !peval_vdot. apply sg_ext. intros. ring. Qed.
  Lemma vdot_lin_l n c B V : I (vdot m (vlin n c B) V) = sg n (fun j => c j * I (vdot m (B j) V)).
  Proof.
    rewrite (I_ext _ _ HI _ (lincomb n c (fun j => vdot m (B j) V))); [apply (I_lincomb _ _ HI)|].
    intros x. rewrite peval_vdot, peval_lincomb. rewrite (sg_ext m _ (fun a => sg n (fun j => c j * (peval (B j a) x * peval (V a) x)))).
    - rewrite sg_swap. apply sg_ext. intros j _. rewrite peval_vdot, sg_scal. reflexivity.
    - intros a _. rewrite peval_vlin, Rmult_comm, <- sg_scal. apply sg_ext. intros. ring.
  Qed.
  Lemma vdot_lin_r n c B V : I (vdot m V (vlin n c B)) = sg n (fun j => c j * I (vdot m V (B j))).
  Proof. rewrite vdot_comm, vdot_lin_l. apply sg_ext. intros j _. rewrite vdot_comm. reflexivity. Qed.
  Lemma vdot_sq_pos U : 0 <= I (vdot m U U).
  Proof. apply (int_pos _ _ HI). intros x _. rewrite peval_vdot. apply sg_le. intros a _. apply Rle_0_sqr. Qed.
  Lemma vdot_sq_def U : I (vdot m U U) = 0 -> forall a x, (a < m)%nat -> on x -> peval (U a) x = 0.
  Proof.
    intros Z a x Ha Hx. pose proof (int_def _ _ HI (vdot m U U)) as D.
    assert (Q : peval (vdot m U U) x = 0).
    { apply D; [|exact Z|exact Hx]. intros y _. rewrite peval_vdot. apply sg_le. intros b _. apply Rle_0_sqr. }
    rewrite peval_vdot in Q. clear - Q Ha.
    assert (A : forall k f, sg k (fun b => f b * f b) = 0 -> forall b, (b < k)%nat -> f b = 0).
    { induction k as [|k IH]; intros f E b Hb; [lia|]. cbn [sg] in E.
      assert (0 <= sg k (fun b => f b * f b)) by (apply sg_le; intros; apply Rle_0_sqr). pose proof (Rle_0_sqr (f k)). unfold Rsqr in *.
      destruct (Nat.eq_dec b k) as [->|]; [apply Rsqr_0_uniq; unfold Rsqr; lra|]. apply IH; [lra|lia]. }
    apply (A m (fun a => peval (U a) x) Q a Ha).
  Qed.
  Definition vindep (n : nat) (B : nat -> tf) : Prop :=
    forall c, (forall a x, (a < m)%nat -> on x -> peval (vlin n c B a) x = 0) -> forall j, (j < n)%nat -> c j = 0.
  Lemma vgram_spd n B : vindep n B -> spd n (fun i j => I (vdot m (B i) (B j))).
  Proof.
    intros Ind. split; [intros i j _ _; apply vdot_comm|]. intros x.
    assert (Q : quadf n (fun i j => I (vdot m (B i) (B j))) x x = I (vdot m (vlin n x B) (vlin n x B))).
    { rewrite vdot_lin_l. apply sg_ext. intros i _. f_equal. rewrite vdot_lin_r. apply sg_ext. intros. ring. }
    rewrite Q. split; [apply vdot_sq_pos|]. intros Z. apply Ind. apply vdot_sq_def, Z.
  Qed.
  (** reconstruction: the coefficients that solve the Gram system *)
  Context (ldlt : nat -> mtx -> (nat -> R) -> nat -> R) (HS : solves_spd ldlt).
  Context (n : nat) (B : nat -> tf) (Ind : vindep n B) (M : mtx)
    (HM : forall i j, (i < n)%nat -> (j < n)%nat -> M i j = I (vdot m (B i) (B j))).
  Context (N : nat) (rhs : mtx).
  Definition vrec (u : nat -> R) : tf := vlin n (mv N (solveM ldlt n M rhs) u) B.
  Lemma vM_spd : spd n M.
  Proof. apply (spd_ext n (fun i j => I (vdot m (B i) (B j)))); [|apply vgram_spd, Ind]. intros. symmetry. apply HM; assumption. Qed.
  Lemma vrec_eq u i : (i < n)%nat -> I (vdot m (B i) (vrec u)) = mv N rhs u i.
  Proof.
    intros Hi. unfold vrec. rewrite vdot_lin_r, <- (mv_solveM ldlt N n M rhs u i HS vM_spd Hi). unfold mv at 2. apply sg_ext. intros j Hj.
    rewrite HM by assumption. ring.
  Qed.
  Lemma vrec_data u v : bil N (mprod n (mtrans rhs) (solveM ldlt n M rhs)) u v = I (vdot m (vrec u) (vrec v)).
  Proof.
    unfold bil. rewrite quadf_trans by auto. unfold vrec at 2. rewrite vdot_comm. rewrite vdot_lin_l.
    rewrite (sg_ext n _ (fun k => mv N (solveM ldlt n M rhs) v k * mv N rhs u k)) by (intros; ring).
    apply sg_ext. intros k Hk. f_equal. symmetry. apply vrec_eq, Hk.
  Qed.
  Lemma vrec_lin u c : I (vdot m (vlin n c B) (vrec u)) = sg n (fun i => c i * mv N rhs u i).
  Proof. rewrite vdot_lin_l. apply sg_ext. intros i Hi. rewrite vrec_eq by exact Hi. reflexivity. Qed.
  (** a bilinear form of two reconstructions *)
  Lemma vrec_form (A : mtx) u v : bil N (mprod n (mprod n (mtrans (solveM ldlt n M rhs)) A) (solveM ldlt n M rhs)) u v =
    sg n (fun i => mv N (solveM ldlt n M rhs) u i * mv n A (mv N (solveM ldlt n M rhs) v) i).
  Proof. apply bil_mass. Qed.
End VIntegral.

(** * bases of vectors *)
Lemma vec_comp d b n c a x : (a < d)%nat -> peval (vlin (d * n) c (v_comp (vec_basis d b)) a) x = peval (lincomb n (comp d a c) (b_poly b)) x.
Proof.
  intros Ha. rewrite peval_vlin, peval_lincomb, sg_blocks. apply sg_ext. intros i _. unfold comp.
  rewrite (sg_ext d _ (fun a' => if (a =? a')%nat then c (d * i + a')%nat * peval (b_poly b i) x else 0)); [apply sg_pick0, Ha|].
  intros a' Ha'. cbn [vec_basis v_comp]. rewrite idx_mod, idx_div by exact Ha'. rewrite Nat.eqb_sym. destruct (a =? a')%nat; [reflexivity|]. cbn [peval]. ring.
Qed.
Lemma vec_deg on deg d b : basis_on on deg (b_size b) (b_poly b) -> forall j, (j < v_size (vec_basis d b))%nat -> vdeg d (v_comp (vec_basis d b) j) deg.
Proof.
  intros (D & _) j Hj a Ha. cbn [vec_basis v_comp v_size] in *. destruct (j mod d =? a)%nat; [|apply deg_le_const].
  apply D. apply Nat.div_lt_upper_bound; lia.
Qed.
Lemma vec_indep on deg d b : (0 < d)%nat -> basis_on on deg (b_size b) (b_poly b) -> vindep on d (v_size (vec_basis d b)) (v_comp (vec_basis d b)).
Proof.
  intros Hd (_ & Ind & _) c H j Hj. cbn [vec_basis v_size] in *.
  assert (Hm : (j mod d < d)%nat) by (apply Nat.mod_upper_bound; lia).
  pose proof (Ind (comp d (j mod d) c)) as Q. unfold comp in Q. specialize (Q) . rewrite (Nat.div_mod j d) by lia.
  apply (Ind (comp d (j mod d) c)).
  - intros x Hx. rewrite <- vec_comp by exact Hm. apply H; assumption.
  - apply Nat.div_lt_upper_bound; lia.
Qed.
(** every function whose components are combinations of the scalar basis is a combination of the vector basis *)
Lemma vec_combine d (n : nat) (cs : nat -> nat -> R) : exists c, forall a, (a < d)%nat -> forall i, comp d a c i = cs a i.
Proof.
  exists (fun j => cs (j mod d) (j / d)%nat). intros a Ha i. unfold comp. rewrite idx_mod, idx_div by exact Ha. reflexivity.
Qed.
Lemma choose (d : nat) (Q : nat -> (nat -> R) -> Prop) : (forall a, (a < d)%nat -> exists c, Q a c) -> exists cs, forall a, (a < d)%nat -> Q a (cs a).
Proof.
  induction d as [|d IH]; intros H; [exists (fun _ _ => 0); intros; lia|].
  destruct IH as (cs & Hcs); [intros a Ha; apply H; lia|]. destruct (H d ltac:(lia)) as (c & Hc).
  exists (fun a => if (a =? d)%nat then c else cs a). intros a Ha. destruct (Nat.eqb_spec a d); [subst; exact Hc|apply Hcs; lia].
Qed.
Lemma vec_span on deg d b : basis_on on deg (b_size b) (b_poly b) -> forall V, vdeg d V deg ->
  exists c, forall a x, (a < d)%nat -> on x -> peval (V a) x = peval (vlin (v_size (vec_basis d b)) c (v_comp (vec_basis d b)) a) x.
Proof.
  intros (_ & _ & Sp) V HV. destruct (choose d (fun a c => forall x, on x -> peval (V a) x = peval (lincomb (b_size b) c (b_poly b)) x)) as (cs & Hcs).
  { intros a Ha. apply Sp, HV, Ha. }
  destruct (vec_combine d (b_size b) cs) as (c & Hc). exists c. intros a x Ha Hx. cbn [vec_basis v_size]. rewrite vec_comp by exact Ha.
  rewrite (Hcs a Ha x Hx). apply lincomb_coef. intros. symmetry. apply Hc, Ha.
Qed.
Lemma vec_span_all d P c (HC : cell_fits d P c) m deg V : vdeg m V deg -> vvars d m V ->
  let b := el_basis (cl_elem c) deg in
  exists k, forall a x, (a < m)%nat -> peval (V a) x = peval (vlin (v_size (vec_basis m b)) k (v_comp (vec_basis m b)) a) x.
Proof.
  intros HV HW b. destruct (choose m (fun a k => forall x, peval (V a) x = peval (lincomb (b_size b) k (b_poly b)) x)) as (cs & Hcs).
  { intros a Ha. apply (cf_span _ _ _ HC); [apply HW|apply HV]; exact Ha. }
  destruct (vec_combine m (b_size b) cs) as (k & Hk). exists k. intros a x Ha. cbn [vec_basis v_size]. rewrite vec_comp by exact Ha.
  rewrite (Hcs a Ha x). apply lincomb_coef. intros. symmetry. apply Hk, Ha.
Qed.

(** * mass matrices, right hand sides and projections of vectors *)
Lemma vaccumulate_eq m q u v M i j : vaccumulate m q u v M i j = M i j + qsum q (fun x => sg m (fun a => u x i a * v x j a)).
Proof.
  unfold vaccumulate. revert M. induction q as [|[x w] q IH]; intros M; simpl; [lra|]. rewrite IH, <- sg_scal, Rplus_assoc. f_equal. f_equal. apply sg_ext. intros. ring.
Qed.
Lemma vrhs_eq m e b f di i : vrhs m e b f di i = qsum (el_quad e (2 * (v_deg b + di))) (fun x => sg m (fun a => vphi b x i a * f x a)).
Proof.
  unfold vrhs. cut (forall q r, fold_left (fun r qp => let '(x, w) := qp in fun i => r i + sg m (fun a => vphi b x i a * (w * f x a))) q r i =
    r i + qsum q (fun x => sg m (fun a => vphi b x i a * f x a))); [intros H; rewrite H; unfold zeroV; lra|].
  induction q as [|[x w] q IH]; intros r; simpl; [lra|]. rewrite IH, <- sg_scal, Rplus_assoc. f_equal. f_equal. apply sg_ext. intros. ring.
Qed.
Section VElem.
  Context (on : pt -> Prop) (I : pexp -> R) (HI : integral on I) (e : selem) (F : elem_fits on I e).
  Lemma vmass_gram m deg b di i j : v_deg b = deg -> (forall j, (j < v_size b)%nat -> vdeg m (v_comp b j) deg) -> (i < v_size b)%nat -> (j < v_size b)%nat ->
    vmass m e b di i j = I (vdot m (v_comp b i) (v_comp b j)).
  Proof.
    intros Hb HV Hi Hj. unfold vmass. rewrite vaccumulate_eq. unfold zeroM. rewrite Rplus_0_l.
    rewrite <- (exact_int _ _ HI _ (fit_quad _ _ _ F) (2 * (v_deg b + di))).
    - apply Poly_Proofs.qsum_ext. intros x. rewrite peval_vdot. reflexivity.
    - apply (deg_le_mono _ (deg + deg)); [lia|]. apply deg_vdot; apply HV; assumption.
  Qed.
  Context (d : nat) (Hd : (0 < d)%nat) (ldlt : nat -> mtx -> (nat -> R) -> nat -> R) (HS : solves_spd ldlt) (deg : nat).
  Let b := vec_basis d (el_basis e deg).
  Definition vproj (V : tf) (di : nat) : tf := vlin (v_size b) (vproject_elem ldlt d e deg (fun x a => peval (V a) x) di) (v_comp b).
  Lemma vb_deg j : (j < v_size b)%nat -> vdeg d (v_comp b j) deg.
  Proof. apply (vec_deg on). apply (fit_basis _ _ _ F). Qed.
  Lemma vproj_l2 V di : vdeg d V (deg + 2 * di) -> l2vec I d deg V (vproj V di).
  Proof.
    intros HV. split; [apply vdeg_vlin, vb_deg|]. intros w Hw.
    assert (E : forall i, (i < v_size b)%nat -> I (vdot d (v_comp b i) (vproj V di)) = I (vdot d (v_comp b i) V)).
    { intros i Hi. unfold vproj. rewrite (vdot_lin_r _ _ HI).
      assert (Sp : spd (v_size b) (vmass d e b 0)).
      { apply (vM_spd on I HI d (v_size b) (v_comp b)); [apply (vec_indep on deg); [exact Hd|apply (fit_basis _ _ _ F)]|].
        intros k l Hk Hl. apply (vmass_gram d deg); try assumption; [apply (fit_deg _ _ _ F)|apply vb_deg]. }
      rewrite (sg_ext _ _ (fun j => vmass d e b 0 i j * vproject_elem ldlt d e deg (fun x a => peval (V a) x) di j)).
      - unfold vproject_elem. fold b. rewrite (HS _ _ _ Sp i Hi), vrhs_eq.
        rewrite <- (exact_int _ _ HI _ (fit_quad _ _ _ F) (2 * (v_deg b + di))).
        + apply Poly_Proofs.qsum_ext. intros x. rewrite peval_vdot. reflexivity.
        + apply (deg_le_mono _ (deg + (deg + 2 * di))); [unfold b; cbn [vec_basis v_deg]; rewrite (fit_deg _ _ _ F); lia|]. apply deg_vdot; [apply vb_deg, Hi|exact HV].
      - intros j Hj. rewrite (vmass_gram d deg); try assumption; [ring|apply (fit_deg _ _ _ F)|apply vb_deg]. }
    destruct (vec_span on deg d (el_basis e deg) (fit_basis _ _ _ F deg) w Hw) as (k & Hk). fold b in Hk.
    rewrite (vdot_ext _ _ HI d w (vproj V di) (vlin (v_size b) k (v_comp b)) (vproj V di)) by (auto; intros; apply Hk; assumption).
    rewrite (vdot_ext _ _ HI d w V (vlin (v_size b) k (v_comp b)) V) by (auto; intros; apply Hk; assumption).
    rewrite !(vdot_lin_l _ _ HI). apply sg_ext. intros j Hj. rewrite E by exact Hj. reflexivity.
  Qed.
End VElem.
