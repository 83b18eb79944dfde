(** The scaled monomials of the virtual element: order, degree, independence, span, Laplacian *)
From Coq Require Import List Arith Reals Lia Lra Bool.
From Verif Require Import Poly_Spec Poly_Proofs HHO_Spec HHO_Model HHO_Proofs HHOInst_Proofs HHOInst2_Proofs VEM_Spec VEM_Model VEM_Setting.
Import ListNotations.
Open Scope R_scope.

Lemma basis_size_S k : basis_size (S k) = (basis_size k + S (S k))%nat.
Proof. unfold basis_size. replace ((S k + 1) * (S k + 2))%nat with ((k + 1) * (k + 2) + (S (S k)) * 2)%nat by lia. apply Nat.div_add. lia. Qed.
Lemma pows_S k : pows (S k) = pows k ++ row_pows (S k).
Proof. unfold pows. rewrite seq_S, flat_map_app. cbn [flat_map Nat.add]. rewrite app_nil_r. reflexivity. Qed.
Lemma row_length k : length (row_pows k) = S k.
Proof. unfold row_pows. rewrite map_length, seq_length. reflexivity. Qed.
Lemma pows_length k : length (pows k) = basis_size k.
Proof. induction k as [|k IH]; [reflexivity|]. rewrite pows_S, app_length, IH, row_length, basis_size_S. reflexivity. Qed.
Lemma basis_size_pos k : (0 < basis_size k)%nat.
Proof. destruct k; [cbn; lia|]. rewrite basis_size_S. lia. Qed.
Lemma pows_app k k' : (k <= k')%nat -> exists t, pows k' = pows k ++ t.
Proof.
  intros H. induction H as [|k' H (t & IH)]; [exists []; rewrite app_nil_r; reflexivity|]. exists (t ++ row_pows (S k')). rewrite pows_S, IH, app_assoc. reflexivity.
Qed.
Lemma pows_nested k k' j : (k <= k')%nat -> (j < basis_size k)%nat -> nth j (pows k') (0, 0)%nat = nth j (pows k) (0, 0)%nat.
Proof. intros H Hj. destruct (pows_app k k' H) as (t & ->). apply app_nth1. rewrite pows_length. exact Hj. Qed.
Lemma size_mono k k' : (k <= k')%nat -> (basis_size k <= basis_size k')%nat.
Proof. intros H. destruct (pows_app k k' H) as (t & E). apply (f_equal (@length _)) in E. rewrite app_length, !pows_length in E. lia. Qed.
Lemma row_nth k i d : (i <= k)%nat -> nth i (row_pows k) d = (k - i, i)%nat.
Proof.
  intros H. unfold row_pows. set (f := fun i => (k - i, i)%nat). rewrite (nth_indep _ d (f 0%nat)) by (rewrite map_length, seq_length; lia).
  rewrite map_nth, seq_nth by lia. reflexivity.
Qed.
(** position of a pair of exponents *)
Definition pos (a b : nat) : nat := (((a + b + 1) * (a + b)) / 2 + b)%nat.
Lemma pos_base k : ((k + 1) * k / 2 = match k with O => 0 | S k => basis_size k end)%nat.
Proof. destruct k as [|k]; [reflexivity|]. unfold basis_size. f_equal. lia. Qed.
Lemma pows_pos a b k : (a + b <= k)%nat -> (pos a b < basis_size k)%nat /\ nth (pos a b) (pows k) (0, 0)%nat = (a, b).
Proof.
  intros H. assert (K : forall n, n = (a + b)%nat -> (pos a b < basis_size n)%nat /\ nth (pos a b) (pows n) (0, 0)%nat = (a, b)).
  { intros n ->. unfold pos. rewrite pos_base. destruct (a + b)%nat as [|n] eqn:E.
    - assert (a = 0 /\ b = 0)%nat as [-> ->] by lia. split; [cbn; lia|reflexivity].
    - split; [rewrite basis_size_S; lia|]. rewrite pows_S, app_nth2 by (rewrite pows_length; lia). rewrite pows_length.
      replace (basis_size n + b - basis_size n)%nat with b by lia.
      rewrite row_nth by lia. f_equal. lia. }
  destruct (K _ eq_refl) as [K1 K2]. split; [eapply Nat.lt_le_trans; [exact K1|apply size_mono, H]|]. rewrite <- K2. apply pows_nested; [exact H|exact K1].
Qed.
Lemma row_in k ab : In ab (row_pows k) <-> (fst ab + snd ab = k)%nat.
Proof.
  unfold row_pows. rewrite in_map_iff. split.
  - intros (i & <- & Hi). apply in_seq in Hi. cbn. lia.
  - intros H. destruct ab as [a b]. cbn in H. exists b. split; [f_equal; lia|apply in_seq; lia].
Qed.
Lemma pows_in k ab : In ab (pows k) <-> (fst ab + snd ab <= k)%nat.
Proof.
  unfold pows. rewrite in_flat_map. split.
  - intros (m & Hm & H). apply in_seq in Hm. apply row_in in H. lia.
  - intros H. exists (fst ab + snd ab)%nat. split; [apply in_seq; lia|apply row_in; reflexivity].
Qed.
Lemma pows_nodup k : NoDup (pows k).
Proof.
  apply (NoDup_nth _ (0, 0)%nat). intros i j Hi Hj E. rewrite pows_length in *.
  assert (X : forall n i, (i < basis_size n)%nat -> i = pos (fst (nth i (pows n) (0, 0)%nat)) (snd (nth i (pows n) (0, 0)%nat))).
  { clear. induction n as [|n IH]; intros i Hi.
    - cbn in Hi. assert (i = 0)%nat by (change (basis_size 0) with 1%nat in Hi; lia). subst i. reflexivity.
    - rewrite basis_size_S in Hi. rewrite pows_S. destruct (Nat.lt_ge_cases i (basis_size n)) as [C|C].
      + rewrite app_nth1 by (rewrite pows_length; exact C). apply IH, C.
      + rewrite app_nth2 by (rewrite pows_length; exact C). rewrite pows_length.
        rewrite row_nth by lia. cbn [fst snd]. unfold pos. replace (S n - (i - basis_size n) + (i - basis_size n))%nat with (S n) by lia.
        rewrite pos_base. lia. }
  rewrite (X k i Hi), (X k j Hj), E. reflexivity.
Qed.

(** ** the functions *)
Definition vm (v : vcell) (k j : nat) : pexp := b_poly (vbasis v k) j.
Lemma ppower_eval p e x : peval (ppower p e) x = peval p x ^ e.
Proof. induction e as [|e IH]; cbn [ppower peval pow]; [reflexivity|]. rewrite IH. reflexivity. Qed.
Lemma ppower_deg p e : (pdeg p <= 1)%nat -> (pdeg (ppower p e) <= e)%nat.
Proof. intros H. induction e as [|e IH]; cbn [ppower pdeg]; lia. Qed.
Lemma smono_deg v ab : (pdeg (smono v ab) <= fst ab + snd ab)%nat.
Proof.
  unfold smono. cbn [pdeg].
  pose proof (ppower_deg (lin 0 (vc_bar v 0%nat) (vc_fx v)) (fst ab) ltac:(cbn; lia)). pose proof (ppower_deg (lin 1 (vc_bar v 1%nat) (vc_fy v)) (snd ab) ltac:(cbn; lia)). lia.
Qed.
Lemma ppower_vars n p e : pvars n p -> pvars n (ppower p e).
Proof. intros H. induction e as [|e IH]; cbn [ppower pvars]; [exact Logic.I|split; assumption]. Qed.
Lemma smono_vars v ab : pvars 2 (smono v ab).
Proof. unfold smono. cbn [pvars]. split; apply ppower_vars; cbn; repeat split; lia. Qed.
Lemma smono_eval v ab x : peval (smono v ab) x = (vc_fx v * (x 0%nat - vc_bar v 0%nat)) ^ fst ab * (vc_fy v * (x 1%nat - vc_bar v 1%nat)) ^ snd ab.
Proof. unfold smono. cbn [peval]. rewrite !ppower_eval. reflexivity. Qed.
Lemma vm_pdeg v k j : (j < basis_size k)%nat -> (pdeg (vm v k j) <= k)%nat.
Proof.
  intros Hj. unfold vm. cbn [vbasis b_poly]. pose proof (smono_deg v (nth j (pows k) (0, 0)%nat)).
  rewrite <- pows_length in Hj. pose proof (proj1 (pows_in k _) (nth_In (pows k) (0, 0)%nat Hj)). lia.
Qed.
Lemma vm_deg v k j : (j < basis_size k)%nat -> deg_le (vm v k j) k.
Proof. intros Hj. apply deg_le_pdeg, vm_pdeg, Hj. Qed.
Lemma vm_vars v k j : pvars 2 (vm v k j).
Proof. apply smono_vars. Qed.
Lemma vm_nested v k k' j : (k <= k')%nat -> (j < basis_size k)%nat -> vm v k' j = vm v k j.
Proof. intros H Hj. unfold vm. cbn [vbasis b_poly]. rewrite (pows_nested k k' j H Hj). reflexivity. Qed.
Lemma vm_one v k x : peval (vm v k 0) x = 1.
Proof.
  unfold vm. cbn [vbasis b_poly]. destruct (pows_pos 0 0 k ltac:(lia)) as [_ E]. change (pos 0 0) with 0%nat in E. rewrite E, smono_eval. cbn [fst snd pow]. ring.
Qed.
Lemma lincomb_vars v k n c : pvars 2 (lincomb n c (vm v k)).
Proof. unfold lincomb. induction n as [|n IH]; cbn [psum pscal pvars]; [exact Logic.I|]. split; [exact IH|]. split; [exact Logic.I|apply vm_vars]. Qed.
Lemma phi_vm v k x j : phi (vbasis v k) x j = peval (vm v k j) x.
Proof. reflexivity. Qed.

Definition exl (k : nat) : list (list nat) := map (fun ab => [fst ab; snd ab]) (pows k).
Lemma exl_length k : length (exl k) = basis_size k.
Proof. unfold exl. rewrite map_length. apply pows_length. Qed.
Lemma exl_nth k j : (j < basis_size k)%nat -> nth j (exl k) [] = [fst (nth j (pows k) (0, 0)%nat); snd (nth j (pows k) (0, 0)%nat)].
Proof.
  intros H. unfold exl. set (f := fun ab : nat * nat => [fst ab; snd ab]). rewrite (nth_indep _ [] (f (0, 0)%nat)) by (rewrite map_length, pows_length; exact H).
  rewrite map_nth. reflexivity.
Qed.
Lemma exl_nodup k : NoDup (exl k).
Proof.
  unfold exl. generalize (pows_nodup k). generalize (pows k). intros l ND. induction ND as [|[a b] l H ND IH]; cbn [map]; [constructor|]. constructor; [|exact IH].
  intros K. apply in_map_iff in K as ([a' b'] & E & K). cbn in E. injection E as -> ->. contradiction.
Qed.
Lemma exl_in k a : In a (exl k) <-> length a = 2%nat /\ (lsum a <= k)%nat.
Proof.
  unfold exl. rewrite in_map_iff. split.
  - intros ([x y] & <- & H). apply pows_in in H. cbn in *. lia.
  - intros [L S]. destruct a as [|x [|y [|z a]]]; try discriminate L. exists (x, y). split; [reflexivity|]. apply pows_in. cbn in *. lia.
Qed.
Section Fit.
  Context (v : vcell) (Hf : vc_fx v <> 0 /\ vc_fy v <> 0).
  (** back from the scaled coordinates *)
  Definition unscale (i : nat) : pexp :=
    match i with O => aff2 (vc_bar v 0%nat) (/ vc_fx v) 0 | S O => aff2 (vc_bar v 1%nat) 0 (/ vc_fy v) | _ => PC 0 end.
  Lemma unscale_vars i : pvars 2 (unscale i).
  Proof. destruct i as [|[|i]]; cbn; repeat split; lia. Qed.
  Lemma unscale_deg i : (pdeg (unscale i) <= 1)%nat.
  Proof. destruct i as [|[|i]]; cbn; lia. Qed.
  Lemma vm_unscale k j y : (j < basis_size k)%nat -> peval (vm v k j) (fun i => peval (unscale i) y) = mono (nth j (exl k) []) y.
  Proof.
    intros Hj. rewrite exl_nth by exact Hj. unfold vm. cbn [vbasis b_poly]. rewrite smono_eval. cbn [mono unscale aff2 peval pscal].
    destruct Hf as [F1 F2]. rewrite Rmult_1_r. f_equal; f_equal; field; assumption.
  Qed.
  Lemma vm_indep on k c : fat on -> (forall x, on x -> peval (lincomb (basis_size k) c (vm v k)) x = 0) -> forall j, (j < basis_size k)%nat -> c j = 0.
  Proof.
    intros (ax & ay & bx & by' & cx & cy & J & On) H. set (q := lincomb (basis_size k) c (vm v k)) in *.
    assert (V : pvars 2 q) by apply lincomb_vars.
    assert (Z : forall y, peval (psub (tri_sb ax ay bx by' cx cy) q) y = 0).
    { apply (simp_vanish 2); [apply psub_vars; intros; apply tri_vars|]. intros y (Y1 & Y2). rewrite psub_eval. apply H. cbn [sg] in Y2.
      apply (On (y 0%nat) (y 1%nat)); try (apply Y1; lia); try lra; [cbn; ring|cbn; ring|]. intros [|[|i]] Hi; try lia. reflexivity. }
    assert (Z' : forall x, peval q x = 0).
    { intros x. rewrite <- (Z (fun k => peval (tri_inv ax ay bx by' cx cy k) x)), psub_eval. apply (pvars_ext 2); [exact V|]. intros i Hi. symmetry. apply tri_right; assumption. }
    rewrite <- exl_length. apply (VBases_Proofs.indep_idx 2 (exl k) c (exl_nodup k)); [intros a Ha; apply exl_in in Ha; tauto|].
    intros y. change Tensor_Spec.sig with sg. rewrite <- (Z' (fun i => peval (unscale i) y)). unfold q. rewrite peval_lincomb, exl_length. apply sg_ext.
    intros j Hj. rewrite mono_monomial, vm_unscale by exact Hj. reflexivity.
  Qed.
  Lemma vm_span p k : pvars 2 p -> deg_le p k -> exists c, forall x, peval p x = peval (lincomb (basis_size k) c (vm v k)) x.
  Proof.
    intros V (p' & Dp & Ep). set (m := monos 2 (psub unscale p')). exists (fun j => coef m (nth j (exl k) [])). intros x.
    set (y := fun i => match i with O => vc_fx v * (x 0%nat - vc_bar v 0%nat) | S O => vc_fy v * (x 1%nat - vc_bar v 1%nat) | _ => 0 end).
    assert (X : forall i, (i < 2)%nat -> peval (unscale i) y = x i).
    { destruct Hf. intros [|[|i]] Hi; try lia; cbn; field; assumption. }
    transitivity (peval p (fun i => peval (unscale i) y)); [apply (pvars_ext 2); [exact V|]; intros; symmetry; apply X; assumption|].
    rewrite <- Ep, <- psub_eval. rewrite <- (monos_eval 2 _ y) by (apply psub_vars, unscale_vars). fold m.
    rewrite (meval_coef (exl k) m y (exl_nodup k)).
    - rewrite peval_lincomb, exl_length. apply sg_ext. intros j Hj. f_equal. rewrite <- vm_unscale by exact Hj. apply (pvars_ext 2); [apply vm_vars|exact X].
    - intros t Ht. pose proof (monos_ok 2 (psub unscale p')) as OK. unfold mok in OK. rewrite Forall_forall in OK. destruct (OK t Ht) as [L N].
      apply exl_in. split; [exact L|]. pose proof (psub_deg unscale p' unscale_deg). lia.
  Qed.
End Fit.
(** ** derivatives *)
Lemma ppower_diff c p e x : peval (pdiff c (ppower p e)) x = INR e * peval p x ^ (e - 1) * peval (pdiff c p) x.
Proof.
  induction e as [|e IH]; [cbn; ring|]. cbn [ppower pdiff peval]. rewrite IH, ppower_eval, S_INR. replace (S e - 1)%nat with e by lia.
  destruct e as [|e]; [cbn; ring|]. replace (S e - 1)%nat with e by lia. cbn [pow]. ring.
Qed.
Lemma ppower_diff2 c p e x : peval (pdiff c (pdiff c p)) x = 0 ->
  peval (pdiff c (pdiff c (ppower p e))) x = INR (e * (e - 1)) * peval p x ^ (e - 2) * peval (pdiff c p) x * peval (pdiff c p) x.
Proof.
  intros Z. induction e as [|e IH]; [cbn; ring|]. cbn [ppower pdiff peval]. rewrite IH, Z, ppower_diff. rewrite !mult_INR, S_INR.
  destruct e as [|[|e]]; [cbn; ring|cbn; ring|]. replace (S (S e) - 1)%nat with (S e) by lia. replace (S (S e) - 2)%nat with e by lia.
  replace (S (S (S e)) - 1)%nat with (S (S e)) by lia. replace (S (S (S e)) - 2)%nat with (S e) by lia. rewrite !S_INR. cbn [pow]. ring.
Qed.
Lemma ppower_diff_other c p e x : (forall x, peval (pdiff c p) x = 0) -> peval (pdiff c (ppower p e)) x = 0.
Proof. intros Z. rewrite ppower_diff, Z. ring. Qed.
Lemma zero_diff p c : (forall x, peval p x = 0) -> forall x, peval (pdiff c p) x = 0.
Proof. intros H x. rewrite (pdiff_ext p (PC 0) c) by exact H. reflexivity. Qed.
Lemma smono_lap v a b x : peval (divk 2 delta (smono v (a, b))) x =
  INR (a * (a - 1)) * (vc_fx v * vc_fx v) * peval (smono v (a - 2, b)%nat) x + INR (b * (b - 1)) * (vc_fy v * vc_fy v) * peval (smono v (a, b - 2)%nat) x.
Proof.
  set (X := ppower (lin 0 (vc_bar v 0%nat) (vc_fx v)) a). set (Y := ppower (lin 1 (vc_bar v 1%nat) (vc_fy v)) b).
  assert (L : peval (divk 2 delta (smono v (a, b))) x = peval (pdiff 0 (pdiff 0 (PMul X Y))) x + peval (pdiff 1 (pdiff 1 (PMul X Y))) x).
  { unfold divk, kgrad, smono. cbn [fst snd]. fold X Y. cbn [psum pscal peval pdiff delta Nat.eqb]. unfold delta. cbn [Nat.eqb]. ring. }
  rewrite L. cbn [pdiff peval].
  assert (A1 : forall x, peval (pdiff 1 X) x = 0) by (intros z; apply ppower_diff_other; intros; cbn; ring).
  assert (A2 : forall x, peval (pdiff 0 Y) x = 0) by (intros z; apply ppower_diff_other; intros; cbn; ring).
  rewrite (zero_diff _ 1 A1), (zero_diff _ 0 A2), A1, A2. unfold X, Y. rewrite !ppower_diff2 by (cbn; ring). rewrite !smono_eval, !ppower_eval. cbn [fst snd]. unfold lin. cbn [pdiff peval Nat.eqb]. unfold Rminus.
  set (p := vc_fx v * (x 0%nat + - vc_bar v 0%nat)). set (q := vc_fy v * (x 1%nat + - vc_bar v 1%nat)). ring.
Qed.
