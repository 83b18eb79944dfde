(** Proofs about the Legendre bases. *)
From Coq Require Import List Arith ZArith Reals Lia Lra Factorial.
From Verif Require Import Common Util_Model Tensor_Spec Poly_Spec Poly_Proofs Law2_Proofs Bases_Model Bases_Spec Bases_Proofs Bases2_Proofs.
Import ListNotations.
Open Scope R_scope.

(** ** sums of powers *)
Fixpoint pv (l : list (R * nat)) (x : R) : R := match l with [] => 0 | (c, i) :: l => c * x ^ i + pv l x end.
Lemma eval_monomials_eq deg x : eval_monomials deg x = Ok (map (fun i => x ^ i) (seq 0 (S deg))).
Proof.
  unfold eval_monomials.
  assert (K : forall n s, (1 <= s)%nat -> fold_left (fun st i => do r <- st; do p <- vget r (i - 1); Ok (r ++ [x * p])) (seq s n) (Ok (map (fun i => x ^ i) (seq 0 s)))
    = Ok (map (fun i => x ^ i) (seq 0 (s + n)))).
  { induction n as [|n IH]; intros s Hs; [rewrite Nat.add_0_r; reflexivity|]. cbn [seq fold_left bind].
    pose proof (vget_seq (fun i => x ^ i) s [] (s - 1)) as V. rewrite app_nil_r in V. rewrite V by lia. cbn [bind].
    replace (map (fun i => x ^ i) (seq 0 s) ++ [x * x ^ (s - 1)]) with (map (fun i => x ^ i) (seq 0 (S s))).
    - rewrite IH by lia. do 3 f_equal. lia.
    - rewrite seq_S, map_app. cbn [map]. rewrite Nat.add_0_l. destruct s as [|s]; [lia|]. replace (S s - 1)%nat with s by lia. reflexivity. }
  apply (K deg 1%nat). lia.
Qed.
Lemma psum_eq deg x l : (forall c i, In (c, i) l -> (i <= deg)%nat) -> psum (map (fun i => x ^ i) (seq 0 (S deg))) l = Ok (pv l x).
Proof.
  induction l as [|[c i] l IH]; intros H; [reflexivity|]. unfold psum in *. cbn [fold_right fst snd pv].
  rewrite IH by (intros; eapply H; right; eassumption). cbn [bind].
  assert (i <= deg)%nat by (apply (H c); left; reflexivity).
  destruct i as [|i]; [cbn [Nat.eqb bind pow]; reflexivity|]. change (S i =? 0)%nat with false. cbv iota.
  pose proof (vget_seq (fun i => x ^ i) (S deg) [] (S i)) as V. rewrite app_nil_r in V. rewrite V by lia. reflexivity.
Qed.
(** the 1D functions and what eval_gradients gives, as functions of the degree *)
Definition tval (t : option (list (R * nat) * R)) (i : nat) (x : R) : R :=
  match t with Some (l, q) => pv l x / q / sqrt (2 / INR (2 * i + 1)) | None => 0 end.
Definition lp (i : nat) := tval (leg_poly i) i.
Definition ld (i : nat) := tval (leg_deriv i) i.
Ltac upto n i := match n with O => exfalso; lia | S ?m => destruct i as [|i]; [|upto m i] end.
Ltac upto10 i := upto 11%nat i.
Lemma fold_oset (f : nat -> outcome R) (g : nat -> R) n : (forall i, (i < n)%nat -> f i = Ok (g i)) ->
  fold_left (fun st i => do r <- st; do v <- f i; vset r i v) (seq 0 n) (Ok (zeros n)) = Ok (map g (seq 0 n)).
Proof.
  intros H. rewrite (fold_ext_in _ (fun st i => do r <- st; vset r i (g i))).
  - pose proof (fold_vset g n [] (zeros n)) as K. cbn [length app] in K. rewrite K by (rewrite len_zeros; lia).
    rewrite skipn_all2 by (rewrite len_zeros; lia). rewrite app_nil_r. reflexivity.
  - intros st i I. apply in_seq in I. destruct st; cbn [bind]; [|reflexivity|reflexivity]. rewrite H by lia. reflexivity.
Qed.
Ltac in_exps := cbn [In]; intros ? ? I; repeat (destruct I as [I|I]; [injection I as <- <-; lia|]); destruct I.
Lemma leg_poly_eval deg i x : (i <= deg)%nat -> (deg <= 10)%nat ->
  leg_value (leg_poly i) (map (fun i => x ^ i) (seq 0 (S deg))) i = Ok (lp i x).
Proof.
  intros Hi Hd. unfold lp, tval, leg_value.
  upto10 i; cbn [leg_poly]; rewrite psum_eq by in_exps; reflexivity.
Qed.
Lemma leg_deriv_eval deg i x : (i <= deg)%nat -> (deg <= 10)%nat ->
  leg_value (leg_deriv i) (map (fun i => x ^ i) (seq 0 (S deg))) i = Ok (ld i x).
Proof.
  intros Hi Hd. unfold ld, tval, leg_value.
  upto10 i; cbn [leg_deriv]; rewrite psum_eq by in_exps; reflexivity.
Qed.
Lemma leg_functions_eq deg x : (deg <= 10)%nat -> leg_functions deg x = Ok (map (fun i => lp i x) (seq 0 (S deg))).
Proof.
  intros H. unfold leg_functions. rewrite eval_monomials_eq. cbn [bind].
  apply (fold_oset (fun i => leg_value (leg_poly i) (map (fun i => x ^ i) (seq 0 (S deg))) i) (fun i => lp i x)).
  intros i Hi. apply leg_poly_eval; lia.
Qed.
Lemma leg_gradients_eq deg x : (deg <= 10)%nat -> leg_gradients deg x = Ok (map (fun i => ld i x) (seq 0 (S deg))).
Proof.
  intros H. unfold leg_gradients. rewrite eval_monomials_eq. cbn [bind].
  apply (fold_oset (fun i => leg_value (leg_deriv i) (map (fun i => x ^ i) (seq 0 (S deg))) i) (fun i => ld i x)).
  intros i Hi. apply leg_deriv_eval; lia.
Qed.

(** ** derivatives *)
Fixpoint dv (l : list (R * nat)) (x : R) : R := match l with [] => 0 | (c, i) :: l => c * (INR i * x ^ pred i) + dv l x end.
Lemma d_pv l x : dlim (pv l) x (dv l x).
Proof.
  induction l as [|[c i] l IH]; [apply (d_const 0 x)|]. cbn [pv dv].
  eapply d_eq; [|apply d_plus; [apply d_mult; [apply d_const|apply (d_pow (fun t => t)); apply d_id]|exact IH]]. cbv beta. ring.
Qed.
Definition ldx (i : nat) (x : R) : R := match leg_poly i with Some (l, q) => dv l x / q / sqrt (2 / INR (2 * i + 1)) | None => 0 end.
Lemma d_lp i x : dlim (lp i) x (ldx i x).
Proof.
  unfold lp, ldx, tval. destruct (leg_poly i) as [[l q]|]; [|apply d_const]. set (s := sqrt _).
  apply (d_ext (fun t => / q * / s * pv l t)); [intros; unfold Rdiv; ring|].
  eapply d_eq; [|apply d_mult; [apply d_const|apply d_pv]]. unfold Rdiv. ring.
Qed.
Lemma ld_right i x : (i <= 10)%nat -> i <> 8%nat -> i <> 10%nat -> ld i x = ldx i x.
Proof.
  intros Hi H8 H10. unfold ld, ldx, tval. generalize (sqrt (2 / INR (2 * i + 1))). intros s.
  upto10 i; try congruence; cbn [leg_poly leg_deriv pv dv pred]; simpl INR; unfold Rdiv; ring.
Qed.
Lemma root_pos i : 0 < sqrt (2 / INR (2 * i + 1)).
Proof. apply sqrt_lt_R0. apply Rdiv_lt_0_compat; [lra|]. apply lt_0_INR. lia. Qed.
Lemma ld_wrong8 : ld 8 1 <> ldx 8 1.
Proof.
  unfold ld, ldx, tval. cbn [leg_poly leg_deriv pv dv pred]. pose proof (root_pos 8) as H. revert H. generalize (sqrt (2 / INR (2 * 8 + 1))). intros s Hs E.
  assert (K : forall a b, a / 128 / s = b / 128 / s -> a = b) by (intros a b Q; apply (Rmult_eq_reg_r (/ 128 * / s)); [unfold Rdiv in Q; lra|apply Rgt_not_eq; apply Rmult_lt_0_compat; [lra|apply Rinv_0_lt_compat; exact Hs]]).
  apply K in E. rewrite !pow1 in E. simpl INR in E. lra.
Qed.
Lemma ld_wrong10 : ld 10 1 <> ldx 10 1.
Proof.
  unfold ld, ldx, tval. cbn [leg_poly leg_deriv pv dv pred]. pose proof (root_pos 10) as H. revert H. generalize (sqrt (2 / INR (2 * 10 + 1))). intros s Hs E.
  assert (K : forall a b, a / 256 / s = b / 256 / s -> a = b) by (intros a b Q; apply (Rmult_eq_reg_r (/ 256 * / s)); [unfold Rdiv in Q; lra|apply Rgt_not_eq; apply Rmult_lt_0_compat; [lra|apply Rinv_0_lt_compat; exact Hs]]).
  apply K in E. rewrite !pow1 in E. simpl INR in E. lra.
Qed.

(** ** orthonormality *)
Definition mom (n : nat) : R := if Nat.even n then 2 / INR (S n) else 0.
Lemma int_pow n : is_int1 (fun x => x ^ n) (-1) 1 (mom n).
Proof.
  destruct (is_int1_pow n (-1) 1) as (F & H1 & H2). exists F. split; [exact H1|]. rewrite <- H2. unfold mom.
  assert (P : (-1) ^ n = if Nat.even n then 1 else -1).
  { clear. induction n as [|n IH]; [reflexivity|]. rewrite Nat.even_succ, <- Nat.negb_even. cbn [pow]. rewrite IH. destruct (Nat.even n); cbn [negb]; ring. }
  rewrite pow1. cbn [pow]. rewrite P. destruct (Nat.even n); unfold Rdiv; ring.
Qed.
Fixpoint mv (l : list (R * nat)) : R := match l with [] => 0 | (c, i) :: l => c * mom i + mv l end.
Lemma int_pv l : is_int1 (pv l) (-1) 1 (mv l).
Proof.
  induction l as [|[c i] l IH]; [apply is_int1_zero|]. cbn [pv mv].
  apply (is_int1_plus (fun x => c * x ^ i)); [apply is_int1_scal, int_pow|exact IH].
Qed.
Definition pmul (l m : list (R * nat)) : list (R * nat) :=
  flat_map (fun a => map (fun b => (fst a * fst b, (snd a + snd b)%nat)) m) l.
Lemma pv_app l m x : pv (l ++ m) x = pv l x + pv m x.
Proof. induction l as [|[c i] l IH]; cbn [app pv]; [ring|]. rewrite IH. ring. Qed.
Lemma pv_pmul l m x : pv (pmul l m) x = pv l x * pv m x.
Proof.
  induction l as [|[c i] l IH]; cbn [pmul flat_map pv]; [ring|]. rewrite pv_app. fold (pmul l m). rewrite IH.
  assert (K : pv (map (fun b => (fst (c, i) * fst b, (snd (c, i) + snd b)%nat)) m) x = c * x ^ i * pv m x).
  { clear IH. induction m as [|[d j] m IM]; cbn [map pv fst snd]; [ring|]. cbn [fst snd] in IM. rewrite IM, pow_add. ring. }
  rewrite K. ring.
Qed.
Definition plist (i : nat) : list (R * nat) := match leg_poly i with Some (l, _) => l | None => [] end.
Definition pden (i : nat) : R := match leg_poly i with Some (_, q) => q | None => 1 end.
Lemma lp_eq i x : (i <= 10)%nat -> lp i x = pv (plist i) x / pden i / sqrt (2 / INR (2 * i + 1)).
Proof. intros H. unfold lp, tval, plist, pden. upto10 i; reflexivity. Qed.
Lemma pden_pos i : 0 < pden i.
Proof. unfold pden. do 11 (destruct i as [|i]; [cbn [leg_poly]; lra|]). cbn [leg_poly]. lra. Qed.
Lemma gram i j : (i <= 10)%nat -> (j <= 10)%nat ->
  mv (pmul (plist i) (plist j)) = if (i =? j)%nat then pden i * pden i * (2 / INR (2 * i + 1)) else 0.
Proof.
  intros Hi Hj. unfold plist, pden.
  upto10 i; upto10 j; cbn [leg_poly pmul flat_map map app fst snd mv Nat.eqb mom Nat.even Nat.add]; unfold mom; cbn [Nat.even];
    rewrite ?INR_IZR_INZ; cbn [Nat.mul Nat.add Z.of_nat Pos.of_succ_nat Pos.succ]; lra.
Qed.
Lemma leg_orthonormal : orthonormal_on (-1) 1 11 lp.
Proof.
  intros i j Hi Hj. pose proof (int_pv (pmul (plist i) (plist j))) as K. rewrite gram in K by lia.
  pose proof (root_pos i) as Ri. pose proof (root_pos j) as Rj. pose proof (pden_pos i) as Qi. pose proof (pden_pos j) as Qj.
  pose proof (is_int1_scal (/ (pden i * sqrt (2 / INR (2 * i + 1)) * (pden j * sqrt (2 / INR (2 * j + 1))))) _ _ _ _ K) as K2.
  assert (E : forall v w, v = w -> is_int1 (fun x => lp i x * lp j x) (-1) 1 v -> is_int1 (fun x => lp i x * lp j x) (-1) 1 w) by (intros v w ->; auto).
  eapply E; [|eapply is_int1_ext; [|exact K2]].
  - destruct (Nat.eqb_spec i j) as [<-|_]; [|ring].
    assert (S2 : sqrt (2 / INR (2 * i + 1)) * sqrt (2 / INR (2 * i + 1)) = 2 / INR (2 * i + 1))
      by (apply sqrt_def; apply Rlt_le, Rdiv_lt_0_compat; [lra|apply lt_0_INR; lia]).
    rewrite <- S2 at 3. field. split; lra.
  - intros x. cbv beta. rewrite pv_pmul, !lp_eq by lia. field. repeat split; lra.
Qed.

(** ** scaled Legendre bases on cells *)
Lemma leg1_ok degree : (degree <= 10)%nat -> legendre_1D degree = Ok degree.
Proof. intros H. unfold legendre_1D. destruct (Nat.ltb_spec 10 degree); [lia|reflexivity]. Qed.
Lemma fits_small deg d : (deg <= 10)%nat -> (d <= 3)%nat -> fits deg d.
Proof. intros H Hd. unfold fits. destruct d as [|[|[|[|d]]]]; [| | | |lia]; cbn [rising]; nia. Qed.
Lemma vget_map (v : nat -> R) n a : (a < n)%nat -> vget (map v (seq 0 n)) a = Ok (v a).
Proof. intros H. pose proof (vget_seq v n [] a H) as K. rewrite app_nil_r in K. exact K. Qed.
Section Cells.
  Context (deg : nat) (F : frame) (HD : (deg <= 10)%nat).
  Notation sp d := (scaling_point d F).
  Definition sc2 := sqrt (scaling_factor F 0 * scaling_factor F 1).
  Definition sc3 := sqrt (scaling_factor F 0 * scaling_factor F 1 * scaling_factor F 2).
  Lemma sleg2_eval x : sleg2_functions deg F x =
    Ok (map (fun e => lp (fst e) (sp 2 x 0%nat) * lp (snd e) (sp 2 x 1%nat) * sc2) (exps2 deg)).
  Proof.
    unfold sleg2_functions. rewrite leg1_ok by lia. cbn [bind]. rewrite !leg_functions_eq by lia. cbn [bind].
    apply (oloop2_run deg _ (fun a b => lp a (sp 2 x 0%nat) * lp b (sp 2 x 1%nat) * sc2)).
    - intros a b I. apply in_exps2 in I. rewrite (vget_map (fun i => lp i (sp 2 x 0%nat))), (vget_map (fun i => lp i (sp 2 x 1%nat))) by lia. reflexivity.
    - rewrite len_zeros. apply size2, fits_small; lia.
  Qed.
  Lemma sleg3_eval x : sleg3_functions deg F x =
    Ok (map (fun e => lp (fst (fst e)) (sp 3 x 0%nat) * lp (snd (fst e)) (sp 3 x 1%nat) * lp (snd e) (sp 3 x 2%nat) * sc3) (exps3 deg)).
  Proof.
    unfold sleg3_functions. rewrite leg1_ok by lia. cbn [bind]. rewrite !leg_functions_eq by lia. cbn [bind].
    apply (oloop3_run deg _ (fun a b c => lp a (sp 3 x 0%nat) * lp b (sp 3 x 1%nat) * lp c (sp 3 x 2%nat) * sc3)).
    - intros a b c I. apply in_exps3 in I.
      rewrite (vget_map (fun i => lp i (sp 3 x 0%nat))), (vget_map (fun i => lp i (sp 3 x 1%nat))), (vget_map (fun i => lp i (sp 3 x 2%nat))) by lia. reflexivity.
    - rewrite len_zeros. apply size3, fits_small; lia.
  Qed.
  Definition lrow2 (x : nat -> R) (e : nat * nat) : list R :=
    let u := sp 2 x 0%nat in let v := sp 2 x 1%nat in
    map (fun c => sc2 * (passage F 0 c * (ld (fst e) u * lp (snd e) v) + passage F 1 c * (lp (fst e) u * ld (snd e) v))) [0; 1]%nat.
  Lemma sleg2_grad x : sleg2_gradients deg F x = Ok (map (lrow2 x) (exps2 deg)).
  Proof.
    unfold sleg2_gradients. rewrite leg1_ok by lia. cbn [bind]. rewrite !leg_functions_eq by lia. cbn [bind]. rewrite !leg_gradients_eq by lia. cbn [bind].
    rewrite (oloop2_run deg _ (fun a b => lrow2 x (a, b))).
    - apply f_equal. apply map_ext. intros [a b]. reflexivity.
    - intros a b I. apply in_exps2 in I.
      rewrite (vget_map (fun i => lp i (sp 2 x 0%nat))), (vget_map (fun i => lp i (sp 2 x 1%nat))), (vget_map (fun i => ld i (sp 2 x 0%nat))), (vget_map (fun i => ld i (sp 2 x 1%nat))) by lia.
      cbn [bind]. unfold lrow2, new2old, sc2. cbn [sig vec2 map fst snd]. apply ok2; ring.
    - rewrite len_rows. apply size2, fits_small; lia.
  Qed.
  Definition lrow3 (x : nat -> R) (e : nat * nat * nat) : list R :=
    let '(a, b, c) := e in
    let u := sp 3 x 0%nat in let v := sp 3 x 1%nat in let w := sp 3 x 2%nat in
    map (fun k => sc3 * (passage F 0 k * (ld a u * lp b v * lp c w) + passage F 1 k * (lp a u * ld b v * lp c w) + passage F 2 k * (lp a u * lp b v * ld c w))) [0; 1; 2]%nat.
  Lemma sleg3_grad x : sleg3_gradients deg F x = Ok (map (lrow3 x) (exps3 deg)).
  Proof.
    unfold sleg3_gradients. rewrite leg1_ok by lia. cbn [bind]. rewrite !leg_functions_eq by lia. cbn [bind]. rewrite !leg_gradients_eq by lia. cbn [bind].
    rewrite (oloop3_run deg _ (fun a b c => lrow3 x (a, b, c))).
    - apply f_equal. apply map_ext. intros [[a b] c]. reflexivity.
    - intros a b c I. apply in_exps3 in I.
      rewrite (vget_map (fun i => lp i (sp 3 x 0%nat))), (vget_map (fun i => lp i (sp 3 x 1%nat))), (vget_map (fun i => lp i (sp 3 x 2%nat))),
        (vget_map (fun i => ld i (sp 3 x 0%nat))), (vget_map (fun i => ld i (sp 3 x 1%nat))), (vget_map (fun i => ld i (sp 3 x 2%nat))) by lia.
      cbn [bind]. unfold lrow3, new2old, sc3. cbn [sig vec3 map fst snd]. apply ok3; ring.
    - rewrite len_rows. apply size3, fits_small; lia.
  Qed.
  Lemma d_lpc d i x k c : (k < d)%nat -> (i <= 7)%nat ->
    dlim (fun t => lp i (sp d (move x k t) c)) (x k) (passage F c k * ld i (sp d x c)).
  Proof.
    intros Hk Hi. eapply d_eq; [|apply (d_comp (fun t => sp d (move x k t) c) (lp i) (x k)); [apply d_loc; exact Hk|apply d_lp]].
    cbv beta. rewrite sp_same, <- ld_right by lia. ring.
  Qed.
  Lemma sleg2_gradients_ok : (deg <= 7)%nat -> gradients_ok 2 (scalar_basis_size deg 2) (sleg2_functions deg F) (sleg2_gradients deg F).
  Proof.
    intros H7. rewrite size2 by (apply fits_small; lia).
    apply (gradients_from (0%nat, 0%nat) (exps2 deg) 2 _ (fun x e => lp (fst e) (sp 2 x 0%nat) * lp (snd e) (sp 2 x 1%nat) * sc2) lrow2);
      [reflexivity|apply sleg2_eval|apply sleg2_grad|].
    intros x [a b] I. apply in_exps2 in I. split; [reflexivity|]. intros c Hc. cbn [fst snd].
    eapply d_eq; [|apply d_mult; [apply d_mult; apply d_lpc; [exact Hc|lia|exact Hc|lia]|apply d_const]]. cbv beta. rewrite !sp_same. unfold lrow2. cbn [map fst snd].
    destruct c as [|[|c]]; [| |lia]; cbn [nth]; ring.
  Qed.
  Lemma sleg3_gradients_ok : (deg <= 7)%nat -> gradients_ok 3 (scalar_basis_size deg 3) (sleg3_functions deg F) (sleg3_gradients deg F).
  Proof.
    intros H7. rewrite size3 by (apply fits_small; lia).
    apply (gradients_from (0%nat, 0%nat, 0%nat) (exps3 deg) 3 _ (fun x e => lp (fst (fst e)) (sp 3 x 0%nat) * lp (snd (fst e)) (sp 3 x 1%nat) * lp (snd e) (sp 3 x 2%nat) * sc3) lrow3);
      [reflexivity|apply sleg3_eval|apply sleg3_grad|].
    intros x [[a b] c] I. apply in_exps3 in I. split; [reflexivity|]. intros k Hk. cbn [fst snd].
    eapply d_eq; [|apply d_mult; [apply d_mult; [apply d_mult|]; apply d_lpc; [exact Hk|lia|exact Hk|lia|exact Hk|lia]|apply d_const]]. cbv beta. rewrite !sp_same. unfold lrow3. cbn [map].
    destruct k as [|[|[|k]]]; [| | |lia]; cbn [nth]; ring.
  Qed.
End Cells.

(** ** integrals over boxes *)
Lemma is_int1_val f a b v w : v = w -> is_int1 f a b v -> is_int1 f a b w.
Proof. intros ->. auto. Qed.
Lemma int_lin f a b c d k m I : k <> 0 -> k * a + m = c -> k * b + m = d -> is_int1 f c d I -> is_int1 (fun s => f (k * s + m)) a b (I / k).
Proof.
  intros Hk Ha Hb (G & H1 & ->). exists (fun s => / k * G (k * s + m)). split.
  - intros s. change (dlim (fun s => / k * G (k * s + m)) s (f (k * s + m))).
    eapply d_eq; [|apply d_mult; [apply d_const|apply (d_comp (fun s => k * s + m) G s k); [|apply H1]]].
    + cbv beta. field. exact Hk.
    + eapply d_eq; [|apply d_plus; [apply d_mult; [apply d_const|apply d_id]|apply d_const]]. cbv beta. ring.
  - rewrite Ha, Hb. field. exact Hk.
Qed.
(** the scaled 1D family on an interval of length L *)
Lemma lp_interval c L i j : 0 < L -> (i <= 10)%nat -> (j <= 10)%nat ->
  is_int1 (fun t => lp i (2 / L * (t - c)) * lp j (2 / L * (t - c))) (c - L / 2) (c + L / 2) (if (i =? j)%nat then L / 2 else 0).
Proof.
  intros HL Hi Hj. assert (2 / L <> 0) by (apply Rgt_not_eq, Rdiv_lt_0_compat; lra).
  pose proof (int_lin (fun x => lp i x * lp j x) (c - L / 2) (c + L / 2) (-1) 1 (2 / L) (- (2 / L * c)) _ H ltac:(field; lra) ltac:(field; lra) (leg_orthonormal i j ltac:(lia) ltac:(lia))) as K.
  eapply is_int1_val; [|eapply is_int1_ext; [|exact K]].
  - destruct (i =? j)%nat; field; lra.
  - intros s. cbv beta. do 2 f_equal; ring.
Qed.
Lemma nth_in {A} (l : list A) j d : (j < length l)%nat -> nth_error l j = Some (nth j l d).
Proof. apply nth_error_nth'. Qed.
Lemma nodup_nth_eq {A} (l : list A) i j d : NoDup l -> (i < length l)%nat -> (j < length l)%nat -> nth i l d = nth j l d -> i = j.
Proof. intros ND Hi Hj E. apply (proj1 (NoDup_nth l d) ND i j Hi Hj E). Qed.

(** axis-parallel boxes *)
Definition box_frame (bar len : nat -> R) : frame := mkFrame bar (fun r c => if (r =? c)%nat then 1 else 0) len.
Lemma sp_box2 bar len s t : scaling_point 2 (box_frame bar len) (xy s t) 0 = 2 / len 0%nat * (s - bar 0%nat) /\ scaling_point 2 (box_frame bar len) (xy s t) 1 = 2 / len 1%nat * (t - bar 1%nat).
Proof. unfold scaling_point, passage, scaling_factor, box_frame. cbn [sig f_axes f_len f_bar xy Nat.eqb]. split; ring. Qed.
Lemma sp_box3 bar len s t u : let p := scaling_point 3 (box_frame bar len) (xyz s t u) in
  p 0%nat = 2 / len 0%nat * (s - bar 0%nat) /\ p 1%nat = 2 / len 1%nat * (t - bar 1%nat) /\ p 2%nat = 2 / len 2%nat * (u - bar 2%nat).
Proof. cbv zeta. unfold scaling_point, passage, scaling_factor, box_frame. cbn [sig f_axes f_len f_bar xyz Nat.eqb]. repeat split; ring. Qed.
Lemma sc2_sq bar len : 0 < len 0%nat -> 0 < len 1%nat -> sc2 (box_frame bar len) * sc2 (box_frame bar len) = 2 / len 0%nat * (2 / len 1%nat).
Proof. intros H0 H1. unfold sc2, scaling_factor. cbn [f_len box_frame]. apply sqrt_def. apply Rlt_le, Rmult_lt_0_compat; apply Rdiv_lt_0_compat; lra. Qed.
Lemma sc3_sq bar len : 0 < len 0%nat -> 0 < len 1%nat -> 0 < len 2%nat ->
  sc3 (box_frame bar len) * sc3 (box_frame bar len) = 2 / len 0%nat * (2 / len 1%nat) * (2 / len 2%nat).
Proof. intros H0 H1 H2. unfold sc3, scaling_factor. cbn [f_len box_frame]. apply sqrt_def. apply Rlt_le, Rmult_lt_0_compat; [apply Rmult_lt_0_compat|]; apply Rdiv_lt_0_compat; lra. Qed.
Lemma sleg2_orthonormal deg bar len i j : (deg <= 10)%nat -> 0 < len 0%nat -> 0 < len 1%nat ->
  (i < scalar_basis_size deg 2)%nat -> (j < scalar_basis_size deg 2)%nat ->
  is_int_box2 (fun s t => function_of (sleg2_functions deg (box_frame bar len)) i (xy s t) * function_of (sleg2_functions deg (box_frame bar len)) j (xy s t))
    bar len (if (i =? j)%nat then 1 else 0).
Proof.
  intros HD H0 H1 Hi Hj. rewrite size2 in Hi, Hj by (apply fits_small; lia). set (FB := box_frame bar len).
  set (e := nth i (exps2 deg) (0, 0)%nat). set (f := nth j (exps2 deg) (0, 0)%nat).
  assert (Ie : In e (exps2 deg)) by (apply nth_In; exact Hi). assert (If : In f (exps2 deg)) by (apply nth_In; exact Hj).
  assert (V : forall k s t, (k < length (exps2 deg))%nat -> function_of (sleg2_functions deg FB) k (xy s t) =
    lp (fst (nth k (exps2 deg) (0, 0)%nat)) (2 / len 0%nat * (s - bar 0%nat)) * lp (snd (nth k (exps2 deg) (0, 0)%nat)) (2 / len 1%nat * (t - bar 1%nat)) * sc2 FB).
  { intros k s t Hk. unfold function_of. rewrite sleg2_eval by lia. apply nth_error_nth.
    rewrite (map_nth_error _ k (exps2 deg) (nth_in _ _ (0, 0)%nat Hk)). cbv beta. unfold FB. destruct (sp_box2 bar len s t) as (-> & ->). reflexivity. }
  assert (EQ : (i =? j)%nat = ((fst e =? fst f)%nat && (snd e =? snd f)%nat)%bool).
  { destruct (Nat.eqb_spec i j) as [E|N].
    - unfold e, f. rewrite E, !Nat.eqb_refl. reflexivity.
    - symmetry. apply Bool.andb_false_iff. destruct (Nat.eqb_spec (fst e) (fst f)); [|auto]. destruct (Nat.eqb_spec (snd e) (snd f)); [|auto].
      exfalso. apply N. apply (nodup_nth_eq (exps2 deg) i j (0, 0)%nat); [apply nodup_exps2|exact Hi|exact Hj|].
      fold e f. destruct e, f; cbn [fst snd] in *; subst; reflexivity. }
  assert (B : (fst e <= 10)%nat /\ (snd e <= 10)%nat /\ (fst f <= 10)%nat /\ (snd f <= 10)%nat).
  { rewrite (surjective_pairing e) in Ie. rewrite (surjective_pairing f) in If. apply in_exps2 in Ie. apply in_exps2 in If. lia. }
  destruct B as (B1 & B2 & B3 & B4). pose proof (sc2_sq bar len H0 H1) as SQ. fold FB in SQ.
  exists (fun s => sc2 FB * sc2 FB * (lp (fst e) (2 / len 0%nat * (s - bar 0%nat)) * lp (fst f) (2 / len 0%nat * (s - bar 0%nat))) * (if (snd e =? snd f)%nat then len 1%nat / 2 else 0)).
  split.
  - intros s. eapply is_int1_ext; [|apply is_int1_scal; apply (lp_interval (bar 1%nat) (len 1%nat) (snd e) (snd f) H1 B2 B4)].
    intros t. cbv beta. rewrite (V i), (V j) by assumption. fold e f. ring.
  - eapply is_int1_val; [|eapply is_int1_ext; [|apply (is_int1_scal (sc2 FB * sc2 FB * (if (snd e =? snd f)%nat then len 1%nat / 2 else 0))); apply (lp_interval (bar 0%nat) (len 0%nat) (fst e) (fst f) H0 B1 B3)]].
    + rewrite EQ, SQ. destruct (fst e =? fst f)%nat, (snd e =? snd f)%nat; cbn [andb]; field; lra.
    + intros s. cbv beta. ring.
Qed.
Lemma sleg3_orthonormal deg bar len i j : (deg <= 10)%nat -> 0 < len 0%nat -> 0 < len 1%nat -> 0 < len 2%nat ->
  (i < scalar_basis_size deg 3)%nat -> (j < scalar_basis_size deg 3)%nat ->
  is_int_box3 (fun s t u => function_of (sleg3_functions deg (box_frame bar len)) i (xyz s t u) * function_of (sleg3_functions deg (box_frame bar len)) j (xyz s t u))
    bar len (if (i =? j)%nat then 1 else 0).
Proof.
  intros HD H0 H1 H2 Hi Hj. rewrite size3 in Hi, Hj by (apply fits_small; lia). set (FB := box_frame bar len).
  set (e := nth i (exps3 deg) (0, 0, 0)%nat). set (f := nth j (exps3 deg) (0, 0, 0)%nat).
  assert (Ie : In e (exps3 deg)) by (apply nth_In; exact Hi). assert (If : In f (exps3 deg)) by (apply nth_In; exact Hj).
  assert (V : forall k s t u, (k < length (exps3 deg))%nat -> function_of (sleg3_functions deg FB) k (xyz s t u) =
    let e := nth k (exps3 deg) (0, 0, 0)%nat in
    lp (fst (fst e)) (2 / len 0%nat * (s - bar 0%nat)) * lp (snd (fst e)) (2 / len 1%nat * (t - bar 1%nat)) * lp (snd e) (2 / len 2%nat * (u - bar 2%nat)) * sc3 FB).
  { intros k s t u Hk. unfold function_of. rewrite sleg3_eval by lia. apply nth_error_nth.
    rewrite (map_nth_error _ k (exps3 deg) (nth_in _ _ (0, 0, 0)%nat Hk)). cbv beta. unfold FB. destruct (sp_box3 bar len s t u) as (-> & -> & ->). reflexivity. }
  assert (EQ : (i =? j)%nat = ((fst (fst e) =? fst (fst f))%nat && (snd (fst e) =? snd (fst f))%nat && (snd e =? snd f)%nat)%bool).
  { destruct (Nat.eqb_spec i j) as [E|N].
    - unfold e, f. rewrite E, !Nat.eqb_refl. reflexivity.
    - symmetry. destruct (Nat.eqb_spec (fst (fst e)) (fst (fst f))); [|auto]. destruct (Nat.eqb_spec (snd (fst e)) (snd (fst f))); [|auto].
      destruct (Nat.eqb_spec (snd e) (snd f)); [|auto].
      exfalso. apply N. apply (nodup_nth_eq (exps3 deg) i j (0, 0, 0)%nat); [apply nodup_exps3|exact Hi|exact Hj|].
      fold e f. destruct e as [[? ?] ?], f as [[? ?] ?]; cbn [fst snd] in *; subst; reflexivity. }
  assert (B : (fst (fst e) <= 10)%nat /\ (snd (fst e) <= 10)%nat /\ (snd e <= 10)%nat /\ (fst (fst f) <= 10)%nat /\ (snd (fst f) <= 10)%nat /\ (snd f <= 10)%nat).
  { clear V EQ. clearbody e f. destruct e as [[? ?] ?], f as [[? ?] ?]. apply in_exps3 in Ie. apply in_exps3 in If. cbn [fst snd]. lia. }
  destruct B as (B1 & B2 & B3 & B4 & B5 & B6). pose proof (sc3_sq bar len H0 H1 H2) as SQ. fold FB in SQ.
  set (W := if (snd e =? snd f)%nat then len 2%nat / 2 else 0). set (Y := if (snd (fst e) =? snd (fst f))%nat then len 1%nat / 2 else 0).
  set (g := fun s => lp (fst (fst e)) (2 / len 0%nat * (s - bar 0%nat)) * lp (fst (fst f)) (2 / len 0%nat * (s - bar 0%nat))).
  set (h := fun t => lp (snd (fst e)) (2 / len 1%nat * (t - bar 1%nat)) * lp (snd (fst f)) (2 / len 1%nat * (t - bar 1%nat))).
  exists (fun s t => sc3 FB * sc3 FB * g s * h t * W). split; [|exists (fun s => sc3 FB * sc3 FB * g s * W * Y); split].
  - intros s t. eapply is_int1_ext; [|apply is_int1_scal; apply (lp_interval (bar 2%nat) (len 2%nat) (snd e) (snd f) H2 B3 B6)].
    intros u. cbv beta. rewrite (V i), (V j) by assumption. cbv zeta. fold e f. unfold g, h. ring.
  - intros s. eapply is_int1_ext; [|apply (is_int1_scal (sc3 FB * sc3 FB * g s * W)); apply (lp_interval (bar 1%nat) (len 1%nat) (snd (fst e)) (snd (fst f)) H1 B2 B5)].
    intros t. cbv beta. unfold h. ring.
  - eapply is_int1_val; [|eapply is_int1_ext; [|apply (is_int1_scal (sc3 FB * sc3 FB * W * Y)); apply (lp_interval (bar 0%nat) (len 0%nat) (fst (fst e)) (fst (fst f)) H0 B1 B4)]].
    + rewrite EQ, SQ. unfold W, Y. destruct (fst (fst e) =? fst (fst f))%nat, (snd (fst e) =? snd (fst f))%nat, (snd e =? snd f)%nat; cbn [andb]; field; lra.
    + intros s. cbv beta. unfold g. ring.
Qed.

(** ** the Legendre basis of a 2D face *)
Definition along (p0 p1 : nat -> R) (L s : R) (i : nat) : R := p0 i + s / L * (p1 i - p0 i).
Lemma sig2_sq (v : nat -> R) : 0 <= sig 2 (fun i => v i * v i).
Proof. cbn [sig]. pose proof (Rle_0_sqr (v 0%nat)); pose proof (Rle_0_sqr (v 1%nat)). unfold Rsqr in *. lra. Qed.
Lemma norm2_half (v : nat -> R) : norm 2 (fun i => v i / 2) = norm 2 v / 2.
Proof.
  unfold norm. replace (sig 2 (fun i => v i / 2 * (v i / 2))) with (sig 2 (fun i => v i * v i) * (1 / 2 * (1 / 2))) by (cbn [sig]; field).
  rewrite sqrt_mult_alt by apply sig2_sq. rewrite sqrt_square by lra. field.
Qed.
Lemma face2_coord p0 p1 s : let L := norm 2 (fun i => p1 i - p0 i) in 0 < L ->
  scaling_point 2 (face2_frame (fun i => (p0 i + p1 i) / 2) p0 L) (along p0 p1 L s) 0 = 2 / L * (s - L / 2).
Proof.
  cbv zeta. intros HL. unfold scaling_point, passage, face2_frame, scaling_factor. cbn [f_axes f_len f_bar].
  assert (N : norm 2 (fun i => (p0 i + p1 i) / 2 - p0 i) = norm 2 (fun i => p1 i - p0 i) / 2).
  { rewrite <- norm2_half. unfold norm. f_equal. cbn [sig]. field. }
  rewrite N. assert (SQ : norm 2 (fun i => p1 i - p0 i) * norm 2 (fun i => p1 i - p0 i) = sig 2 (fun i => (p1 i - p0 i) * (p1 i - p0 i)))
    by (unfold norm; apply sqrt_def; apply (sig2_sq (fun i => p1 i - p0 i))).
  revert HL SQ. generalize (norm 2 (fun i => p1 i - p0 i)). intros L HL SQ. unfold along. cbn [sig] in *.
  replace (2 / L * (s - L / 2)) with (2 / L * (s - L / 2) / L / L * (L * L)) by (field; lra). rewrite SQ. field. lra.
Qed.
Lemma sleg2f_gram deg p0 p1 i j : let L := norm 2 (fun i => p1 i - p0 i) in
  let f := fun k s => function_of (sleg2f_functions deg (face2_frame (fun i => (p0 i + p1 i) / 2) p0 L)) k (along p0 p1 L s) in
  0 < L -> (deg <= 10)%nat -> (i <= deg)%nat -> (j <= deg)%nat ->
  is_int1 (fun s => f i s * f j s) 0 L (if (i =? j)%nat then 2 / L else 0).
Proof.
  cbv zeta. set (L := norm 2 (fun i => p1 i - p0 i)). intros HL HD Hi Hj.
  assert (V : forall k s, (k <= deg)%nat -> function_of (sleg2f_functions deg (face2_frame (fun i => (p0 i + p1 i) / 2) p0 L)) k (along p0 p1 L s) = lp k (2 / L * (s - L / 2)) * (2 / L)).
  { intros k s Hk. unfold function_of, sleg2f_functions. rewrite leg1_ok by lia. cbn [bind]. rewrite leg_functions_eq by lia. cbn [bind].
    rewrite map_map. apply nth_error_nth. rewrite (map_nth_error _ k (seq 0 (S deg)) (d := k)).
    - do 2 f_equal. f_equal. apply face2_coord. exact HL.
    - rewrite (nth_error_nth' _ 0%nat) by (rewrite seq_length; lia). rewrite seq_nth by lia. reflexivity. }
  pose proof (lp_interval (L / 2) L i j HL ltac:(lia) ltac:(lia)) as K. pose proof (is_int1_scal (2 / L * (2 / L)) _ _ _ _ K) as K2.
  replace (L / 2 - L / 2) with 0 in K2 by ring. replace (L / 2 + L / 2) with L in K2 by field.
  eapply is_int1_val; [|eapply is_int1_ext; [|exact K2]].
  - destruct (i =? j)%nat; [field; lra|ring].
  - intros s. cbv beta. rewrite !V by lia. ring.
Qed.

(** ** compute_axis *)
Lemma dot3_inner a b : dot3 a b = inner a b.
Proof. unfold dot3, inner. cbn [sig]. ring. Qed.
Lemma norm3_inner a : norm 3 a = sqrt (inner a a).
Proof. unfold norm, inner. f_equal. cbn [sig]. ring. Qed.
Lemma inner_nonneg a : 0 <= inner a a.
Proof. unfold inner. pose proof (Rle_0_sqr (a 0%nat)); pose proof (Rle_0_sqr (a 1%nat)); pose proof (Rle_0_sqr (a 2%nat)). unfold Rsqr in *. lra. Qed.
Lemma normalized_pos v : 0 < inner v v -> normalized v = Some (fun i => v i / sqrt (inner v v)) /\ inner (fun i => v i / sqrt (inner v v)) (fun i => v i / sqrt (inner v v)) = 1.
Proof.
  intros H. pose proof (sqrt_lt_R0 _ H) as S. unfold normalized. rewrite norm3_inner. destruct (Req_EM_T _ 0); [lra|]. split; [reflexivity|].
  assert (Q : sqrt (inner v v) * sqrt (inner v v) = inner v v) by (apply sqrt_def; lra).
  replace (inner (fun i => v i / sqrt (inner v v)) (fun i => v i / sqrt (inner v v))) with (inner v v / (sqrt (inner v v) * sqrt (inner v v))) by (unfold inner at 1 4; field; lra).
  rewrite Q. field. lra.
Qed.
Lemma wide_spec u v : 0 < inner u u -> 0 < inner v v -> wide u v = true <-> inner u v < 99 / 100 * sqrt (inner u u * inner v v).
Proof.
  intros HU HV. unfold wide. rewrite (proj1 (normalized_pos u HU)), (proj1 (normalized_pos v HV)).
  pose proof (sqrt_lt_R0 _ HU) as SU. pose proof (sqrt_lt_R0 _ HV) as SV. rewrite sqrt_mult by lra. rewrite dot3_inner.
  replace (inner (fun i => u i / sqrt (inner u u)) (fun i => v i / sqrt (inner v v))) with (inner u v / (sqrt (inner u u) * sqrt (inner v v))) by (unfold inner at 1 4; field; lra).
  assert (P : 0 < sqrt (inner u u) * sqrt (inner v v)) by (apply Rmult_lt_0_compat; assumption). revert P. generalize (sqrt (inner u u) * sqrt (inner v v)). intros w P.
  split.
  - destruct (Rlt_dec (inner u v / w) (99 / 100)) as [H|]; [|discriminate]. intros _. apply (Rmult_lt_compat_r w) in H; [|exact P]. unfold Rdiv in H at 1. rewrite Rmult_assoc, Rinv_l, Rmult_1_r in H by lra. exact H.
  - intros H. destruct (Rlt_dec (inner u v / w) (99 / 100)) as [|N]; [reflexivity|]. exfalso. apply N. apply (Rmult_lt_reg_r w); [exact P|]. unfold Rdiv at 1. rewrite Rmult_assoc, Rinv_l, Rmult_1_r by lra. exact H.
Qed.
Lemma corner_pos p q r : corner p q r -> 0 < inner (vsub p q) (vsub p q) /\ 0 < inner (vsub r q) (vsub r q).
Proof.
  unfold corner, vsub. cbv zeta. intros H. pose proof (inner_nonneg (fun i => p i - q i)) as A. pose proof (inner_nonneg (fun i => r i - q i)) as B. revert H A B.
  generalize (inner (fun i => p i - q i) (fun i => p i - q i)) (inner (fun i => r i - q i) (fun i => r i - q i)) (inner (fun i => p i - q i) (fun i => r i - q i)).
  intros a b c H A B. split; nra.
Qed.
Lemma axis_frame u v : 0 < inner u u * inner v v - inner u v * inner u v -> 0 < inner u u ->
  exists e0 e1, normalized u = Some e0 /\ normalized (fun i => v i - dot3 v u * u i / dot3 u u) = Some e1 /\ orthonormal2 e0 e1 /\ spanned u v e0 /\ spanned u v e1.
Proof.
  intros H HU. destruct (normalized_pos u HU) as (N0 & I0). set (w := fun i => v i - dot3 v u * u i / dot3 u u).
  assert (C : inner v u = inner u v) by (unfold inner; ring).
  assert (W : inner w w = (inner u u * inner v v - inner u v * inner u v) / inner u u).
  { unfold w. rewrite !dot3_inner, C. set (a := inner u u) in *. set (c := inner u v) in *.
    replace (inner (fun i => v i - c * u i / a) (fun i => v i - c * u i / a)) with (inner v v - 2 * (c / a) * inner u v + (c / a) * (c / a) * inner u u) by (unfold inner; field; lra).
    fold a c. field. lra. }
  assert (WP : 0 < inner w w) by (rewrite W; apply Rdiv_lt_0_compat; assumption).
  destruct (normalized_pos w WP) as (N1 & I1). pose proof (sqrt_lt_R0 _ HU) as SU. pose proof (sqrt_lt_R0 _ WP) as SW.
  eexists. eexists. split; [exact N0|]. split; [exact N1|]. split; [|split].
  - split; [exact I0|]. split; [exact I1|].
    replace (inner (fun i => u i / sqrt (inner u u)) (fun i => w i / sqrt (inner w w))) with (inner u w / (sqrt (inner u u) * sqrt (inner w w))) by (unfold inner at 1 4; field; lra).
    replace (inner u w) with 0; [unfold Rdiv; ring|]. unfold w. rewrite !dot3_inner, C. set (a := inner u u) in *. set (c := inner u v) in *.
    replace (inner u (fun i => v i - c * u i / a)) with (inner u v - c / a * inner u u) by (unfold inner; field; lra). fold a c. field. lra.
  - exists (/ sqrt (inner u u)), 0. intros i. unfold Rdiv. ring.
  - exists (- (dot3 v u / dot3 u u) / sqrt (inner w w)), (/ sqrt (inner w w)). intros i. unfold w at 1. unfold Rdiv. ring.
Qed.
