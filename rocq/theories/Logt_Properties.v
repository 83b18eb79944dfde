(** The tangent modulus of the logarithmic strain (C201). *)
From Coq Require Import Reals List Arith Lra Lia FunctionalExtensionality.
From Verif Require Import Common Tensor_Model Tensor_Spec Tensor_Proofs Tensor_Properties Law_Model Log_Model Log_Spec Log_Proofs Log_Properties Logt_Proofs.
Import ListNotations.
Local Open Scope R_scope.

Lemma motion_L F F' L W : motion F F' L W -> exists L', forall i, (i < 3)%nat -> derivable_pt_lim (fun t => L t i) 0 (L' i).
Proof.
  intros (_ & _ & _ & HL). destruct (HL 0%nat ltac:(lia)) as (l0 & H0), (HL 1%nat ltac:(lia)) as (l1 & H1), (HL 2%nat ltac:(lia)) as (l2 & H2). exists (fun i => match i with 0%nat => l0 | 1%nat => l1 | _ => l2 end).
  intros [|[|[|i]]] Hi; [exact H0|exact H1|exact H2|lia].
Qed.
Lemma green_code F lam V : eigen (convertFtoCauchyGreenRight 3 F) lam V -> eigen (cauchy_green F) lam V.
Proof. intros (O & X). split; [exact O|]. intros a b Ha Hb. rewrite <- (X a b Ha Hb). reflexivity. Qed.
(** the rate of the specification is the derivative of the strain along every motion *)
Theorem C201_rate : forall F F' L W lam V, motion F F' L W -> eigen (cauchy_green (F 0)) lam V -> positive lam ->
  mderiv (fun t => compute_Elog (L t) (W t)) (strain_rate lam V (cauchy_green_rate (F 0) F')).
Proof.
  intros F F' L W lam V M EV P. destruct (motion_L _ _ _ _ M) as (L' & HL'). destruct M as (HF & E & (W' & HW) & _).
  exact (strain_deriv (fun t => cauchy_green (F t)) _ L L' W W' lam V (green_deriv F F' HF) E HW HL' EV P).
Qed.
(** The full claims: the stress of the code is the one conjugate to T, and the tangent modulus is its
    derivative along every motion.  Missing: eigenvalues whose last two, or first and last, coincide
    alone (in the first case the coefficients are wrong, C198_coefficients_refuted). *)
Theorem C201_stress_partial : forall eigenvalues law inv_F F tm PK1 A,
  let C := convertFtoCauchyGreenRight 3 F in let lam := fst (eigenvalues C) in let V := snd (eigenvalues C) in
  positive lam -> separated lam -> last_two_apart lam -> compute_whole3D eigenvalues law inv_F F tm = Ok (PK1, A) ->
  conjugate PK1 (fst (law (compute_Elog lam V))) F lam V.
Proof.
  intros ev law Fi F tm PK1 A C lam V P S G R H. rewrite (whole_stress _ _ _ _ _ _ _ R). fold C. fold lam V. rewrite left_power. apply inner_ext. intros a b Ha Hb. rewrite projector_apply by assumption.
  exact (recompose_ext V _ _ _ a b (Theta_dd1 lam S P G)).
Qed.
Theorem C201_tangent_partial : forall eigenvalues law inv_F F F' L W T P PK1 A,
  let C := convertFtoCauchyGreenRight 3 (F 0) in let lam := fst (eigenvalues C) in let V := snd (eigenvalues C) in
  let Tn := fst (law (compute_Elog lam V)) in let D := snd (law (compute_Elog lam V)) in
  (* the motion and the diagonalisation *)
  motion F F' L W -> eigen C lam V -> positive lam -> separated lam -> last_two_apart lam -> ends_apart lam ->
  (* the stress of the law: symmetric, with the tangent D along the motion *)
  T 0 = Tn -> symmetric Tn -> major D -> mderiv T (tm_prod 3 D (strain_rate lam V (cauchy_green_rate (F 0) F'))) ->
  (* P is the first Piola-Kirchhoff stress along the motion *)
  (forall t, conjugate (P t) (T t) (F t) (L t) (W t)) ->
  compute_whole3D eigenvalues law inv_F (F 0) true = Ok (PK1, A) ->
  meq 3 (P 0) PK1 /\ mderiv P (tm_prod 3 A F').
Proof.
  intros ev law Fi F F' L W T P PK1 A C lam V Tn D M EV PO S G1 G2 T0 ST MD HT CJ R. pose proof (green_code _ _ _ EV) as EV'. split.
  - intros a b Ha Hb. pose proof (C201_stress_partial ev law Fi (F 0) true PK1 A PO S G1 R) as CP. cbv zeta in CP. fold C in CP. fold lam V in CP. fold Tn in CP.
    rewrite <- (inner_unit (P 0) a b Ha Hb), <- (inner_unit PK1 a b Ha Hb), !(inner_sym (unit2 a b)). rewrite (CJ 0), CP, T0. apply inner_ext. intros c d Hc Hd.
    destruct M as (_ & E & _). symmetry. exact (change_frame (cauchy_green (F 0)) V lam (W 0) (L 0) dd1 _ EV' (E 0) c d Hc Hd).
  - destruct (motion_L _ _ _ _ M) as (L' & HL'). destruct M as (HF & E & (W' & HW) & _).
    unfold compute_whole3D in R. destruct (Rle_dec (det3 (F 0)) (1 / 100)); [discriminate|]. cbn [negb] in R. injection R as R1 R2. rewrite <- R2. fold C. fold lam V. fold Tn. fold D. rewrite <- T0 in *.
    pose proof (tangent1 F F' L L' W W' lam V T _ D P HF E HW HL' EV' PO S (conj G1 G2) HT (fun _ _ _ _ => eq_refl) ST MD CJ) as Q. unfold code_C2 in Q. cbv zeta in Q.
    match goal with |- ?G => match type of Q with G => exact Q end end.
Qed.

(** with the two largest eigenvalues equal and a stress that does not have their eigenvectors, the stress does four times the power *)
Definition shear12 : mtx := fun i j => match i, j with 1%nat, 2%nat => 5 | 2%nat, 1%nat => 5 | _, _ => 0 end.
Theorem C201_stress_refuted : ~ (forall eigenvalues law inv_F F tm PK1 A,
  let C := convertFtoCauchyGreenRight 3 F in let lam := fst (eigenvalues C) in let V := snd (eigenvalues C) in
  eigen C lam V -> positive lam -> separated lam -> compute_whole3D eigenvalues law inv_F F tm = Ok (PK1, A) ->
  conjugate PK1 (fst (law (compute_Elog lam V))) F lam V).
Proof.
  intros H. destruct lam144_sep as (S & P). destruct (C200_throws (fun _ => (lam144, mident)) (fun _ => (shear12, mzero)) mzero (shear 0) false) as (_ & T). destruct T as (PK1 & A & T); [unfold det3, minor3; cbn [shear]; lra|].
  specialize (H (fun _ => (lam144, mident)) (fun _ => (shear12, mzero)) mzero (shear 0) false PK1 A shear_eigen P S T shear'). cbn [fst snd] in H. rewrite (whole_stress _ _ _ _ _ _ _ T) in H. cbn [fst snd] in H. rewrite left_power in H.
  rewrite (inner_ext shear12 _ (recompose mident (Theta lam144) (frame mident (green_rate (shear 0) shear')))) in H by (intros a b Ha Hb; now apply projector_apply).
  change (strain_rate lam144 mident (cauchy_green_rate (shear 0) shear')) with (recompose mident (fun p q => dd1 (lam144 p) (lam144 q)) (frame mident (green_rate (shear 0) shear'))) in H. rewrite !power_form in H.
  assert (TH : Theta lam144 1%nat 2%nat = / 2 /\ Theta lam144 2%nat 1%nat = / 2).
  { unfold Theta, code_coef, compute_coefficient. rewrite case144. cbn [Nat.eqb compute_two_equal theta_of fst snd off]. unfold compute_di. cbn [lam144]. split; lra. }
  destruct TH as (T1 & T2). assert (Z : forall i j, frame mident shear12 i j = match i, j with 1%nat, 2%nat => 5 | 2%nat, 1%nat => 5 | _, _ => 0 end).
  { intros i j. unfold frame, mident. destruct i as [|[|[|i]]], j as [|[|[|j]]]; cbn [sig shear12 Nat.eqb]; ring. }
  assert (B : frame mident (green_rate (shear 0) shear') 1%nat 2%nat = 4 /\ frame mident (green_rate (shear 0) shear') 2%nat 1%nat = 4). { unfold frame, green_rate, mident. cbn [sig shear shear' Nat.eqb]. split; ring. }
  destruct B as (B1 & B2). assert (DD : dd1 4 4 = / 8) by (unfold dd1, hlog'; destruct (Req_EM_T 4 4); lra).
  cbn [sig] in H. rewrite !Z, T1, T2, B1, B2 in H. cbn [lam144] in H. rewrite DD in H. lra.
Qed.
(** the hypotheses hold for the shear of [C199_plane_motion] and the law with constant shear stress 5:
    the tangent is then the change of the stress with the geometry *)
Example C201_plane : exists P PK1 A,
  compute_whole3D (fun _ => (lam114, mident)) (fun _ => (shear5, mzero)) mzero (plane 0) true = Ok (PK1, A) /\
  (forall t, conjugate (P t) shear5 (plane t) (planeL t) planeW) /\ mderiv P (tm_prod 3 A plane').
Proof.
  destruct C199_plane_eigen as (E & PO & S & G & _). destruct (C200_throws (fun _ => (lam114, mident)) (fun _ => (shear5, mzero)) mzero (plane 0) true) as (_ & T). destruct T as (PK1 & A & T); [unfold det3, minor3; cbn [plane]; lra|].
  pose (P := fun t => mmul 3 (plane t) (pk2 (planeL t) planeW shear5)).
  assert (CJ : forall t, conjugate (P t) shear5 (plane t) (planeL t) planeW).
  { intros t H. change (strain_rate (planeL t) planeW (cauchy_green_rate (plane t) H)) with (rate (planeL t) planeW (cauchy_green_rate (plane t) H)). rewrite rate_adjoint. unfold P, pk2. generalize (rate (planeL t) planeW shear5), (plane t). intros N F.
    unfold InnerProduct, msum, cauchy_green_rate, mmul. cbn [sig tsum]. ring. }
  exists P, PK1, A. split; [exact T|]. split; [exact CJ|].
  apply (C201_tangent_partial (fun _ => (lam114, mident)) (fun _ => (shear5, mzero)) mzero plane plane' planeL (fun _ => planeW) (fun _ => shear5) P PK1 A C199_plane_motion E PO S G); try exact CJ; try exact T; cbn [fst snd].
  - intros H. cbn in *. lra.
  - reflexivity.
  - intros a b Ha Hb. destruct a as [|[|[|a]]], b as [|[|[|b]]]; try lia; reflexivity.
  - intros a b c d _ _ _ _. reflexivity.
  - intros a b Ha Hb. replace (tm_prod 3 mzero _ a b) with 0; [apply derivable_pt_lim_const|]. rewrite tm_prod_at by assumption. symmetry. apply sig_zero. intros c _. apply sig_zero. intros d _. rewrite rd_mzero. ring.
Qed.

(** ** C202: plane problems *)
Definition mderiv2 (A : R -> mtx) (A' : mtx) : Prop := forall a b, (a < 2)%nat -> (b < 2)%nat -> derivable_pt_lim (fun t => A t a b) 0 (A' a b).
Lemma whole2_inv ev law Fi F tm PK1 A : compute_whole2 ev law Fi F tm = Ok (PK1, A) ->
  exists PK3 A3, compute_whole3D ev law Fi (convertMatrix3DwithOne F) tm = Ok (PK3, A3) /\ PK1 = convertMatrix PK3 /\ A = convertTensor2 A3.
Proof. unfold compute_whole2. destruct (compute_whole3D _ _ _ _ _) as [[p a]|e|] eqn:E; try discriminate. intros R. injection R as <- <-. now exists p, a. Qed.
Lemma det_plane F : det3 (convertMatrix3DwithOne F) = F 0%nat 0%nat * F 1%nat 1%nat - F 0%nat 1%nat * F 1%nat 0%nat.
Proof. unfold det3, minor3, convertMatrix3DwithOne, set_block, mident. cbn. ring. Qed.
Theorem C202_throws : forall eigenvalues law inv_F F tm, let J := F 0%nat 0%nat * F 1%nat 1%nat - F 0%nat 1%nat * F 1%nat 0%nat in
  (J <= 1 / 100 -> compute_whole2 eigenvalues law inv_F F tm = Throw InvalidArgument) /\
  (1 / 100 < J -> exists PK1 A, compute_whole2 eigenvalues law inv_F F tm = Ok (PK1, A)).
Proof.
  intros ev law Fi F tm J. destruct (C200_throws ev law Fi (convertMatrix3DwithOne F) tm) as (H1 & H2). rewrite det_plane in H1, H2. fold J in H1, H2. unfold compute_whole2. split; intros H.
  - now rewrite (H1 H).
  - destruct (H2 H) as (p & a & ->). eexists. eexists. reflexivity.
Qed.
(** The plane stress and tangent are the ones of the motion that keeps the third direction fixed;
    the tangent is the derivative of the plane stress.  Missing: as in [C201_tangent_partial]. *)
Theorem C202_tangent_partial : forall eigenvalues law inv_F F F' L W T P PK1 A,
  let F3 := fun t => convertMatrix3DwithOne (F t) in
  let C := convertFtoCauchyGreenRight 3 (F3 0) in let lam := fst (eigenvalues C) in let V := snd (eigenvalues C) in
  let Tn := fst (law (compute_Elog lam V)) in let D := snd (law (compute_Elog lam V)) in
  motion F3 (convertMatrix3D F') L W -> eigen C lam V -> positive lam -> separated lam -> last_two_apart lam -> ends_apart lam ->
  T 0 = Tn -> symmetric Tn -> major D -> mderiv T (tm_prod 3 D (strain_rate lam V (cauchy_green_rate (F3 0) (convertMatrix3D F')))) ->
  (forall t, conjugate (P t) (T t) (F3 t) (L t) (W t)) ->
  compute_whole2 eigenvalues law inv_F (F 0) true = Ok (PK1, A) ->
  meq 2 (P 0) PK1 /\ mderiv2 P (tm_prod 2 A F').
Proof.
  intros ev law Fi F F' L W T P PK1 A F3 C lam V Tn D M EV PO S G1 G2 T0 ST MD HT CJ R.
  destruct (whole2_inv _ _ _ _ _ _ _ R) as (p & a & R3 & -> & ->).
  destruct (C201_tangent_partial ev law Fi F3 (convertMatrix3D F') L W T P p a M EV PO S G1 G2 T0 ST MD HT CJ R3) as (B & X). split.
  - intros i j Hi Hj. rewrite (B i j ltac:(lia) ltac:(lia)). reflexivity.
  - intros i j Hi Hj. destruct (C36_plane_conversions a F') as (_ & _ & _ & _ & Y). rewrite (Y i j Hi Hj). exact (X i j ltac:(lia) ltac:(lia)).
Qed.
(** the plane stress balances moments *)
Theorem C202_moments : forall eigenvalues law inv_F F tm PK1 A, compute_whole2 eigenvalues law inv_F F tm = Ok (PK1, A) -> meq 2 (mmul 2 PK1 (mtr F)) (mmul 2 F (mtr PK1)).
Proof.
  intros ev law Fi F tm PK1 A R. destruct (whole2_inv _ _ _ _ _ _ _ R) as (p & a & R3 & -> & ->). intros i j Hi Hj. pose proof (C200_moments _ _ _ _ _ _ _ R3 i j ltac:(lia) ltac:(lia)) as H.
  destruct i as [|[|]]; [| |lia]; (destruct j as [|[|]]; [| |lia]); unfold mmul, mtr, convertMatrix, get_block, convertMatrix3DwithOne, set_block, mident in *; cbn in *; lra.
Qed.
(** a plane shear with two equal eigenvalues below one meets the hypotheses *)
Definition half (t : R) : mtx := fun i j => match i, j with 0%nat, 0%nat => 1 / 2 | 1%nat, 1%nat => 1 / 2 | 0%nat, 1%nat => t | 1%nat, 0%nat => t | _, _ => 0 end.
Definition halfL (t : R) : nat -> R := fun i => match i with 0%nat => (1 / 2 + t) * (1 / 2 + t) | 1%nat => (1 / 2 - t) * (1 / 2 - t) | _ => 1 end.
Definition lamh : nat -> R := fun i => match i with 0%nat | 1%nat => 1 / 4 | _ => 1 end.
Definition half3 (t : R) : mtx := convertMatrix3DwithOne (half t).
Lemma half_motion : motion half3 (convertMatrix3D plane') halfL (fun _ => planeW).
Proof.
  split; [|split; [|split]].
  - intros a b Ha Hb. destruct a as [|[|[|a]]], b as [|[|[|b]]]; try lia; unfold half3, convertMatrix3DwithOne, convertMatrix3D, set_block, mident, mzero; cbn; first [apply derivable_pt_lim_const|apply d_id].
  - intros t. split.
    + intros i j Hi Hj. unfold delta. pose proof s2_sq. destruct i as [|[|[|i]]], j as [|[|[|j]]]; try lia; cbn [sig Nat.eqb planeW]; split; lra.
    + intros a b Ha Hb. pose proof s2_sq as E. unfold cauchy_green, mmul, mtr, half3, convertMatrix3DwithOne, set_block, mident.
      destruct a as [|[|[|a]]], b as [|[|[|b]]]; try lia; cbn [sig planeL planeW halfL half Nat.eqb Nat.leb Nat.ltb Nat.sub Nat.add andb]; try ring;
      match goal with |- ?l = ?r => field_simplify l; field_simplify r end; replace (s2 ^ 2) with (/ 2) by (rewrite <- E; ring); field.
  - exists mzero. intros a b Ha Hb. apply derivable_pt_lim_const.
  - intros i Hi. destruct i as [|[|[|i]]]; try lia; cbn [halfL].
    + exists ((0 + 1) * (1 / 2 + 0) + (1 / 2 + 0) * (0 + 1)). apply (derivable_pt_lim_mult (fun t => 1 / 2 + t) (fun t => 1 / 2 + t)); apply (derivable_pt_lim_plus (fun _ => 1 / 2) (fun t => t)); first [apply derivable_pt_lim_const|apply d_id].
    + exists ((0 - 1) * (1 / 2 - 0) + (1 / 2 - 0) * (0 - 1)). apply (derivable_pt_lim_mult (fun t => 1 / 2 - t) (fun t => 1 / 2 - t)); apply (derivable_pt_lim_minus (fun _ => 1 / 2) (fun t => t)); first [apply derivable_pt_lim_const|apply d_id].
    + exists 0. apply derivable_pt_lim_const.
Qed.
Lemma almost_far2 x y : 3 / 4 <= Rabs (x - y) -> Rabs (x + y) <= 5 -> almost_equal x y = false.
Proof.
  intros H1 H2. unfold almost_equal.
  assert (B : / 2 ^ 52 <= / 16). { apply Rinv_le_contravar; [lra|]. replace (2 ^ 52) with (16 * 2 ^ 48) by ring. pose proof (pow_R1_Rle 2 48 ltac:(lra)). lra. }
  assert (B2 : / 2 ^ 1022 <= / 2). { apply Rinv_le_contravar; [lra|]. change (2 ^ 1022) with (2 * 2 ^ 1021). pose proof (pow_R1_Rle 2 1021 ltac:(lra)). lra. }
  destruct (Rle_dec _ _) as [A|_]; [exfalso|]. { pose proof (Rabs_pos (x + y)). nra. }
  destruct (Rlt_dec _ _) as [A|_]; [exfalso; lra|reflexivity].
Qed.
Example C202_half : exists P PK1 A,
  compute_whole2 (fun _ => (lamh, mident)) (fun _ => (shear5, mzero)) mzero (half 0) true = Ok (PK1, A) /\
  (forall t, conjugate (P t) shear5 (half3 t) (halfL t) planeW) /\ mderiv2 P (tm_prod 2 A plane').
Proof.
  destruct (C202_throws (fun _ => (lamh, mident)) (fun _ => (shear5, mzero)) mzero (half 0) true) as (_ & T). destruct T as (PK1 & A & T); [cbn [half]; lra|].
  pose (P := fun t => mmul 3 (half3 t) (pk2 (halfL t) planeW shear5)).
  assert (CJ : forall t, conjugate (P t) shear5 (half3 t) (halfL t) planeW).
  { intros t H. change (strain_rate (halfL t) planeW (cauchy_green_rate (half3 t) H)) with (rate (halfL t) planeW (cauchy_green_rate (half3 t) H)). rewrite rate_adjoint. unfold P, pk2. generalize (rate (halfL t) planeW shear5), (half3 t). intros N F.
    unfold InnerProduct, msum, cauchy_green_rate, mmul. cbn [sig tsum]. ring. }
  exists P, PK1, A. split; [exact T|]. split; [exact CJ|].
  apply (C202_tangent_partial (fun _ => (lamh, mident)) (fun _ => (shear5, mzero)) mzero half plane' halfL (fun _ => planeW) (fun _ => shear5) P PK1 A half_motion); try exact CJ; try exact T; cbn [fst snd].
  - split; [exact orth_id|]. intros a b Ha Hb. unfold convertFtoCauchyGreenRight, mprod, mtransp, convertMatrix3DwithOne, set_block, mident. destruct a as [|[|[|a]]], b as [|[|[|b]]]; try lia; cbn; field.
  - intros i Hi. destruct i as [|[|i]]; cbn; lra.
  - intros i j Hi Hj. destruct i as [|[|i]], j as [|[|j]]; cbn; first [now left|right; apply almost_far2; split_Rabs; lra].
  - intros H. cbn in *. lra.
  - intros H. cbn in *. lra.
  - reflexivity.
  - intros a b Ha Hb. destruct a as [|[|[|a]]], b as [|[|[|b]]]; try lia; reflexivity.
  - intros a b c d _ _ _ _. reflexivity.
  - intros a b Ha Hb. replace (tm_prod 3 mzero _ a b) with 0; [apply derivable_pt_lim_const|]. rewrite tm_prod_at by assumption. symmetry. apply sig_zero. intros c _. apply sig_zero. intros d _. rewrite rd_mzero. ring.
Qed.
Print Assumptions C201_rate.
Print Assumptions C201_stress_partial.
Print Assumptions C201_tangent_partial.
Print Assumptions C202_throws.
Print Assumptions C202_tangent_partial.
Print Assumptions C202_moments.
Print Assumptions C201_stress_refuted.
