(** The logarithmic strain: coefficients (C198), derivative of the strain and power of the stress (C199), balance of moments and objectivity (C200). *)
From Coq Require Import Reals List Arith Lra Lia FunctionalExtensionality.
From Verif Require Import Common Tensor_Model Tensor_Spec Tensor_Proofs Law_Model Log_Model Log_Spec Log_Proofs.
Import ListNotations.
Local Open Scope R_scope.

(** ** C198 *)
(** The full claim: theta, xi and eta are the first and second divided differences of half the
    logarithm.  Missing: the case where the last two eigenvalues coincide alone (false, see below)
    and, for eta, where the first and the last do. *)
Theorem C198_coefficients_partial : forall lam, separated lam -> positive lam -> last_two_apart lam ->
  let '(theta, xi, eta) := compute_coefficient lam (compute_ei lam) (compute_di lam) (compute_fi lam) in
  (forall i j, (i < 3)%nat -> (j < 3)%nat -> i <> j -> theta i j = dd1 (lam i) (lam j) /\ xi i j = dd2 (lam i) (lam j) (lam j)) /\
  ((lam 0%nat = lam 2%nat -> lam 0%nat = lam 1%nat) -> eta = dd2 (lam 0%nat) (lam 1%nat) (lam 2%nat)).
Proof.
  intros lam S P G. pose proof (theta_ok lam S P G) as H. unfold code_coef in H. destruct (compute_coefficient lam (compute_ei lam) (compute_di lam) (compute_fi lam)) as [[th x] e]. exact H.
Qed.
Lemma almost_far x y : 1 <= Rabs (x - y) -> Rabs (x + y) <= 5 -> almost_equal x y = false.
Proof.
  intros H1 H2. unfold almost_equal.
  assert (B : / 2 ^ 52 <= / 16). { apply Rinv_le_contravar; [lra|]. replace (2 ^ 52) with (16 * 2 ^ 48) by (rewrite <- (pow_add 2 4 48) || ring). pose proof (pow_R1_Rle 2 48 ltac:(lra)). lra. }
  assert (B2 : / 2 ^ 1022 <= / 2). { apply Rinv_le_contravar; [lra|]. change (2 ^ 1022) with (2 * 2 ^ 1021). pose proof (pow_R1_Rle 2 1021 ltac:(lra)). lra. }
  destruct (Rle_dec _ _) as [A|_]; [exfalso|]. { pose proof (Rabs_pos (x + y)). nra. }
  destruct (Rlt_dec _ _) as [A|_]; [exfalso; lra|reflexivity].
Qed.
Definition lam144 : nat -> R := fun i => match i with 0%nat => 1 | _ => 4 end.
Lemma lam144_sep : separated lam144 /\ positive lam144.
Proof.
  split.
  - intros i j Hi Hj. destruct i as [|i], j as [|j]; cbn; [now left| | |now left]; right; apply almost_far; split_Rabs; lra.
  - intros i Hi. destruct i; cbn; lra.
Qed.
Lemma case144 : selectCase lam144 = TWO_EQUAL12.
Proof. unfold selectCase. cbn [lam144]. rewrite (almost_far 1 4), (almost_refl 4) by first [lra|split_Rabs; lra]. reflexivity. Qed.
Theorem C198_coefficients_refuted : ~ (forall lam, separated lam -> positive lam ->
  let '(theta, xi, eta) := compute_coefficient lam (compute_ei lam) (compute_di lam) (compute_fi lam) in
  forall i j, (i < 3)%nat -> (j < 3)%nat -> i <> j -> theta i j = dd1 (lam i) (lam j) \/ xi i j = dd2 (lam i) (lam j) (lam j)).
Proof.
  intros H. destruct lam144_sep as (S & P). specialize (H lam144 S P). unfold compute_coefficient in H. rewrite case144 in H. unfold compute_two_equal in H.
  specialize (H 1%nat 2%nat ltac:(lia) ltac:(lia) ltac:(lia)). unfold dd2, dd1, hlog', hlog2 in H. cbn [off lam144] in H. unfold compute_di, compute_fi in H. cbn [lam144] in H. destruct (Req_EM_T 4 4) as [_|]; [|lra]. destruct H as [H|H]; lra.
Qed.

(** ** C199 *)
(** the strain does not depend on the eigenvectors that were found *)
Theorem C199_strain_unique : forall C lam V L W, eigen C lam V -> eigen C L W -> meq 3 (compute_Elog lam V) (compute_Elog L W).
Proof.
  intros C lam V L W EV EW a b Ha Hb.
  assert (X : forall lam V, eigen C lam V -> compute_Elog lam V a b = recompose V (fun p q => (hlog (lam p) + hlog (lam q)) / 2) (frame V mident) a b).
  { clear. intros lam V (O & _). unfold recompose. rewrite Elog_form. unfold form. apply sig_ext. intros i Hi.
    rewrite (sig_ext 3 _ (fun j => delta i j * ((hlog (lam i) + hlog (lam j)) / 2 * V a i * V b j))).
    - rewrite sig_delta' by exact Hi. field.
    - intros j Hj. replace (frame V mident i j) with (delta i j); [ring|]. rewrite <- (proj1 (O i j Hi Hj)). unfold frame, mident. cbn [sig Nat.eqb]. ring. }
  rewrite (X lam V EV), (X L W EW). exact (change_frame C V lam W L (fun x y => (hlog x + hlog y) / 2) mident EV EW a b Ha Hb).
Qed.
(** The full claim: the projector maps the rate of the deformation gradient to the rate of the
    logarithmic strain.  Missing: the case where the last two eigenvalues coincide alone (false, see below). *)
Theorem C199_projector_partial : forall F F' L W lam V inv_F T tl, motion F F' L W -> eigen (cauchy_green (F 0)) lam V -> positive lam -> separated lam -> last_two_apart lam ->
  mderiv (fun t => compute_Elog (L t) (W t)) (tm_prod 3 (fst (compute_projector (F 0) inv_F T lam V tl)) F').
Proof.
  intros F F' L W lam V Fi T tl (HF & E & (W' & HW) & HL) EV P S G.
  assert (HL' : exists L', forall i, (i < 3)%nat -> derivable_pt_lim (fun t => L t i) 0 (L' i)).
  { destruct (HL 0%nat ltac:(lia)) as (l0 & H0), (HL 1%nat ltac:(lia)) as (l1 & H1), (HL 2%nat ltac:(lia)) as (l2 & H2). exists (fun i => match i with 0%nat => l0 | 1%nat => l1 | _ => l2 end).
    intros [|[|[|i]]] Hi; [exact H0|exact H1|exact H2|lia]. }
  destruct HL' as (L' & HL'). intros a b Ha Hb. rewrite projector_apply by assumption.
  rewrite (recompose_ext V _ _ _ a b (Theta_dd1 lam S P G)).
  exact (strain_deriv (fun t => cauchy_green (F t)) _ L L' W W' lam V (green_deriv F F' HF) E HW HL' EV P a b Ha Hb).
Qed.
(** the same with the Cauchy-Green tensor as variable: the second projector is twice the derivative *)
Theorem C199_projector_pk2_partial : forall C C' L W lam V T tl, mderiv C C' -> (forall t, eigen (C t) (L t) (W t)) -> (exists W', mderiv W W') ->
  (exists L', forall i, (i < 3)%nat -> derivable_pt_lim (fun t => L t i) 0 (L' i)) -> eigen (C 0) lam V -> positive lam -> separated lam -> last_two_apart lam ->
  mderiv (fun t => compute_Elog (L t) (W t)) (mscal (1 / 2) (tm_prod 3 (fst (compute_projector_PK2 T lam V tl)) C')).
Proof.
  intros C C' L W lam V T tl HC E (W' & HW) (L' & HL) EV P S G a b Ha Hb.
  assert (SY : forall i j, (i < 3)%nat -> (j < 3)%nat -> C' i j = C' j i).
  { intros i j Hi Hj. apply (uniqueness_limite (fun t => C t i j) 0); [now apply HC|]. intros eps He. destruct (HC j i Hj Hi eps He) as (d & Hd). exists d. intros h N Hh.
    assert (X : forall t, C t i j = C t j i) by (intros t; rewrite (proj2 (E t) i j Hi Hj), (proj2 (E t) j i Hj Hi); apply sig_ext; intros; ring). rewrite !X. now apply Hd. }
  unfold mscal. rewrite projector2_apply by assumption. rewrite (recompose_ext V _ _ _ a b (Theta_dd1 lam S P G)).
  replace (1 / 2 * (2 * recompose V (fun i j => dd1 (lam i) (lam j)) (frame V C') a b)) with (recompose V (fun i j => dd1 (lam i) (lam j)) (frame V C') a b) by field.
  exact (strain_deriv C C' L L' W W' lam V HC E HW HL EV P a b Ha Hb).
Qed.

(** a shear of the plane of the two equal eigenvalues *)
Definition shear (t : R) : mtx := fun i j => match i, j with 0%nat, 0%nat => 1 | 1%nat, 1%nat => 2 | 2%nat, 2%nat => 2 | 1%nat, 2%nat => t | 2%nat, 1%nat => t | _, _ => 0 end.
Definition shear' : mtx := fun i j => match i, j with 1%nat, 2%nat => 1 | 2%nat, 1%nat => 1 | _, _ => 0 end.
Definition shearL (t : R) : nat -> R := fun i => match i with 0%nat => 1 | 1%nat => (2 + t) * (2 + t) | _ => (2 - t) * (2 - t) end.
Definition s2 : R := / sqrt 2.
Definition shearW : mtx := fun i j => match i, j with 0%nat, 0%nat => 1 | 1%nat, 1%nat => s2 | 2%nat, 1%nat => s2 | 1%nat, 2%nat => s2 | 2%nat, 2%nat => - s2 | _, _ => 0 end.
Lemma s2_sq : s2 * s2 = / 2. Proof. unfold s2. rewrite <- Rinv_mult. f_equal. apply sqrt_sqrt. lra. Qed.
Lemma orth_id : orthonormal mident.
Proof. intros i j Hi Hj. unfold mident, delta. destruct i as [|[|[|i]]], j as [|[|[|j]]]; try lia; cbn [sig Nat.eqb]; split; ring. Qed.
Lemma orth_shear : orthonormal shearW.
Proof. intros i j Hi Hj. unfold delta. pose proof s2_sq. destruct i as [|[|[|i]]], j as [|[|[|j]]]; try lia; cbn [sig Nat.eqb shearW]; split; lra. Qed.
Lemma d_id x : derivable_pt_lim (fun t => t) x 1. Proof. exact (derivable_pt_lim_id x). Qed.
Lemma shear_motion : motion shear shear' shearL (fun _ => shearW).
Proof.
  split; [|split; [|split]].
  - intros a b Ha Hb. destruct a as [|[|[|a]]], b as [|[|[|b]]]; try lia; cbn [shear shear']; first [apply derivable_pt_lim_const|apply d_id].
  - intros t. split; [exact orth_shear|]. intros a b Ha Hb. pose proof s2_sq as E. unfold cauchy_green, mmul, mtr.
    destruct a as [|[|[|a]]], b as [|[|[|b]]]; try lia; cbn [sig shear shearL shearW]; try ring; 
    match goal with |- _ = ?r => ring_simplify; ring_simplify r end; replace (s2 ^ 2) with (/ 2) by (rewrite <- E; ring); field.
  - exists mzero. intros a b Ha Hb. apply derivable_pt_lim_const.
  - intros i Hi. destruct i as [|[|[|i]]]; try lia; cbn [shearL].
    + exists 0. apply derivable_pt_lim_const.
    + exists ((0 + 1) * (2 + 0) + (2 + 0) * (0 + 1)). apply (derivable_pt_lim_mult (fun t => 2 + t) (fun t => 2 + t)); apply (derivable_pt_lim_plus (fun _ => 2) (fun t => t)); first [apply derivable_pt_lim_const|apply d_id].
    + exists ((0 - 1) * (2 - 0) + (2 - 0) * (0 - 1)). apply (derivable_pt_lim_mult (fun t => 2 - t) (fun t => 2 - t)); apply (derivable_pt_lim_minus (fun _ => 2) (fun t => t)); first [apply derivable_pt_lim_const|apply d_id].
Qed.
Lemma shear_eigen : eigen (cauchy_green (shear 0)) lam144 mident.
Proof.
  split; [exact orth_id|]. intros a b Ha Hb. unfold cauchy_green, mmul, mtr, mident. destruct a as [|[|[|a]]], b as [|[|[|b]]]; try lia; cbn [sig shear lam144 Nat.eqb]; ring.
Qed.
Lemma rec_id G B : recompose mident G B 1%nat 2%nat = G 1%nat 2%nat * B 1%nat 2%nat.
Proof. unfold recompose, mident. cbn [sig Nat.eqb]. ring. Qed.
Theorem C199_projector_refuted : ~ (forall F F' L W lam V inv_F T tl, motion F F' L W -> eigen (cauchy_green (F 0)) lam V -> positive lam -> separated lam ->
  mderiv (fun t => compute_Elog (L t) (W t)) (tm_prod 3 (fst (compute_projector (F 0) inv_F T lam V tl)) F')).
Proof.
  intros H. destruct lam144_sep as (S & P). specialize (H shear shear' shearL (fun _ => shearW) lam144 mident mzero mzero false shear_motion shear_eigen P S).
  destruct shear_motion as (HF & E & (W' & HW) & HL).
  assert (HL' : exists L', forall i, (i < 3)%nat -> derivable_pt_lim (fun t => shearL t i) 0 (L' i)).
  { destruct (HL 0%nat ltac:(lia)) as (l0 & H0), (HL 1%nat ltac:(lia)) as (l1 & H1), (HL 2%nat ltac:(lia)) as (l2 & H2). exists (fun i => match i with 0%nat => l0 | 1%nat => l1 | _ => l2 end).
    intros [|[|[|i]]] Hi; [exact H0|exact H1|exact H2|lia]. }
  destruct HL' as (L' & HL'). pose proof (strain_deriv _ _ shearL L' (fun _ => shearW) W' lam144 mident (green_deriv shear shear' HF) E HW HL' shear_eigen P) as D.
  pose proof (uniqueness_limite _ _ _ _ (H 1%nat 2%nat ltac:(lia) ltac:(lia)) (D 1%nat 2%nat ltac:(lia) ltac:(lia))) as X. rewrite projector_apply in X by lia. rewrite !rec_id in X.
  assert (B : frame mident (green_rate (shear 0) shear') 1%nat 2%nat = 4). { unfold frame, green_rate, mident. cbn [sig shear shear' Nat.eqb]. ring. }
  rewrite B in X. unfold Theta, code_coef, compute_coefficient in X. rewrite case144 in X. cbn [Nat.eqb compute_two_equal theta_of fst snd off] in X. unfold dd1, hlog', compute_di in X. cbn [lam144] in X. destruct (Req_EM_T 4 4) as [_|]; lra.
Qed.

(** the power of the stress: exact under the same guard, and for every strain when the stress has
    the eigenvectors of the strain (isotropic laws) *)
Lemma power_form T V G B : InnerProduct 3 T (recompose V G B) = sig 3 (fun i => sig 3 (fun j => frame V T i j * (G i j * B i j))).
Proof. unfold InnerProduct, msum, recompose, frame. cbn [sig tsum]. ring. Qed.
Lemma inner_ext T A B : meq 3 A B -> InnerProduct 3 T A = InnerProduct 3 T B.
Proof. intros E. unfold InnerProduct, msum. cbn [tsum]. rewrite !E by lia. reflexivity. Qed.
Lemma left_power T P F' : InnerProduct 3 (tm_prod_left 3 T P) F' = InnerProduct 3 T (tm_prod 3 P F').
Proof.
  unfold InnerProduct, msum. cbn [tsum]. rewrite !tm_prod_left_at, !tm_prod_at by lia. cbn [sig]. ring.
Qed.
Theorem C199_power_partial : forall eigenvalues law inv_F F F' L W tm PK1 A E',
  let C := convertFtoCauchyGreenRight 3 (F 0) in let lam := fst (eigenvalues C) in let V := snd (eigenvalues C) in let T := fst (law (compute_Elog lam V)) in
  motion F F' L W -> eigen C lam V -> positive lam -> (separated lam /\ last_two_apart lam) \/ coaxial T V ->
  compute_whole3D eigenvalues law inv_F (F 0) tm = Ok (PK1, A) -> mderiv (fun t => compute_Elog (L t) (W t)) E' ->
  InnerProduct 3 PK1 F' = InnerProduct 3 T E'.
Proof.
  intros ev law Fi F F' L W tm PK1 A E' C lam V T M EV P G R D.
  assert (EV' : eigen (cauchy_green (F 0)) lam V).
  { destruct EV as (O & X). split; [exact O|]. intros a b Ha Hb. rewrite <- (X a b Ha Hb). unfold C, convertFtoCauchyGreenRight, mprod, mtransp, cauchy_green, mmul, mtr. reflexivity. }
  assert (RP : PK1 = tm_prod_left 3 T (fst (compute_projector (F 0) Fi T lam V false))).
  { unfold compute_whole3D in R. destruct (Rle_dec (det3 (F 0)) (1 / 100)); [discriminate|]. destruct tm; cbn [negb] in R; injection R as R1 R2; rewrite <- R1; reflexivity. }
  rewrite RP, left_power. clear R RP. destruct G as [(S & G)|CO].
  - apply inner_ext. pose proof (C199_projector_partial F F' L W lam V Fi T false M EV' P S G) as D2. intros a b Ha Hb. exact (uniqueness_limite _ _ _ _ (D2 a b Ha Hb) (D a b Ha Hb)).
  - destruct M as (HF & E & (W' & HW) & HL).
    assert (HL' : exists L', forall i, (i < 3)%nat -> derivable_pt_lim (fun t => L t i) 0 (L' i)).
    { destruct (HL 0%nat ltac:(lia)) as (l0 & H0), (HL 1%nat ltac:(lia)) as (l1 & H1), (HL 2%nat ltac:(lia)) as (l2 & H2). exists (fun i => match i with 0%nat => l0 | 1%nat => l1 | _ => l2 end).
      intros [|[|[|i]]] Hi; [exact H0|exact H1|exact H2|lia]. }
    destruct HL' as (L' & HL'). pose proof (strain_deriv _ _ L L' W W' lam V (green_deriv F F' HF) E HW HL' EV' P) as D2.
    rewrite (inner_ext T _ (recompose V (Theta lam) (frame V (green_rate (F 0) F')))) by (intros a b Ha Hb; now apply projector_apply).
    rewrite (inner_ext T E' (recompose V (fun p q => dd1 (lam p) (lam q)) (frame V (green_rate (F 0) F')))) by (intros a b Ha Hb; exact (uniqueness_limite _ _ _ _ (D a b Ha Hb) (D2 a b Ha Hb))).
    rewrite !power_form. apply sig9. intros i j Hi Hj. destruct (Nat.eq_dec i j) as [->|N]; [|assert (Z : frame V T i j = 0) by exact (CO i j Hi Hj N); rewrite Z; ring].
    unfold Theta, dd1, compute_di, hlog'. rewrite Nat.eqb_refl. destruct (Req_EM_T _ _); [|congruence]. pose proof (P j Hj). field. lra.
Qed.

(** ** C200 *)
Theorem C200_throws : forall eigenvalues law inv_F F tm, (det3 F <= 1 / 100 -> compute_whole3D eigenvalues law inv_F F tm = Throw InvalidArgument) /\
  (1 / 100 < det3 F -> exists PK1 A, compute_whole3D eigenvalues law inv_F F tm = Ok (PK1, A)).
Proof.
  intros ev law Fi F tm. unfold compute_whole3D. destruct (Rle_dec (det3 F) (1 / 100)) as [L|L]; split; intros H; [reflexivity|lra|lra|]. destruct tm; cbn [negb]; eexists; eexists; reflexivity.
Qed.
Lemma whole_stress ev law Fi F tm PK1 A : compute_whole3D ev law Fi F tm = Ok (PK1, A) ->
  PK1 = tm_prod_left 3 (fst (law (compute_Elog (fst (ev (convertFtoCauchyGreenRight 3 F))) (snd (ev (convertFtoCauchyGreenRight 3 F))))))
    (fst (compute_projector F Fi (fst (law (compute_Elog (fst (ev (convertFtoCauchyGreenRight 3 F))) (snd (ev (convertFtoCauchyGreenRight 3 F)))))) (fst (ev (convertFtoCauchyGreenRight 3 F))) (snd (ev (convertFtoCauchyGreenRight 3 F))) false)).
Proof. unfold compute_whole3D. destruct (Rle_dec (det3 F) (1 / 100)); [discriminate|]. destruct tm; cbn [negb]; intros R; injection R as R1 R2; rewrite <- R1; reflexivity. Qed.
(** the first Piola-Kirchhoff stress is F times a tensor that depends only on T, lam and V *)
Definition second (T : mtx) (lam : vec) (V : mtx) : mtx := fun a l => sig 3 (fun i => sig 3 (fun j => frame V T i j * Theta lam i j * (V a i * V l j + V a j * V l i))).
Lemma stress_form T F Fi lam V k l : (k < 3)%nat -> (l < 3)%nat ->
  tm_prod_left 3 T (fst (compute_projector F Fi T lam V false)) k l = sig 3 (fun a => F k a * second T lam V a l).
Proof.
  intros Hk Hl. rewrite tm_prod_left_at by assumption.
  transitivity (sig 3 (fun p => sig 3 (fun q => T p q * sig 3 (fun i => sig 3 (fun j => Theta lam i j * V p i * V q j * compute_Mij (compute_Ni V) (compute_ni F (compute_Ni V)) i j k l))))); [apply sig9; intros p q Hp Hq; rewrite projector_at by assumption; reflexivity|].
  transitivity (sig 3 (fun i => sig 3 (fun j => frame V T i j * Theta lam i j * compute_Mij (compute_Ni V) (compute_ni F (compute_Ni V)) i j k l))).
  { unfold frame. generalize (Theta lam), (compute_Mij (compute_Ni V) (compute_ni F (compute_Ni V))). intros G M. cbn [sig]. ring. }
  unfold second, compute_Mij, compute_ni, compute_Ni. generalize (frame V T), (Theta lam). intros Z G. cbn [sig tsum]. ring.
Qed.
Lemma second_sym T lam V a b : second T lam V a b = second T lam V b a.
Proof. unfold second. apply sig9. intros i j Hi Hj. ring. Qed.
(** the balance of moments: PK1 F^T is symmetric, whatever the law, the eigenvectors and the case *)
Theorem C200_moments : forall eigenvalues law inv_F F tm PK1 A, compute_whole3D eigenvalues law inv_F F tm = Ok (PK1, A) ->
  meq 3 (mmul 3 PK1 (mtr F)) (mmul 3 F (mtr PK1)).
Proof.
  intros ev law Fi F tm PK1 A R a b Ha Hb. apply whole_stress in R. set (lam := fst (ev _)) in R. set (V := snd (ev _)) in R. set (T := fst (law _)) in R.
  unfold mmul, mtr. rewrite R.
  transitivity (sig 3 (fun k => sig 3 (fun c => F a c * second T lam V c k) * F b k)); [apply sig_ext; intros k Hk; now rewrite stress_form by assumption|].
  transitivity (sig 3 (fun k => F a k * sig 3 (fun c => F b c * second T lam V c k))); [|apply sig_ext; intros k Hk; now rewrite stress_form by assumption].
  cbn [sig]. rewrite (second_sym T lam V 1 0), (second_sym T lam V 2 0), (second_sym T lam V 2 1). ring.
Qed.
(** a rotation of the deformed body rotates the stress *)
Lemma green_rotated Q F : orthonormal Q -> convertFtoCauchyGreenRight 3 (mmul 3 Q F) = convertFtoCauchyGreenRight 3 F.
Proof.
  intros O. unfold convertFtoCauchyGreenRight, mprod, mtransp, mmul. apply functional_extensionality. intros a. apply functional_extensionality. intros b.
  transitivity (sig 3 (fun m => sig 3 (fun n => F m a * F n b * sig 3 (fun k => Q k m * Q k n)))); [cbn [sig tsum]; ring|].
  transitivity (sig 3 (fun m => sig 3 (fun n => F m a * F n b * delta m n))); [apply sig9; intros m n Hm Hn; now rewrite (proj1 (O m n Hm Hn))|].
  unfold delta. cbn [sig tsum Nat.eqb]. ring.
Qed.
Theorem C200_objective : forall eigenvalues law inv_F inv_QF F Q PK1 A, orthonormal Q -> det3 Q = 1 -> compute_whole3D eigenvalues law inv_F F false = Ok (PK1, A) ->
  exists PK1', compute_whole3D eigenvalues law inv_QF (mmul 3 Q F) false = Ok (PK1', A) /\ meq 3 PK1' (mmul 3 Q PK1).
Proof.
  intros ev law Fi Fi' F Q PK1 A O D R.
  assert (DQ : det3 (mmul 3 Q F) = det3 F). { transitivity (det3 Q * det3 F); [unfold det3, minor3, mmul; cbn; ring|rewrite D; ring]. }
  pose proof (whole_stress _ _ _ _ _ _ _ R) as RP. unfold compute_whole3D in R |- *. rewrite DQ, (green_rotated Q F O). destruct (Rle_dec (det3 F) (1 / 100)); [discriminate|]. cbn [negb] in *.
  injection R as R1 R2. eexists. split; [rewrite R2; reflexivity|]. intros a b Ha Hb. rewrite RP.
  set (lam := fst (ev _)). set (V := snd (ev _)). set (T := fst (law _)). rewrite stress_form by assumption. unfold mmul.
  transitivity (sig 3 (fun k => Q a k * sig 3 (fun c => F k c * second T lam V c b))); [cbn [sig]; ring|]. apply sig_ext. intros k Hk. now rewrite stress_form by assumption.
Qed.
(** when T has the eigenvectors of the strain, PK1 = F V diag(T_i / lam_i) V^T, in every case of the code *)
Theorem C200_principal : forall eigenvalues law inv_F F tm PK1 A, let C := convertFtoCauchyGreenRight 3 F in let lam := fst (eigenvalues C) in let V := snd (eigenvalues C) in
  let T := fst (law (compute_Elog lam V)) in positive lam -> coaxial T V -> compute_whole3D eigenvalues law inv_F F tm = Ok (PK1, A) ->
  forall k l, (k < 3)%nat -> (l < 3)%nat ->
  PK1 k l = sig 3 (fun a => F k a * sig 3 (fun i => V a i * (sig 3 (fun p => sig 3 (fun q => V p i * T p q * V q i)) / lam i) * V l i)).
Proof.
  intros ev law Fi F tm PK1 A C lam V T P CO R k l Hk Hl. rewrite (whole_stress _ _ _ _ _ _ _ R). fold C. fold lam V. fold T. rewrite stress_form by assumption. apply sig_ext. intros a Ha. f_equal.
  unfold second. apply sig_ext. intros i Hi. change (sig 3 (fun p => sig 3 (fun q => V p i * T p q * V q i))) with (frame V T i i).
  rewrite (sig_ext 3 _ (fun j => delta i j * (V a j * (frame V T j j / lam j) * V l j))).
  - now rewrite sig_delta'.
  - intros j Hj. unfold delta. destruct (Nat.eqb_spec i j) as [->|N].
    + unfold Theta, compute_di. rewrite Nat.eqb_refl. pose proof (P j Hj). field. lra.
    + assert (Z : frame V T i j = 0) by exact (CO i j Hi Hj N). rewrite Z. ring.
Qed.

(** ** Concrete cases *)
(** a shear in the plane of the two smallest eigenvalues, which coincide: the hypotheses of C198 and C199 hold *)
Definition plane (t : R) : mtx := fun i j => match i, j with 0%nat, 0%nat => 1 | 1%nat, 1%nat => 1 | 2%nat, 2%nat => 2 | 0%nat, 1%nat => t | 1%nat, 0%nat => t | _, _ => 0 end.
Definition plane' : mtx := fun i j => match i, j with 0%nat, 1%nat => 1 | 1%nat, 0%nat => 1 | _, _ => 0 end.
Definition planeL (t : R) : nat -> R := fun i => match i with 0%nat => (1 + t) * (1 + t) | 1%nat => (1 - t) * (1 - t) | _ => 4 end.
Definition planeW : mtx := fun i j => match i, j with 2%nat, 2%nat => 1 | 0%nat, 0%nat => s2 | 0%nat, 1%nat => s2 | 1%nat, 0%nat => s2 | 1%nat, 1%nat => - s2 | _, _ => 0 end.
Definition lam114 : nat -> R := fun i => match i with 0%nat | 1%nat => 1 | _ => 4 end.
Example C199_plane_motion : motion plane plane' planeL (fun _ => planeW).
Proof.
  split; [|split; [|split]].
  - intros a b Ha Hb. destruct a as [|[|[|a]]], b as [|[|[|b]]]; try lia; cbn [plane plane']; first [apply derivable_pt_lim_const|apply d_id].
  - intros t. split.
    + intros i j Hi Hj. unfold delta. pose proof s2_sq. destruct i as [|[|[|i]]], j as [|[|[|j]]]; try lia; cbn [sig Nat.eqb planeW]; split; lra.
    + intros a b Ha Hb. pose proof s2_sq as E. unfold cauchy_green, mmul, mtr.
      destruct a as [|[|[|a]]], b as [|[|[|b]]]; try lia; cbn [sig plane planeL planeW]; try ring;
      match goal with |- _ = ?r => ring_simplify; ring_simplify r end; replace (s2 ^ 2) with (/ 2) by (rewrite <- E; ring); field.
  - exists mzero. intros a b Ha Hb. apply derivable_pt_lim_const.
  - intros i Hi. destruct i as [|[|[|i]]]; try lia; cbn [planeL].
    + exists ((0 + 1) * (1 + 0) + (1 + 0) * (0 + 1)). apply (derivable_pt_lim_mult (fun t => 1 + t) (fun t => 1 + t)); apply (derivable_pt_lim_plus (fun _ => 1) (fun t => t)); first [apply derivable_pt_lim_const|apply d_id].
    + exists ((0 - 1) * (1 - 0) + (1 - 0) * (0 - 1)). apply (derivable_pt_lim_mult (fun t => 1 - t) (fun t => 1 - t)); apply (derivable_pt_lim_minus (fun _ => 1) (fun t => t)); first [apply derivable_pt_lim_const|apply d_id].
    + exists 0. apply derivable_pt_lim_const.
Qed.
Example C199_plane_eigen : eigen (cauchy_green (plane 0)) lam114 mident /\ positive lam114 /\ separated lam114 /\ last_two_apart lam114 /\ ~ last_two_apart lam144.
Proof.
  split; [|split; [|split; [|split]]].
  - split; [exact orth_id|]. intros a b Ha Hb. unfold cauchy_green, mmul, mtr, mident. destruct a as [|[|[|a]]], b as [|[|[|b]]]; try lia; cbn [sig plane lam114 Nat.eqb]; ring.
  - intros i Hi. destruct i as [|[|i]]; cbn; lra.
  - intros i j Hi Hj. destruct i as [|[|i]], j as [|[|j]]; cbn; first [now left|right; apply almost_far; split_Rabs; lra].
  - intros H. cbn in *. lra.
  - intros H. specialize (H eq_refl). cbn in H. lra.
Qed.
(** the rate of the shear strain is 1, and the stress of the law T = (shear stress 5) works 10 on it *)
Definition shear5 : mtx := fun i j => match i, j with 0%nat, 1%nat => 5 | 1%nat, 0%nat => 5 | _, _ => 0 end.
Example C199_plane_power : exists PK1 A, compute_whole3D (fun _ => (lam114, mident)) (fun _ => (shear5, mzero)) mzero (plane 0) true = Ok (PK1, A) /\ InnerProduct 3 PK1 plane' = 10.
Proof.
  destruct C199_plane_eigen as (E & P & S & G & _).
  destruct (C200_throws (fun _ => (lam114, mident)) (fun _ => (shear5, mzero)) mzero (plane 0) true) as (_ & T). destruct T as (PK1 & A & T); [unfold det3, minor3; cbn [plane]; lra|].
  exists PK1, A. split; [exact T|]. pose proof (C199_projector_partial plane plane' planeL (fun _ => planeW) lam114 mident mzero shear5 false C199_plane_motion E P S G) as D.
  rewrite (C199_power_partial (fun _ => (lam114, mident)) (fun _ => (shear5, mzero)) mzero plane plane' planeL (fun _ => planeW) true PK1 A _ C199_plane_motion E P (or_introl (conj S G)) T D).
  cbn [fst snd]. rewrite (inner_ext shear5 _ (recompose mident (fun p q => dd1 (lam114 p) (lam114 q)) (frame mident (green_rate (plane 0) plane')))).
  - rewrite power_form. unfold frame, green_rate, mident, dd1, hlog'. cbn [sig shear5 plane plane' lam114 Nat.eqb]. destruct (Req_EM_T 1 1); [|lra]. destruct (Req_EM_T 4 4); [|lra]. field_simplify; lra.
  - intros a b Ha Hb. rewrite projector_apply by assumption. exact (recompose_ext mident _ _ _ a b (Theta_dd1 lam114 S P G)).
Qed.
(** a rotation by a quarter turn satisfies the hypotheses of C200_objective *)
Example C200_rotation : exists Q, orthonormal Q /\ det3 Q = 1 /\ Q 0%nat 1%nat = -1.
Proof.
  exists (fun i j => match i, j with 0%nat, 1%nat => -1 | 1%nat, 0%nat => 1 | 2%nat, 2%nat => 1 | _, _ => 0 end). split; [|split; [unfold det3, minor3; lra|reflexivity]].
  intros i j Hi Hj. unfold delta. destruct i as [|[|[|i]]], j as [|[|[|j]]]; try lia; cbn [sig Nat.eqb]; split; ring.
Qed.
Print Assumptions C198_coefficients_partial.
Print Assumptions C198_coefficients_refuted.
Print Assumptions C199_strain_unique.
Print Assumptions C199_projector_partial.
Print Assumptions C199_projector_pk2_partial.
Print Assumptions C199_projector_refuted.
Print Assumptions C199_power_partial.
Print Assumptions C200_throws.
Print Assumptions C200_moments.
Print Assumptions C200_objective.
Print Assumptions C200_principal.
