(** Derivatives of the hyperelastic energies and stresses. *)
From Coq Require Import List Arith Bool Reals Lra Lia.
From Verif Require Import Common Tensor_Model Tensor_Spec Tensor_Proofs Tensor_Properties Law_Model Law_Spec Law_Proofs Law2_Proofs.
Import ListNotations.
Local Open Scope R_scope.

Definition moved (F H : mtx) (t : R) : mtx := madd F (mscal t H).

Section Deform.
  Context (F H : mtx).
  Notation Ft := (moved F H).
  Let J := det3 F.
  Let G := inv3 F.
  (** the transposed inverse contracted with H *)
  Definition gH : R := in3 (mtransp (inv3 F)) H.
  Lemma Ft_entry i j : dlim (fun t => Ft t i j) 0 (H i j).
  Proof. unfold moved, madd, mscal. apply d_aff. Qed.
  Lemma Ft_0 i j : Ft 0 i j = F i j.
  Proof. unfold moved, madd, mscal. ring. Qed.
  Lemma minor_0 i j : minor3 (Ft 0) i j = minor3 F i j.
  Proof. unfold minor3. cbv zeta. rewrite !Ft_0. reflexivity. Qed.
  Lemma det_0 : det3 (Ft 0) = J.
  Proof. unfold J, det3. rewrite !minor_0, !Ft_0. reflexivity. Qed.
  Lemma mul_d i j k l : dlim (fun t => Ft t i j * Ft t k l) 0 (H i j * F k l + F i j * H k l).
  Proof. eapply d_eq; [|apply d_mult; apply Ft_entry]. cbv beta. rewrite !Ft_0. reflexivity. Qed.
  Definition dminor (i j : nat) : R :=
    let a := match i with O => 1%nat | _ => O end in let b := match i with O | 1%nat => 2%nat | _ => 1%nat end in
    let c := match j with O => 1%nat | _ => O end in let d := match j with O | 1%nat => 2%nat | _ => 1%nat end in
    H a c * F b d + F a c * H b d - (H a d * F b c + F a d * H b c).
  Lemma minor_d i j : dlim (fun t => minor3 (Ft t) i j) 0 (dminor i j).
  Proof. apply d_minus; apply mul_d. Qed.
  Definition ddet : R :=
    H 0%nat 0%nat * minor3 F 0 0 + F 0%nat 0%nat * dminor 0 0 - (H 0%nat 1%nat * minor3 F 0 1 + F 0%nat 1%nat * dminor 0 1)
      + (H 0%nat 2%nat * minor3 F 0 2 + F 0%nat 2%nat * dminor 0 2).
  Lemma det_d' : dlim (fun t => det3 (Ft t)) 0 ddet.
  Proof.
    unfold ddet. rewrite <- !minor_0, <- !(Ft_0 0%nat).
    apply d_plus; [apply d_minus|]; (apply d_mult; [apply Ft_entry|apply minor_d]).
  Qed.
  Hypothesis (HJ : J <> 0).
  Lemma ddet_eq : ddet = J * gH.
  Proof.
    unfold gH, in3, mtransp, inv3. fold J. cbn [sig]. unfold sgn. cbn [Nat.even Nat.add]. apply Rmult_eq_reg_r with J; [|exact HJ].
    unfold Rdiv. replace (J * _ * J) with ((J * / J) * (J * (ddet + 0))); [rewrite Rinv_r by exact HJ; ring|].
    rewrite Rplus_0_r. unfold ddet, dminor, minor3. field. exact HJ.
  Qed.
  Lemma det_d : dlim (fun t => det3 (Ft t)) 0 (J * gH).
  Proof. rewrite <- ddet_eq. apply det_d'. Qed.
  Lemma inv_d i j : (i < 3)%nat -> (j < 3)%nat -> dlim (fun t => inv3 (Ft t) i j) 0 (- sig 3 (fun k => sig 3 (fun l => G i k * H k l * G l j))).
  Proof.
    intros Hi Hj. unfold inv3. eapply d_eq; [|apply d_div; [apply d_mult; [apply d_const|apply minor_d]|apply det_d'|]]; [|rewrite det_0; exact HJ].
    cbv beta. rewrite det_0, minor_0. unfold G, inv3. fold J. unfold Rsqr.
    apply Rmult_eq_reg_r with (J * J); [|apply Rmult_integral_contrapositive; split; exact HJ].
    transitivity (sgn i j * dminor j i * J - ddet * (sgn i j * minor3 F j i)); [field; exact HJ|].
    transitivity (- sig 3 (fun k => sig 3 (fun l => sgn i k * minor3 F k i * H k l * (sgn l j * minor3 F j l)))); [|cbn [sig]; field; exact HJ].
    destruct i as [|[|[|]]], j as [|[|[|]]]; try lia; cbn [sig]; unfold sgn; cbn [Nat.even Nat.add]; unfold J, det3, ddet, dminor, minor3; ring.
  Qed.
  Lemma trC_poly t : trace 3 (mprod 3 (mtransp (Ft t)) (Ft t)) = in3 F F + t * (2 * in3 F H) + t * t * in3 H H.
  Proof. rewrite trace_tr3. unfold tr3, mprod, mtransp, moved, madd, mscal, in3. cbn [sig tsum]. ring. Qed.
  Lemma trC_d : dlim (fun t => trace 3 (mprod 3 (mtransp (Ft t)) (Ft t))) 0 (2 * in3 F H).
  Proof.
    eapply d_ext; [intros t; symmetry; apply trC_poly|].
    eapply d_eq; [|apply d_plus; [apply d_aff|apply d_mult; [apply d_mult; apply d_id|apply d_const]]]. cbv beta. ring.
  Qed.
  Lemma trC_0 : trace 3 (mprod 3 (mtransp (Ft 0)) (Ft 0)) = in3 F F.
  Proof. rewrite trC_poly. ring. Qed.
  Lemma in3_sq A : 0 <= in3 A A.
  Proof. unfold in3. cbn [sig]. pose proof (Rle_0_sqr (A 0 0)%nat). pose proof (Rle_0_sqr (A 0 1)%nat). pose proof (Rle_0_sqr (A 0 2)%nat).
    pose proof (Rle_0_sqr (A 1 0)%nat). pose proof (Rle_0_sqr (A 1 1)%nat). pose proof (Rle_0_sqr (A 1 2)%nat).
    pose proof (Rle_0_sqr (A 2 0)%nat). pose proof (Rle_0_sqr (A 2 1)%nat). pose proof (Rle_0_sqr (A 2 2)%nat). unfold Rsqr in *. lra. Qed.
  Lemma trC_pos : 0 < in3 F F.
  Proof.
    destruct (in3_sq F) as [P|Z]; [exact P|]. exfalso. apply HJ.
    assert (Q : forall i, (i < 3)%nat -> F 0%nat i = 0).
    { assert (F 0%nat 0%nat * F 0%nat 0%nat = 0 /\ F 0%nat 1%nat * F 0%nat 1%nat = 0 /\ F 0%nat 2%nat * F 0%nat 2%nat = 0) as (A & B & C).
      { unfold in3 in Z. cbn [sig] in Z. pose proof (Rle_0_sqr (F 0 0)%nat). pose proof (Rle_0_sqr (F 0 1)%nat). pose proof (Rle_0_sqr (F 0 2)%nat).
        pose proof (Rle_0_sqr (F 1 0)%nat). pose proof (Rle_0_sqr (F 1 1)%nat). pose proof (Rle_0_sqr (F 1 2)%nat).
        pose proof (Rle_0_sqr (F 2 0)%nat). pose proof (Rle_0_sqr (F 2 1)%nat). pose proof (Rle_0_sqr (F 2 2)%nat). unfold Rsqr in *. repeat split; lra. }
      intros i Hi. destruct i as [|[|[|]]]; try lia; apply Rsqr_0_uniq; assumption. }
    unfold J, det3. rewrite !Q by lia. ring.
  Qed.
End Deform.

(** ** The volumetric functions *)
Lemma ln_d x : 0 < x -> dlim ln x (1 / x).
Proof. intros P. eapply d_eq; [|apply derivable_pt_lim_ln, P]. field. lra. Qed.
Definition T1f (t : nat) (J : R) : R := match law_T1 t J with Ok x => x | _ => 0 end.
Definition T2f (t : nat) (J : R) : R := match law_T2 t J with Ok x => x | _ => 0 end.
Definition Uf (t : nat) (J : R) : R := match law_U t J with Ok x => x | _ => 0 end.
Definition type_ok (t : nat) : Prop := (1 <= t <= 6)%nat.
Lemma T1_ok t J : type_ok t -> law_T1 t J = Ok (T1f t J) /\ law_T2 t J = Ok (T2f t J) /\ law_U t J = Ok (Uf t J).
Proof. unfold type_ok, T1f, T2f, Uf. intros H. do 7 (destruct t as [|t]; [try lia; repeat split; reflexivity|]). lia. Qed.
Lemma T1_bad t J : ~ type_ok t -> law_T1 t J = Throw InvalidArgument /\ law_T2 t J = Throw InvalidArgument /\ law_U t J = Throw InvalidArgument.
Proof. unfold type_ok. intros H. destruct t as [|t]; [repeat split; reflexivity|]. do 6 (destruct t as [|t]; [exfalso; lia|]). repeat split; reflexivity. Qed.
Lemma ln10_pos : 0 < ln10.
Proof. unfold ln10. rewrite <- ln_1. apply ln_increasing; lra. Qed.
Ltac dpoly := repeat first [apply d_const | apply d_id | apply d_minus | apply d_plus | apply d_div | apply d_mult | apply ln_d].
Lemma T1_d t J : type_ok t -> 0 < J -> dlim (T1f t) J (T2f t J / J).
Proof.
  unfold type_ok. intros H P. pose proof ln10_pos. destruct t as [|[|[|[|[|[|[|t]]]]]]]; try (exfalso; lia).
  - eapply d_eq; [|apply ln_d, P]. reflexivity.
  - eapply d_eq; [|apply (d_ext (fun J => J * (J - 1))); [reflexivity|dpoly]]. cbv [T2f law_T2]. field. lra.
  - eapply d_eq; [|apply (d_ext (fun J => ln J / (ln10 * ln10))); [reflexivity|dpoly; [exact P|apply Rmult_integral_contrapositive; split; lra]]]. cbv [T2f law_T2]. unfold Rsqr. field. lra.
  - eapply d_eq; [|apply (d_ext (fun J => (J - 1) / (J * J))); [reflexivity|dpoly; apply Rmult_integral_contrapositive; split; lra]]. cbv [T2f law_T2]. unfold Rsqr. field. lra.
  - eapply d_eq; [|apply (d_ext (fun J => 2 * J * J * (J * J - 1))); [reflexivity|dpoly]]. cbv [T2f law_T2]. field. lra.
  - eapply d_eq; [|apply (d_ext (fun J => (J * J - 1) * (1 / 2))); [intros x; cbv [T1f law_T1]; field|dpoly]]. cbv [T2f law_T2]. field. lra.
Qed.
(** J^2 - 1 >= 2 ln J *)
Lemma ln_le_lin J : 0 < J -> ln J <= J - 1.
Proof. intros P. pose proof (exp_ineq1_le (ln J)) as E. rewrite exp_ln in E by exact P. lra. Qed.
Lemma sq_ln J : 0 < J -> 0 <= (J * J - 1 - 2 * ln J) / 2.
Proof.
  intros P. pose proof (ln_le_lin (J * J) (Rmult_lt_0_compat _ _ P P)) as L. rewrite ln_mult in L by assumption. lra.
Qed.
Lemma U_d t J : type_ok t -> t <> 4%nat -> 0 < J -> dlim (fun J => Uf t J * Uf t J) J (2 * T1f t J / J).
Proof.
  unfold type_ok. intros H N P. pose proof ln10_pos. destruct t as [|[|[|[|[|[|[|t]]]]]]]; try (exfalso; lia).
  - eapply d_eq; [|apply (d_ext (fun J => ln J * ln J)); [reflexivity|dpoly; exact P]]. cbv [T1f law_T1]. field. lra.
  - eapply d_eq; [|apply (d_ext (fun J => (J - 1) * (J - 1))); [reflexivity|dpoly]]. cbv [T1f law_T1]. field. lra.
  - eapply d_eq; [|apply (d_ext (fun J => ln J / ln10 * (ln J / ln10))); [reflexivity|dpoly; lra]]. cbv [T1f law_T1]. unfold Rsqr. field. lra.
  - eapply d_eq; [|apply (d_ext (fun J => (J * J - 1) * (J * J - 1))); [reflexivity|dpoly]]. cbv [T1f law_T1]. field. lra.
  - apply (d_local (fun J => (J * J - 1 - 2 * ln J) * (1 / 2)) _ J _ J P).
    + intros t Ht. assert (0 < t) by (apply Rabs_def2 in Ht; lra). cbv [Uf law_U]. rewrite sqrt_sqrt by (apply sq_ln; assumption). field.
    + eapply d_eq; [|dpoly; exact P]. cbv [T1f law_T1]. field. lra.
Qed.

(** ** The laws *)
Section Hyper.
  Context (m : material) (F H : mtx).
  Hypotheses (HJ : 0 < det3 F) (HT : type_ok (m_type m)).
  Notation Ft := (moved F H).
  Let J := det3 F.
  Let G := inv3 F.
  Lemma J_near : exists d, 0 < d /\ forall t, Rabs t < d -> 0 < det3 (Ft t).
  Proof.
    destruct (cont_gt (fun t => det3 (Ft t)) 0 0) as (d & Hd & K).
    - eapply d_cont. apply det_d'.
    - cbv beta. rewrite det_0. exact HJ.
    - exists d. split; [exact Hd|]. intros t Ht. apply K. rewrite Rminus_0_r. exact Ht.
  Qed.
  Lemma guard_pos A (X : mtx) (k : R -> outcome A) : 0 < det3 X -> guardJ X k = k (det3 X).
  Proof. intros P. unfold guardJ. destruct (Rle_dec (det3 X) 0); [lra|reflexivity]. Qed.
  Lemma comp_d f l : dlim f J l -> dlim (fun t => f (det3 (Ft t))) 0 (l * (J * gH F H)).
  Proof. intros D. apply (d_comp (fun t => det3 (Ft t)) f). - apply det_d. lra. - rewrite det_0. exact D. Qed.

  Definition neo_s (X : mtx) : mtx := mplus (mtimes (m_mu m) X) (mtimes (m_lambda m * T1f (m_type m) (det3 X) - m_mu m) (mtransp (inv3 X))).
  Lemma neo_stress_ok X : 0 < det3 X -> neo_stress m X = Ok (neo_s X).
  Proof. intros P. unfold neo_stress. rewrite guard_pos by exact P. destruct (T1_ok _ (det3 X) HT) as (-> & _). reflexivity. Qed.
  Definition neo_t (X : mtx) : mtx :=
    let ii := ProductInf 3 (mtransp (inv3 X)) (inv3 X) in
    mplus (mtimes (m_mu m) (mplus id4 ii))
          (mtimes (m_lambda m) (mminus (mtimes (T2f (m_type m) (det3 X)) (Kronecker 3 (mtransp (inv3 X)) (mtransp (inv3 X)))) (mtimes (T1f (m_type m) (det3 X)) ii))).
  Lemma neo_tangent_ok X : 0 < det3 X -> neo_tangent m X = Ok (neo_t X).
  Proof. intros P. unfold neo_tangent. rewrite guard_pos by exact P. cbv zeta. destruct (T1_ok _ (det3 X) HT) as (-> & -> & _). reflexivity. Qed.
  Lemma neo_d i j : (i < 3)%nat -> (j < 3)%nat -> dlim (fun t => neo_s (Ft t) i j) 0 (tapply (neo_t F) H i j).
  Proof.
    intros Hi Hj. unfold neo_t. cbv zeta. rewrite tapply_plus, !tapply_times, tapply_plus, tapply_minus, !tapply_times, tapply_id4, tapply_kron, tapply_inf by assumption.
    unfold neo_s, mplus, mtimes, mtransp.
    pose proof (comp_d _ _ (T1_d (m_type m) J HT HJ)) as DT. pose proof (inv_d F H ltac:(lra) j i Hj Hi) as DI. 
    eapply d_eq; [|apply d_plus; [apply d_mult; [apply d_const|apply Ft_entry]|apply d_mult; [apply d_minus; [apply d_mult; [apply d_const|exact DT]|apply d_const]|exact DI]]].
    cbv beta. assert (E0 : det3 (Ft 0) = J) by apply det_0. rewrite E0.
    assert (EG : inv3 (Ft 0) j i = G j i) by (unfold inv3, G, inv3; rewrite det_0, minor_0; reflexivity). rewrite EG. fold J. fold G.
    unfold gH. fold G. set (g := in3 (mtransp G) H). change (in3 (fun i0 j0 => G j0 i0) H) with g. cbn [sig]. field. unfold J. lra.
  Qed.
  Definition neo_e (X : mtx) : R :=
    m_mu m / 2 * (trace 3 (mprod 3 (mtransp X) X) - 3) + (m_lambda m / 2 * Uf (m_type m) (det3 X) * Uf (m_type m) (det3 X) - m_mu m * ln (det3 X)).
  Lemma neo_energy_ok X : 0 < det3 X -> neo_energy m X = Ok (neo_e X).
  Proof. intros P. unfold neo_energy. rewrite guard_pos by exact P. destruct (T1_ok _ (det3 X) HT) as (_ & _ & ->). reflexivity. Qed.
  Lemma vol_d : m_type m <> 4%nat -> dlim (fun t => m_lambda m / 2 * (Uf (m_type m) (det3 (Ft t)) * Uf (m_type m) (det3 (Ft t))) - m_mu m * ln (det3 (Ft t))) 0 ((m_lambda m * T1f (m_type m) J - m_mu m) * gH F H).
  Proof.
    intros N. pose proof (comp_d _ _ (U_d (m_type m) J HT N HJ)) as DU. pose proof (comp_d _ _ (ln_d J HJ)) as DL.
    eapply d_eq; [|apply d_minus; [apply d_mult; [apply d_const|exact DU]|apply d_mult; [apply d_const|exact DL]]]. cbv beta. field. unfold J. lra.
  Qed.
  Lemma neo_e_d : m_type m <> 4%nat -> dlim (fun t => neo_e (Ft t)) 0 (in3 (neo_s F) H).
  Proof.
    intros N.
    apply (d_ext (fun t => m_mu m / 2 * (trace 3 (mprod 3 (mtransp (Ft t)) (Ft t)) - 3) + (m_lambda m / 2 * (Uf (m_type m) (det3 (Ft t)) * Uf (m_type m) (det3 (Ft t))) - m_mu m * ln (det3 (Ft t))))); [intros t; unfold neo_e; ring|].
    eapply d_eq; [|apply d_plus; [apply d_mult; [apply d_const|apply d_minus; [apply trC_d|apply d_const]]|apply vol_d, N]].
    cbv beta. unfold gH, in3, neo_s, mplus, mtimes. fold J. cbn [sig]. field.
  Qed.

  (** cavitation *)
  Let trC := in3 F F.
  Definition cav_s (X : mtx) : mtx :=
    mplus (mtimes (m_mu m * Rpower (3 * trace 3 (mprod 3 (mtransp X) X)) (- (1) / 4)) X) (mtimes (m_lambda m * T1f (m_type m) (det3 X) - m_mu m) (mtransp (inv3 X))).
  Lemma cav_stress_ok X : 0 < det3 X -> cav_stress m X = Ok (cav_s X).
  Proof. intros P. unfold cav_stress. rewrite guard_pos by exact P. destruct (T1_ok _ (det3 X) HT) as (-> & _). reflexivity. Qed.
  Definition cav_t (X : mtx) : mtx :=
    let C := trace 3 (mprod 3 (mtransp X) X) in
    mplus (mtimes (m_mu m * Rpower 3 (- (1) / 4)) (mminus (mtimes (Rpower C (- (1) / 4)) id4) (mtimes (1 / 2 * Rpower C (- (5) / 4)) (Kronecker 3 X X))))
          (mplus (mtimes (m_lambda m * T2f (m_type m) (det3 X)) (Kronecker 3 (mtransp (inv3 X)) (mtransp (inv3 X))))
                 (mtimes (m_mu m - m_lambda m * T1f (m_type m) (det3 X)) (ProductInf 3 (mtransp (inv3 X)) (inv3 X)))).
  Lemma cav_tangent_ok X : 0 < det3 X -> cav_tangent m X = Ok (cav_t X).
  Proof. intros P. unfold cav_tangent. rewrite guard_pos by exact P. cbv zeta. destruct (T1_ok _ (det3 X) HT) as (-> & -> & _). reflexivity. Qed.
  Lemma pow_d (c y : R) : 0 < c -> dlim (fun t => Rpower (c * trace 3 (mprod 3 (mtransp (Ft t)) (Ft t))) y) 0 (y * Rpower (c * trC) (y - 1) * (c * (2 * in3 F H))).
  Proof.
    intros P. pose proof (trC_pos F ltac:(lra)) as PT.
    apply (d_comp (fun t => c * trace 3 (mprod 3 (mtransp (Ft t)) (Ft t))) (fun x => Rpower x y)).
    - eapply d_eq; [|apply d_mult; [apply d_const|apply trC_d]]. cbv beta. ring.
    - cbv beta. rewrite trC_0. apply derivable_pt_lim_power. apply Rmult_lt_0_compat; assumption.
  Qed.
  Lemma cav_d i j : (i < 3)%nat -> (j < 3)%nat -> dlim (fun t => cav_s (Ft t) i j) 0 (tapply (cav_t F) H i j).
  Proof.
    intros Hi Hj. unfold cav_t. cbv zeta. rewrite tapply_plus, !tapply_times, tapply_plus, tapply_minus, !tapply_times, tapply_id4, !tapply_kron, tapply_inf by assumption.
    unfold cav_s, mplus, mtimes, mtransp.
    pose proof (comp_d _ _ (T1_d (m_type m) J HT HJ)) as DT. pose proof (inv_d F H ltac:(lra) j i Hj Hi) as DI. 
    pose proof (pow_d 3 (- (1) / 4) ltac:(lra)) as DP.
    eapply d_eq; [|apply d_plus; [apply d_mult; [apply d_mult; [apply d_const|exact DP]|apply Ft_entry]|apply d_mult; [apply d_minus; [apply d_mult; [apply d_const|exact DT]|apply d_const]|exact DI]]].
    cbv beta. assert (E0 : det3 (Ft 0) = J) by apply det_0. rewrite E0.
    assert (EG : inv3 (Ft 0) j i = G j i) by (unfold inv3, G, inv3; rewrite det_0, minor_0; reflexivity). rewrite EG. fold J. fold G.
    assert (EC : trace 3 (mprod 3 (fun i0 j0 => Ft 0 j0 i0) (Ft 0)) = trC) by (exact (trC_0 F H)).
    assert (EC' : trace 3 (mprod 3 (fun i0 j0 => F j0 i0) F) = trC) by (unfold trC; rewrite trace_tr3; unfold tr3, mprod, in3; cbn [sig tsum]; ring).
    change (mtransp (Ft 0)) with (fun i0 j0 => Ft 0 j0 i0). rewrite EC. rewrite EC'.
    unfold gH. fold G. change (mtransp G) with (fun i0 j0 => G j0 i0). set (g := in3 (fun i0 j0 => G j0 i0) H).
    assert (F0 : Ft 0 i j = F i j) by apply Ft_0. rewrite F0.
    pose proof (trC_pos F ltac:(lra)) as PT. fold trC in PT.
    replace (- (1) / 4 - 1) with (- (5) / 4) by field.
    rewrite <- !Rpower_mult_distr by lra.
    replace (Rpower 3 (- (5) / 4)) with (Rpower 3 (- (1) / 4) * / 3).
    - cbn [sig]. field. unfold J. lra.
    - replace (- (5) / 4) with (- (1) / 4 + - (1)) by field. rewrite Rpower_plus, Rpower_Ropp, Rpower_1 by lra. reflexivity.
  Qed.
  Definition cav_e (X : mtx) : R :=
    2 * m_mu m / Rpower 3 (5 / 4) * Rpower (trace 3 (mprod 3 (mtransp X) X)) (3 / 4) + (m_lambda m / 2 * Uf (m_type m) (det3 X) * Uf (m_type m) (det3 X) - m_mu m * ln (det3 X)).
  Lemma cav_energy_ok X : 0 < det3 X -> cav_energy m X = Ok (cav_e X).
  Proof. intros P. unfold cav_energy. rewrite guard_pos by exact P. destruct (T1_ok _ (det3 X) HT) as (_ & _ & ->). reflexivity. Qed.
  Lemma cav_e_d : m_type m <> 4%nat -> dlim (fun t => cav_e (Ft t)) 0 (in3 (cav_s F) H).
  Proof.
    intros N.
    apply (d_ext (fun t => 2 * m_mu m / Rpower 3 (5 / 4) * Rpower (1 * trace 3 (mprod 3 (mtransp (Ft t)) (Ft t))) (3 / 4) + (m_lambda m / 2 * (Uf (m_type m) (det3 (Ft t)) * Uf (m_type m) (det3 (Ft t))) - m_mu m * ln (det3 (Ft t))))); [intros t; unfold cav_e; rewrite Rmult_1_l; ring|].
    eapply d_eq; [|apply d_plus; [apply d_mult; [apply d_const|apply pow_d; lra]|apply vol_d, N]].
    cbv beta. rewrite !Rmult_1_l. pose proof (trC_pos F ltac:(lra)) as PT. fold trC in PT.
    assert (EC' : trace 3 (mprod 3 (mtransp F) F) = trC) by (unfold trC; rewrite trace_tr3; unfold tr3, mprod, mtransp, in3; cbn [sig tsum]; ring).
    replace (in3 (cav_s F) H) with (m_mu m * Rpower (3 * trC) (- (1) / 4) * in3 F H + (m_lambda m * T1f (m_type m) J - m_mu m) * gH F H).
    2:{ unfold gH, in3, cav_s, mplus, mtimes. rewrite EC'. fold J. cbn [sig]. ring. }
    replace (3 / 4 - 1) with (- (1) / 4) by field. rewrite <- Rpower_mult_distr by lra.
    assert (P3 : Rpower 3 (5 / 4) * Rpower 3 (- (1) / 4) = 3).
    { rewrite <- Rpower_plus. replace (5 / 4 + - (1) / 4) with 1 by field. apply Rpower_1. lra. }
    assert (NZ : Rpower 3 (5 / 4) <> 0) by (apply Rgt_not_eq; apply exp_pos).
    set (a := Rpower 3 (5 / 4)) in *. set (b := Rpower 3 (- (1) / 4)) in *.
    clearbody a b. assert (EB : b = 3 / a) by (apply Rmult_eq_reg_l with a; [rewrite P3; field; exact NZ|exact NZ]). rewrite EB. field. exact NZ.
  Qed.
End Hyper.
