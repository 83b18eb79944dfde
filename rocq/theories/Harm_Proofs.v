(** The solid harmonics are harmonic and have the stated derivatives. *)
From Coq Require Import List Arith ZArith Reals Lia Lra Nsatz.
From Verif Require Import Law2_Proofs Harm_Spec.
Import ListNotations.
Open Scope R_scope.

(** ** the plane *)
Lemma cpow_S y z n : cre y z (S n) = y * cre y z n - z * cim y z n /\ cim y z (S n) = z * cre y z n + y * cim y z n.
Proof. split; reflexivity. Qed.
Lemma d_cpow_y y z n : dlim (fun t => cre t z n) y (INR n * cre y z (pred n)) /\ dlim (fun t => cim t z n) y (INR n * cim y z (pred n)).
Proof.
  induction n as [|n [IC IS]]; [split; [eapply d_eq; [|apply (d_const 1)]|eapply d_eq; [|apply (d_const 0)]]; cbn [INR]; ring|].
  rewrite S_INR. cbn [pred]. destruct n as [|n].
  - cbn [INR pred] in *. split.
    + apply (d_ext (fun t => t)); [intros; unfold cre; cbn; ring|]. eapply d_eq; [|apply d_id]. unfold cre; cbn; ring.
    + apply (d_ext (fun _ => z)); [intros; unfold cim; cbn; ring|]. eapply d_eq; [|apply d_const]. unfold cim; cbn; ring.
  - cbn [pred] in *. destruct (cpow_S y z n) as (EC & ES). split.
    + apply (d_ext (fun t => t * cre t z (S n) - z * cim t z (S n))); [reflexivity|].
      eapply d_eq; [|apply d_minus; [apply d_mult; [apply d_id|exact IC]|apply d_mult; [apply d_const|exact IS]]]. cbv beta. rewrite EC, ES. ring.
    + apply (d_ext (fun t => z * cre t z (S n) + t * cim t z (S n))); [reflexivity|].
      eapply d_eq; [|apply d_plus; [apply d_mult; [apply d_const|exact IC]|apply d_mult; [apply d_id|exact IS]]]. cbv beta. rewrite EC, ES. ring.
Qed.
Lemma d_cpow_z y z n : dlim (fun t => cre y t n) z (- (INR n * cim y z (pred n))) /\ dlim (fun t => cim y t n) z (INR n * cre y z (pred n)).
Proof.
  induction n as [|n [IC IS]]; [split; [eapply d_eq; [|apply (d_const 1)]|eapply d_eq; [|apply (d_const 0)]]; cbn [INR]; ring|].
  rewrite S_INR. cbn [pred]. destruct n as [|n].
  - cbn [INR pred] in *. split.
    + apply (d_ext (fun _ => y)); [intros; unfold cre; cbn; ring|]. eapply d_eq; [|apply d_const]. unfold cim; cbn; ring.
    + apply (d_ext (fun t => t)); [intros; unfold cim; cbn; ring|]. eapply d_eq; [|apply d_id]. unfold cre; cbn; ring.
  - cbn [pred] in *. destruct (cpow_S y z n) as (EC & ES). split.
    + apply (d_ext (fun t => y * cre y t (S n) - t * cim y t (S n))); [reflexivity|].
      eapply d_eq; [|apply d_minus; [apply d_mult; [apply d_const|exact IC]|apply d_mult; [apply d_id|exact IS]]]. cbv beta. rewrite EC, ES. ring.
    + apply (d_ext (fun t => t * cre y t (S n) + y * cim y t (S n))); [reflexivity|].
      eapply d_eq; [|apply d_plus; [apply d_mult; [apply d_id|exact IC]|apply d_mult; [apply d_const|exact IS]]]. cbv beta. rewrite EC, ES. ring.
Qed.
Lemma harmonic_cre n : harmonic2 (fun y z => cre y z n).
Proof.
  exists (fun y z => INR n * cre y z (pred n)), (fun y z => - (INR n * cim y z (pred n))),
    (fun y z => INR n * (INR (pred n) * cre y z (pred (pred n)))), (fun y z => - (INR n * (INR (pred n) * cre y z (pred (pred n))))).
  split; [intros; apply d_cpow_y|]. split; [intros; apply d_cpow_z|]. split; [|split].
  - intros y z. change (dlim (fun t => INR n * cre t z (pred n)) y (INR n * (INR (pred n) * cre y z (pred (pred n))))).
    eapply d_eq; [|apply d_mult; [apply d_const|apply d_cpow_y]]. cbv beta. ring.
  - intros y z. change (dlim (fun t => - (INR n * cim y t (pred n))) z (- (INR n * (INR (pred n) * cre y z (pred (pred n)))))).
    apply d_opp. eapply d_eq; [|apply d_mult; [apply d_const|apply d_cpow_z]]. cbv beta. ring.
  - intros. ring.
Qed.
Lemma harmonic_cim n : harmonic2 (fun y z => cim y z n).
Proof.
  exists (fun y z => INR n * cim y z (pred n)), (fun y z => INR n * cre y z (pred n)),
    (fun y z => INR n * (INR (pred n) * cim y z (pred (pred n)))), (fun y z => - (INR n * (INR (pred n) * cim y z (pred (pred n))))).
  split; [intros; apply d_cpow_y|]. split; [intros; apply d_cpow_z|]. split; [|split].
  - intros y z. change (dlim (fun t => INR n * cim t z (pred n)) y (INR n * (INR (pred n) * cim y z (pred (pred n))))).
    eapply d_eq; [|apply d_mult; [apply d_const|apply d_cpow_y]]. cbv beta. ring.
  - intros y z. change (dlim (fun t => INR n * cre y t (pred n)) z (- (INR n * (INR (pred n) * cim y z (pred (pred n)))))).
    eapply d_eq; [|apply d_mult; [apply d_const|apply d_cpow_z]]. cbv beta. ring.
  - intros. ring.
Qed.

(** ** the zonal factors *)
Lemma zonal_SS m x q j : (2 * INR m + INR j + 2) * zonal m x q (S (S j)) = (2 * INR m + 2 * INR j + 3) * x * zonal m x q (S j) - (INR j + 1) * q * zonal m x q j.
Proof.
  change (zonal m x q (S (S j))) with ((INR (2 * m + 2 * j + 3) * x * zonal m x q (S j) - INR (S j) * q * zonal m x q j) / INR (2 * m + j + 2)).
  assert (E1 : INR (2 * m + 2 * j + 3) = 2 * INR m + 2 * INR j + 3) by (rewrite !plus_INR, !mult_INR; simpl INR; ring).
  assert (E2 : INR (2 * m + j + 2) = 2 * INR m + INR j + 2) by (rewrite !plus_INR, !mult_INR; simpl INR; ring).
  rewrite E1, E2, S_INR. field. pose proof (pos_INR m). pose proof (pos_INR j). lra.
Qed.
Lemma zonal_1 m x q : zonal m x q 1 = x. Proof. reflexivity. Qed.
Lemma zonal_0 m x q : zonal m x q 0 = 1. Proof. reflexivity. Qed.
Ltac poss := repeat match goal with |- context [INR ?n] => lazymatch goal with H : 0 <= INR n |- _ => fail | _ => pose proof (pos_INR n) end end.
Lemma cancel c a : c <> 0 -> c * a = 0 -> a = 0.
Proof. intros H E. apply Rmult_integral in E. tauto. Qed.
Lemma two_step (P : nat -> Prop) : P 0%nat -> P 1%nat -> (forall j, P j -> P (S j) -> P (S (S j))) -> forall j, P j.
Proof. intros H0 H1 HS j. enough (P j /\ P (S j)) by tauto. induction j as [|j [A B]]; [tauto|]. split; [exact B|apply HS; assumption]. Qed.
(** raising the order *)
Lemma zonal_up m x q : forall j, (2 * INR m + INR j + 2) * zonal (S m) x q j - INR j * x * zonal (S m) x q (pred j) - 2 * (INR m + 1) * zonal m x q j = 0.
Proof.
  apply two_step.
  - rewrite !zonal_0. cbn [INR]. ring.
  - rewrite !zonal_1. cbn [pred INR]. rewrite zonal_0. ring.
  - intros j H0 H1. cbn [pred] in *. pose proof (zonal_SS m x q j) as A. pose proof (zonal_SS (S m) x q j) as B. rewrite !S_INR in *.
    assert (B1 : (2 * (INR m + 1) + INR j + 1) * zonal (S m) x q (S j) = (2 * (INR m + 1) + 2 * INR j + 1) * x * zonal (S m) x q j - INR j * q * zonal (S m) x q (pred j)).
    { destruct j as [|j]; [rewrite zonal_1, zonal_0; cbn [INR pred]; ring|]. pose proof (zonal_SS (S m) x q j) as C. cbn [pred]. rewrite !S_INR in *. nsatz. }
    apply (cancel (2 * INR m + INR j + 2)); [poss; lra|].
    revert A B B1 H0 H1. generalize (INR m) (INR j) (zonal m x q (S (S j))) (zonal m x q (S j)) (zonal m x q j) (zonal (S m) x q (S (S j))) (zonal (S m) x q (S j)) (zonal (S m) x q j) (zonal (S m) x q (pred j)).
    intros. nsatz.
Qed.
(** the ladder used by the program *)
Lemma zonal_ladder m x rho : let q := x * x + rho in
  forall j, (2 * INR m + INR j + 2) * rho * zonal (S m) x q j - 2 * (INR m + 1) * (q * zonal m x q j - x * zonal m x q (S j)) = 0.
Proof.
  cbv zeta. set (q := x * x + rho). assert (Q : q = x * x + rho) by reflexivity. clearbody q. apply two_step.
  - rewrite !zonal_0, zonal_1. cbn [INR]. rewrite Q. ring.
  - pose proof (zonal_SS m x q 0) as A. rewrite !zonal_1 in *. rewrite zonal_0 in *. cbn [INR] in *.
    apply (cancel (2 * INR m + 2)); [poss; lra|]. revert A. generalize (zonal m x q 2) (INR m). intros. nsatz.
  - intros j H0 H1. pose proof (zonal_SS m x q j) as A. pose proof (zonal_SS m x q (S j)) as A2. pose proof (zonal_SS (S m) x q j) as B. rewrite !S_INR in *.
    apply (cancel ((2 * INR m + INR j + 2) * (2 * INR m + INR j + 3))); [poss; nra|].
    revert A A2 B H0 H1. generalize (INR m) (INR j) (zonal m x q (S (S (S j)))) (zonal m x q (S (S j))) (zonal m x q (S j)) (zonal m x q j) (zonal (S m) x q (S (S j))) (zonal (S m) x q (S j)) (zonal (S m) x q j).
    intros. nsatz.
Qed.
Lemma zonal_step m x rho j : let q := x * x + rho in
  2 * (INR m + 1) * (zonal m x q (S (S j)) - x * zonal m x q (S j)) + (INR j + 1) * rho * zonal (S m) x q j = 0.
Proof.
  cbv zeta. pose proof (zonal_ladder m x rho j) as L. cbv zeta in L. set (q := x * x + rho) in *. assert (Q : q = x * x + rho) by reflexivity. clearbody q.
  pose proof (zonal_SS m x q j) as A. apply (cancel (2 * INR m + INR j + 2)); [poss; lra|].
  revert A L. generalize (INR m) (INR j) (zonal m x q (S (S j))) (zonal m x q (S j)) (zonal m x q j) (zonal (S m) x q j). intros. nsatz.
Qed.

(** ** derivatives of the zonal factors, rho = y^2 + z^2 being fixed or moving *)
Notation za m x rho j := (zonal m x (x * x + rho) j).
Lemma d_zonal_x m rho x : forall j, dlim (fun t => za m t rho j) x (INR j * za m x rho (pred j)).
Proof.
  apply two_step.
  - apply (d_ext (fun _ => 1)); [reflexivity|]. eapply d_eq; [|apply d_const]. cbn [INR]. ring.
  - apply (d_ext (fun t => t)); [reflexivity|]. eapply d_eq; [|apply d_id]. cbn [INR pred]. rewrite zonal_0. ring.
  - intros j H0 H1. cbn [pred] in *. set (c := 2 * INR m + INR j + 2). assert (C : c <> 0) by (unfold c; poss; lra).
    apply (d_ext (fun t => / c * ((2 * INR m + 2 * INR j + 3) * (t * za m t rho (S j)) - (INR j + 1) * ((t * t + rho) * za m t rho j)))).
    + intros t. pose proof (zonal_SS m t (t * t + rho) j) as E. fold c in E. apply (Rmult_eq_reg_l c); [|exact C]. rewrite E. field. exact C.
    + eapply d_eq; [|apply d_mult; [apply d_const|apply d_minus; [apply d_mult; [apply d_const|apply d_mult; [apply d_id|exact H1]]|apply d_mult; [apply d_const|apply d_mult; [apply d_plus; [apply d_mult; apply d_id|apply d_const]|exact H0]]]]].
      cbv beta. apply (Rmult_eq_reg_l c); [|exact C]. match goal with |- ?l = _ => replace l with
        (INR (S j) * za m x rho j * ((2 * INR m + 2 * INR j + 3) * x) + (2 * INR m + 2 * INR j + 3) * za m x rho (S j) - (INR j + 1) * (2 * x * za m x rho j + (x * x + rho) * (INR j * za m x rho (pred j)))) by (field; exact C) end.
      unfold c. rewrite !S_INR. clear H0 H1.
      destruct j as [|j]; [cbn [INR pred]; rewrite zonal_1, zonal_0; ring|]. cbn [pred]. pose proof (zonal_SS m x (x * x + rho) j) as E. rewrite !S_INR in *.
      revert E. generalize (INR m) (INR j) (za m x rho (S (S j))) (za m x rho (S j)) (za m x rho j). intros. nsatz.
Qed.
(** in rho *)
Definition zr (m : nat) (x q : R) (j : nat) : R := - (INR j * INR (pred j)) / (4 * (INR m + 1)) * zonal (S m) x q (pred (pred j)).
Lemma d_zonal_rho m x rho : forall j, dlim (fun t => za m x t j) rho (zr m x (x * x + rho) j).
Proof.
  apply two_step.
  - apply (d_ext (fun _ => 1)); [reflexivity|]. eapply d_eq; [|apply d_const]. unfold zr. cbn [INR]. field. poss. lra.
  - apply (d_ext (fun _ => x)); [reflexivity|]. eapply d_eq; [|apply d_const]. unfold zr. cbn [INR pred]. field. poss. lra.
  - intros j H0 H1. set (c := 2 * INR m + INR j + 2). assert (C : c <> 0) by (unfold c; poss; lra).
    apply (d_ext (fun t => / c * ((2 * INR m + 2 * INR j + 3) * x * za m x t (S j) - (INR j + 1) * ((x * x + t) * za m x t j)))).
    + intros t. pose proof (zonal_SS m x (x * x + t) j) as E. fold c in E. apply (Rmult_eq_reg_l c); [|exact C]. rewrite E. field. exact C.
    + eapply d_eq; [|apply d_mult; [apply d_const|apply d_minus; [apply d_mult; [apply d_const|exact H1]|apply d_mult; [apply d_const|apply d_mult; [apply d_plus; [apply d_const|apply d_id]|exact H0]]]]].
      cbv beta. clear H0 H1. set (q := x * x + rho). pose proof (zonal_up m x q j) as U. unfold zr. cbn [pred]. rewrite !S_INR.
      assert (M1 : INR m + 1 <> 0) by (poss; lra).
      apply (Rmult_eq_reg_l (4 * (INR m + 1) * c)); [|apply Rmult_integral_contrapositive; split; [lra|exact C]].
      match goal with |- ?l = _ => replace l with
        (- ((INR j + 1) * INR j) * zonal (S m) x q (pred j) * ((2 * INR m + 2 * INR j + 3) * x) - (INR j + 1) * (4 * (INR m + 1) * zonal m x q j - q * (INR j * INR (pred j)) * zonal (S m) x q (pred (pred j)))) by (field; split; assumption) end.
      match goal with |- _ = ?r => replace r with (- c * ((INR j + 1 + 1) * (INR j + 1)) * zonal (S m) x q j) by (field; assumption) end.
      unfold c. destruct j as [|[|j]]; [cbn [INR pred] in *; rewrite !zonal_0 in *; nsatz|cbn [INR pred] in *; rewrite ?zonal_0, ?zonal_1 in *; nsatz|].
      cbn [pred] in *. pose proof (zonal_SS (S m) x q j) as B. rewrite !S_INR in *. revert U B.
      generalize (INR m) (INR j) (zonal m x q (S (S j))) (zonal (S m) x q (S (S j))) (zonal (S m) x q (S j)) (zonal (S m) x q j). intros. nsatz.
Qed.
(** Laplace's equation for the factor, once the angular part is accounted for *)
Lemma zonal_laplace m x rho j : let q := x * x + rho in
  INR j * (INR (pred j) * zonal m x q (pred (pred j))) +
  4 * rho * (- (INR j * INR (pred j)) / (4 * (INR m + 1)) * zr (S m) x q (pred (pred j))) + 4 * (INR m + 1) * zr m x q j = 0.
Proof.
  cbv zeta. assert (M0 : INR m + 1 <> 0) by (poss; lra).
  destruct j as [|[|j]]; [change (INR 0) with 0; unfold zr; change (INR 0) with 0; unfold Rdiv; ring|cbn [pred]; unfold zr; cbn [pred]; change (INR 0) with 0; unfold Rdiv; ring|].
  cbn [pred]. unfold zr at 2. cbn [pred]. set (q := x * x + rho). assert (Q : x * x + rho = q) by reflexivity. clearbody q.
  assert (M1 : INR m + 1 <> 0) by (poss; lra). assert (M2 : INR m + 2 <> 0) by (poss; lra).
  pose proof (zonal_up m x q j) as U.
  apply (cancel (INR m + 1)); [exact M1|]. unfold zr. rewrite !S_INR.
  match goal with |- ?l = 0 => replace l with ((INR j + 1) * (INR j + 1 + 1) * ((INR m + 1) * zonal m x q j - (INR m + 1) * zonal (S m) x q j
    + rho * (INR j * INR (pred j)) / (4 * (INR m + 2)) * zonal (S (S m)) x q (pred (pred j)))) by (field; split; [exact M1|lra]) end.
  apply Rmult_eq_0_compat_l.
  assert (K : rho * (INR j * INR (pred j)) / (4 * (INR m + 2)) * zonal (S (S m)) x q (pred (pred j)) = - (INR j / 2) * (zonal (S m) x q j - x * zonal (S m) x q (pred j))).
  { destruct j as [|[|j]]; [cbn [INR]; field; exact M2|cbn [INR pred]; rewrite ?zonal_1, ?zonal_0; field; exact M2|]. cbn [pred].
    pose proof (zonal_step (S m) x rho j) as T. cbv zeta in T. rewrite Q in T. rewrite !S_INR in *.
    apply (Rmult_eq_reg_l (4 * (INR m + 2))); [|lra].
    match goal with |- ?l = ?r => replace l with (rho * ((INR j + 1 + 1) * (INR j + 1)) * zonal (S (S m)) x q j) by (field; exact M2);
      replace r with (- (2 * (INR m + 2) * (INR j + 1 + 1)) * (zonal (S m) x q (S (S j)) - x * zonal (S m) x q (S j))) by field end. revert T.
    generalize (INR m) (INR j) (zonal (S m) x q (S (S j))) (zonal (S m) x q (S j)) (zonal (S (S m)) x q j). intros. nsatz. }
  rewrite K. apply (cancel 2); [lra|]. match goal with |- ?l = 0 => replace l with (2 * (INR m + 1) * zonal m x q j - (2 * (INR m + 1) + INR j) * zonal (S m) x q j + INR j * x * zonal (S m) x q (pred j)) by field end.
  revert U. generalize (INR m) (INR j) (zonal m x q j) (zonal (S m) x q j) (zonal (S m) x q (pred j)). intros. nsatz.
Qed.

(** ** products of a zonal factor and an angular part *)
Section Prod.
  Context (m j : nat) (c cy cz cyy czz : R -> R -> R)
    (Dy : forall y z, dlim (fun t => c t z) y (cy y z)) (Dz : forall y z, dlim (fun t => c y t) z (cz y z))
    (Dyy : forall y z, dlim (fun t => cy t z) y (cyy y z)) (Dzz : forall y z, dlim (fun t => cz y t) z (czz y z))
    (Lap : forall y z, cyy y z + czz y z = 0) (Hom : forall y z, y * cy y z + z * cz y z = INR m * c y z).
  Notation rho y z := (y * y + z * z).
  Definition pf (x y z : R) := za m x (rho y z) j * c y z.
  Definition pfx (x y z : R) := INR j * za m x (rho y z) (pred j) * c y z.
  Definition rr (x q : R) := zr m x q j.
  Definition rrr (x q : R) := - (INR j * INR (pred j)) / (4 * (INR m + 1)) * zr (S m) x q (pred (pred j)).
  Definition pfy (x y z : R) := rr x (x * x + rho y z) * (2 * y) * c y z + za m x (rho y z) j * cy y z.
  Definition pfz (x y z : R) := rr x (x * x + rho y z) * (2 * z) * c y z + za m x (rho y z) j * cz y z.
  Lemma d_rho_y y z : dlim (fun t => rho t z) y (2 * y).
  Proof. eapply d_eq; [|apply d_plus; [apply d_mult; apply d_id|apply d_const]]. cbv beta. ring. Qed.
  Lemma d_rho_z y z : dlim (fun t => rho y t) z (2 * z).
  Proof. eapply d_eq; [|apply d_plus; [apply d_const|apply d_mult; apply d_id]]. cbv beta. ring. Qed.
  Lemma comp_y (g g' : R -> R) y z : (forall r, dlim g r (g' r)) -> dlim (fun t => g (rho t z)) y (g' (rho y z) * (2 * y)).
  Proof. intros H. apply (d_comp (fun t => rho t z) g y (2 * y) (g' (rho y z)) (d_rho_y y z)). apply H. Qed.
  Lemma comp_z (g g' : R -> R) y z : (forall r, dlim g r (g' r)) -> dlim (fun t => g (rho y t)) z (g' (rho y z) * (2 * z)).
  Proof. intros H. apply (d_comp (fun t => rho y t) g z (2 * z) (g' (rho y z)) (d_rho_z y z)). apply H. Qed.
  Lemma d_rr x rh : dlim (fun t => rr x (x * x + t)) rh (rrr x (x * x + rh)).
  Proof. unfold rr, rrr. unfold zr at 1. eapply d_eq; [|apply d_mult; [apply d_const|apply d_zonal_rho]]. cbv beta. ring. Qed.
  Lemma d_pf_x x y z : dlim (fun t => pf t y z) x (pfx x y z).
  Proof. unfold pf, pfx. eapply d_eq; [|apply d_mult; [apply d_zonal_x|apply d_const]]. cbv beta. ring. Qed.
  Lemma d_pf_y x y z : dlim (fun t => pf x t z) y (pfy x y z).
  Proof.
    unfold pf, pfy. eapply d_eq; [|apply d_mult; [apply (comp_y (fun r => za m x r j) (fun r => zr m x (x * x + r) j)); intros; apply d_zonal_rho|apply Dy]].
    cbv beta. unfold rr. ring.
  Qed.
  Lemma d_pf_z x y z : dlim (fun t => pf x y t) z (pfz x y z).
  Proof.
    unfold pf, pfz. eapply d_eq; [|apply d_mult; [apply (comp_z (fun r => za m x r j) (fun r => zr m x (x * x + r) j)); intros; apply d_zonal_rho|apply Dz]].
    cbv beta. unfold rr. ring.
  Qed.
  Lemma pf_harmonic : harmonic3 pf.
  Proof.
    exists pfx, pfy, pfz, (fun x y z => INR j * (INR (pred j) * za m x (rho y z) (pred (pred j))) * c y z),
      (fun x y z => (rrr x (x * x + rho y z) * (2 * y) * (2 * y) + rr x (x * x + rho y z) * 2) * c y z + rr x (x * x + rho y z) * (2 * y) * cy y z
        + (rr x (x * x + rho y z) * (2 * y) * cy y z + za m x (rho y z) j * cyy y z)),
      (fun x y z => (rrr x (x * x + rho y z) * (2 * z) * (2 * z) + rr x (x * x + rho y z) * 2) * c y z + rr x (x * x + rho y z) * (2 * z) * cz y z
        + (rr x (x * x + rho y z) * (2 * z) * cz y z + za m x (rho y z) j * czz y z)).
    split; [exact d_pf_x|]. split; [exact d_pf_y|]. split; [exact d_pf_z|]. split; [|split; [|split]].
    - intros x y z. change (dlim (fun t => pfx t y z) x (INR j * (INR (pred j) * za m x (rho y z) (pred (pred j))) * c y z)). unfold pfx.
      eapply d_eq; [|apply d_mult; [apply d_mult; [apply d_const|apply d_zonal_x]|apply d_const]]. cbv beta. ring.
    - intros x y z. match goal with |- derivable_pt_lim ?f ?a ?l => change (dlim f a l) end. unfold pfy.
      eapply d_eq; [|apply d_plus; [apply d_mult; [apply d_mult; [apply (comp_y (fun r => rr x (x * x + r)) (fun r => rrr x (x * x + r))); intros; apply d_rr|apply d_mult; [apply d_const|apply d_id]]|apply Dy]
        |apply d_mult; [apply (comp_y (fun r => za m x r j) (fun r => zr m x (x * x + r) j)); intros; apply d_zonal_rho|apply Dyy]]]. cbv beta. unfold rr. ring.
    - intros x y z. match goal with |- derivable_pt_lim ?f ?a ?l => change (dlim f a l) end. unfold pfz.
      eapply d_eq; [|apply d_plus; [apply d_mult; [apply d_mult; [apply (comp_z (fun r => rr x (x * x + r)) (fun r => rrr x (x * x + r))); intros; apply d_rr|apply d_mult; [apply d_const|apply d_id]]|apply Dz]
        |apply d_mult; [apply (comp_z (fun r => za m x r j) (fun r => zr m x (x * x + r) j)); intros; apply d_zonal_rho|apply Dzz]]]. cbv beta. unfold rr. ring.
    - intros x y z. cbv beta. pose proof (zonal_laplace m x (rho y z) j) as L. cbv zeta in L. fold (rrr x (x * x + rho y z)) in L. fold (rr x (x * x + rho y z)) in L.
      specialize (Lap y z). specialize (Hom y z). revert L Lap Hom. unfold rrr at 1.
      change (- (INR j * INR (pred j)) / (4 * (INR m + 1)) * zr (S m) x (x * x + rho y z) (pred (pred j))) with (rrr x (x * x + rho y z)).
      generalize (rr x (x * x + rho y z)) (rrr x (x * x + rho y z)) (za m x (rho y z) (pred (pred j))) (za m x (rho y z) j) (INR j) (INR (pred j)) (INR m) (c y z) (cy y z) (cz y z) (cyy y z) (czz y z).
      intros. nsatz.
  Qed.
End Prod.

Lemma cre_hom m y z : y * (INR m * cre y z (pred m)) + z * (- (INR m * cim y z (pred m))) = INR m * cre y z m.
Proof. destruct m as [|m]; [cbn [INR]; ring|]. cbn [pred]. destruct (cpow_S y z m) as (-> & _). ring. Qed.
Lemma cim_hom m y z : y * (INR m * cim y z (pred m)) + z * (INR m * cre y z (pred m)) = INR m * cim y z m.
Proof. destruct m as [|m]; [cbn [INR]; ring|]. cbn [pred]. destruct (cpow_S y z m) as (_ & ->). ring. Qed.
Lemma d_scaled f a x l : dlim f x l -> dlim (fun t => a * f t) x (a * l).
Proof. intros H. eapply d_eq; [|apply d_mult; [apply d_const|exact H]]. cbv beta. ring. Qed.
Lemma solid_c_pf n m x y z : solid_c n m x y z = pf m (n - m) (fun y z => cre y z m) x y z.
Proof. unfold solid_c, pf. rewrite Rplus_assoc. reflexivity. Qed.
Lemma solid_s_pf n m x y z : solid_s n m x y z = pf m (n - m) (fun y z => cim y z m) x y z.
Proof. unfold solid_s, pf. rewrite Rplus_assoc. reflexivity. Qed.
Lemma harmonic3_ext f g : (forall x y z, f x y z = g x y z) -> harmonic3 f -> harmonic3 g.
Proof.
  intros E (fx & fy & fz & fxx & fyy & fzz & H1 & H2 & H3 & H). exists fx, fy, fz, fxx, fyy, fzz.
  split; [intros x y z; apply (d_ext (fun t => f t y z)); [intros; apply E|apply H1]|].
  split; [intros x y z; apply (d_ext (fun t => f x t z)); [intros; apply E|apply H2]|].
  split; [intros x y z; apply (d_ext (fun t => f x y t)); [intros; apply E|apply H3]|exact H].
Qed.
Lemma solid_c_harmonic n m : harmonic3 (solid_c n m).
Proof.
  eapply harmonic3_ext; [intros; symmetry; apply solid_c_pf|].
  apply (pf_harmonic m (n - m) (fun y z => cre y z m) (fun y z => INR m * cre y z (pred m)) (fun y z => - (INR m * cim y z (pred m)))
    (fun y z => INR m * (INR (pred m) * cre y z (pred (pred m)))) (fun y z => - (INR m * (INR (pred m) * cre y z (pred (pred m)))))).
  - intros; apply d_cpow_y.
  - intros; apply d_cpow_z.
  - intros; apply d_scaled, d_cpow_y.
  - intros; apply d_opp, d_scaled, d_cpow_z.
  - intros; ring.
  - intros; apply cre_hom.
Qed.
Lemma solid_s_harmonic n m : harmonic3 (solid_s n m).
Proof.
  eapply harmonic3_ext; [intros; symmetry; apply solid_s_pf|].
  apply (pf_harmonic m (n - m) (fun y z => cim y z m) (fun y z => INR m * cim y z (pred m)) (fun y z => INR m * cre y z (pred m))
    (fun y z => INR m * (INR (pred m) * cim y z (pred (pred m)))) (fun y z => INR m * - (INR (pred m) * cim y z (pred (pred m))))).
  - intros; apply d_cpow_y.
  - intros; apply d_cpow_z.
  - intros; apply d_scaled, d_cpow_y.
  - intros; apply d_scaled, d_cpow_z.
  - intros; ring.
  - intros; apply cim_hom.
Qed.

(** ** the formulas of the program, away from the axis *)
Lemma zr_rho m x rho j : 2 * rho * zr m x (x * x + rho) j = INR j * (za m x rho j - x * za m x rho (pred j)).
Proof.
  assert (M1 : INR m + 1 <> 0) by (poss; lra). unfold zr. destruct j as [|[|j]].
  - change (INR 0) with 0. unfold Rdiv. ring.
  - cbn [pred]. change (INR 0) with 0. rewrite zonal_1, !zonal_0. unfold Rdiv. ring.
  - cbn [pred]. pose proof (zonal_step m x rho j) as T. cbv zeta in T. set (q := x * x + rho) in *. clearbody q. rewrite !S_INR in *.
    apply (Rmult_eq_reg_l (2 * (INR m + 1))); [|lra].
    match goal with |- ?l = _ => replace l with (- (rho * ((INR j + 1 + 1) * (INR j + 1))) * zonal (S m) x q j) by (field; exact M1) end.
    revert T. generalize (INR m) (INR j) (zonal m x q (S (S j))) (zonal m x q (S j)) (zonal (S m) x q j). intros. nsatz.
Qed.
Lemma cre_back m y z : y * cre y z m + z * cim y z m = (y * y + z * z) * cre y z (pred m) \/ m = 0%nat.
Proof. destruct m as [|m]; [right; reflexivity|left]. cbn [pred]. destruct (cpow_S y z m) as (-> & ->). ring. Qed.
Lemma cim_back m y z : y * cim y z m - z * cre y z m = (y * y + z * z) * cim y z (pred m) \/ m = 0%nat.
Proof. destruct m as [|m]; [right; reflexivity|left]. cbn [pred]. destruct (cpow_S y z m) as (-> & ->). ring. Qed.
(** value of the x derivative *)
Lemma d_solid_x n m x y z : (m <= n)%nat ->
  dlim (fun t => solid_c n m t y z) x (INR (n - m) * solid_c (n - 1) m x y z) /\
  dlim (fun t => solid_s n m t y z) x (INR (n - m) * solid_s (n - 1) m x y z).
Proof.
  intros H. assert (E : (n - 1 - m = pred (n - m))%nat) by lia. split.
  - eapply d_ext; [intros; symmetry; apply solid_c_pf|]. eapply d_eq; [|apply d_pf_x]. unfold pfx. rewrite solid_c_pf. unfold pf. rewrite E. ring.
  - eapply d_ext; [intros; symmetry; apply solid_s_pf|]. eapply d_eq; [|apply d_pf_x]. unfold pfx. rewrite solid_s_pf. unfold pf. rewrite E. ring.
Qed.
Section Grad.
  Context (n m : nat) (x y z : R) (Hm : (m <= n)%nat) (r2 : R) (R2 : r2 = y * y + z * z) (NZ : r2 <> 0).
  Lemma npl : INR n = INR m + INR (n - m). Proof. rewrite <- plus_INR. f_equal. lia. Qed.
  Lemma d_solid_c_y : dlim (fun t => solid_c n m x t z) y
    (y / r2 * (INR n * solid_c n m x y z - INR (n - m) * x * solid_c (n - 1) m x y z) + INR m * solid_s n m x y z * z / r2).
  Proof.
    eapply d_ext; [intros; symmetry; apply solid_c_pf|].
    eapply d_eq; [|apply (d_pf_y m (n - m) (fun y z => cre y z m) (fun y z => INR m * cre y z (pred m))); intros; apply d_cpow_y].
    unfold pfy, rr. rewrite !solid_c_pf, !solid_s_pf. unfold pf. replace (n - 1 - m)%nat with (pred (n - m)) by lia. rewrite npl.
    pose proof (zr_rho m x (y * y + z * z) (n - m)) as K. rewrite <- R2 in *. apply (Rmult_eq_reg_l r2); [|exact NZ].
    match goal with |- _ = ?r => replace r with (y * ((INR m + INR (n - m)) * (za m x r2 (n - m) * cre y z m) - INR (n - m) * x * (za m x r2 (pred (n - m)) * cre y z m)) + INR m * (za m x r2 (n - m) * cim y z m) * z) by (field; exact NZ) end.
    revert K. destruct (cre_back m y z) as [B|B].
    - revert B. rewrite <- R2. generalize (zr m x (x * x + r2) (n - m)) (za m x r2 (n - m)) (za m x r2 (pred (n - m))) (INR m) (INR (n - m)) (cre y z m) (cim y z m) (cre y z (pred m)). intros. nsatz.
    - rewrite B. change (INR 0) with 0. change (cim y z 0) with 0. generalize (zr 0 x (x * x + r2) (n - 0)) (za 0 x r2 (n - 0)) (za 0 x r2 (pred (n - 0))) (INR (n - 0)) (cre y z 0) (cre y z (pred 0)). intros. nsatz.
  Qed.
  Lemma d_solid_c_z : dlim (fun t => solid_c n m x y t) z
    (z / r2 * (INR n * solid_c n m x y z - INR (n - m) * x * solid_c (n - 1) m x y z) - INR m * solid_s n m x y z * y / r2).
  Proof.
    eapply d_ext; [intros; symmetry; apply solid_c_pf|].
    eapply d_eq; [|apply (d_pf_z m (n - m) (fun y z => cre y z m) (fun y z => - (INR m * cim y z (pred m)))); intros; apply d_cpow_z].
    unfold pfz, rr. rewrite !solid_c_pf, !solid_s_pf. unfold pf. replace (n - 1 - m)%nat with (pred (n - m)) by lia. rewrite npl.
    pose proof (zr_rho m x (y * y + z * z) (n - m)) as K. rewrite <- R2 in *. apply (Rmult_eq_reg_l r2); [|exact NZ].
    match goal with |- _ = ?r => replace r with (z * ((INR m + INR (n - m)) * (za m x r2 (n - m) * cre y z m) - INR (n - m) * x * (za m x r2 (pred (n - m)) * cre y z m)) - INR m * (za m x r2 (n - m) * cim y z m) * y) by (field; exact NZ) end.
    revert K. destruct (cim_back m y z) as [B|B].
    - revert B. rewrite <- R2. generalize (zr m x (x * x + r2) (n - m)) (za m x r2 (n - m)) (za m x r2 (pred (n - m))) (INR m) (INR (n - m)) (cre y z m) (cim y z m) (cim y z (pred m)). intros. nsatz.
    - rewrite B. change (INR 0) with 0. generalize (zr 0 x (x * x + r2) (n - 0)) (za 0 x r2 (n - 0)) (za 0 x r2 (pred (n - 0))) (INR (n - 0)) (cre y z 0) (cim y z (pred 0)) (cim y z 0). intros. nsatz.
  Qed.
  Lemma d_solid_s_y : dlim (fun t => solid_s n m x t z) y
    (y / r2 * (INR n * solid_s n m x y z - INR (n - m) * x * solid_s (n - 1) m x y z) - INR m * solid_c n m x y z * z / r2).
  Proof.
    eapply d_ext; [intros; symmetry; apply solid_s_pf|].
    eapply d_eq; [|apply (d_pf_y m (n - m) (fun y z => cim y z m) (fun y z => INR m * cim y z (pred m))); intros; apply d_cpow_y].
    unfold pfy, rr. rewrite !solid_c_pf, !solid_s_pf. unfold pf. replace (n - 1 - m)%nat with (pred (n - m)) by lia. rewrite npl.
    pose proof (zr_rho m x (y * y + z * z) (n - m)) as K. rewrite <- R2 in *. apply (Rmult_eq_reg_l r2); [|exact NZ].
    match goal with |- _ = ?r => replace r with (y * ((INR m + INR (n - m)) * (za m x r2 (n - m) * cim y z m) - INR (n - m) * x * (za m x r2 (pred (n - m)) * cim y z m)) - INR m * (za m x r2 (n - m) * cre y z m) * z) by (field; exact NZ) end.
    revert K. destruct (cim_back m y z) as [B|B].
    - revert B. rewrite <- R2. generalize (zr m x (x * x + r2) (n - m)) (za m x r2 (n - m)) (za m x r2 (pred (n - m))) (INR m) (INR (n - m)) (cre y z m) (cim y z m) (cim y z (pred m)). intros. nsatz.
    - rewrite B. change (INR 0) with 0. generalize (zr 0 x (x * x + r2) (n - 0)) (za 0 x r2 (n - 0)) (za 0 x r2 (pred (n - 0))) (INR (n - 0)) (cre y z 0) (cim y z (pred 0)) (cim y z 0). intros. nsatz.
  Qed.
  Lemma d_solid_s_z : dlim (fun t => solid_s n m x y t) z
    (z / r2 * (INR n * solid_s n m x y z - INR (n - m) * x * solid_s (n - 1) m x y z) + INR m * solid_c n m x y z * y / r2).
  Proof.
    eapply d_ext; [intros; symmetry; apply solid_s_pf|].
    eapply d_eq; [|apply (d_pf_z m (n - m) (fun y z => cim y z m) (fun y z => INR m * cre y z (pred m))); intros; apply d_cpow_z].
    unfold pfz, rr. rewrite !solid_c_pf, !solid_s_pf. unfold pf. replace (n - 1 - m)%nat with (pred (n - m)) by lia. rewrite npl.
    pose proof (zr_rho m x (y * y + z * z) (n - m)) as K. rewrite <- R2 in *. apply (Rmult_eq_reg_l r2); [|exact NZ].
    match goal with |- _ = ?r => replace r with (z * ((INR m + INR (n - m)) * (za m x r2 (n - m) * cim y z m) - INR (n - m) * x * (za m x r2 (pred (n - m)) * cim y z m)) + INR m * (za m x r2 (n - m) * cre y z m) * y) by (field; exact NZ) end.
    revert K. destruct (cre_back m y z) as [B|B].
    - revert B. rewrite <- R2. generalize (zr m x (x * x + r2) (n - m)) (za m x r2 (n - m)) (za m x r2 (pred (n - m))) (INR m) (INR (n - m)) (cre y z m) (cim y z m) (cre y z (pred m)). intros. nsatz.
    - rewrite B. change (INR 0) with 0. generalize (zr 0 x (x * x + r2) (n - 0)) (za 0 x r2 (n - 0)) (za 0 x r2 (pred (n - 0))) (INR (n - 0)) (cre y z 0) (cim y z 0) (cre y z (pred 0)). intros. nsatz.
  Qed.
End Grad.
