(** Proofs about the symmetric reconstruction: vectors without strain, and the system that is solved. *)
From Coq Require Import List Arith Reals Lra Lia Bool.
From Verif Require Import Poly_Spec Poly_Proofs HHO_Spec HHO_Model HHO_Setting HHO_Proofs HHO2_Proofs HHO3_Proofs HHO4_Proofs HHO5_Proofs
  VHHO_Spec VHHO_Model VHHO_Setting VHHO_Proofs VHHO2_Proofs VHHO3_Proofs VHHO4_Proofs VHHO5_Proofs VHHO6_Proofs HHOInst2_Proofs
  Stab_Model Stab_Proofs SymL_Spec SymL_Model.
Import ListNotations.
Open Scope R_scope.

Lemma pdiff_swap a b p x : peval (pdiff a (pdiff b p)) x = peval (pdiff b (pdiff a p)) x.
Proof.
  induction p as [k|i|p IHp q IHq|p IHp q IHq]; cbn [pdiff peval].
  - reflexivity.
  - destruct (a =? i)%nat, (b =? i)%nat; reflexivity.
  - rewrite IHp, IHq. reflexivity.
  - rewrite IHp, IHq. ring.
Qed.
Lemma pdiff_sub a p q x : peval (pdiff a (psubp p q)) x = peval (pdiff a p) x - peval (pdiff a q) x.
Proof. unfold psubp, pscal. cbn [pdiff peval]. ring. Qed.
Lemma strain_eval d V a b x : (a < d)%nat -> (b < d)%nat -> peval (strain d V (d * a + b)%nat) x = (peval (pdiff b (V a)) x + peval (pdiff a (V b)) x) / 2.
Proof. intros Ha Hb. unfold strain. rewrite msymp_eval by assumption. rewrite !mgrad_row by assumption. reflexivity. Qed.
Lemma rotp_eval a b V x : peval (rotp a b V) x = peval (pdiff b (V a)) x - peval (pdiff a (V b)) x.
Proof. unfold rotp, psubp, pscal. cbn [peval]. ring. Qed.
Lemma entry_split d e : (e < d * d)%nat -> exists a b, (a < d)%nat /\ (b < d)%nat /\ e = (d * a + b)%nat.
Proof.
  intros H. assert (D : d <> 0%nat) by (intros ->; lia). exists (e / d)%nat, (e mod d)%nat. repeat split.
  - apply Nat.div_lt_upper_bound; assumption.
  - apply Nat.mod_upper_bound; assumption.
  - apply Nat.div_mod; assumption.
Qed.
Lemma rotp_lin on I (HI : integral on I) a b n k B : I (rotp a b (vlin n k B)) = sg n (fun j => k j * I (rotp a b (B j))).
Proof.
  rewrite <- (I_lincomb _ _ HI). apply (I_ext _ _ HI). intros x. rewrite rotp_eval, peval_lincomb. unfold vlin. rewrite !pdiff_lincomb. unfold Rminus.
  rewrite <- sg_opp, <- sg_plus. apply sg_ext. intros j _. rewrite rotp_eval. ring.
Qed.

Section Rigid.
  Context (d : nat) (P : polytope) (c : scell) (HC : cell_fits d P c).
  Let HP := cf_poly _ _ _ HC.
  Let HI := poly_int _ _ HP.
  (** a polynomial that vanishes on the cell vanishes everywhere *)
  Lemma vanish p k : pvars d p -> deg_le p k -> (forall x, po_on P x -> peval p x = 0) -> forall x, peval p x = 0.
  Proof.
    intros V D Z x. destruct (cf_span _ _ _ HC k p V D) as (s & Hs). rewrite Hs, peval_lincomb. apply sg_zero. intros j Hj.
    destruct (fit_basis _ _ _ (cf_elem _ _ _ HC) k) as (_ & Ind & _).
    rewrite (Ind s) by (try exact Hj; intros y Hy; rewrite <- Hs; apply Z, Hy). ring.
  Qed.
  Lemma measure_pos : 0 < po_int P (PC 1).
  Proof.
    destruct (Req_dec (po_int P (PC 1)) 0) as [Z|Z].
    - exfalso. destruct (poly_point _ _ HP) as (x & Hx). pose proof (int_def _ _ HI (PC 1) ltac:(intros; cbn; lra) Z x Hx) as W. cbn in W. lra.
    - pose proof (int_pos _ _ HI (PC 1) ltac:(intros; cbn; lra)). lra.
  Qed.
  Lemma int_const p k : (forall x, po_on P x -> peval p x = k) -> po_int P p = k * po_int P (PC 1).
  Proof. intros H. rewrite <- (int_scal _ _ HI). apply (int_ext _ _ HI). intros x Hx. unfold pscal. cbn [peval]. rewrite H by exact Hx. ring. Qed.
  Context (X : tf) (k : nat) (HV : vvars d d X) (HD : vdeg d X k) (HZ : forall e x, (e < d * d)%nat -> po_on P x -> peval (strain d X e) x = 0).
  Let D1 a b := pdiff b (X a).
  Lemma strain_all a b x : (a < d)%nat -> (b < d)%nat -> peval (D1 a b) x = - peval (D1 b a) x.
  Proof.
    intros Ha Hb. assert (Z : forall x, peval (PAdd (D1 a b) (D1 b a)) x = 0).
    { apply (vanish _ k).
      - split; apply pvars_diff; apply HV; assumption.
      - apply deg_le_add; (eapply deg_le_mono; [|apply deg_le_diff, HD; assumption]); lia.
      - intros y Hy. pose proof (HZ (d * a + b)%nat y ltac:(nia) Hy) as E. rewrite strain_eval in E by assumption. cbn [peval]. unfold D1. lra. }
    specialize (Z x). cbn [peval] in Z. lra.
  Qed.
  (** its gradient is constant *)
  Lemma strain_second a b e x : (a < d)%nat -> (b < d)%nat -> (e < d)%nat -> peval (pdiff e (D1 a b)) x = 0.
  Proof.
    intros Ha Hb He.
    assert (A : forall a b e, (a < d)%nat -> (b < d)%nat -> (e < d)%nat -> peval (pdiff e (D1 a b)) x = - peval (pdiff e (D1 b a)) x).
    { clear a b e Ha Hb He. intros a b e Ha Hb He. rewrite (pdiff_ext (D1 a b) (pscal (-1) (D1 b a)) e).
      - unfold pscal. cbn [pdiff peval]. ring.
      - intros y. unfold pscal. cbn [peval]. rewrite (strain_all a b y Ha Hb). ring. }
    assert (B : forall a b e, peval (pdiff e (D1 a b)) x = peval (pdiff b (D1 a e)) x) by (intros; unfold D1; apply pdiff_swap).
    pose proof (A a b e Ha Hb He) as A1. pose proof (A b e a Hb He Ha) as A2. pose proof (A e a b He Ha Hb) as A3.
    rewrite (B b a e) in A1. rewrite (B e b a) in A2. rewrite (B a e b) in A3. lra.
  Qed.
  Lemma strain_const a b : (a < d)%nat -> (b < d)%nat -> exists g, forall x, po_on P x -> peval (D1 a b) x = g.
  Proof.
    intros Ha Hb. destruct (poly_point _ _ HP) as (x0 & H0). exists (peval (D1 a b) x0). intros x Hx.
    apply (poly_conn _ _ HP); [|exact Hx|exact H0]. intros e y He _. apply strain_second; assumption.
  Qed.
  (** a vector without strain whose mean rotation is zero is constant *)
  Lemma rigid_const : (forall a b, (a < b)%nat -> (b < d)%nat -> po_int P (rotp a b X) = 0) ->
    forall a, (a < d)%nat -> exists g, forall x, po_on P x -> peval (X a) x = g.
  Proof.
    intros R0 a Ha.
    assert (G : forall a b x, (a < d)%nat -> (b < d)%nat -> po_on P x -> peval (D1 a b) x = 0).
    { assert (L : forall a b x, (a < b)%nat -> (b < d)%nat -> po_on P x -> peval (D1 a b) x = 0).
      { intros p q x Hpq Hq Hx. destruct (strain_const p q ltac:(lia) Hq) as (g & Hg).
        assert (E : po_int P (rotp p q X) = 2 * g * po_int P (PC 1)).
        { apply int_const. intros y Hy. rewrite rotp_eval. change (peval (pdiff p (X q)) y) with (peval (D1 q p) y). change (peval (pdiff q (X p)) y) with (peval (D1 p q) y).
          rewrite (strain_all q p y Hq ltac:(lia)), (Hg y Hy). ring. }
        rewrite (R0 p q Hpq Hq) in E. pose proof measure_pos as M. rewrite (Hg x Hx).
        assert (2 * g = 0); [|lra]. apply (Rmult_eq_reg_r (po_int P (PC 1))); lra. }
      intros p q x Hp Hq Hx. destruct (lt_eq_lt_dec p q) as [[H| ->]|H].
      - apply L; assumption.
      - pose proof (strain_all q q x Hq Hq). lra.
      - rewrite (strain_all p q x Hp Hq), (L q p x H Hp Hx). ring. }
    destruct (poly_point _ _ HP) as (x0 & H0). exists (peval (X a) x0). intros x Hx.
    apply (poly_conn _ _ HP); [|exact Hx|exact H0]. intros e y He Hy. apply (G a e y Ha He Hy).
  Qed.
End Rigid.

(** the pairs of coordinates of the columns of eval_curls *)
Definition rpair (d p : nat) : nat * nat := if (d =? 3)%nat then nth p [(0, 1); (0, 2); (1, 2)]%nat (0, 1)%nat else (0, 1)%nat.
Lemma eval_curls_eq d b x j p : dim23 d -> (p < nb_lag d)%nat ->
  eval_curls d b x j p = peval (rotp (fst (rpair d p)) (snd (rpair d p)) (v_comp (vec_basis d b) j)) x.
Proof.
  intros Hd Hp. rewrite rotp_eval. unfold eval_curls, dphi, rpair, vec_basis. cbn [v_comp].
  destruct Hd as [-> | ->].
  - assert (j mod 2 < 2)%nat by (apply Nat.mod_upper_bound; lia). cbn in Hp. destruct p as [|p]; [|lia]. destruct (j mod 2) as [|[|m]]; [| |lia]; cbn; ring.
  - assert (j mod 3 < 3)%nat by (apply Nat.mod_upper_bound; lia). cbn in Hp. destruct p as [|[|[|p]]]; [| | |lia]; (destruct (j mod 3) as [|[|[|m]]]; [| | |lia]); cbn; ring.
Qed.
Lemma rpair_lt d p : dim23 d -> (p < nb_lag d)%nat -> (fst (rpair d p) < snd (rpair d p) < d)%nat.
Proof. intros [-> | ->] Hp; cbn in Hp; [destruct p as [|p]; [|lia]; cbn; lia|destruct p as [|[|[|p]]]; [| | |lia]; cbn; lia]. Qed.
Lemma rpair_all d a b : dim23 d -> (a < b)%nat -> (b < d)%nat -> exists p, (p < nb_lag d)%nat /\ rpair d p = (a, b).
Proof.
  intros [-> | ->] Hab Hb.
  - exists 0%nat. cbn. split; [lia|]. f_equal; lia.
  - assert (E : (a = 0 /\ b = 1 \/ a = 0 /\ b = 2 \/ a = 1 /\ b = 2)%nat) by lia.
    destruct E as [[-> ->]|[[-> ->]|[-> ->]]]; [exists 0%nat|exists 1%nat|exists 2%nat]; cbn; split; (lia || reflexivity).
Qed.
Lemma rpair_inj d p q : dim23 d -> (p < nb_lag d)%nat -> (q < nb_lag d)%nat -> rpair d p = rpair d q -> p = q.
Proof.
  intros [-> | ->] Hp Hq; cbn in Hp, Hq; [lia|].
  destruct p as [|[|[|p]]]; [| | |lia]; (destruct q as [|[|[|q]]]; [| | |lia]); cbn; intros E; congruence.
Qed.
