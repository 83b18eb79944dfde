(** Tangential bases, projections, mass and impedance terms. *)
From Coq Require Import List Arith Reals Lra Lia Bool.
From Verif Require Import Poly_Spec Poly_Proofs HHO_Spec VHHO_Spec SymL_Spec Curl_Spec HHO_Model VHHO_Model Curl_Model HHO_Setting VHHO_Setting Curl_Setting
  HHO_Proofs HHO2_Proofs HHO3_Proofs HHO4_Proofs HHO5_Proofs HHO6_Proofs HHO7_Proofs HHO8_Proofs HHO9_Proofs VHHO_Proofs VHHO2_Proofs VHHO3_Proofs VHHO4_Proofs Curl_Proofs Curl2_Proofs.
Import ListNotations.
Open Scope R_scope.

(** * scalar functions times two tangent vectors *)
Lemma sg_even n (g : nat -> R) : sg (2 * n) g = sg n (fun i => g (2 * i)%nat) + sg n (fun i => g (2 * i + 1)%nat).
Proof.
  induction n as [|n IH]; [cbn; ring|]. replace (2 * S n)%nat with (S (S (2 * n))) by lia. cbn [sg]. rewrite IH. replace (2 * n + 1)%nat with (S (2 * n)) by lia. ring.
Qed.
Lemma tang_eval e0 e1 b k a x : peval (vlin (v_size (tang_basis e0 e1 b)) k (v_comp (tang_basis e0 e1 b)) a) x =
  e0 a * peval (lincomb (b_size b) (fun i => k (2 * i)%nat) (b_poly b)) x + e1 a * peval (lincomb (b_size b) (fun i => k (2 * i + 1)%nat) (b_poly b)) x.
Proof.
  rewrite peval_vlin, !peval_lincomb. unfold tang_basis. cbn [v_size v_comp]. rewrite sg_even, <- !sg_scal. f_equal; apply sg_ext; intros i _; unfold pscal; cbn [peval].
  - rewrite (Nat.mul_comm 2 i), Nat.mod_mul, Nat.div_mul by lia. cbn [Nat.eqb]. ring.
  - replace (2 * i + 1)%nat with (1 + i * 2)%nat by lia. rewrite Nat.mod_add, Nat.div_add by lia. cbn. ring.
Qed.
Section Tang.
  Context (f : facet) (e0 e1 : pt) (HF : frame_fits f e0 e1) (fd : nat) (b : sbasis) (HB : basis_on (fa_on f) fd (b_size b) (b_poly b)).
  Lemma tang_fits : tb_fits fd f (tang_basis e0 e1 b).
  Proof.
    destruct HF as (E00 & E11 & E01 & E0n & E1n & Un). destruct HB as (Db & Ib & _). split.
    - intros j Hj. unfold tang_basis in *. cbn [v_size v_comp] in *. split.
      + intros a Ha. apply deg_le_scal, Db. apply Nat.div_lt_upper_bound; lia.
      + intros x Hx. unfold pscal. cbn [peval]. cbn [sg] in *. destruct (j mod 2 =? 0)%nat.
        * transitivity (peval (b_poly b (j / 2)) x * (0 + e0 0%nat * fa_normal f 0%nat + e0 1%nat * fa_normal f 1%nat + e0 2%nat * fa_normal f 2%nat)); [ring|rewrite E0n; ring].
        * transitivity (peval (b_poly b (j / 2)) x * (0 + e1 0%nat * fa_normal f 0%nat + e1 1%nat * fa_normal f 1%nat + e1 2%nat * fa_normal f 2%nat)); [ring|rewrite E1n; ring].
    - intros k H. set (A := lincomb (b_size b) (fun i => k (2 * i)%nat) (b_poly b)). set (B := lincomb (b_size b) (fun i => k (2 * i + 1)%nat) (b_poly b)).
      assert (H' : forall a x, (a < 3)%nat -> fa_on f x -> e0 a * peval A x + e1 a * peval B x = 0).
      { intros a x Ha Hx. rewrite <- (H a x Ha Hx). symmetry. apply tang_eval. }
      assert (ZA : forall x, fa_on f x -> peval A x = 0).
      { intros x Hx. pose proof (H' 0%nat x ltac:(lia) Hx). pose proof (H' 1%nat x ltac:(lia) Hx). pose proof (H' 2%nat x ltac:(lia) Hx). cbn [sg] in *.
        transitivity ((0 + e0 0%nat * e0 0%nat + e0 1%nat * e0 1%nat + e0 2%nat * e0 2%nat) * peval A x + (0 + e0 0%nat * e1 0%nat + e0 1%nat * e1 1%nat + e0 2%nat * e1 2%nat) * peval B x); [rewrite E00, E01; ring|].
        transitivity (e0 0%nat * (e0 0%nat * peval A x + e1 0%nat * peval B x) + e0 1%nat * (e0 1%nat * peval A x + e1 1%nat * peval B x) + e0 2%nat * (e0 2%nat * peval A x + e1 2%nat * peval B x)); [ring|].
        rewrite H0, H1, H2. ring. }
      assert (ZB : forall x, fa_on f x -> peval B x = 0).
      { intros x Hx. pose proof (H' 0%nat x ltac:(lia) Hx). pose proof (H' 1%nat x ltac:(lia) Hx). pose proof (H' 2%nat x ltac:(lia) Hx). cbn [sg] in *.
        transitivity ((0 + e1 0%nat * e1 0%nat + e1 1%nat * e1 1%nat + e1 2%nat * e1 2%nat) * peval B x + (0 + e0 0%nat * e1 0%nat + e0 1%nat * e1 1%nat + e0 2%nat * e1 2%nat) * peval A x); [rewrite E11, E01; ring|].
        transitivity (e1 0%nat * (e0 0%nat * peval A x + e1 0%nat * peval B x) + e1 1%nat * (e0 1%nat * peval A x + e1 1%nat * peval B x) + e1 2%nat * (e0 2%nat * peval A x + e1 2%nat * peval B x)); [ring|].
        rewrite H0, H1, H2. ring. }
      intros j Hj. unfold tang_basis in Hj. cbn [v_size] in Hj. pose proof (Nat.div_mod j 2 ltac:(lia)) as E. pose proof (Nat.mod_upper_bound j 2 ltac:(lia)) as L.
      assert (Hd : (j / 2 < b_size b)%nat) by (apply Nat.div_lt_upper_bound; lia).
      destruct (j mod 2)%nat as [|[|m]]; [| |lia].
      + pose proof (Ib _ ZA (j / 2)%nat Hd) as K. cbv beta in K. replace j with (2 * (j / 2))%nat by lia. exact K.
      + pose proof (Ib _ ZB (j / 2)%nat Hd) as K. cbv beta in K. rewrite E. exact K.
  Qed.
  (** three orthonormal vectors decompose every vector *)
  Lemma frame_all (w : nat -> R) a : (a < 3)%nat -> sg 3 (fun a => fa_normal f a * w a) = 0 ->
    w a = e0 a * sg 3 (fun b => e0 b * w b) + e1 a * sg 3 (fun b => e1 b * w b).
  Proof.
    intros Ha Hw. destruct HF as (E00 & E11 & E01 & E0n & E1n & Un). unfold unit_normal in Un. cbn [sg] in *. set (n := fa_normal f) in *.
    set (s := 0 + e0 0%nat * w 0%nat + e0 1%nat * w 1%nat + e0 2%nat * w 2%nat) in *.
    set (t := 0 + e1 0%nat * w 0%nat + e1 1%nat * w 1%nat + e1 2%nat * w 2%nat) in *.
    set (r := fun a => w a - (e0 a * s + e1 a * t)).
    assert (R0 : e0 0%nat * r 0%nat + e0 1%nat * r 1%nat + e0 2%nat * r 2%nat = 0).
    { transitivity ((0 + e0 0%nat * w 0%nat + e0 1%nat * w 1%nat + e0 2%nat * w 2%nat) - ((0 + e0 0%nat * e0 0%nat + e0 1%nat * e0 1%nat + e0 2%nat * e0 2%nat) * s + (0 + e0 0%nat * e1 0%nat + e0 1%nat * e1 1%nat + e0 2%nat * e1 2%nat) * t)); [unfold r; ring|fold s; rewrite E00, E01; ring]. }
    assert (R1 : e1 0%nat * r 0%nat + e1 1%nat * r 1%nat + e1 2%nat * r 2%nat = 0).
    { transitivity ((0 + e1 0%nat * w 0%nat + e1 1%nat * w 1%nat + e1 2%nat * w 2%nat) - ((0 + e0 0%nat * e1 0%nat + e0 1%nat * e1 1%nat + e0 2%nat * e1 2%nat) * s + (0 + e1 0%nat * e1 0%nat + e1 1%nat * e1 1%nat + e1 2%nat * e1 2%nat) * t)); [unfold r; ring|fold t; rewrite E11, E01; ring]. }
    assert (R2 : n 0%nat * r 0%nat + n 1%nat * r 1%nat + n 2%nat * r 2%nat = 0).
    { transitivity ((0 + n 0%nat * w 0%nat + n 1%nat * w 1%nat + n 2%nat * w 2%nat) - ((0 + e0 0%nat * n 0%nat + e0 1%nat * n 1%nat + e0 2%nat * n 2%nat) * s + (0 + e1 0%nat * n 0%nat + e1 1%nat * n 1%nat + e1 2%nat * n 2%nat) * t)); [unfold r; ring|rewrite Hw, E0n, E1n; ring]. }
    set (D := e0 0%nat * (e1 1%nat * n 2%nat - e1 2%nat * n 1%nat) - e0 1%nat * (e1 0%nat * n 2%nat - e1 2%nat * n 0%nat) + e0 2%nat * (e1 0%nat * n 1%nat - e1 1%nat * n 0%nat)).
    assert (DD : D * D = 1).
    { transitivity ((0 + e0 0%nat * e0 0%nat + e0 1%nat * e0 1%nat + e0 2%nat * e0 2%nat) * ((0 + e1 0%nat * e1 0%nat + e1 1%nat * e1 1%nat + e1 2%nat * e1 2%nat) * (0 + n 0%nat * n 0%nat + n 1%nat * n 1%nat + n 2%nat * n 2%nat)
          - (0 + e1 0%nat * n 0%nat + e1 1%nat * n 1%nat + e1 2%nat * n 2%nat) * (0 + e1 0%nat * n 0%nat + e1 1%nat * n 1%nat + e1 2%nat * n 2%nat))
        - (0 + e0 0%nat * e1 0%nat + e0 1%nat * e1 1%nat + e0 2%nat * e1 2%nat) * ((0 + e0 0%nat * e1 0%nat + e0 1%nat * e1 1%nat + e0 2%nat * e1 2%nat) * (0 + n 0%nat * n 0%nat + n 1%nat * n 1%nat + n 2%nat * n 2%nat)
          - (0 + e1 0%nat * n 0%nat + e1 1%nat * n 1%nat + e1 2%nat * n 2%nat) * (0 + e0 0%nat * n 0%nat + e0 1%nat * n 1%nat + e0 2%nat * n 2%nat))
        + (0 + e0 0%nat * n 0%nat + e0 1%nat * n 1%nat + e0 2%nat * n 2%nat) * ((0 + e0 0%nat * e1 0%nat + e0 1%nat * e1 1%nat + e0 2%nat * e1 2%nat) * (0 + e1 0%nat * n 0%nat + e1 1%nat * n 1%nat + e1 2%nat * n 2%nat)
          - (0 + e1 0%nat * e1 0%nat + e1 1%nat * e1 1%nat + e1 2%nat * e1 2%nat) * (0 + e0 0%nat * n 0%nat + e0 1%nat * n 1%nat + e0 2%nat * n 2%nat))); [unfold D; ring|].
      rewrite E00, E11, E01, E0n, E1n, Un. ring. }
    assert (DR : D * r a = 0).
    { set (q0 := e0 0%nat * r 0%nat + e0 1%nat * r 1%nat + e0 2%nat * r 2%nat) in *. set (q1 := e1 0%nat * r 0%nat + e1 1%nat * r 1%nat + e1 2%nat * r 2%nat) in *.
      set (q2 := n 0%nat * r 0%nat + n 1%nat * r 1%nat + n 2%nat * r 2%nat) in *.
      three a.
      - transitivity ((e1 1%nat * n 2%nat - e1 2%nat * n 1%nat) * q0 - (e0 1%nat * n 2%nat - e0 2%nat * n 1%nat) * q1 + (e0 1%nat * e1 2%nat - e0 2%nat * e1 1%nat) * q2); [unfold D, q0, q1, q2; ring|rewrite R0, R1, R2; ring].
      - transitivity (- (e1 0%nat * n 2%nat - e1 2%nat * n 0%nat) * q0 + (e0 0%nat * n 2%nat - e0 2%nat * n 0%nat) * q1 - (e0 0%nat * e1 2%nat - e0 2%nat * e1 0%nat) * q2); [unfold D, q0, q1, q2; ring|rewrite R0, R1, R2; ring].
      - transitivity ((e1 0%nat * n 1%nat - e1 1%nat * n 0%nat) * q0 - (e0 0%nat * n 1%nat - e0 1%nat * n 0%nat) * q1 + (e0 0%nat * e1 1%nat - e0 1%nat * e1 0%nat) * q2); [unfold D, q0, q1, q2; ring|rewrite R0, R1, R2; ring]. }
    assert (Ra : r a = 0) by (apply Rmult_integral in DR as [Z|Z]; [rewrite Z in DD; lra|exact Z]). unfold r in Ra. lra.
  Qed.
  Lemma tang_spans : tb_spans fd f (tang_basis e0 e1 b).
  Proof.
    intros w Dw Tw. destruct HB as (_ & _ & Sb).
    assert (Dd : forall e : pt, deg_le (psum 3 (fun a => pscal (e a) (w a))) fd) by (intros e; apply deg_le_psum; intros a Ha; apply deg_le_scal, Dw, Ha).
    destruct (Sb _ (Dd e0)) as (k0 & H0). destruct (Sb _ (Dd e1)) as (k1 & H1).
    exists (fun j => if (j mod 2 =? 0)%nat then k0 (j / 2)%nat else k1 (j / 2)%nat). intros a x Ha Hx. rewrite tang_eval.
    rewrite (peval_lincomb _ (fun i => if ((2 * i) mod 2 =? 0)%nat then _ else _)), (peval_lincomb _ (fun i => if ((2 * i + 1) mod 2 =? 0)%nat then _ else _)).
    rewrite (sg_ext (b_size b) (fun j => (if ((2 * j) mod 2 =? 0)%nat then _ else _) * _) (fun j => k0 j * peval (b_poly b j) x)).
    2:{ intros i _. rewrite (Nat.mul_comm 2 i), Nat.mod_mul, Nat.div_mul by lia. reflexivity. }
    rewrite (sg_ext (b_size b) (fun j => (if ((2 * j + 1) mod 2 =? 0)%nat then _ else _) * _) (fun j => k1 j * peval (b_poly b j) x)).
    2:{ intros i _. replace (2 * i + 1)%nat with (1 + i * 2)%nat by lia. rewrite Nat.mod_add, Nat.div_add by lia. reflexivity. }
    rewrite <- !peval_lincomb, <- (H0 x Hx), <- (H1 x Hx), !peval_psum. apply (frame_all (fun a => peval (w a) x) a Ha). apply Tw, Hx.
  Qed.
End Tang.
