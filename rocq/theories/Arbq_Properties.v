(** C93: the default tetrahedron quadrature.  2 * [tri_eps] = 2e-14 is the
    accuracy of the printed tables and constants. *)
From Coq Require Import Reals List Lia Lra QArith Qreals Bool.
From Verif Require Import Common Poly_Spec Poly_Proofs Quad_Model Quad_Spec GM_Model QChk_Proofs Tri_Proofs Arbq_Tables Arbq_Model Arbq_Proofs.
Import ListNotations.
Local Open Scope R_scope.

Lemma arbq_ok degree p0 p1 p2 p3 : (degree <= 15)%nat -> exists t d, (degree <= d)%nat /\ t <> [] /\ 0 < Q2R (wsum_fast t) /\ forallb aq_inside (aq t) = true /\
  tetrahedron_arbq_size d = Some (length t) /\
  (forall a, length a = 3%nat -> (lsum a <= degree)%nat -> Rabs (qsum (kscale (tabRn (aq t))) (mono a) - smoment 3 a 1) <= 2 * tri_eps) /\
  arbq degree p0 p1 p2 p3 = Rule (map (fun row =>
        (comb (comb (comb p0 (Q2R (arbq_qpr row 0)) (psubt p1 p0)) (Q2R (arbq_qpr row 1)) (psubt p2 p0)) (Q2R (arbq_qpr row 2)) (psubt p3 p0),
         arbq_weight t row * Q2R inv_arbq_vol * tetra_volume (psubt p1 p0) (psubt p2 p0) (psubt p3 p0))) t).
Proof.
  intro H. set (d := if Nat.eqb degree 0 then 1%nat else degree).
  assert (Hd : (1 <= d <= 15)%nat /\ (degree <= d)%nat) by (unfold d; destruct (Nat.eqb_spec degree 0); lia). destruct Hd as [Hd Hle].
  destruct (arbq_rule d Hd) as (t & E & Sz & N & W & In1 & A). exists t, d. repeat (split; [assumption|]). split; [intros a La Ha; apply A; [exact La|lia]|].
  unfold arbq. cbv zeta. fold d. rewrite Sz, E, firstn_all. reflexivity.
Qed.
Lemma tvol_triple p0 p1 p2 p3 : tetra_volume (psubt p1 p0) (psubt p2 p0) (psubt p3 p0) = Rabs (triple p0 p1 p2 p3) / 6.
Proof. unfold tetra_volume, triple, psubt. do 2 f_equal. ring. Qed.
Lemma kappa_pos : 0 < kappa. Proof. apply kappa_1. Qed.

(** unsupported degrees end the process; the others give a rule with positive
    weights and points inside the tetrahedron that integrates every polynomial
    of that degree *)
Theorem C93_tetrahedron : forall degree p0 p1 p2 p3,
  ((15 < degree)%nat -> arbq degree p0 p1 p2 p3 = Exit) /\
  ((degree <= 15)%nat -> exists r, arbq degree p0 p1 p2 p3 = Rule r /\ r <> [] /\
     (forall x w, In (x, w) r -> (0 < Rabs (triple p0 p1 p2 p3) -> 0 < w) /\
        exists l0 l1 l2 l3, 0 < l0 /\ 0 < l1 /\ 0 < l2 /\ 0 < l3 /\ l0 + l1 + l2 + l3 = 1 /\
          forall i, x i = l0 * p0 i + l1 * p1 i + l2 * p2 i + l3 * p3 i) /\
     forall p I, pvars 3 p -> (pdeg p <= degree)%nat -> is_int_tetra p0 p1 p2 p3 (peval p) I ->
       Rabs (qsum r (peval p) - I) <= 2 * tri_eps * Rabs (triple p0 p1 p2 p3) *
         pmag p (fun i => Rabs (p0 i) + Rabs (p1 i - p0 i) + Rabs (p2 i - p0 i) + Rabs (p3 i - p0 i))).
Proof.
  intros degree p0 p1 p2 p3. split; intro H.
  - unfold arbq. cbv zeta. destruct (Nat.eqb_spec degree 0); [lia|]. unfold tetrahedron_arbq_size. destruct (Nat.ltb_spec 15 degree); [|lia]. rewrite orb_true_r. reflexivity.
  - destruct (arbq_ok degree p0 p1 p2 p3 H) as (t & d & _ & N & W & In1 & _ & A & E). eexists. split; [exact E|]. split; [|split].
    + destruct t; [congruence|discriminate].
    + intros x w Hx. apply in_map_iff in Hx as (r & Er & Hr). apply pair_equal_spec in Er as [<- <-].
      rewrite forallb_forall in In1. specialize (In1 ([qpr_fast r 0; qpr_fast r 1; qpr_fast r 2], wref (wsum_fast t) r) (in_map _ _ _ Hr)). unfold aq_inside in In1.
      apply andb_true_iff in In1 as [In1 P5]. apply andb_true_iff in In1 as [In1 P4]. apply andb_true_iff in In1 as [In1 P3]. apply andb_true_iff in In1 as [P1 P2].
      apply qpos_R in P1, P2, P3, P4, P5. rewrite !dadd_ok, !Q2R_opp, !qpr_fast_ok in P4. rewrite qpr_fast_ok in P1, P2, P3. rewrite wref_ok in P5 by exact W. replace (Q2R 1) with 1 in P4 by (unfold Q2R; cbn; lra).
      split.
      * intro P. rewrite tvol_triple. unfold arbq_weight. cbv zeta. pose proof kappa_pos as K.
        replace (Q2R (snd r) * (sqrt 8 / 3) / Q2R (arbq_wsum t) * Q2R inv_arbq_vol * (Rabs (triple p0 p1 p2 p3) / 6)) with
          (Q2R (snd r) / Q2R (arbq_wsum t) / 6 * kappa * Rabs (triple p0 p1 p2 p3)) by (unfold kappa; field; rewrite wsum_fast_ok in W; lra).
        apply Rmult_lt_0_compat; [apply Rmult_lt_0_compat; assumption|exact P].
      * exists (1 - Q2R (arbq_qpr r 0) - Q2R (arbq_qpr r 1) - Q2R (arbq_qpr r 2)), (Q2R (arbq_qpr r 0)), (Q2R (arbq_qpr r 1)), (Q2R (arbq_qpr r 2)).
        split; [lra|]. repeat (split; [assumption|]). split; [ring|]. intro i. unfold comb, padd, pscale, psubt. ring.
    + intros p I _ Dg (J & HJ & ->).
      pose proof (acc_affine_tet (kscale (tabRn (aq t))) degree (2 * tri_eps) (Rabs (triple p0 p1 p2 p3)) p0 (psubt p1 p0) (psubt p2 p0) (psubt p3 p0) p J
        ltac:(pose proof tri_eps_pos; lra) Dg A HJ) as B. rewrite Rabs_Rabsolu in B.
      rewrite tvol_triple.
      assert (G : forall l, qsum (map (fun row => (comb (comb (comb p0 (Q2R (arbq_qpr row 0)) (psubt p1 p0)) (Q2R (arbq_qpr row 1)) (psubt p2 p0)) (Q2R (arbq_qpr row 2)) (psubt p3 p0),
            arbq_weight t row * Q2R inv_arbq_vol * (Rabs (triple p0 p1 p2 p3) / 6))) l) (peval p) =
          qsum (map (fun q => ((fun i => p0 i + fst q 0%nat * psubt p1 p0 i + fst q 1%nat * psubt p2 p0 i + fst q 2%nat * psubt p3 p0 i) : pt, Rabs (triple p0 p1 p2 p3) * snd q))
            (kscale (tabRn (map (fun r => ([qpr_fast r 0; qpr_fast r 1; qpr_fast r 2], wref (wsum_fast t) r)) l)))) (peval p)).
      { induction l as [|r l IH]; [reflexivity|]. unfold kscale, tabRn in *. cbn [map qsum fst snd]. rewrite IH. f_equal. rewrite wref_ok by exact W.
        rewrite (peval_ext p (fun i => p0 i + _ * _ + _ * _ + _ * _) (comb (comb (comb p0 (Q2R (arbq_qpr r 0)) (psubt p1 p0)) (Q2R (arbq_qpr r 1)) (psubt p2 p0)) (Q2R (arbq_qpr r 2)) (psubt p3 p0))).
        - unfold arbq_weight, kappa. cbv zeta. field. rewrite wsum_fast_ok in W. lra.
        - intro i. unfold ptl, comb, padd, pscale. cbn [map nth]. rewrite !qpr_fast_ok. ring. }
      unfold aq in B. cbv zeta in B. rewrite <- G in B. exact B.
Qed.
Print Assumptions C93_tetrahedron.

(** the announced sizes are those of the tables *)
Theorem C93_sizes : forall degree, (1 <= degree <= 15)%nat -> tetrahedron_arbq_size degree = Some (length (nth (degree - 1) arbq_rules [])).
Proof. intros degree H. destruct (arbq_rule degree H) as (t & <- & Sz & _). exact Sz. Qed.
Print Assumptions C93_sizes.

(** the hypotheses are met: x y z over the unit tetrahedron is 1/720 *)
Example arbq_case : is_int_tetra (fun _ => 0) (fun i => match i with O => 1 | _ => 0 end) (fun i => match i with 1%nat => 1 | _ => 0 end) (fun i => match i with 2%nat => 1 | _ => 0 end)
  (peval (PMul (PX 0) (PMul (PX 1) (PX 2)))) (1 / 720).
Proof.
  exists (1 / 720). split.
  - pose proof (is_int_simplex_mono [1; 1; 1]%nat 1) as H. cbn [length] in H.
    replace (1 / 720) with (smoment 3 [1; 1; 1]%nat 1) by (unfold smoment; cbn; field).
    eapply is_int_simplex_ext; [|exact H]. intros x. cbn. ring.
  - unfold triple. cbv zeta beta iota. match goal with |- _ = Rabs ?x * _ => replace x with 1 by ring end. rewrite Rabs_R1. ring.
Qed.
