(** The arbq tables are accurate (kernel computation), and accuracy carries over
    to every tetrahedron. *)
From Coq Require Import Reals List Lia Lra Psatz ZArith QArith Qreals Bool Factorial.
From Verif Require Import Common Poly_Spec Poly_Proofs Quad_Model Quad_Proofs Quad_Spec GM_Model QChk_Proofs Tri_Proofs Arbq_Tables Arbq_Model.
Import ListNotations.
Local Open Scope R_scope.

(** addition of decimals without growing the denominator *)
Definition dadd (a b : Q) : Q :=
  let k := (Zpos (Qden b) / Zpos (Qden a))%Z in
  if Z.eqb (k * Zpos (Qden a)) (Zpos (Qden b)) then Qmake (Qnum a * k + Qnum b) (Qden b)
  else let k := (Zpos (Qden a) / Zpos (Qden b))%Z in
    if Z.eqb (k * Zpos (Qden b)) (Zpos (Qden a)) then Qmake (Qnum a + Qnum b * k) (Qden a)
    else (a + b)%Q.
Lemma dadd_ok a b : Q2R (dadd a b) = Q2R a + Q2R b.
Proof.
  unfold dadd. cbv zeta. assert (A : 0 < IZR (Zpos (Qden a))) by (apply IZR_lt; reflexivity). assert (B : 0 < IZR (Zpos (Qden b))) by (apply IZR_lt; reflexivity).
  destruct (Z.eqb_spec (Zpos (Qden b) / Zpos (Qden a) * Zpos (Qden a)) (Zpos (Qden b))) as [E|_].
  - apply (f_equal IZR) in E. rewrite mult_IZR in E. rewrite !q2r_frac. cbn [Qnum Qden]. rewrite plus_IZR, mult_IZR. rewrite <- E. set (k := IZR (_ / _)) in *.
    assert (k <> 0) by (intro Z; rewrite Z in E; lra). field. lra.
  - destruct (Z.eqb_spec (Zpos (Qden a) / Zpos (Qden b) * Zpos (Qden b)) (Zpos (Qden a))) as [E|_].
    + apply (f_equal IZR) in E. rewrite mult_IZR in E. rewrite !q2r_frac. cbn [Qnum Qden]. rewrite plus_IZR, mult_IZR. rewrite <- E. set (k := IZR (_ / _)) in *.
      assert (k <> 0) by (intro Z; rewrite Z in E; lra). field. lra.
    + apply Q2R_plus.
Qed.

Definition qpr_fast (row : arbq_row) (i : nat) : Q :=
  let '(x, y, z, w) := row in
  let a := nth i arbq_A [] in
  dadd (dadd (nth 0 a 0%Q * dadd x (- nth 0 arbq_b 0%Q)) (nth 1 a 0%Q * dadd y (- nth 1 arbq_b 0%Q))) (nth 2 a 0%Q * dadd z (- nth 2 arbq_b 0%Q)).
Lemma qpr_fast_ok row i : Q2R (qpr_fast row i) = Q2R (arbq_qpr row i).
Proof.
  destruct row as [[[x y] z] w]. unfold qpr_fast, arbq_qpr. cbv zeta. rewrite !dadd_ok, !Q2R_plus, !Q2R_mult, !dadd_ok, !Q2R_minus, !Q2R_opp. ring.
Qed.
Definition wsum_fast (t : list arbq_row) : Q := fold_right (fun r s => dadd (snd r) s) 0%Q t.
Lemma wsum_fast_ok t : Q2R (wsum_fast t) = Q2R (arbq_wsum t).
Proof. induction t as [|r t IH]; [reflexivity|]. unfold wsum_fast, arbq_wsum in *. cbn [fold_right]. rewrite dadd_ok, Q2R_plus, IH. reflexivity. Qed.

(** weights normalised to the volume 1/6 of the unit tetrahedron *)
Definition wref (s : Q) (r : arbq_row) : Q := (snd r / (6 * s))%Q.
Definition aq (t : list arbq_row) : qtab := let s := wsum_fast t in map (fun r => ([qpr_fast r 0; qpr_fast r 1; qpr_fast r 2], wref s r)) t.
Definition aq_inside (q : list Q * Q) : bool :=
  match q with
  | ([a; b; c], w) => (qpos a && qpos b && qpos c && qpos (dadd 1 (dadd (- a) (dadd (- b) (- c)))) && qpos w)%bool
  | _ => false
  end.
Lemma arbq_tables_ok : forallb (fun c => let '(d, n, t) := c in
    (let q := aq t in tab_ok 3 d q && forallb aq_inside q) && qpos (wsum_fast t) && Nat.eqb (length t) n)%bool
  (combine (combine (seq 1 15) n_save) arbq_rules) = true.
Proof. vm_cast_no_check (eq_refl true). Qed.

Lemma qpos_R q : qpos q = true -> 0 < Q2R q.
Proof. unfold qpos. intro H. apply Z.ltb_lt, IZR_lt in H. rewrite q2r_frac. apply Rdiv_lt_0_compat; [exact H|]. apply IZR_lt. reflexivity. Qed.
Lemma wref_ok t r : 0 < Q2R (wsum_fast t) -> Q2R (wref (wsum_fast t) r) = Q2R (snd r) / Q2R (arbq_wsum t) / 6.
Proof.
  intro P. unfold wref. rewrite Q2R_div.
  - rewrite Q2R_mult, wsum_fast_ok. replace (Q2R 6) with 6 by (unfold Q2R; cbn; lra). rewrite wsum_fast_ok in P. field. lra.
  - intro Z. apply Qeq_eqR in Z. rewrite Q2R_mult in Z. replace (Q2R 6) with 6 in Z by (unfold Q2R; cbn; lra). replace (Q2R 0) with 0 in Z by (unfold Q2R; cbn; lra). lra.
Qed.

(** product of the two volume constants *)
Definition kappa : R := sqrt 8 / 3 * Q2R inv_arbq_vol.
Lemma kappa_1 : Rabs (kappa - 1) <= 6 / 10 ^ 16 /\ 0 < kappa <= 2.
Proof.
  assert (S8 : sqrt 8 * sqrt 8 = 8) by (apply sqrt_sqrt; lra). assert (S0 : 0 < sqrt 8) by (apply sqrt_lt_R0; lra).
  assert (V : Q2R inv_arbq_vol = 1060660171779821 / 10 ^ 15) by (unfold Q2R, inv_arbq_vol; cbn [Qnum Qden]; field).
  assert (K0 : 0 < kappa) by (unfold kappa; rewrite V; apply Rmult_lt_0_compat; lra).
  assert (K2 : kappa * kappa = 8 / 9 * (1060660171779821 / 10 ^ 15) ^ 2) by (unfold kappa; rewrite V; replace (8 / 9) with (sqrt 8 * sqrt 8 / 9) by (rewrite S8; reflexivity); field).
  assert (K3 : Rabs ((kappa - 1) * (kappa + 1)) <= 6 / 10 ^ 16).
  { replace ((kappa - 1) * (kappa + 1)) with (kappa * kappa - 1) by ring. rewrite K2. apply Rabs_le. lra. }
  rewrite Rabs_mult, (Rabs_right (kappa + 1)) in K3 by lra. pose proof (Rabs_pos (kappa - 1)). split; [nra|]. split; [exact K0|].
  assert (Rabs (kappa - 1) <= 1) by nra. apply abs_le_both in H0. lra.
Qed.

Lemma smoment_le1 n a : 0 <= smoment n a 1 <= 1.
Proof.
  unfold smoment. rewrite pow1, Rmult_1_r. pose proof (fact_neq (lsum a + n)) as F. assert (Fp : 0 < INR (fact (lsum a + n))) by (apply lt_0_INR, lt_O_fact).
  assert (P : 0 <= pfact a <= INR (fact (lsum a))).
  { clear. induction a as [|e t IH]; cbn [pfact lsum fact]; [cbn; lra|]. pose proof (pos_INR (fact e)). split; [apply Rmult_le_pos; lra|].
    apply Rle_trans with (INR (fact e) * INR (fact (lsum t))); [apply Rmult_le_compat_l; lra|]. rewrite <- mult_INR. apply le_INR.
    clear. induction e as [|e IH]; cbn [Nat.add fact]; [lia|]. change (fact e + e * fact e)%nat with (S e * fact e)%nat. change (fact (e + lsum t) + (e + lsum t) * fact (e + lsum t))%nat with (S (e + lsum t) * fact (e + lsum t))%nat. nia. }
  assert (L : INR (fact (lsum a)) <= INR (fact (lsum a + n))) by (apply le_INR, fact_le; lia).
  split; [apply div_nonneg; lra|]. apply (Rmult_le_reg_r (INR (fact (lsum a + n)))); [lra|]. unfold Rdiv. rewrite Rmult_assoc, Rinv_l by lra. lra.
Qed.

(** the reference rule with the weights as the program computes them *)
Definition kscale (r : list (pt * R)) : list (pt * R) := map (fun q => (fst q, kappa * snd q)) r.
Lemma kscale_sum r f : qsum (kscale r) f = kappa * qsum r f.
Proof. induction r as [|[x w] r IH]; cbn [kscale map qsum fst snd]; [ring|]. unfold kscale in IH. rewrite IH. ring. Qed.

Lemma arbq_rule d : (1 <= d <= 15)%nat -> exists t, nth (d - 1) arbq_rules [] = t /\ tetrahedron_arbq_size d = Some (length t) /\ t <> [] /\
  0 < Q2R (wsum_fast t) /\ forallb aq_inside (aq t) = true /\
  forall a, length a = 3%nat -> (lsum a <= d)%nat -> Rabs (qsum (kscale (tabRn (aq t))) (mono a) - smoment 3 a 1) <= 2 * tri_eps.
Proof.
  intro H. set (i := (d - 1)%nat). assert (Hi : (i < 15)%nat /\ d = S i) by (unfold i; lia). destruct Hi as [Hi Hd].
  pose proof arbq_tables_ok as K. rewrite forallb_forall in K.
  assert (N : nth_error (combine (combine (seq 1 15) n_save) arbq_rules) i = Some (S i, nth i n_save 0%nat, nth i arbq_rules [])).
  { clear K. clearbody i. clear - Hi. do 15 (destruct i as [|i]; [reflexivity|]). lia. }
  apply nth_error_In in N. specialize (K _ N). cbn beta iota in K. apply andb_true_iff in K as [K K4]. apply andb_true_iff in K as [K K3]. apply andb_true_iff in K as [K1 K2]. apply Nat.eqb_eq in K4.
  assert (Sz : tetrahedron_arbq_size d = Some (nth i n_save 0%nat) /\ (0 < nth i n_save 0)%nat).
  { unfold tetrahedron_arbq_size. destruct (Nat.ltb_spec d 1); [lia|]. destruct (Nat.ltb_spec 15 d); [lia|]. cbn [orb]. fold i. clear - Hi.
    do 15 (destruct i as [|i]; [split; [reflexivity|cbn; lia]|]). lia. }
  exists (nth i arbq_rules []). split; [reflexivity|]. rewrite K4. split; [apply Sz|]. split.
  { intro Z. rewrite Z in K4. cbn [length] in K4. lia. }
  split; [now apply qpos_R|]. split; [exact K2|]. intros a La Ha. rewrite kscale_sum.
  pose proof (tab_moments 3 (S i) _ K1 ltac:(lia) a La ltac:(lia)) as M. destruct kappa_1 as [KA [KB KC]]. pose proof (smoment_le1 3 a) as [S0 S1].
  set (Qs := qsum (tabRn (aq (nth i arbq_rules []))) (mono a)) in *. set (m := smoment 3 a 1) in *.
  replace (kappa * Qs - m) with (kappa * (Qs - m) + (kappa - 1) * m) by ring. eapply Rle_trans; [apply Rabs_triang|]. rewrite !Rabs_mult, (Rabs_right kappa), (Rabs_right m) by lra.
  pose proof (Rabs_pos (Qs - m)). pose proof (Rabs_pos (kappa - 1)). unfold tri_eps in *.
  apply Rle_trans with (2 * (1 / 10 ^ 14 - 1 / 10 ^ 15) + 6 / 10 ^ 16 * 1); [|lra]. apply Rplus_le_compat; apply Rmult_le_compat; lra.
Qed.

Lemma acc_affine_tet (r : list (pt * R)) d eps c (o u v x : pt) p J : 0 <= eps -> (pdeg p <= d)%nat ->
  (forall a, length a = 3%nat -> (lsum a <= d)%nat -> Rabs (qsum r (mono a) - smoment 3 a 1) <= eps) ->
  is_int_simplex 3 1 (fun z => peval p (fun i => o i + z 0%nat * u i + z 1%nat * v i + z 2%nat * x i)) J ->
  Rabs (qsum (map (fun q => ((fun i => o i + fst q 0%nat * u i + fst q 1%nat * v i + fst q 2%nat * x i) : pt, c * snd q)) r) (peval p) - c * J)
    <= eps * Rabs c * pmag p (fun i => Rabs (o i) + Rabs (u i) + Rabs (v i) + Rabs (x i)).
Proof.
  intros He Dg A HJ.
  set (sb := fun i => PAdd (PAdd (PAdd (PC (o i)) (PMul (PX 0) (PC (u i)))) (PMul (PX 1) (PC (v i)))) (PMul (PX 2) (PC (x i)))).
  assert (E : qsum (map (fun q => ((fun i => o i + fst q 0%nat * u i + fst q 1%nat * v i + fst q 2%nat * x i) : pt, c * snd q)) r) (peval p) = c * qsum r (peval (psub sb p))).
  { clear. induction r as [|[y w] r IH]; cbn [map qsum fst snd]; [ring|]. rewrite IH, psub_eval.
    rewrite (peval_ext p (fun i => peval (sb i) y) (fun i => o i + y 0%nat * u i + y 1%nat * v i + y 2%nat * x i)) by reflexivity. ring. }
  rewrite E, <- Rmult_minus_distr_l, Rabs_mult.
  assert (B : Rabs (qsum r (peval (psub sb p)) - J) <= eps * pmag (psub sb p) (fun _ => 1)).
  { apply (accurate_simplex r 3 d); [exact He| | |exact A|].
    - apply psub_vars. intro i. cbn. repeat split; lia.
    - pose proof (psub_deg sb p (fun i => le_n 1)). lia.
    - eapply is_int_simplex_ext; [|exact HJ]. intro z. rewrite psub_eval. reflexivity. }
  rewrite psub_mag in B. rewrite (pmag_ext p (fun i => pmag (sb i) (fun _ => 1)) (fun i => Rabs (o i) + Rabs (u i) + Rabs (v i) + Rabs (x i))) in B
    by (intro k; cbn; ring).
  rewrite (Rmult_comm eps), Rmult_assoc. apply Rmult_le_compat_l; [apply Rabs_pos|exact B].
Qed.
