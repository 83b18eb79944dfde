(** Dunavant rules: the printed barycentric coordinates of a point sum to one
    only up to 1e-15, so the point is p0 + l1 (p1-p0) + l2 (p2-p0) + delta p0. *)
From Coq Require Import Reals List Lia Lra Psatz ZArith QArith Qreals Bool Factorial.
From Verif Require Import Common Poly_Spec Poly_Proofs Quad_Model Quad_Proofs Quad_Spec Geo_Model Geo_Proofs QChk_Proofs Tri_Tables Tri_Model Tri_Proofs.
Import ListNotations.
Local Open Scope R_scope.

(** reference rule in the variables l1, l2, delta *)
Definition dref (l : list (Q * Q * Q * Q)) : list (pt * R) :=
  map (fun e => let '(a, b, c, w) := e in (ptl [Q2R b; Q2R c; Q2R a + Q2R b + Q2R c - 1], Q2R w / 2)) l.
Definition M3 (a : list nat) : R := match a with [e; f; O] => smoment 2 [e; f] 1 | _ => 0 end.

Lemma dref_plane l e f : qsum (dref l) (mono [e; f; 0%nat]) = qsum (tabRn (dq l)) (mono [e; f]).
Proof.
  induction l as [|[[[a b] c] w] l IH]; [reflexivity|]. unfold dref, dq, tabRn in *. cbn [map qsum fst snd]. rewrite IH. rewrite !Q2R_mult.
  replace (Q2R (1 # 2)) with (/ 2) by (unfold Q2R; cbn; lra). cbn [mono]. unfold ptl. cbn [nth map]. cbn [pow]. unfold Rdiv. ring.
Qed.
Lemma q2r_sub1 x : Q2R (x - 1) = Q2R x - 1.
Proof. rewrite Q2R_minus. unfold Q2R at 2. cbn. lra. Qed.
Lemma dsum_small e : dsum_ok e = true -> let '(a, b, c, w) := e in Rabs (Q2R a + Q2R b + Q2R c - 1) <= 1 / 10 ^ 15.
Proof.
  destruct e as [[[a b] c] w]. unfold dsum_ok. intro H. apply Z.leb_le, IZR_le in H. rewrite mult_IZR, abs_IZR in H.
  rewrite <- !Q2R_plus, <- q2r_sub1. set (s := (a + b + c - 1)%Q) in *. rewrite q2r_frac.
  assert (D : 0 < IZR (Zpos (Qden s))) by (apply IZR_lt; reflexivity). rewrite Rabs_div by lra.
  assert (T : IZR (10 ^ 15) = 10 ^ 15) by (rewrite (pow_IZR 10 15); f_equal). rewrite T in H.
  apply (Rmult_le_reg_r (IZR (Zpos (Qden s)))); [lra|]. unfold Rdiv. rewrite Rmult_assoc, Rinv_l by lra.
  apply (Rmult_le_reg_r (10 ^ 15)); [lra|]. lra.
Qed.
Lemma abs_pow_le x k b : Rabs x <= b -> Rabs (x ^ k) <= b ^ k.
Proof. intro H. rewrite <- RPow_abs. apply pow_incr. split; [apply Rabs_pos|exact H]. Qed.

Lemma dref_moments d l : (d <= 30)%nat -> tab_ok 2 d (dq l) = true -> forallb dsum_ok l = true ->
  forall a, length a = 3%nat -> (lsum a <= d)%nat -> Rabs (qsum (dref l) (mono a) - M3 a) <= tri_eps.
Proof.
  intros Hd T S a La Ha. destruct a as [|e [|f [|g [|h a]]]]; try discriminate. cbn [lsum] in Ha.
  destruct g as [|g].
  - cbn [M3]. rewrite dref_plane. pose proof (tab_moments 2 d _ T Hd [e; f] eq_refl ltac:(cbn [lsum]; lia)). lra.
  - cbn [M3]. rewrite Rminus_0_r. unfold tab_ok in T. cbv zeta in T. apply andb_true_iff in T as [T _]. apply andb_true_iff in T as [T _]. apply andb_true_iff in T as [T1 T2].
    rewrite forallb_forall in T1, S. apply Z.leb_le, IZR_le in T2. rewrite mult_IZR in T2. pose proof Esp as HE.
    assert (W : rsumf (fun r => Rabs (rw r)) (map rrow0 (dq l)) <= 2).
    { eapply Rle_trans; [apply wtot_sum; intros q Hq; specialize (T1 q Hq); now apply andb_true_iff in T1 as [_ T1]|]. apply (Rmult_le_reg_r (IZR Es)); [lra|]. unfold Rdiv. rewrite Rmult_assoc, Rinv_l by lra. lra. }
    assert (B : Rabs (qsum (dref l) (mono [e; f; Datatypes.S g])) <= 2 * (1 / 10 ^ 15) * rsumf (fun r => Rabs (rw r)) (map rrow0 (dq l))).
    { clear T2 W. induction l as [|[[[x y] z] w] l IH]; [cbn; rewrite Rabs_R0; lra|].
      specialize (IH ltac:(intros; apply T1; now right) ltac:(intros; apply S; now right)).
      specialize (T1 _ (or_introl eq_refl)). specialize (S _ (or_introl eq_refl)). apply dsum_small in S.
      apply andb_true_iff in T1 as [T1 _]. apply andb_true_iff in T1 as [_ T1]. cbn [fst forallb] in T1. apply andb_true_iff in T1 as [Cy T1]. apply andb_true_iff in T1 as [Cz _].
      apply cok_crep in Cy as (_ & _ & Cy). apply cok_crep in Cz as (_ & _ & Cz).
      unfold dref, dq in *. cbn [map qsum rsumf fold_right rrow0 rw fst snd]. fold (rsumf (fun r => Rabs (rw r)) (map rrow0 (map (fun e0 => let '(a0, b, c, w0) := e0 in ([b; c], (w0 * (1 # 2))%Q)) l))).
      eapply Rle_trans; [apply Rabs_triang|]. rewrite Rmult_plus_distr_l. apply Rplus_le_compat; [|exact IH].
      rewrite Q2R_mult. replace (Q2R (1 # 2)) with (/ 2) by (unfold Q2R; cbn; lra). fold (Q2R w / 2).
      rewrite Rabs_mult, Rmult_comm. apply Rmult_le_compat_r; [apply Rabs_pos|].
      cbn [mono]. unfold ptl. cbn [nth]. set (dl := Q2R x + Q2R y + Q2R z - 1) in *. rewrite Rmult_1_r, <- tech_pow_Rmult, !Rabs_mult.
      pose proof (abs_pow_le _ e _ Cy) as Py. pose proof (abs_pow_le _ f _ Cz) as Pz. pose proof (abs_pow_le dl g 1 ltac:(lra)) as Pg. rewrite pow1 in Pg.
      assert (Pyz : Rabs (Q2R y ^ e) * Rabs (Q2R z ^ f) <= 2).
      { apply Rle_trans with (beta ^ e * beta ^ f); [apply Rmult_le_compat; try apply Rabs_pos; assumption|]. rewrite <- pow_add. apply beta_pow. lia. }
      rewrite <- Rmult_assoc. apply Rmult_le_compat; try exact Pyz; try (apply Rmult_le_pos; apply Rabs_pos).
      replace (1 / 10 ^ 15) with (1 / 10 ^ 15 * 1) by ring. apply Rmult_le_compat; try apply Rabs_pos; assumption. }
    eapply Rle_trans; [exact B|]. unfold tri_eps. lra.
Qed.

(** the functional M3 is the integral over the triangle in the plane delta = 0 *)
Lemma int_M3 d m : mok 3 d m ->
  is_int_simplex 2 1 (fun z => meval m (ptl [z 0%nat; z 1%nat; 0])) (fold_right (fun t s => fst t * M3 (snd t) + s) 0 m).
Proof.
  induction 1 as [|[c a] t [H1 _] _ IH]; cbn [fold_right fst snd] in *.
  - eapply is_int_simplex_ext; [|apply is_int_simplex_zero]. reflexivity.
  - eapply is_int_simplex_ext; [intro z; cbn [meval]; reflexivity|]. apply is_int_simplex_plus; [|exact IH]. apply is_int_simplex_scal.
    destruct a as [|e [|f [|g [|h a]]]]; try discriminate. destruct g as [|g]; cbn [M3].
    + eapply is_int_simplex_ext; [|apply (is_int_simplex_mono [e; f])]. intro z. cbn [mono]. unfold ptl. cbn [nth pow]. ring.
    + eapply is_int_simplex_ext; [|apply is_int_simplex_zero]. intro z. cbn [mono]. unfold ptl. cbn [nth pow]. ring.
Qed.

Lemma acc_affine3 (r : list (pt * R)) d eps c (o u v x : pt) p J : 0 <= eps -> (pdeg p <= d)%nat ->
  (forall a, length a = 3%nat -> (lsum a <= d)%nat -> Rabs (qsum r (mono a) - M3 a) <= eps) ->
  is_int_simplex 2 1 (fun z => peval p (fun i => o i + z 0%nat * u i + z 1%nat * v i)) J ->
  Rabs (qsum (map (fun q => ((fun i => o i + fst q 0%nat * u i + fst q 1%nat * v i + fst q 2%nat * x i) : pt, c * snd q)) r) (peval p) - c * J)
    <= eps * Rabs c * pmag p (fun i => Rabs (o i) + Rabs (u i) + Rabs (v i) + Rabs (x i)).
Proof.
  intros He Dg A HJ.
  set (sb := fun i => PAdd (PAdd (PAdd (PC (o i)) (PMul (PX 0) (PC (u i)))) (PMul (PX 1) (PC (v i)))) (PMul (PX 2) (PC (x i)))).
  assert (E : qsum (map (fun q => ((fun i => o i + fst q 0%nat * u i + fst q 1%nat * v i + fst q 2%nat * x i) : pt, c * snd q)) r) (peval p) = c * qsum r (peval (psub sb p))).
  { clear. induction r as [|[y w] r IH]; cbn [map qsum fst snd]; [ring|]. rewrite IH, psub_eval.
    rewrite (peval_ext p (fun i => peval (sb i) y) (fun i => o i + y 0%nat * u i + y 1%nat * v i + y 2%nat * x i)) by reflexivity. ring. }
  rewrite E, <- Rmult_minus_distr_l, Rabs_mult.
  assert (V : pvars 3 (psub sb p)) by (apply psub_vars; intro i; cbn; repeat split; lia).
  assert (K : mok 3 d (monos 3 (psub sb p))).
  { apply (mok_mono 3 (pdeg (psub sb p))); [|apply monos_ok]. pose proof (psub_deg sb p (fun i => le_n 1)). lia. }
  assert (EJ : J = fold_right (fun t s => fst t * M3 (snd t) + s) 0 (monos 3 (psub sb p))).
  { eapply is_int_simplex_unique; [exact HJ|]. apply (is_int_simplex_ext 2 1 (fun z => meval (monos 3 (psub sb p)) (ptl [z 0%nat; z 1%nat; 0]))); [|eapply int_M3; exact K].
    intro z. rewrite monos_eval by exact V. rewrite psub_eval. apply peval_ext. intro i. cbn. unfold ptl. cbn [nth]. ring. }
  pose proof (accurate_on_monos r 3 d eps M3 _ K He A) as B. rewrite <- EJ, monos_norm in B by exact V.
  rewrite (qsum_ext r _ (peval (psub sb p))) in B by (intro; now apply monos_eval).
  rewrite psub_mag in B. rewrite (pmag_ext p (fun i => pmag (sb i) (fun _ => 1)) (fun i => Rabs (o i) + Rabs (u i) + Rabs (v i) + Rabs (x i))) in B
    by (intro k; cbn; ring).
  rewrite (Rmult_comm eps), Rmult_assoc. apply Rmult_le_compat_l; [apply Rabs_pos|exact B].
Qed.

(** the model's points are those of the reference rule *)
Lemma dunavant_points p0 p1 p2 area t f :
  (forall x y : pt, (forall i, x i = y i) -> f x = f y) ->
  qsum (flat_map (dunavant_entry p0 p1 p2 area) t) f =
  qsum (map (fun q => ((fun i => p0 i + fst q 0%nat * psubt p1 p0 i + fst q 1%nat * psubt p2 p0 i + fst q 2%nat * p0 i) : pt, 2 * area * snd q)) (dref (dexp t))) f.
Proof.
  intro Hf. induction t as [|e t IH]; [reflexivity|]. cbn [flat_map dexp]. unfold dexp, dref in *. cbn [flat_map]. rewrite !map_app, !qsum_app. f_equal; [|exact IH].
  assert (B : forall a b c, f (bary3 p0 p1 p2 a b c) = f (fun i => p0 i + b * psubt p1 p0 i + c * psubt p2 p0 i + (a + b + c - 1) * p0 i)).
  { intros a b c. apply Hf. intro i. unfold bary3, padd, pscale, psubt. ring. }
  destruct e as [k a b c w]. unfold dunavant_entry, dperms. cbn [dp_perms dp_l0 dp_l1 dp_l2 dp_weight].
  destruct k as [|[|[|[|[|[|[|k]]]]]]]; try reflexivity; cbn [map qsum fst snd]; rewrite !B; unfold ptl; cbn [nth]; field.
Qed.
Lemma dunavant_len p0 p1 p2 area t : length (flat_map (dunavant_entry p0 p1 p2 area) t) = length (dexp t).
Proof.
  induction t as [|e t IH]; [reflexivity|]. unfold dexp in *. cbn [flat_map]. rewrite !app_length, IH. f_equal.
  unfold dunavant_entry, dperms. destruct (dp_perms e) as [|[|[|[|[|[|[|k]]]]]]]; reflexivity.
Qed.

Lemma dn_rule degree : (degree <= 20)%nat -> exists t,
  nth_error dunavant_rules (if Nat.eqb degree 0 then 0 else degree - 1)%nat = Some t /\
  length (dexp t) = nth (if Nat.eqb degree 0 then 0 else degree - 1)%nat dunavant_sizes 0%nat /\
  forall a, length a = 3%nat -> (lsum a <= degree)%nat -> Rabs (qsum (dref (dexp t)) (mono a) - M3 a) <= tri_eps.
Proof.
  intro H. set (i := (if Nat.eqb degree 0 then 0 else degree - 1)%nat).
  assert (Hi : (i < 20)%nat /\ (degree <= S i)%nat) by (unfold i; destruct (Nat.eqb_spec degree 0); lia). destruct Hi as [Hi Hd].
  pose proof dn_tables_ok as K. rewrite forallb_forall in K.
  assert (N : nth_error (combine (combine (seq 1 20) dunavant_sizes) dunavant_rules) i = Some (S i, nth i dunavant_sizes 0%nat, nth i dunavant_rules [])).
  { clear K. clearbody i. clear - Hi. do 20 (destruct i as [|i]; [reflexivity|]). lia. }
  apply nth_error_In in N. specialize (K _ N). cbn beta iota in K. apply andb_true_iff in K as [K K3]. apply andb_true_iff in K as [K1 K2]. apply Nat.eqb_eq in K3.
  exists (nth i dunavant_rules []). split; [apply nth_error_nth'; cbn; lia|]. split; [exact K3|].
  intros a La Ha. apply (dref_moments (S i)); try assumption; lia.
Qed.
