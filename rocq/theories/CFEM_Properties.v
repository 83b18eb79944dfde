(** C148-C149: linear finite elements on triangles. *)
From Coq Require Import Reals Lra Lia List Arith.
From Verif Require Import Poly_Spec Poly_Proofs Quad_Spec Quad_Model Geo_Model Geo_Proofs CFEM_Spec CFEM_Model.
Import ListNotations.
Open Scope R_scope.

Lemma m_cross p0 p1 p2 : cf_m p0 p1 p2 = cross2 p0 p1 p2.
Proof. unfold cf_m, cross2. ring. Qed.
Lemma meas_area p0 p1 p2 : cf_meas p0 p1 p2 = area p0 p1 p2.
Proof. apply kahan2. Qed.
Ltac bsolve := unfold cf_basis, cf_grad; cbv zeta; rewrite ?m_cross; unfold cross2 in *; cbv beta iota; try (field; assumption).

(** ** C148 *)
Theorem C148_basis p0 p1 p2 : ~ degenerate p0 p1 p2 ->
  (forall i j, (i < 3)%nat -> (j < 3)%nat -> cf_basis p0 p1 p2 (vertex p0 p1 p2 j) i = if (i =? j)%nat then 1 else 0) /\
  (forall q, sum3 (cf_basis p0 p1 p2 q) = 1) /\
  (forall c g0 g1 q, sum3 (fun i => aff c g0 g1 (vertex p0 p1 p2 i) * cf_basis p0 p1 p2 q i) = aff c g0 g1 q).
Proof.
  unfold degenerate. intros D. repeat split.
  - intros [|[|[|i]]] [|[|[|j]]] Hi Hj; try lia; cbn [vertex Nat.eqb]; bsolve.
  - intros q. unfold sum3. bsolve.
  - intros c g0 g1 q. unfold sum3, aff. cbn [vertex]. bsolve.
Qed.
(** the rows of the gradient matrix are the derivatives *)
Theorem C148_gradient p0 p1 p2 : ~ degenerate p0 p1 p2 ->
  (forall i q h, (i < 3)%nat -> cf_basis p0 p1 p2 (fun n => q n + h n) i = cf_basis p0 p1 p2 q i + cf_grad p0 p1 p2 i 0 * h 0%nat + cf_grad p0 p1 p2 i 1 * h 1%nat) /\
  (forall c g0 g1, sum3 (fun i => aff c g0 g1 (vertex p0 p1 p2 i) * cf_grad p0 p1 p2 i 0) = g0 /\
                   sum3 (fun i => aff c g0 g1 (vertex p0 p1 p2 i) * cf_grad p0 p1 p2 i 1) = g1).
Proof.
  unfold degenerate. intros D. split.
  - intros [|[|[|i]]] q h Hi; try lia; bsolve.
  - intros c g0 g1. unfold sum3, aff. cbn [vertex]. split; bsolve.
Qed.

(** ** C149 *)
Lemma ref_quadratic c0 c1 c2 c3 c4 c5 :
  is_int_simplex 2 1 (fun z => c0 + c1 * z 0%nat + c2 * z 1%nat + c3 * (z 0%nat * z 0%nat) + c4 * (z 0%nat * z 1%nat) + c5 * (z 1%nat * z 1%nat))
    (c0 / 2 + c1 / 6 + c2 / 6 + c3 / 12 + c4 / 24 + c5 / 12).
Proof.
  set (m := [(c0, [0; 0]%nat); (c1, [1; 0]%nat); (c2, [0; 1]%nat); (c3, [2; 0]%nat); (c4, [1; 1]%nat); (c5, [0; 2]%nat)]).
  assert (OK : mok 2 2 m) by (unfold mok, m; repeat constructor).
  pose proof (is_int_simplex_meval 2 2 1 m OK) as H.
  eapply is_int_simplex_ext in H; [|intros z; unfold m; cbn [meval]; unfold mono; cbn; reflexivity].
  replace (c0 / 2 + c1 / 6 + c2 / 6 + c3 / 12 + c4 / 24 + c5 / 12) with (fold_right (fun t r => fst t * smoment 2 (snd t) 1 + r) 0 m).
  - eapply is_int_simplex_ext; [|exact H]. intros z. cbn. ring.
  - unfold m, smoment. cbn. field.
Qed.
Lemma int_quadratic p0 p1 p2 (f : pt -> R) c0 c1 c2 c3 c4 c5 I :
  (forall z : pt, f (fun i => p0 i + z 0%nat * (p1 i - p0 i) + z 1%nat * (p2 i - p0 i)) =
     c0 + c1 * z 0%nat + c2 * z 1%nat + c3 * (z 0%nat * z 0%nat) + c4 * (z 0%nat * z 1%nat) + c5 * (z 1%nat * z 1%nat)) ->
  I = area p0 p1 p2 * (c0 + c1 / 3 + c2 / 3 + c3 / 6 + c4 / 12 + c5 / 6) -> is_int_triangle p0 p1 p2 f I.
Proof.
  intros H ->. exists (c0 / 2 + c1 / 6 + c2 / 6 + c3 / 12 + c4 / 24 + c5 / 12). split; [|unfold area; field].
  eapply is_int_simplex_ext; [|apply ref_quadratic]. intros z. symmetry. apply H.
Qed.
(** barycentric coordinates *)
Lemma basis_ref p0 p1 p2 z i : cross2 p0 p1 p2 <> 0 -> (i < 3)%nat ->
  cf_basis p0 p1 p2 (fun n => p0 n + z 0%nat * (p1 n - p0 n) + z 1%nat * (p2 n - p0 n)) i =
  match i with 0%nat => 1 - z 0%nat - z 1%nat | 1%nat => z 0%nat | _ => z 1%nat end.
Proof. intros D. destruct i as [|[|[|i]]]; intros Hi; try lia; bsolve. Qed.

(** the mass matrix is the matrix of the integrals of the products *)
Theorem C149_mass p0 p1 p2 : ~ degenerate p0 p1 p2 ->
  (forall i j, (i < 3)%nat -> (j < 3)%nat ->
     is_int_triangle p0 p1 p2 (fun x => cf_basis p0 p1 p2 x i * cf_basis p0 p1 p2 x j) (cf_mass p0 p1 p2 i j) /\
     cf_mass p0 p1 p2 i j = area p0 p1 p2 / 12 * (if (i =? j)%nat then 2 else 1)) /\
  (forall u, (exists i, (i < 3)%nat /\ u i <> 0) -> 0 < form3 (cf_mass p0 p1 p2) u u).
Proof.
  unfold degenerate. intros D.
  assert (V : forall i j, (i < 3)%nat -> (j < 3)%nat -> cf_mass p0 p1 p2 i j = area p0 p1 p2 / 12 * (if (i =? j)%nat then 2 else 1)).
  { intros i j Hi Hj. unfold cf_mass. cbv zeta. rewrite meas_area.
    assert (E0 : forall n, (n < 3)%nat -> cf_basis p0 p1 p2 (pscale (/ 2) (padd p0 p1)) n = match n with 2%nat => 0 | _ => / 2 end)
      by (intros [|[|[|n]]] Hn; try lia; unfold pscale, padd; bsolve).
    assert (E1 : forall n, (n < 3)%nat -> cf_basis p0 p1 p2 (pscale (/ 2) (padd p1 p2)) n = match n with 0%nat => 0 | _ => / 2 end)
      by (intros [|[|[|n]]] Hn; try lia; unfold pscale, padd; bsolve).
    assert (E2 : forall n, (n < 3)%nat -> cf_basis p0 p1 p2 (pscale (/ 2) (padd p0 p2)) n = match n with 1%nat => 0 | _ => / 2 end)
      by (intros [|[|[|n]]] Hn; try lia; unfold pscale, padd; bsolve).
    rewrite !E0, !E1, !E2 by assumption. destruct i as [|[|[|i]]]; try lia; destruct j as [|[|[|j]]]; try lia; cbn [Nat.eqb]; field. }
  assert (A : 0 < area p0 p1 p2) by (unfold area; pose proof (Rabs_pos_lt _ D); lra).
  split.
  - intros i j Hi Hj. split; [|apply V; assumption]. rewrite V by assumption.
    destruct i as [|[|[|i]]]; try lia; destruct j as [|[|[|j]]]; try lia; cbn [Nat.eqb];
    [eapply (int_quadratic p0 p1 p2 _ 1 (-2) (-2) 1 2 1)|eapply (int_quadratic p0 p1 p2 _ 0 1 0 (-1) (-1) 0)|eapply (int_quadratic p0 p1 p2 _ 0 0 1 0 (-1) (-1))
    |eapply (int_quadratic p0 p1 p2 _ 0 1 0 (-1) (-1) 0)|eapply (int_quadratic p0 p1 p2 _ 0 0 0 1 0 0)|eapply (int_quadratic p0 p1 p2 _ 0 0 0 0 1 0)
    |eapply (int_quadratic p0 p1 p2 _ 0 0 1 0 (-1) (-1))|eapply (int_quadratic p0 p1 p2 _ 0 0 0 0 1 0)|eapply (int_quadratic p0 p1 p2 _ 0 0 0 0 0 1)];
    try (intros z; rewrite !basis_ref by (assumption || lia); ring); try field.
  - intros u (i & Hi & N). unfold form3, sum3. rewrite !V by lia. cbn [Nat.eqb].
    replace (_ + _ + _) with (area p0 p1 p2 / 12 * (u 0%nat * u 0%nat + u 1%nat * u 1%nat + u 2%nat * u 2%nat + (u 0%nat + u 1%nat + u 2%nat) * (u 0%nat + u 1%nat + u 2%nat))) by field.
    apply Rmult_lt_0_compat; [lra|]. pose proof (Rlt_0_sqr _ N) as Q. pose proof (Rle_0_sqr (u 0%nat)) as Q0. pose proof (Rle_0_sqr (u 1%nat)) as Q1.
    pose proof (Rle_0_sqr (u 2%nat)) as Q2. pose proof (Rle_0_sqr (u 0%nat + u 1%nat + u 2%nat)) as Q3. unfold Rsqr in *. destruct i as [|[|[|i]]]; try lia; lra.
Qed.

(** the stiffness matrices give the energy of the affine functions with the given vertex values *)
Theorem C149_stiffness p0 p1 p2 k : ~ degenerate p0 p1 p2 ->
  (forall c g0 g1 d h0 h1,
     form3 (cf_stiff_k p0 p1 p2 k) (fun i => aff d h0 h1 (vertex p0 p1 p2 i)) (fun i => aff c g0 g1 (vertex p0 p1 p2 i)) =
       area p0 p1 p2 * form2 k h0 h1 g0 g1 /\
     form3 (cf_stiff p0 p1 p2) (fun i => aff d h0 h1 (vertex p0 p1 p2 i)) (fun i => aff c g0 g1 (vertex p0 p1 p2 i)) =
       area p0 p1 p2 * (h0 * g0 + h1 * g1)) /\
  (forall i, (i < 3)%nat -> sum3 (fun j => cf_stiff_k p0 p1 p2 k i j) = 0 /\ sum3 (fun j => cf_stiff_k p0 p1 p2 k j i) = 0) /\
  (forall i j, (i < 3)%nat -> (j < 3)%nat -> k 0%nat 1%nat = k 1%nat 0%nat -> cf_stiff_k p0 p1 p2 k i j = cf_stiff_k p0 p1 p2 k j i) /\
  (forall i j, (i < 3)%nat -> (j < 3)%nat -> cf_stiff p0 p1 p2 i j = cf_stiff_k p0 p1 p2 (fun a b => if (a =? b)%nat then 1 else 0) i j).
Proof.
  intros D. destruct (C148_gradient p0 p1 p2 D) as [_ G]. unfold degenerate in D. repeat split.
  - destruct (G c g0 g1) as [G0 G1]. destruct (G d h0 h1) as [H0 H1]. rewrite <- meas_area. unfold form3, form2, sum3, cf_stiff_k in *. cbv zeta.
    revert G0 G1 H0 H1. set (u0 := aff c g0 g1 _). set (u1 := aff c g0 g1 _). set (u2 := aff c g0 g1 _). set (w0 := aff d h0 h1 _). set (w1 := aff d h0 h1 _). set (w2 := aff d h0 h1 _).
    clearbody u0 u1 u2 w0 w1 w2. intros <- <- <- <-. ring.
  - destruct (G c g0 g1) as [G0 G1]. destruct (G d h0 h1) as [H0 H1]. rewrite <- meas_area. unfold form3, sum3, cf_stiff in *.
    revert G0 G1 H0 H1. set (u0 := aff c g0 g1 _). set (u1 := aff c g0 g1 _). set (u2 := aff c g0 g1 _). set (w0 := aff d h0 h1 _). set (w1 := aff d h0 h1 _). set (w2 := aff d h0 h1 _).
    clearbody u0 u1 u2 w0 w1 w2. intros <- <- <- <-. ring.
  - destruct (G 1 0 0) as [G0 G1]. unfold sum3, aff in G0, G1. unfold sum3, cf_stiff_k. cbv zeta.
    set (a0 := cf_grad p0 p1 p2 0 0) in *. set (a1 := cf_grad p0 p1 p2 1 0) in *. set (a2 := cf_grad p0 p1 p2 2 0) in *.
    set (b0 := cf_grad p0 p1 p2 0 1) in *. set (b1 := cf_grad p0 p1 p2 1 1) in *. set (b2 := cf_grad p0 p1 p2 2 1) in *.
    replace a2 with (- a0 - a1) by lra. replace b2 with (- b0 - b1) by lra. ring.
  - destruct (G 1 0 0) as [G0 G1]. unfold sum3, aff in G0, G1. unfold sum3, cf_stiff_k. cbv zeta.
    set (a0 := cf_grad p0 p1 p2 0 0) in *. set (a1 := cf_grad p0 p1 p2 1 0) in *. set (a2 := cf_grad p0 p1 p2 2 0) in *.
    set (b0 := cf_grad p0 p1 p2 0 1) in *. set (b1 := cf_grad p0 p1 p2 1 1) in *. set (b2 := cf_grad p0 p1 p2 2 1) in *.
    replace a2 with (- a0 - a1) by lra. replace b2 with (- b0 - b1) by lra. ring.
  - intros i j Hi Hj S. unfold cf_stiff_k. cbv zeta. rewrite S. ring.
  - intros i j Hi Hj. unfold cf_stiff, cf_stiff_k. cbv zeta. cbn [Nat.eqb]. ring.
Qed.
(** zero energy only for equal vertex values *)
Theorem C149_kernel p0 p1 p2 u : ~ degenerate p0 p1 p2 ->
  0 <= form3 (cf_stiff p0 p1 p2) u u /\ (form3 (cf_stiff p0 p1 p2) u u = 0 <-> u 0%nat = u 1%nat /\ u 1%nat = u 2%nat).
Proof.
  intros D. pose proof D as D'. unfold degenerate in D'.
  (* the affine function with these vertex values *)
  set (J := cross2 p0 p1 p2) in *.
  set (g0 := ((u 1%nat - u 0%nat) * (p2 1%nat - p0 1%nat) - (u 2%nat - u 0%nat) * (p1 1%nat - p0 1%nat)) / J).
  set (g1 := ((u 2%nat - u 0%nat) * (p1 0%nat - p0 0%nat) - (u 1%nat - u 0%nat) * (p2 0%nat - p0 0%nat)) / J).
  set (c := u 0%nat - g0 * p0 0%nat - g1 * p0 1%nat).
  assert (E : forall i, (i < 3)%nat -> aff c g0 g1 (vertex p0 p1 p2 i) = u i).
  { intros [|[|[|i]]] Hi; try lia; unfold aff, c; cbn [vertex]; [ring| |]; unfold g0, g1, J, cross2 in *; field; assumption. }
  assert (F : form3 (cf_stiff p0 p1 p2) u u = area p0 p1 p2 * (g0 * g0 + g1 * g1)).
  { rewrite <- (proj2 (proj1 (C149_stiffness p0 p1 p2 (fun _ _ => 0) D) c g0 g1 c g0 g1)). unfold form3, sum3. rewrite !E by lia. reflexivity. }
  assert (A : 0 < area p0 p1 p2) by (unfold area; fold J; pose proof (Rabs_pos_lt _ D'); lra).
  pose proof (Rle_0_sqr g0) as Q0. pose proof (Rle_0_sqr g1) as Q1. unfold Rsqr in *. rewrite F. split; [apply Rmult_le_pos; lra|]. split.
  - intros Z. apply Rmult_integral in Z as [Z|Z]; [lra|]. assert (Z0 : g0 = 0) by (apply Rsqr_0_uniq; unfold Rsqr; lra). assert (Z1 : g1 = 0) by (apply Rsqr_0_uniq; unfold Rsqr; lra).
    rewrite <- (E 0%nat), <- (E 1%nat), <- (E 2%nat) by lia. unfold aff. rewrite Z0, Z1. split; ring.
  - intros [E0 E1]. assert (g0 = 0) as -> by (unfold g0; rewrite E0, E1; field; exact D'). assert (g1 = 0) as -> by (unfold g1; rewrite E0, E1; field; exact D'). ring.
Qed.
(** the load vector is exact for constant loads and has the exact sum for affine ones *)
Theorem C149_rhs p0 p1 p2 : ~ degenerate p0 p1 p2 ->
  (forall c i, (i < 3)%nat -> is_int_triangle p0 p1 p2 (fun x => c * cf_basis p0 p1 p2 x i) (cf_rhs p0 p1 p2 (fun _ => c) i)) /\
  (forall c g0 g1, is_int_triangle p0 p1 p2 (aff c g0 g1) (sum3 (cf_rhs p0 p1 p2 (aff c g0 g1)))).
Proof.
  unfold degenerate. intros D. split.
  - intros c [|[|[|i]]] Hi; try lia; [eapply (int_quadratic _ _ _ _ c (- c) (- c) 0 0 0)|eapply (int_quadratic _ _ _ _ 0 c 0 0 0 0)|eapply (int_quadratic _ _ _ _ 0 0 c 0 0 0)];
      try (intros z; rewrite basis_ref by (assumption || lia); ring); unfold cf_rhs; rewrite meas_area; field.
  - intros c g0 g1. eapply (int_quadratic _ _ _ _ (aff c g0 g1 p0) (aff 0 g0 g1 p1 - aff 0 g0 g1 p0) (aff 0 g0 g1 p2 - aff 0 g0 g1 p0) 0 0 0).
    + intros z. unfold aff. ring.
    + unfold sum3, cf_rhs, aff, pscale, padd. rewrite meas_area. field.
Qed.

Example ex_tri : ~ degenerate (pt2 1 0) (pt2 4 1) (pt2 0 2).
Proof. unfold degenerate, cross2. cbn. lra. Qed.
Example ex_mass : cf_mass (pt2 1 0) (pt2 4 1) (pt2 0 2) 0 1 = 7 / 24.
Proof.
  rewrite (proj2 (proj1 (C149_mass _ _ _ ex_tri) 0%nat 1%nat ltac:(lia) ltac:(lia))). unfold area, cross2. cbn [pt2 Nat.eqb]. rewrite Rabs_pos_eq by lra. field.
Qed.

Print Assumptions C148_basis.
Print Assumptions C148_gradient.
Print Assumptions C149_mass.
Print Assumptions C149_stiffness.
Print Assumptions C149_kernel.
Print Assumptions C149_rhs.
