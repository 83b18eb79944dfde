From Coq Require Import Reals List Arith Lra Lia Permutation.
From Verif Require Import Common Poly_Spec Quad_Model Quad_Spec Geo_Spec Geo_Model Shape_Spec Polyh_Spec Polyh_Proofs Cart_Model Cart_Spec.
Import ListNotations.
Local Open Scope R_scope.

Lemma norm3_eq v : norm 3 v = sqrt (v 0%nat * v 0%nat + v 1%nat * v 1%nat + v 2%nat * v 2%nat).
Proof. unfold norm. f_equal. cbn [dot]. ring. Qed.
Lemma norm2_eq v : norm 2 v = sqrt (v 0%nat * v 0%nat + v 1%nat * v 1%nat).
Proof. unfold norm. f_equal. cbn [dot]. ring. Qed.
Lemma sprod3' u v : sprod 3 u v = u 0%nat * v 0%nat + u 1%nat * v 1%nat + u 2%nat * v 2%nat.
Proof. unfold sprod. cbn. ring. Qed.
(** Lagrange: the product of the lengths is at least the area, with equality at right angles *)
Lemma lagrange2 a b c d : sqrt (a * a + b * b) * sqrt (c * c + d * d) = sqrt ((a * d - b * c) ^ 2 + (a * c + b * d) ^ 2).
Proof. rewrite <- sqrt_mult by nra. f_equal. ring. Qed.
Lemma abs_sqrt x : Rabs x = sqrt (x ^ 2).
Proof. replace (x ^ 2) with (Rsqr x) by (unfold Rsqr; ring). symmetry. apply sqrt_Rsqr_abs. Qed.
Lemma area_iff a b c d : sqrt (a * a + b * b) * sqrt (c * c + d * d) = Rabs (a * d - b * c) <-> a * c + b * d = 0.
Proof.
  rewrite lagrange2, abs_sqrt. split.
  - intros E. apply sqrt_inj in E; [|nra|apply pow2_ge_0]. assert (Z : (a * c + b * d) ^ 2 = 0) by lra. apply Rsqr_0_uniq. unfold Rsqr. lra.
  - intros E. rewrite E. f_equal. ring.
Qed.

(** Hadamard, with the defect *)
Lemma hadamard_gap u v w : sprod 3 u u * sprod 3 v v * sprod 3 w w - det3 u v w ^ 2 = sprod 3 u u * sprod 3 v w ^ 2 +
  ((u 1%nat * (v 0%nat * w 1%nat - v 1%nat * w 0%nat) - u 2%nat * (v 2%nat * w 0%nat - v 0%nat * w 2%nat)) ^ 2 +
   (u 2%nat * (v 1%nat * w 2%nat - v 2%nat * w 1%nat) - u 0%nat * (v 0%nat * w 1%nat - v 1%nat * w 0%nat)) ^ 2 +
   (u 0%nat * (v 2%nat * w 0%nat - v 0%nat * w 2%nat) - u 1%nat * (v 1%nat * w 2%nat - v 2%nat * w 1%nat)) ^ 2).
Proof. rewrite !sprod3'. unfold det3. ring. Qed.
Lemma sprod3_nonneg u : 0 <= sprod 3 u u.
Proof. rewrite sprod3'. nra. Qed.
Lemma sprod3_pos u : nonzero3 u -> 0 < sprod 3 u u.
Proof. rewrite sprod3'. intros [H|[H|H]]; pose proof (Rlt_0_sqr _ H); unfold Rsqr in *; nra. Qed.
Lemma hadamard_le u v w : det3 u v w ^ 2 <= sprod 3 u u * sprod 3 v v * sprod 3 w w.
Proof.
  pose proof (hadamard_gap u v w) as E. pose proof (Rmult_le_pos _ _ (sprod3_nonneg u) (pow2_ge_0 (sprod 3 v w))).
  match type of E with _ = _ + (?x ^ 2 + ?y ^ 2 + ?z ^ 2) => pose proof (pow2_ge_0 x); pose proof (pow2_ge_0 y); pose proof (pow2_ge_0 z) end. lra.
Qed.
Lemma hadamard_eq1 u v w : nonzero3 u -> det3 u v w ^ 2 = sprod 3 u u * sprod 3 v v * sprod 3 w w -> sprod 3 v w = 0.
Proof.
  intros N H. pose proof (hadamard_gap u v w) as E. pose proof (Rmult_le_pos _ _ (sprod3_nonneg u) (pow2_ge_0 (sprod 3 v w))).
  match type of E with _ = _ + (?x ^ 2 + ?y ^ 2 + ?z ^ 2) => pose proof (pow2_ge_0 x); pose proof (pow2_ge_0 y); pose proof (pow2_ge_0 z) end.
  assert (Z : sprod 3 u u * sprod 3 v w ^ 2 = 0) by lra. apply Rmult_integral in Z as [Z|Z]; [pose proof (sprod3_pos u N); lra|].
  apply Rsqr_0_uniq. unfold Rsqr. lra.
Qed.
Lemma det3_cyc u v w : det3 v w u = det3 u v w.
Proof. unfold det3. ring. Qed.
Lemma hadamard_iff u v w : nonzero3 u -> nonzero3 v -> nonzero3 w -> (det3 u v w ^ 2 = sprod 3 u u * sprod 3 v v * sprod 3 w w <-> orthogonal3 u v w).
Proof.
  intros Nu Nv Nw. split.
  - intros H. split; [|split].
    + apply (hadamard_eq1 w u v Nw). rewrite <- (det3_cyc w u v). rewrite H. ring.
    + apply (hadamard_eq1 u v w Nu H).
    + apply (hadamard_eq1 v w u Nv). rewrite (det3_cyc u v w), H. ring.
  - intros (A & B & C). transitivity (det3 u v w ^ 2 + (sprod 3 u u * sprod 3 v w ^ 2 + sprod 3 v v * sprod 3 w u ^ 2 + sprod 3 w w * sprod 3 u v ^ 2 - 2 * (sprod 3 u v * sprod 3 v w * sprod 3 w u))).
    + rewrite A, B, C. ring.
    + rewrite !sprod3'. unfold det3. ring.
Qed.
Lemma orthogonal_det u v w : orthogonal3 u v w -> det3 u v w ^ 2 = sprod 3 u u * sprod 3 v v * sprod 3 w w.
Proof.
  intros (A & B & C). transitivity (det3 u v w ^ 2 + (sprod 3 u u * sprod 3 v w ^ 2 + sprod 3 v v * sprod 3 w u ^ 2 + sprod 3 w w * sprod 3 u v ^ 2 - 2 * (sprod 3 u v * sprod 3 v w * sprod 3 w u))).
  - rewrite A, B, C. ring.
  - rewrite !sprod3'. unfold det3. ring.
Qed.

(** the corners of a cell *)
Ltac corner H k := let i := fresh "i" in let Hi := fresh "Hi" in
  lazymatch k with
  | 0%nat => pose proof (H false false false) | 1%nat => pose proof (H true false false) | 2%nat => pose proof (H false true false) | 3%nat => pose proof (H true true false)
  | 4%nat => pose proof (H false false true) | 5%nat => pose proof (H true false true) | 6%nat => pose proof (H false true true) | 7%nat => pose proof (H true true true)
  end.
Lemma box_corners cell o u v w : box_cell cell o u v w -> exists p0 p1 p2 p3 p4 p5 p6 p7, cell = [p0; p1; p2; p3; p4; p5; p6; p7] /\
  forall i, (i < 3)%nat -> p0 i = o i /\ p1 i = o i + u i /\ p2 i = o i + v i /\ p3 i = o i + u i + v i /\
    p4 i = o i + w i /\ p5 i = o i + u i + w i /\ p6 i = o i + v i + w i /\ p7 i = o i + u i + v i + w i.
Proof.
  intros (L & H). destruct cell as [|p0 [|p1 [|p2 [|p3 [|p4 [|p5 [|p6 [|p7 [|]]]]]]]]]; try discriminate. exists p0, p1, p2, p3, p4, p5, p6, p7. split; [reflexivity|].
  intros i Hi. corner H 0%nat. corner H 1%nat. corner H 2%nat. corner H 3%nat. corner H 4%nat. corner H 5%nat. corner H 6%nat. corner H 7%nat.
  repeat match goal with K : forall j, (j < 3)%nat -> _ |- _ => specialize (K i Hi); cbn [Nat.b2n Nat.add Nat.mul nth step] in K end.
  repeat split; lra.
Qed.
Lemma rect_corners cell o u v : rect_cell cell o u v -> exists p0 p1 p2 p3, cell = [p0; p1; p2; p3] /\
  forall i, (i < 2)%nat -> p0 i = o i /\ p1 i = o i + u i /\ p2 i = o i + v i /\ p3 i = o i + u i + v i.
Proof.
  intros (L & H). destruct cell as [|p0 [|p1 [|p2 [|p3 [|]]]]]; try discriminate. exists p0, p1, p2, p3. split; [reflexivity|].
  intros i Hi. pose proof (H false false i Hi) as A. pose proof (H true false i Hi) as B. pose proof (H false true i Hi) as C. pose proof (H true true i Hi) as D.
  cbn [Nat.b2n Nat.add Nat.mul nth step] in *. repeat split; lra.
Qed.
Lemma norm3_side p q u : (forall i, (i < 3)%nat -> p i - q i = u i) -> norm 3 (psubt p q) = sqrt (sprod 3 u u).
Proof. intros H. rewrite norm3_eq, sprod3'. unfold psubt. rewrite !H by lia. reflexivity. Qed.
Lemma norm2_side p q u : (forall i, (i < 2)%nat -> p i - q i = u i) -> norm 2 (psubt p q) = sqrt (u 0%nat * u 0%nat + u 1%nat * u 1%nat).
Proof. intros H. rewrite norm2_eq. unfold psubt. rewrite !H by lia. reflexivity. Qed.
Lemma measure_cart3_sides cell o u v w : box_cell cell o u v w -> measure_cart3 cell = sqrt (sprod 3 u u * sprod 3 v v * sprod 3 w w).
Proof.
  intros B. destruct (box_corners _ _ _ _ _ B) as (p0 & p1 & p2 & p3 & p4 & p5 & p6 & p7 & -> & H). unfold measure_cart3, at_pt. cbn [nth].
  rewrite (norm3_side p1 p0 u), (norm3_side p2 p0 v), (norm3_side p4 p0 w) by (intros i Hi; destruct (H i Hi) as (? & ? & ? & ? & ? & ? & ? & ?); lra).
  rewrite !sqrt_mult; auto using sprod3_nonneg, Rmult_le_pos.
Qed.
(** a parallelogram face *)
Lemma face_measure a b c d u v : (forall i, (i < 3)%nat -> b i - a i = u i /\ d i - a i = v i /\ c i - a i = u i + v i) -> sprod 3 u v = 0 ->
  measure_cart_face [a; b; c; d] = sqrt (sprod 3 (area_vector [a; b; c; d]) (area_vector [a; b; c; d])).
Proof.
  intros H O. unfold measure_cart_face, at_pt. cbn [nth]. rewrite (norm3_side b a u), (norm3_side d a v) by (intros i Hi; destruct (H i Hi) as (? & ? & ?); assumption).
  rewrite <- sqrt_mult by apply sprod3_nonneg. f_equal. rewrite (sprod3' (area_vector _)). unfold area_vector, poly_area2, edges, wedge. cbn [combine app map fst snd sumR].
  destruct (H 0%nat ltac:(lia)) as (B0 & D0 & C0), (H 1%nat ltac:(lia)) as (B1 & D1 & C1), (H 2%nat ltac:(lia)) as (B2 & D2 & C2).
  replace (b 0%nat) with (a 0%nat + u 0%nat) by lra. replace (b 1%nat) with (a 1%nat + u 1%nat) by lra. replace (b 2%nat) with (a 2%nat + u 2%nat) by lra.
  replace (c 0%nat) with (a 0%nat + u 0%nat + v 0%nat) by lra. replace (c 1%nat) with (a 1%nat + u 1%nat + v 1%nat) by lra. replace (c 2%nat) with (a 2%nat + u 2%nat + v 2%nat) by lra.
  replace (d 0%nat) with (a 0%nat + v 0%nat) by lra. replace (d 1%nat) with (a 1%nat + v 1%nat) by lra. replace (d 2%nat) with (a 2%nat + v 2%nat) by lra.
  transitivity (sprod 3 u u * sprod 3 v v - sprod 3 u v ^ 2); [rewrite O; ring|]. rewrite !sprod3'. field.
Qed.
