(** Proofs for C192, C193: the tetrahedra of a convex cell fill it, the triangles of a convex face fill it. *)
From Coq Require Import Reals List Arith Lra Lia Permutation.
From Verif Require Import Common Poly_Spec Poly_Proofs Quad_Model Quad_Spec Geo_Spec Geo_Model Geo_Proofs Geo2_Proofs Geo3_Proofs Geo4_Proofs
  Shape_Spec Shape_Proofs Shape_Properties GM_Model GM_Properties Polyh_Model Polyh_Spec Polyh_Proofs.
Import ListNotations.
Local Open Scope R_scope.

(** n . ((b - a) x (y - a)) *)
Definition kap (n a b y : pt) : R := n 0%nat * tri_area2 1 2 (a, b, y) + n 1%nat * tri_area2 2 0 (a, b, y) + n 2%nat * tri_area2 0 1 (a, b, y).
Definition vsub (p q : pt) : pt := fun i => p i - q i.
Definition unit3 (n : pt) : Prop := n 0%nat ^ 2 + n 1%nat ^ 2 + n 2%nat ^ 2 = 1.
Definition det3 (u v w : pt) : R := u 0%nat * (v 1%nat * w 2%nat - v 2%nat * w 1%nat) - u 1%nat * (v 0%nat * w 2%nat - v 2%nat * w 0%nat) + u 2%nat * (v 0%nat * w 1%nat - v 1%nat * w 0%nat).
Lemma kap_det n a b y : kap n a b y = det3 (vsub b a) (vsub y a) n.
Proof. unfold kap, tri_area2, wedge, det3, vsub. ring. Qed.

(** three vectors orthogonal to n are dependent *)
Lemma plane_det n u v w : unit3 n -> ndot n u = 0 -> ndot n v = 0 -> ndot n w = 0 -> det3 u v w = 0.
Proof.
  unfold unit3, ndot, det3. intros U Hu Hv Hw.
  assert (E : forall D, (n 0%nat ^ 2 + n 1%nat ^ 2 + n 2%nat ^ 2) * D = 0 -> D = 0) by (intros D; rewrite U; lra).
  apply E.
  transitivity (n 0%nat * ((n 0%nat * u 0%nat + n 1%nat * u 1%nat + n 2%nat * u 2%nat) * (v 1%nat * w 2%nat - v 2%nat * w 1%nat) +
      (n 0%nat * v 0%nat + n 1%nat * v 1%nat + n 2%nat * v 2%nat) * (w 1%nat * u 2%nat - w 2%nat * u 1%nat) +
      (n 0%nat * w 0%nat + n 1%nat * w 1%nat + n 2%nat * w 2%nat) * (u 1%nat * v 2%nat - u 2%nat * v 1%nat)) +
    n 1%nat * ((n 0%nat * u 0%nat + n 1%nat * u 1%nat + n 2%nat * u 2%nat) * (v 2%nat * w 0%nat - v 0%nat * w 2%nat) +
      (n 0%nat * v 0%nat + n 1%nat * v 1%nat + n 2%nat * v 2%nat) * (w 2%nat * u 0%nat - w 0%nat * u 2%nat) +
      (n 0%nat * w 0%nat + n 1%nat * w 1%nat + n 2%nat * w 2%nat) * (u 2%nat * v 0%nat - u 0%nat * v 2%nat)) +
    n 2%nat * ((n 0%nat * u 0%nat + n 1%nat * u 1%nat + n 2%nat * u 2%nat) * (v 0%nat * w 1%nat - v 1%nat * w 0%nat) +
      (n 0%nat * v 0%nat + n 1%nat * v 1%nat + n 2%nat * v 2%nat) * (w 0%nat * u 1%nat - w 1%nat * u 0%nat) +
      (n 0%nat * w 0%nat + n 1%nat * w 1%nat + n 2%nat * w 2%nat) * (u 0%nat * v 1%nat - u 1%nat * v 0%nat))); [ring|].
  rewrite Hu, Hv, Hw. ring.
Qed.
(** Cramer's rule in the plane *)
Lemma cramer n u v w i : (i < 3)%nat -> unit3 n -> ndot n u = 0 -> ndot n v = 0 -> ndot n w = 0 ->
  det3 u v n * w i = det3 w v n * u i + det3 u w n * v i.
Proof.
  intros Hi U Hu Hv Hw. pose proof (plane_det n u v w U Hu Hv Hw) as D.
  assert (K : det3 u v n * w i = det3 w v n * u i + det3 u w n * v i + det3 u v w * n i).
  { destruct i as [|[|[|i]]]; [| | |lia]; unfold det3; ring. }
  rewrite K, D. ring.
Qed.
Lemma kap_rot n a b c : kap n a b c = kap n b c a. Proof. unfold kap, tri_area2, wedge. ring. Qed.
Lemma kap_anti n a b c : kap n a b c = - kap n b a c. Proof. unfold kap, tri_area2, wedge. ring. Qed.
Lemma kap_sum n a b c y : kap n a b y + kap n b c y + kap n c a y = kap n a b c. Proof. unfold kap, tri_area2, wedge. ring. Qed.
(** barycentric coordinates *)
Lemma in_tri_kap n a b c y : unit3 n -> ndot n (vsub b a) = 0 -> ndot n (vsub c a) = 0 -> ndot n (vsub y a) = 0 -> 0 < kap n a b c ->
  0 <= kap n a b y -> 0 <= kap n b c y -> 0 <= kap n c a y -> in_triangle3 a b c y.
Proof.
  intros U Hb Hc Hy D A B C. exists (kap n b c y / kap n a b c), (kap n c a y / kap n a b c), (kap n a b y / kap n a b c).
  pose proof (Rinv_0_lt_compat _ D) as Di. split; [apply Rmult_le_pos; lra|]. split; [apply Rmult_le_pos; lra|]. split; [apply Rmult_le_pos; lra|].
  pose proof (kap_sum n a b c y) as S1. split; [field_simplify; [|lra]; apply (Rmult_eq_reg_r (kap n a b c)); [|lra]; field_simplify; lra|].
  intros i Hi. pose proof (cramer n (vsub b a) (vsub c a) (vsub y a) i Hi U Hb Hc Hy) as K. rewrite <- kap_det in K.
  assert (K1 : det3 (vsub y a) (vsub c a) n = kap n c a y) by (rewrite kap_rot, kap_det; unfold det3, vsub; ring).
  rewrite K1, <- kap_det in K. unfold vsub in K.
  apply (Rmult_eq_reg_l (kap n a b c)); [|lra].
  transitivity (kap n a b c * (y i - a i) + kap n a b c * a i); [ring|]. rewrite K, <- S1 at 1.
  transitivity (kap n b c y * a i + kap n c a y * b i + kap n a b y * c i); [ring|]. field. lra.
Qed.

(** ** plane convex polygons *)
Lemma face_kap n pts a b c : convex_face n pts -> In (a, b) (edges pts) -> In c pts -> 0 <= kap n a b c.
Proof.
  intros (_ & U & H) E I. destruct (H a b c E I) as (k & K & K1 & K2 & K3). unfold kap. rewrite K1, K2, K3.
  replace (n 0%nat * (k * n 0%nat) + n 1%nat * (k * n 1%nat) + n 2%nat * (k * n 2%nat)) with (k * (n 0%nat ^ 2 + n 1%nat ^ 2 + n 2%nat ^ 2)) by ring. rewrite U. lra.
Qed.
Lemma face_kap_pos n pts a b : convex_face n pts -> proper_polygon pts -> In (a, b) (edges pts) -> exists c, In c pts /\ 0 < kap n a b c.
Proof.
  intros C P E. destruct (P a b E) as (c & I & X). exists c. split; [exact I|]. pose proof (face_kap n pts a b c C E I) as K0.
  destruct C as (_ & U & H). destruct (H a b c E I) as (k & K & K1 & K2 & K3).
  destruct (Req_dec k 0) as [->|Nk].
  - exfalso. assert (Z : cross3_sq a b c = tri_area2 1 2 (a, b, c) ^ 2 + tri_area2 2 0 (a, b, c) ^ 2 + tri_area2 0 1 (a, b, c) ^ 2) by (unfold cross3_sq, tri_area2, wedge; ring).
    rewrite Z, K1, K2, K3 in X. lra.
  - unfold kap. rewrite K1, K2, K3.
    replace (n 0%nat * (k * n 0%nat) + n 1%nat * (k * n 1%nat) + n 2%nat * (k * n 2%nat)) with (k * (n 0%nat ^ 2 + n 1%nat ^ 2 + n 2%nat ^ 2)) by ring. rewrite U. lra.
Qed.
Lemma edge_in pts a b : In (a, b) (edges pts) -> In a pts /\ In b pts.
Proof.
  unfold edges. destruct pts as [|p t]; [intros []|]. intros E. split; [exact (in_combine_l _ _ _ _ E)|].
  apply in_combine_r, in_app_or in E. destruct E as [E|[<-|[]]]; [now right|now left].
Qed.
Lemma bary_kap n pts m p q : pts <> [] -> (forall k, m k = sumR (map (fun q => q k) pts) / INR (length pts)) ->
  kap n m p q = sumR (map (fun c => kap n p q c) pts) / INR (length pts).
Proof.
  intros N M. unfold kap at 1. rewrite !(bary_left _ _ pts m p q N M).
  assert (L : INR (length pts) <> 0) by (apply not_0_INR; destruct pts; [congruence|discriminate]).
  transitivity ((n 0%nat * sumR (map (fun c => tri_area2 1 2 (p, q, c)) pts) + n 1%nat * sumR (map (fun c => tri_area2 2 0 (p, q, c)) pts) + n 2%nat * sumR (map (fun c => tri_area2 0 1 (p, q, c)) pts)) / INR (length pts)); [field; exact L|].
  f_equal. rewrite <- !sumR_scal, <- !sumR_plus. reflexivity.
Qed.
Lemma sum_star n pts m y : pts <> [] -> (forall k, m k = sumR (map (fun q => q k) pts) / INR (length pts)) -> sumR (map (fun q => kap n m q y) pts) = 0.
Proof.
  intros N M. assert (L : INR (length pts) <> 0) by (apply not_0_INR; destruct pts; [congruence|discriminate]).
  set (w := fun i : nat => match i with O => vsub y m 1%nat * n 2%nat - vsub y m 2%nat * n 1%nat | 1%nat => vsub y m 2%nat * n 0%nat - vsub y m 0%nat * n 2%nat | _ => vsub y m 0%nat * n 1%nat - vsub y m 1%nat * n 0%nat end).
  pose proof (mean_ndot w pts m m N M) as H.
  assert (Z : ndot w (fun i => m i - m i) = 0) by (unfold ndot; ring). rewrite Z in H.
  assert (E : sumR (map (fun q => ndot w (fun i => q i - m i)) pts) = 0).
  { apply (Rmult_eq_reg_r (/ INR (length pts))); [|apply Rinv_neq_0_compat; exact L]. unfold Rdiv in H. rewrite <- H. ring. }
  rewrite <- E. apply sumR_ext_in. intros q _. rewrite kap_det. unfold ndot, w, det3, vsub. ring.
Qed.
(** around the polygon the sign of a function of zero sum changes from + to - on some edge *)
Lemma sign_change (c : pt -> R) pts : pts <> [] -> sumR (map c pts) = 0 -> exists q r, In (q, r) (edges pts) /\ 0 <= c q /\ c r <= 0.
Proof.
  intros N Z. set (n := length pts). assert (Hn : (0 < n)%nat) by (unfold n; destruct pts; [congruence|cbn; lia]).
  set (d := fun i => c (nth i pts (fun _ => 0))).
  assert (Dec : forall m, (m <= n)%nat -> (exists i, (i < m)%nat /\ 0 <= d i /\ d ((i + 1) mod n) <= 0) \/ (forall i, (i < m)%nat -> 0 <= d i -> 0 < d ((i + 1) mod n))).
  { induction m as [|m IH]; intros Hm; [right; lia|]. destruct IH as [(i & Hi & H)|H]; [lia|left; exists i; split; [lia|exact H]|].
    destruct (Rle_lt_dec 0 (d m)) as [A|A].
    - destruct (Rle_lt_dec (d ((m + 1) mod n)) 0) as [B|B]; [left; exists m; split; [lia|split; assumption]|].
      right. intros i Hi Di. destruct (Nat.eq_dec i m) as [->|]; [lra|apply H; [lia|exact Di]].
    - right. intros i Hi Di. destruct (Nat.eq_dec i m) as [->|]; [lra|apply H; [lia|exact Di]]. }
  destruct (Dec n (Nat.le_refl n)) as [(i & Hi & A & B)|H].
  - exists (nth i pts (fun _ => 0)), (cyc pts (i + 1)). split; [|split; [exact A|exact B]].
    rewrite <- edges_seq. apply in_map_iff. exists i. split; [reflexivity|apply in_seq; change (length pts) with n; lia].
  - exfalso.
    assert (Nth : forall x, In x pts -> exists i, (i < n)%nat /\ c x = d i) by (intros x Ix; destruct (In_nth pts x (fun _ => 0) Ix) as (i & Hi & <-); now exists i).
    assert (Ex : exists i, (i < n)%nat /\ 0 <= d i).
    { assert (Dq : forall m, (m <= n)%nat -> (exists i, (i < m)%nat /\ 0 <= d i) \/ (forall i, (i < m)%nat -> d i < 0)).
      { induction m as [|m IH]; intros Hm; [right; lia|]. destruct IH as [(i & Hi & X)|X]; [lia|left; exists i; split; [lia|exact X]|].
        destruct (Rle_lt_dec 0 (d m)); [left; exists m; split; [lia|assumption]|]. right. intros i Hi. destruct (Nat.eq_dec i m) as [->|]; [lra|apply X; lia]. }
      destruct (Dq n (Nat.le_refl n)) as [X|X]; [exact X|]. exfalso.
      assert (0 < sumR (map (fun x => - c x) pts)).
      { apply sumR_pos; [intros x Ix; destruct (Nth x Ix) as (i & Hi & ->); pose proof (X i Hi); lra|].
        exists (nth 0 pts (fun _ => 0)). split; [apply nth_In; exact Hn|]. pose proof (X 0%nat Hn). unfold d in *. lra. }
      assert (sumR (map (fun x => - c x) pts) = - sumR (map c pts)) by (clear; induction pts as [|x l IH]; cbn; [ring|rewrite IH; ring]). lra. }
    destruct Ex as (i0 & Hi0 & P0).
    assert (Q : forall k, 0 <= d ((i0 + k) mod n)).
    { induction k as [|k IH]; [rewrite Nat.add_0_r, Nat.mod_small by lia; exact P0|].
      replace ((i0 + S k) mod n) with (((i0 + k) mod n + 1) mod n); [left; apply H; [apply Nat.mod_upper_bound; lia|exact IH]|].
      rewrite Nat.add_mod_idemp_l by lia. f_equal. lia. }
    assert (P : forall j, (j < n)%nat -> 0 <= d j).
    { intros j Hj. specialize (Q (n + j - i0)%nat). replace ((i0 + (n + j - i0)) mod n) with j in Q; [exact Q|].
      replace (i0 + (n + j - i0))%nat with (j + 1 * n)%nat by lia. rewrite Nat.mod_add by lia. now rewrite Nat.mod_small by lia. }
    assert (0 < sumR (map c pts)); [|lra].
    apply sumR_pos; [intros x Ix; destruct (Nth x Ix) as (i & Hi & ->); now apply P|].
    exists (nth ((0 + 1) mod n) pts (fun _ => 0)). split; [apply nth_In; apply Nat.mod_upper_bound; lia|]. apply (H 0%nat Hn). now apply P.
Qed.
Lemma plane_sub n pts p q y : (forall p q, In p pts -> In q pts -> ndot n (vsub q p) = 0) -> In p pts -> In q pts -> ndot n (vsub y p) = 0 -> ndot n (vsub y q) = 0.
Proof. intros P Ip Iq Y. pose proof (P p q Ip Iq) as Z. unfold ndot, vsub in *. lra. Qed.

(** how a face is cut: a triangle, a quadrangle along a diagonal, any face from the mean of its vertices *)
Definition cuts (pts : list pt) (l : list (pt * pt * pt)) : Prop :=
  (exists a b c, pts = [a; b; c] /\ l = [(a, b, c)]) \/ (exists a b c d, pts = [a; b; c; d] /\ l = [(a, b, c); (c, d, a)]) \/
  (exists m : pt, (forall k, m k = sumR (map (fun q => q k) pts) / INR (length pts)) /\ l = map (fun e => (m, fst e, snd e)) (edges pts)).
(** ** the triangles fill the face *)
Lemma face_fill n pts l y : convex_face n pts -> proper_polygon pts -> (forall p q, In p pts -> In q pts -> ndot n (vsub q p) = 0) ->
  cuts pts l -> (forall p, In p pts -> ndot n (vsub y p) = 0) -> (forall a b, In (a, b) (edges pts) -> 0 <= kap n a b y) ->
  exists a b c, In (a, b, c) l /\ in_triangle3 a b c y.
Proof.
  intros C Pr Pl Sl Y K. pose proof C as (L & U & _).
  destruct Sl as [(a & b & c & -> & ->)|[(a & b & c & d & -> & ->)|(m & M & ->)]].
  - exists a, b, c. split; [now left|]. assert (Eab : In (a, b) (edges [a; b; c])) by (cbn; tauto).
    apply (in_tri_kap n); [exact U|apply Pl; cbn; tauto|apply Pl; cbn; tauto|apply Y; cbn; tauto| |apply K; cbn; tauto|apply K; cbn; tauto|apply K; cbn; tauto].
    destruct (face_kap_pos n _ a b C Pr Eab) as (z & Iz & Kz). cbn in Iz. destruct Iz as [<-|[<-|[<-|[]]]]; [exfalso|exfalso|exact Kz]; unfold kap, tri_area2, wedge in Kz; ring_simplify in Kz; lra.
  - set (pts := [a; b; c; d]) in *.
    assert (E1 : In (a, b) (edges pts)) by (cbn; tauto). assert (E2 : In (b, c) (edges pts)) by (cbn; tauto).
    assert (E3 : In (c, d) (edges pts)) by (cbn; tauto). assert (E4 : In (d, a) (edges pts)) by (cbn; tauto).
    assert (Ia : In a pts) by (cbn; tauto). assert (Ib : In b pts) by (cbn; tauto). assert (Ic : In c pts) by (cbn; tauto). assert (Id : In d pts) by (cbn; tauto).
    pose proof (face_kap n pts a b c C E1 Ic) as D1. pose proof (face_kap n pts c d a C E3 Ia) as D2.
    pose proof (K a b E1) as K1. pose proof (K b c E2) as K2. pose proof (K c d E3) as K3. pose proof (K d a E4) as K4.
    pose proof (kap_sum n a b c y) as S1. pose proof (kap_sum n c d a y) as S2. pose proof (kap_anti n a c y) as S3.
    assert (T1 : 0 < kap n a b c -> 0 <= kap n c a y -> exists a0 b0 c0, In (a0, b0, c0) [(a, b, c); (c, d, a)] /\ in_triangle3 a0 b0 c0 y).
    { intros D E. exists a, b, c. split; [now left|]. apply (in_tri_kap n); [exact U|now apply Pl|now apply Pl|now apply Y|exact D|exact K1|exact K2|exact E]. }
    assert (T2 : 0 < kap n c d a -> 0 <= kap n a c y -> exists a0 b0 c0, In (a0, b0, c0) [(a, b, c); (c, d, a)] /\ in_triangle3 a0 b0 c0 y).
    { intros D E. exists c, d, a. split; [right; now left|]. apply (in_tri_kap n); [exact U|now apply Pl|now apply Pl|now apply Y|exact D|exact K3|exact K4|exact E]. }
    destruct (Rlt_le_dec 0 (kap n a b c)) as [P1|P1]; destruct (Rlt_le_dec 0 (kap n c d a)) as [P2|P2].
    + destruct (Rle_lt_dec 0 (kap n c a y)); [now apply T1|apply T2; [exact P2|lra]].
    + apply T1; [exact P1|]. lra.
    + apply T2; [exact P2|]. lra.
    + exfalso. destruct (face_kap_pos n pts a b C Pr E1) as (z & Iz & Kz). cbn in Iz.
      destruct Iz as [<-|[<-|[<-|[<-|[]]]]]; [unfold kap, tri_area2, wedge in Kz; ring_simplify in Kz; lra|unfold kap, tri_area2, wedge in Kz; ring_simplify in Kz; lra|lra|].
      pose proof (kap_sum n a b c d) as S4. pose proof (face_kap n pts b c d C E2 Id) as D4. pose proof (kap_rot n c d a) as S5. pose proof (kap_rot n d a c) as S6. pose proof (kap_anti n a c d) as S7. lra.
  - assert (N : pts <> []) by (intros ->; cbn in L; lia).
    destruct (sign_change (fun q => kap n m q y) pts N (sum_star n pts m y N M)) as (q & r & Eqr & Q1 & R1).
    destruct (edge_in pts q r Eqr) as (Iq & Ir).
    exists m, q, r. split; [apply in_map_iff; exists (q, r); split; [reflexivity|exact Eqr]|].
    assert (Mp : forall p, In p pts -> ndot n (vsub m p) = 0).
    { intros p Ip. unfold vsub. rewrite (mean_ndot n pts m p N M), sum_zero; [unfold Rdiv; ring|]. intros z Iz. exact (Pl p z Ip Iz). }
    assert (Neg : forall u v, ndot n (vsub u v) = - ndot n (vsub v u)) by (intros; unfold ndot, vsub; ring).
    apply (in_tri_kap n); [exact U|rewrite Neg, Mp by exact Iq; ring|rewrite Neg, Mp by exact Ir; ring| | |exact Q1|exact (K q r Eqr)|].
    + pose proof (Y q Iq) as Yq. pose proof (Mp q Iq) as Mq. unfold ndot, vsub in *. lra.
    + rewrite (bary_kap n pts m q r N M). apply Rdiv_lt_0_compat; [|apply lt_0_INR, (Nat.lt_le_trans _ 3); [lia|exact L]].
      apply sumR_pos; [intros z Iz; exact (face_kap n pts q r z C Eqr Iz)|]. exact (face_kap_pos n pts q r C Pr Eqr).
    + rewrite kap_anti. lra.
Qed.

(** ** area vectors *)
Lemma area_plane n a b c : unit3 n -> ndot n (vsub b a) = 0 -> ndot n (vsub c a) = 0 ->
  tri_area2 1 2 (a, b, c) = kap n a b c * n 0%nat /\ tri_area2 2 0 (a, b, c) = kap n a b c * n 1%nat /\ tri_area2 0 1 (a, b, c) = kap n a b c * n 2%nat.
Proof.
  unfold unit3. intros U Hb Hc. unfold ndot in *. set (u := vsub b a) in *. set (v := vsub c a) in *.
  set (X0 := u 1%nat * v 2%nat - u 2%nat * v 1%nat). set (X1 := u 2%nat * v 0%nat - u 0%nat * v 2%nat). set (X2 := u 0%nat * v 1%nat - u 1%nat * v 0%nat).
  assert (E0 : tri_area2 1 2 (a, b, c) = X0) by (unfold X0, u, v, vsub, tri_area2, wedge; ring).
  assert (E1 : tri_area2 2 0 (a, b, c) = X1) by (unfold X1, u, v, vsub, tri_area2, wedge; ring).
  assert (E2 : tri_area2 0 1 (a, b, c) = X2) by (unfold X2, u, v, vsub, tri_area2, wedge; ring).
  unfold kap. rewrite E0, E1, E2.
  assert (Z : forall i, u i * (n 0%nat * v 0%nat + n 1%nat * v 1%nat + n 2%nat * v 2%nat) - v i * (n 0%nat * u 0%nat + n 1%nat * u 1%nat + n 2%nat * u 2%nat) = 0) by (intros i; rewrite Hb, Hc; ring).
  pose proof (Z 0%nat) as Z0. pose proof (Z 1%nat) as Z1. pose proof (Z 2%nat) as Z2.
  assert (C0 : n 1%nat * X2 - n 2%nat * X1 = 0) by (rewrite <- Z0; unfold X1, X2; ring).
  assert (C1 : n 2%nat * X0 - n 0%nat * X2 = 0) by (rewrite <- Z1; unfold X0, X2; ring).
  assert (C2 : n 0%nat * X1 - n 1%nat * X0 = 0) by (rewrite <- Z2; unfold X0, X1; ring).
  repeat split.
  - transitivity (X0 * (n 0%nat ^ 2 + n 1%nat ^ 2 + n 2%nat ^ 2)); [rewrite U; ring|].
    transitivity ((n 0%nat * X0 + n 1%nat * X1 + n 2%nat * X2) * n 0%nat - n 1%nat * (n 0%nat * X1 - n 1%nat * X0) + n 2%nat * (n 2%nat * X0 - n 0%nat * X2)); [ring|rewrite C1, C2; ring].
  - transitivity (X1 * (n 0%nat ^ 2 + n 1%nat ^ 2 + n 2%nat ^ 2)); [rewrite U; ring|].
    transitivity ((n 0%nat * X0 + n 1%nat * X1 + n 2%nat * X2) * n 1%nat + n 0%nat * (n 0%nat * X1 - n 1%nat * X0) - n 2%nat * (n 1%nat * X2 - n 2%nat * X1)); [ring|rewrite C0, C2; ring].
  - transitivity (X2 * (n 0%nat ^ 2 + n 1%nat ^ 2 + n 2%nat ^ 2)); [rewrite U; ring|].
    transitivity ((n 0%nat * X0 + n 1%nat * X1 + n 2%nat * X2) * n 2%nat - n 0%nat * (n 2%nat * X0 - n 0%nat * X2) + n 1%nat * (n 1%nat * X2 - n 2%nat * X1)); [ring|rewrite C0, C1; ring].
Qed.
Definition plane_of (n : pt) (pts : list pt) : Prop := forall p q, In p pts -> In q pts -> ndot n (vsub q p) = 0.
Lemma mean_plane n pts m : pts <> [] -> (forall k, m k = sumR (map (fun q => q k) pts) / INR (length pts)) -> plane_of n pts -> forall p, In p pts -> ndot n (vsub m p) = 0.
Proof. intros N M Pl p Ip. unfold vsub. rewrite (mean_ndot n pts m p N M), sum_zero; [unfold Rdiv; ring|]. intros z Iz. exact (Pl p z Ip Iz). Qed.
Lemma area_vec n pts : convex_face n pts -> proper_polygon pts -> plane_of n pts -> exists K, 0 < K /\ forall i, (i < 3)%nat -> area_vector pts i = K * n i.
Proof.
  intros C Pr Pl. pose proof C as (L & U & _). assert (N : pts <> []) by (intros ->; cbn in L; lia).
  destruct (barycenter_mean pts N) as (m & _ & M). pose proof (mean_plane n pts m N M Pl) as Mp.
  set (K2 := sumR (map (fun e => kap n m (fst e) (snd e)) (edges pts))).
  assert (Pos : forall e, In e (edges pts) -> 0 < kap n m (fst e) (snd e)).
  { intros [q r] E. cbn [fst snd]. rewrite (bary_kap n pts m q r N M). apply Rdiv_lt_0_compat; [|apply lt_0_INR, (Nat.lt_le_trans _ 3); [lia|exact L]].
    apply sumR_pos; [intros z Iz; exact (face_kap n pts q r z C E Iz)|]. exact (face_kap_pos n pts q r C Pr E). }
  exists (K2 / 2). split.
  - apply Rdiv_lt_0_compat; [|lra]. apply sumR_pos; [intros e E; left; now apply Pos|].
    assert (X : exists e, In e (edges pts)).
    { destruct (edges pts) as [|e l] eqn:Ee; [|exists e; now left]. apply (f_equal (@length _)) in Ee. rewrite edges_length in Ee. cbn in Ee. destruct pts; [congruence|discriminate]. }
    destruct X as (e & E). exists e. split; [exact E|now apply Pos].
  - assert (A : forall e, In e (edges pts) -> tri_area2 1 2 (m, fst e, snd e) = kap n m (fst e) (snd e) * n 0%nat /\ tri_area2 2 0 (m, fst e, snd e) = kap n m (fst e) (snd e) * n 1%nat /\ tri_area2 0 1 (m, fst e, snd e) = kap n m (fst e) (snd e) * n 2%nat).
    { intros [q r] E. cbn [fst snd]. destruct (edge_in pts q r E) as (Iq & Ir).
      assert (Neg : forall u v, ndot n (vsub u v) = - ndot n (vsub v u)) by (intros; unfold ndot, vsub; ring).
      apply area_plane; [exact U|rewrite Neg, Mp by exact Iq; ring|rewrite Neg, Mp by exact Ir; ring]. }
    assert (S1 : forall i j k, (forall e, In e (edges pts) -> tri_area2 i j (m, fst e, snd e) = kap n m (fst e) (snd e) * n k) -> poly_area2 i j pts = K2 * n k).
    { intros i j k H. rewrite <- (star_area i j m pts N). rewrite (sumR_ext_in _ _ _ H). unfold K2. rewrite Rmult_comm, <- sumR_scal. apply sumR_ext_in. intros; ring. }
    intros i Hi. unfold area_vector. destruct i as [|[|[|i]]]; [| | |lia].
    + rewrite (S1 1%nat 2%nat 0%nat) by (intros e E; exact (proj1 (A e E))). field.
    + rewrite (S1 2%nat 0%nat 1%nat) by (intros e E; exact (proj1 (proj2 (A e E)))). field.
    + rewrite (S1 0%nat 1%nat 2%nat) by (intros e E; exact (proj2 (proj2 (A e E)))). field.
Qed.

(** ** the two faces at an edge *)
Lemma mult_identity n n' u v w : unit3 n -> ndot n u = 0 -> ndot n v = 0 -> ndot n w = 0 ->
  det3 u v n * ndot n' w = det3 w v n * ndot n' u + det3 u w n * ndot n' v.
Proof.
  intros U Hu Hv Hw. pose proof (cramer n u v w 0 ltac:(lia) U Hu Hv Hw) as C0. pose proof (cramer n u v w 1 ltac:(lia) U Hu Hv Hw) as C1. pose proof (cramer n u v w 2 ltac:(lia) U Hu Hv Hw) as C2.
  unfold ndot. transitivity (n' 0%nat * (det3 u v n * w 0%nat) + n' 1%nat * (det3 u v n * w 1%nat) + n' 2%nat * (det3 u v n * w 2%nat)); [ring|]. rewrite C0, C1, C2. ring.
Qed.
Lemma triple_det p q r c : triple p q r c = det3 (vsub q p) (vsub r p) (vsub c p).
Proof. unfold triple, det3, vsub. ring. Qed.
(** the inner side of the neighbour is the inner side of the edge *)
Lemma edge_side n n' f g a b c : unit3 n -> unit3 n' -> plane_of n f -> plane_of n' g -> In a f -> In b f -> In a g -> In b g -> In c f -> 0 < kap n a b c ->
  (exists p q r z, In p g /\ In q g /\ In r g /\ In z f /\ triple p q r z <> 0) ->
  ndot n' (vsub c a) <> 0 /\ forall w, ndot n w = 0 -> kap n a b c * ndot n' w = det3 (vsub b a) w n * ndot n' (vsub c a).
Proof.
  intros U U' Pf Pg Fa Fb Ga Gb Fc D (p & q & r & z & Gp & Gq & Gr & Fz & T).
  assert (I : forall w, ndot n w = 0 -> kap n a b c * ndot n' w = det3 (vsub b a) w n * ndot n' (vsub c a)).
  { intros w Hw. rewrite kap_det, (mult_identity n n' (vsub b a) (vsub c a) w U (Pf a b Fa Fb) (Pf a c Fa Fc) Hw), (Pg a b Ga Gb). ring. }
  split; [|exact I]. intros Z. apply T. rewrite triple_det.
  assert (Zz : ndot n' (vsub z a) = 0).
  { pose proof (I (vsub z a) (Pf a z Fa Fz)) as J. rewrite Z, Rmult_0_r in J. apply Rmult_integral in J. destruct J; lra. }
  apply (plane_det n'); [exact U'|exact (Pg p q Gp Gq)|exact (Pg p r Gp Gr)|].
  pose proof (Pg p a Gp Ga) as J. unfold ndot, vsub in *. lra.
Qed.
Lemma outer_in g a b : In (a, b) (outer_edges g) -> In a (snd g) /\ In b (snd g).
Proof.
  unfold outer_edges. destruct (fst g); intros E; [exact (edge_in _ _ _ E)|].
  apply in_map_iff in E as ([u v] & [= <- <-] & E). destruct (edge_in _ _ _ E). split; assumption.
Qed.
Lemma neighbour fs f a b : closed_surface fs -> bent fs -> In f fs -> In (a, b) (edges (snd f)) -> exists g, In g fs /\ In a (snd g) /\ In b (snd g) /\
  exists p q r z, In p (snd g) /\ In q (snd g) /\ In r (snd g) /\ In z (snd f) /\ triple p q r z <> 0.
Proof.
  intros C B If E.
  assert (N : forall u v, In (u, v) (outer_edges f) -> exists g, In g fs /\ In u (snd g) /\ In v (snd g) /\ exists p q r z, In p (snd g) /\ In q (snd g) /\ In r (snd g) /\ In z (snd f) /\ triple p q r z <> 0).
  { intros u v O. assert (I : In (v, u) (map swap (flat_map outer_edges fs))) by (apply in_map_iff; exists (u, v); split; [reflexivity|apply in_flat_map; now exists f]).
    apply (Permutation_in _ (Permutation_sym C)) in I. apply in_flat_map in I as (g & Ig & O'). exists g. destruct (outer_in g v u O') as (Gv & Gu).
    split; [exact Ig|]. split; [exact Gu|]. split; [exact Gv|]. exact (B f g u v If Ig O O'). }
  destruct (fst f) eqn:Ef.
  - apply N. unfold outer_edges. now rewrite Ef.
  - destruct (N b a) as (g & Ig & Gb & Ga & R); [unfold outer_edges; rewrite Ef; apply in_map_iff; exists (a, b); split; [reflexivity|exact E]|]. now exists g.
Qed.

(** ** the cell *)
Definition gap (f : oface) (x : pt) : R := sgn (fst f) * ndot (area_vector (snd f)) (vsub x (nth 0 (snd f) (fun _ => 0))).
Record face_data (cell : list pt) (f : oface) (n : pt) (K : R) : Prop := {
  fd_convex : convex_face n (snd f);
  fd_unit : unit3 n;
  fd_proper : proper_polygon (snd f);
  fd_plane : plane_of n (snd f);
  fd_behind : forall p x, In p (snd f) -> In x cell -> sgn (fst f) * ndot n (vsub x p) <= 0;
  fd_K : 0 < K;
  fd_area : forall i, (i < 3)%nat -> area_vector (snd f) i = K * n i;
  fd_first : In (nth 0 (snd f) (fun _ => 0)) (snd f) }.
Lemma data_of cell fs f : strictly_convex cell fs -> In f fs -> exists n K, face_data cell f n K.
Proof.
  intros ((_ & F & _) & _ & _ & Pr & _) If. destruct f as [s pts]. destruct (face_facts cell s pts (F _ If)) as (n & C & P & O).
  destruct (area_vec n pts C (Pr _ If) P) as (K & K0 & KA). exists n, K. pose proof C as (L & U & _).
  constructor; cbn [fst snd]; [exact C|exact U|exact (Pr _ If)|exact P|exact O|exact K0|exact KA|apply nth_In; lia].
Qed.
Lemma gap_n cell f n K x p : face_data cell f n K -> In p (snd f) -> gap f x = K * (sgn (fst f) * ndot n (vsub x p)).
Proof.
  intros D Ip. unfold gap. pose proof (fd_plane _ _ _ _ D _ _ (fd_first _ _ _ _ D) Ip) as P. unfold ndot in *. rewrite !(fd_area _ _ _ _ D) by lia.
  unfold vsub in *. transitivity (K * (sgn (fst f) * (n 0%nat * (x 0%nat - p 0%nat) + n 1%nat * (x 1%nat - p 1%nat) + n 2%nat * (x 2%nat - p 2%nat) +
    (n 0%nat * (p 0%nat - nth 0 (snd f) (fun _ => 0) 0%nat) + n 1%nat * (p 1%nat - nth 0 (snd f) (fun _ => 0) 1%nat) + n 2%nat * (p 2%nat - nth 0 (snd f) (fun _ => 0) 2%nat))))); [ring|].
  rewrite P. ring.
Qed.
Lemma in_cell_gap cell fs x : strictly_convex cell fs -> (in_cell fs x <-> forall f, In f fs -> gap f x <= 0).
Proof.
  intros SC. assert (E : forall f p, In f fs -> In p (snd f) -> sgn (fst f) * sprod 3 (fun i => x i - p i) (area_vector (snd f)) = gap f x).
  { intros f p If Ip. destruct (data_of cell fs f SC If) as (n & K & D). rewrite (gap_n cell f n K x p D Ip), sprod3. unfold ndot. rewrite !(fd_area _ _ _ _ D) by lia. unfold vsub. ring. }
  split.
  - intros H f If. destruct (data_of cell fs f SC If) as (n & K & D). rewrite <- (E f _ If (fd_first _ _ _ _ D)). apply H; [exact If|exact (fd_first _ _ _ _ D)].
  - intros H f If p Ip. rewrite (E f p If Ip). now apply H.
Qed.
Lemma sgn_neq s : sgn s <> 0. Proof. pose proof (sgn_sq s). nra. Qed.
Lemma neg_quot k t u l : 0 < k -> 0 < - (t * u) -> 0 < l -> k * (t * (u / l)) < 0.
Proof.
  intros K0 N L. replace (k * (t * (u / l))) with (- (k * (- (t * u) * / l))) by (unfold Rdiv; ring).
  pose proof (Rmult_lt_0_compat _ _ N (Rinv_0_lt_compat _ L)) as Y1. pose proof (Rmult_lt_0_compat _ _ K0 Y1) as Y2. lra.
Qed.
(** the mean of the vertices is strictly inside *)
Lemma bar_inside cell fs bar f : strictly_convex cell fs -> barycenter cell = Ok bar -> In f fs -> gap f bar < 0.
Proof.
  intros SC E If. destruct (data_of cell fs f SC If) as (n & K & D). pose proof SC as ((N & _ & Cl) & _ & Vx & _ & B).
  set (p := nth 0 (snd f) (fun _ => 0)). rewrite (gap_n cell f n K bar p D (fd_first _ _ _ _ D)).
  destruct (barycenter_mean cell N) as (b' & E' & M). rewrite E in E'. injection E' as <-.
  assert (Ed : exists e, In e (outer_edges f)).
  { destruct (edges (snd f)) as [|e l] eqn:Ee; [|exists (if fst f then e else swap e); unfold outer_edges; rewrite Ee; destruct (fst f); now left].
    apply (f_equal (@length _)) in Ee. rewrite edges_length in Ee. destruct (fd_convex _ _ _ _ D) as (L & _). cbn in Ee. rewrite Ee in L. lia. }
  destruct Ed as ([a b] & O).
  (* a neighbour has a vertex off the plane of f *)
  assert (I : In (b, a) (flat_map outer_edges fs)).
  { apply (Permutation_in _ (Permutation_sym Cl)). apply in_map_iff. exists (a, b). split; [reflexivity|]. apply in_flat_map. now exists f. }
  apply in_flat_map in I as (g & Ig & O'). destruct (B g f b a Ig If O' O) as (u & v & w & z & Fu & Fv & Fw & Gz & T).
  assert (Off : ndot n (vsub z p) <> 0).
  { intros Z. apply T. rewrite triple_det. pose proof (fd_plane _ _ _ _ D) as P. apply (plane_det n); [exact (fd_unit _ _ _ _ D)|exact (P u v Fu Fv)|exact (P u w Fu Fw)|].
    pose proof (P u p Fu (fd_first _ _ _ _ D)) as J. unfold ndot, vsub in *. lra. }
  pose proof (fd_K _ _ _ _ D) as K0.
  assert (Neg : 0 < sumR (map (fun q => - (sgn (fst f) * ndot n (vsub q p))) cell)).
  { apply sumR_pos; [intros q Iq; pose proof (fd_behind _ _ _ _ D p q (fd_first _ _ _ _ D) Iq); lra|]. exists z. split; [exact (Vx g z Ig Gz)|].
    pose proof (fd_behind _ _ _ _ D p z (fd_first _ _ _ _ D) (Vx g z Ig Gz)) as H. pose proof (Rmult_integral_contrapositive_currified _ _ (sgn_neq (fst f)) Off). lra. }
  assert (L : 0 < INR (length cell)) by (apply lt_0_INR; destruct cell; [congruence|cbn; lia]).
  pose proof (mean_ndot n cell bar p N M) as H. change (fun i => bar i - p i) with (vsub bar p) in H. rewrite H.
  assert (S1 : sumR (map (fun q => - (sgn (fst f) * ndot n (vsub q p))) cell) = - (sgn (fst f) * sumR (map (fun q => ndot n (fun i => q i - p i)) cell))).
  { rewrite <- sumR_scal. clear. induction cell as [|q l IH]; cbn [map sumR]; [ring|]. rewrite IH. unfold vsub. ring. }
  rewrite S1 in Neg. set (S0 := sumR (map (fun q => ndot n (fun i => q i - p i)) cell)) in *.
  exact (neg_quot _ _ _ _ K0 Neg L).
Qed.
(** a direction tangent to every face is zero *)
Lemma chain_const (w : pt) pts : (forall a b, In (a, b) (edges pts) -> ndot w (vsub b a) = 0) -> forall i, (i < length pts)%nat -> ndot w (vsub (nth i pts (fun _ => 0)) (nth 0 pts (fun _ => 0))) = 0.
Proof.
  intros H. induction i as [|i IH]; intros Hi; [unfold ndot, vsub; ring|]. specialize (IH ltac:(lia)).
  assert (E : In (nth i pts (fun _ => 0), nth (S i) pts (fun _ => 0)) (edges pts)).
  { rewrite <- edges_seq. apply in_map_iff. exists i. split; [|apply in_seq; split; [lia|]; cbn; apply Nat.lt_succ_l; exact Hi]. f_equal. unfold cyc. rewrite Nat.mod_small by (rewrite Nat.add_1_r; exact Hi). now rewrite Nat.add_1_r. }
  specialize (H _ _ E). unfold ndot, vsub in *. lra.
Qed.
Lemma tangent_zero cell fs v : strictly_convex cell fs -> (forall f, In f fs -> ndot (area_vector (snd f)) v = 0) -> forall i, (i < 3)%nat -> v i = 0.
Proof.
  intros SC T i Hi. pose proof SC as ((_ & _ & Cl) & Ne & _ & _ & B). destruct fs as [|f fs'] eqn:Efs; [congruence|]. rewrite <- Efs in *. assert (If : In f fs) by (rewrite Efs; now left). clear Efs fs'.
  assert (Tn : forall g n K, In g fs -> face_data cell g n K -> ndot n v = 0).
  { intros g n K Ig D. specialize (T g Ig). pose proof (fd_K _ _ _ _ D) as K0. unfold ndot in *. rewrite !(fd_area _ _ _ _ D) in T by lia.
    apply (Rmult_eq_reg_l K); [|lra]. rewrite Rmult_0_r, <- T. ring. }
  destruct (data_of cell fs f SC If) as (n & K & D). pose proof (Tn f n K If D) as Tf. pose proof (fd_unit _ _ _ _ D) as U. pose proof (fd_plane _ _ _ _ D) as P.
  (* every edge of f is parallel to v *)
  set (w := fun i : nat => match i with O => v 1%nat * n 2%nat - v 2%nat * n 1%nat | 1%nat => v 2%nat * n 0%nat - v 0%nat * n 2%nat | _ => v 0%nat * n 1%nat - v 1%nat * n 0%nat end).
  assert (Dw : forall u, det3 u v n = ndot w u) by (intros u; unfold det3, ndot, w; ring).
  assert (Par : forall a b, In (a, b) (edges (snd f)) -> ndot w (vsub b a) = 0).
  { intros a b E. destruct (edge_in _ _ _ E) as (Fa & Fb). destruct (face_kap_pos n _ a b (fd_convex _ _ _ _ D) (fd_proper _ _ _ _ D) E) as (c & Ic & Kc).
    destruct (neighbour fs f a b Cl B If E) as (g & Ig & Ga & Gb & X). destruct (data_of cell fs g SC Ig) as (n' & K' & D').
    destruct (edge_side n n' (snd f) (snd g) a b c U (fd_unit _ _ _ _ D') P (fd_plane _ _ _ _ D') Fa Fb Ga Gb Ic Kc X) as (Nz & Id).
    specialize (Id v Tf). rewrite (Tn g n' K' Ig D'), Rmult_0_r in Id. rewrite <- Dw. symmetry in Id. apply Rmult_integral in Id. destruct Id; [assumption|contradiction]. }
  pose proof (chain_const w (snd f) Par) as Ch.
  destruct (fd_convex _ _ _ _ D) as (L & _).
  assert (E0 : exists a b, In (a, b) (edges (snd f))).
  { destruct (edges (snd f)) as [|[a b] l] eqn:Ee; [|exists a, b; now left]. apply (f_equal (@length _)) in Ee. rewrite edges_length in Ee. cbn in Ee. rewrite Ee in L. lia. }
  destruct E0 as (a & b & E). destruct (edge_in _ _ _ E) as (Fa & Fb). destruct (face_kap_pos n _ a b (fd_convex _ _ _ _ D) (fd_proper _ _ _ _ D) E) as (c & Ic & Kc).
  assert (Wab : ndot w (vsub b a) = 0) by exact (Par a b E).
  assert (Wac : ndot w (vsub c a) = 0).
  { destruct (In_nth _ _ (fun _ => 0) Fa) as (ia & Ha & Ea). destruct (In_nth _ _ (fun _ => 0) Ic) as (ic & Hc & Ec).
    assert (Ca : ndot w (vsub a (nth 0 (snd f) (fun _ => 0))) = 0) by (rewrite <- Ea; exact (Ch ia Ha)). assert (Cc : ndot w (vsub c (nth 0 (snd f) (fun _ => 0))) = 0) by (rewrite <- Ec; exact (Ch ic Hc)). clear Ea Ec. unfold ndot, vsub in *. lra. }
  pose proof (cramer n (vsub b a) (vsub c a) v i Hi U (P a b Fa Fb) (P a c Fa Ic) Tf) as Cr. rewrite <- kap_det in Cr.
  assert (Z1 : det3 v (vsub c a) n = 0) by (transitivity (- det3 (vsub c a) v n); [unfold det3; ring|rewrite Dw, Wac; ring]).
  rewrite Z1, Dw, Wab in Cr. apply (Rmult_eq_reg_l (kap n a b c)); [|lra]. rewrite Cr. ring.
Qed.

(** ** the tetrahedra fill the cell *)
Lemma argmax {A} (h : A -> R) l : l <> [] -> exists f, In f l /\ forall g, In g l -> h g <= h f.
Proof.
  induction l as [|a l IH]; [congruence|]. intros _. destruct l as [|b l].
  - exists a. split; [now left|]. intros g [<-|[]]. lra.
  - destruct IH as (f & If & H); [discriminate|]. destruct (Rle_lt_dec (h a) (h f)) as [C|C].
    + exists f. split; [now right|]. intros g [<-|Ig]; [exact C|now apply H].
    + exists a. split; [now left|]. intros g [<-|Ig]; [lra|]. specialize (H g Ig). lra.
Qed.
Lemma all_zero {A} (h : A -> R) l : (forall x, In x l -> h x <= 0) -> sumR (map h l) = 0 -> forall x, In x l -> h x = 0.
Proof.
  induction l as [|a l IH]; [intros _ _ x []|]. cbn [map sumR]. intros H S0 x Ix.
  assert (Ha : h a <= 0) by (apply H; now left). assert (Hl : sumR (map h l) <= 0) by (apply sum_nonpos; intros; apply H; now right).
  destruct Ix as [<-|Ix]; [lra|]. apply IH; [intros; apply H; now right|lra|exact Ix].
Qed.
Lemma forall2_in {A B} (P : A -> B -> Prop) l m x : Forall2 P l m -> In x l -> exists y, In y m /\ P x y.
Proof. intros F. induction F as [|a b l m Pab F IH]; [intros []|]. intros [<-|I]; [exists b; split; [now left|exact Pab]|]. destruct (IH I) as (y & Iy & Py). exists y. split; [now right|exact Py]. Qed.
Lemma forall2_in_r {A B} (P : A -> B -> Prop) l m y : Forall2 P l m -> In y m -> exists x, In x l /\ P x y.
Proof. intros F. induction F as [|a b l m Pab F IH]; [intros []|]. intros [<-|I]; [exists a; split; [now left|exact Pab]|]. destruct (IH I) as (x & Ix & Px). exists x. split; [now right|exact Px]. Qed.
Lemma closed_dir fs v : closed_surface fs -> sumR (map (fun f : oface => sgn (fst f) * ndot (area_vector (snd f)) v) fs) = 0.
Proof.
  intros C. transitivity (v 0%nat / 2 * sumR (map (fun f : oface => sgn (fst f) * poly_area2 1 2 (snd f)) fs) +
    v 1%nat / 2 * sumR (map (fun f : oface => sgn (fst f) * poly_area2 2 0 (snd f)) fs) + v 2%nat / 2 * sumR (map (fun f : oface => sgn (fst f) * poly_area2 0 1 (snd f)) fs)).
  - clear C. induction fs as [|f fs IH]; cbn [map sumR]; [ring|]. rewrite IH. unfold ndot, area_vector. field.
  - rewrite !(closed_area _ _ _ C). ring.
Qed.
Definition ray (b x : pt) (t : R) : pt := fun i => b i + t * (x i - b i).
Lemma gap_ray f b x t : gap f (ray b x t) = gap f b + t * (gap f x - gap f b).
Proof. unfold gap, ndot, vsub, ray. ring. Qed.
Lemma scaled_tetra b a1 a2 a3 y x m : 0 <= m <= 1 -> in_triangle3 a1 a2 a3 y -> (forall i, (i < 3)%nat -> x i = b i + m * (y i - b i)) -> in_tetra b a1 a2 a3 x.
Proof.
  intros Hm (l1 & l2 & l3 & P1 & P2 & P3 & S1 & E) X. exists (1 - m), (m * l1), (m * l2), (m * l3).
  split; [lra|]. split; [apply Rmult_le_pos; lra|]. split; [apply Rmult_le_pos; lra|]. split; [apply Rmult_le_pos; lra|].
  split; [replace (1 - m + m * l1 + m * l2 + m * l3) with (1 - m + m * (l1 + l2 + l3)) by ring; rewrite S1; ring|].
  intros i Hi. rewrite (X i Hi), (E i Hi). ring.
Qed.
Lemma cell_fill cell fs x bar ls : strictly_convex cell fs -> barycenter cell = Ok bar -> Forall2 cuts (map snd fs) ls ->
  (forall f, In f fs -> gap f x <= 0) -> exists a b c, In (a, b, c) (concat ls) /\ in_tetra bar a b c x.
Proof.
  intros SC E F X. pose proof SC as ((N & _ & Cl) & Ne & Vx & _ & B).
  assert (Bg : forall f, In f fs -> gap f bar < 0) by (intros f If; exact (bar_inside cell fs bar f SC E If)).
  assert (Sp : forall f, In f fs -> exists l, cuts (snd f) l /\ In l ls).
  { intros f If. destruct (forall2_in _ _ _ (snd f) F (in_map snd _ _ If)) as (l & Il & El). now exists l. }
  set (h := fun f => (gap f x - gap f bar) / (- gap f bar)).
  assert (hle : forall f, In f fs -> gap f x - gap f bar = h f * - gap f bar) by (intros f If; unfold h; field; specialize (Bg f If); lra).
  destruct (argmax h fs Ne) as (f & If & Max). destruct (data_of cell fs f SC If) as (n & K & D). destruct (Sp f If) as (l & El & Il).
  destruct (Rle_lt_dec (h f) 0) as [Neg|Pos].
  - (* x is bar *)
    assert (Z : forall g, In g fs -> sgn (fst g) * ndot (area_vector (snd g)) (vsub x bar) = 0).
    { apply all_zero; [|apply closed_dir; exact Cl]. intros g Ig. specialize (Max g Ig). specialize (hle g Ig). specialize (Bg g Ig).
      assert (Q : sgn (fst g) * ndot (area_vector (snd g)) (vsub x bar) = gap g x - gap g bar) by (unfold gap, ndot, vsub; ring). rewrite Q, hle. nra. }
    assert (V : forall i, (i < 3)%nat -> vsub x bar i = 0).
    { apply (tangent_zero cell fs _ SC). intros g Ig. specialize (Z g Ig). apply Rmult_integral in Z. destruct Z as [Z|Z]; [exfalso; exact (sgn_neq _ Z)|exact Z]. }
    destruct (face_fill n (snd f) l (nth 0 (snd f) (fun _ => 0)) (fd_convex _ _ _ _ D) (fd_proper _ _ _ _ D) (fd_plane _ _ _ _ D) El) as (a & b & c & It & _).
    { intros p Ip. exact (fd_plane _ _ _ _ D p _ Ip (fd_first _ _ _ _ D)). }
    { intros a b Eab. exact (face_kap n _ a b _ (fd_convex _ _ _ _ D) Eab (fd_first _ _ _ _ D)). }
    exists a, b, c. split; [apply in_concat; now exists l|]. exists 1, 0, 0, 0. repeat split; try lra. intros i Hi. specialize (V i Hi). unfold vsub in V. lra.
  - set (t := / h f). assert (Ht : 0 < t) by (apply Rinv_0_lt_compat; exact Pos). assert (H1 : h f * t = 1) by (apply Rinv_r; lra).
    assert (Hh1 : h f <= 1) by (pose proof (hle f If); pose proof (Bg f If); pose proof (X f If); nra).
    set (y := ray bar x t).
    assert (Gy : forall g, In g fs -> gap g y <= 0).
    { intros g Ig. unfold y. rewrite gap_ray, (hle g Ig). specialize (Bg g Ig). specialize (Max g Ig).
      replace (gap g bar + t * (h g * - gap g bar)) with (- gap g bar * (h g * t - 1)) by ring.
      assert (h g * t <= 1) by (rewrite <- H1; apply Rmult_le_compat_r; lra). nra. }
    assert (Gf : gap f y = 0).
    { unfold y. rewrite gap_ray, (hle f If). replace (gap f bar + t * (h f * - gap f bar)) with (- gap f bar * (h f * t - 1)) by ring. rewrite H1. ring. }
    assert (Yp : forall p, In p (snd f) -> ndot n (vsub y p) = 0).
    { intros p Ip. rewrite (gap_n cell f n K y p D Ip) in Gf. pose proof (fd_K _ _ _ _ D) as K0. apply Rmult_integral in Gf. destruct Gf as [G|G]; [lra|].
      apply Rmult_integral in G. destruct G as [G|G]; [exfalso; exact (sgn_neq _ G)|exact G]. }
    destruct (face_fill n (snd f) l y (fd_convex _ _ _ _ D) (fd_proper _ _ _ _ D) (fd_plane _ _ _ _ D) El Yp) as (a & b & c & It & In3).
    { intros a b Eab. destruct (edge_in _ _ _ Eab) as (Fa & Fb). destruct (face_kap_pos n _ a b (fd_convex _ _ _ _ D) (fd_proper _ _ _ _ D) Eab) as (c & Ic & Kc).
      destruct (neighbour fs f a b Cl B If Eab) as (g & Ig & Ga & Gb & Q). destruct (data_of cell fs g SC Ig) as (n' & K' & D').
      destruct (edge_side n n' (snd f) (snd g) a b c (fd_unit _ _ _ _ D) (fd_unit _ _ _ _ D') (fd_plane _ _ _ _ D) (fd_plane _ _ _ _ D') Fa Fb Ga Gb Ic Kc Q) as (Nz & Id).
      specialize (Id (vsub y a) (Yp a Fa)). rewrite <- kap_det in Id.
      pose proof (Gy g Ig) as Y1. rewrite (gap_n cell g n' K' y a D' Ga) in Y1. pose proof (fd_K _ _ _ _ D') as K0'.
      pose proof (fd_behind _ _ _ _ D' a c Ga (Vx f c If Ic)) as C1.
      assert (Y2 : sgn (fst g) * ndot n' (vsub y a) <= 0) by nra.
      assert (C2 : sgn (fst g) * ndot n' (vsub c a) < 0) by (pose proof (Rmult_integral_contrapositive_currified _ _ (sgn_neq (fst g)) Nz); lra).
      assert (Id2 : kap n a b c * (sgn (fst g) * ndot n' (vsub y a)) = kap n a b y * (sgn (fst g) * ndot n' (vsub c a))).
      { transitivity (sgn (fst g) * (kap n a b c * ndot n' (vsub y a))); [ring|]. rewrite Id. ring. }
      set (Y := sgn (fst g) * ndot n' (vsub y a)) in *. set (C := sgn (fst g) * ndot n' (vsub c a)) in *. nra. }
    exists a, b, c. split; [apply in_concat; now exists l|]. apply (scaled_tetra bar a b c y x (h f)); [lra|exact In3|].
    intros i Hi. unfold y, ray. transitivity (bar i + (h f * t) * (x i - bar i)); [rewrite H1; ring|ring].
Qed.
(** and nothing else *)
Lemma nonpos_quot s k : s <= 0 -> 0 < k -> s / k <= 0.
Proof. intros Hs Hk. pose proof (Rinv_0_lt_compat _ Hk). unfold Rdiv. nra. Qed.
Lemma tri_vertex n p pts l a b c z : (3 <= length pts)%nat -> cuts pts l -> In (a, b, c) l -> z = a \/ z = b \/ z = c ->
  (forall q, In q pts -> ndot n (vsub q p) <= 0) -> ndot n (vsub z p) <= 0.
Proof.
  intros L Sl It Hz H. destruct Sl as [(u & v & w & -> & ->)|[(u & v & w & d & -> & ->)|(m & M & ->)]].
  - destruct It as [[= <- <- <-]|[]]. apply H. cbn. intuition congruence.
  - destruct It as [[= <- <- <-]|[[= <- <- <-]|[]]]; apply H; cbn; intuition congruence.
  - apply in_map_iff in It as ([q r] & [= <- <- <-] & E). cbn [fst snd] in *. destruct (edge_in _ _ _ E) as (Iq & Ir).
    destruct Hz as [->|[->| ->]]; [|now apply H|now apply H]. assert (N : pts <> []) by (intros ->; cbn in L; lia).
    unfold vsub. rewrite (mean_ndot n pts m p N M). apply nonpos_quot; [apply sum_nonpos; exact H|apply lt_0_INR, (Nat.lt_le_trans _ 3); [lia|exact L]].
Qed.
Definition sn (s : bool) (n : pt) : pt := fun i => sgn s * n i.
Lemma sn_dot s n u : ndot (sn s n) u = sgn s * ndot n u.
Proof. unfold ndot, sn. ring. Qed.
Lemma cell_only cell fs x bar ls a b c : strictly_convex cell fs -> barycenter cell = Ok bar -> Forall2 cuts (map snd fs) ls ->
  In (a, b, c) (concat ls) -> in_tetra bar a b c x -> forall f, In f fs -> gap f x <= 0.
Proof.
  intros SC E F I (la & lb & lc & ld & Pa & Pb & Pc & Pd & S1 & X) f If. pose proof SC as (_ & _ & Vx & _ & _).
  destruct (data_of cell fs f SC If) as (n & K & D). set (p := nth 0 (snd f) (fun _ => 0)). rewrite (gap_n cell f n K x p D (fd_first _ _ _ _ D)).
  apply in_concat in I as (l & Il & It). destruct (forall2_in_r _ _ _ l F Il) as (pts & Ip & Sl). apply in_map_iff in Ip as (g & <- & Ig).
  destruct (data_of cell fs g SC Ig) as (n' & K' & D'). destruct (fd_convex _ _ _ _ D') as (L & _).
  assert (Bh : forall q, In q (snd g) -> ndot (sn (fst f) n) (vsub q p) <= 0) by (intros q Iq; rewrite sn_dot; exact (fd_behind _ _ _ _ D p q (fd_first _ _ _ _ D) (Vx g q Ig Iq))).
  pose proof (tri_vertex (sn (fst f) n) p (snd g) l a b c a L Sl It (or_introl eq_refl) Bh) as Ha.
  pose proof (tri_vertex (sn (fst f) n) p (snd g) l a b c b L Sl It (or_intror (or_introl eq_refl)) Bh) as Hb.
  pose proof (tri_vertex (sn (fst f) n) p (snd g) l a b c c L Sl It (or_intror (or_intror eq_refl)) Bh) as Hc.
  pose proof (bar_inside cell fs bar f SC E If) as Hbar. rewrite (gap_n cell f n K bar p D (fd_first _ _ _ _ D)) in Hbar. pose proof (fd_K _ _ _ _ D) as K0.
  assert (Hb' : ndot (sn (fst f) n) (vsub bar p) <= 0) by (rewrite sn_dot; nra).
  rewrite <- sn_dot.
  assert (Q : ndot (sn (fst f) n) (vsub x p) = la * ndot (sn (fst f) n) (vsub bar p) + lb * ndot (sn (fst f) n) (vsub a p) + lc * ndot (sn (fst f) n) (vsub b p) + ld * ndot (sn (fst f) n) (vsub c p)).
  { unfold ndot, vsub. rewrite !X by lia. replace la with (1 - lb - lc - ld) by lra. ring. }
  set (A := ndot (sn (fst f) n) (vsub a p)) in *. set (B := ndot (sn (fst f) n) (vsub b p)) in *. set (C := ndot (sn (fst f) n) (vsub c p)) in *. set (Z := ndot (sn (fst f) n) (vsub bar p)) in *.
  rewrite Q. assert (0 <= la * - Z) by (apply Rmult_le_pos; lra). assert (0 <= lb * - A) by (apply Rmult_le_pos; lra). assert (0 <= lc * - B) by (apply Rmult_le_pos; lra). assert (0 <= ld * - C) by (apply Rmult_le_pos; lra).
  assert (la * Z + lb * A + lc * B + ld * C <= 0) by lra. nra.
Qed.

(** ** a face as a set of points *)
Lemma tri_linear n a b c y u v : (exists la lb lc, la + lb + lc = 1 /\ 0 <= la /\ 0 <= lb /\ 0 <= lc /\ forall i, (i < 3)%nat -> y i = la * a i + lb * b i + lc * c i) ->
  0 <= kap n u v a -> 0 <= kap n u v b -> 0 <= kap n u v c -> 0 <= kap n u v y.
Proof.
  intros (la & lb & lc & S1 & Pa & Pb & Pc & E) A B C.
  assert (Q : kap n u v y = la * kap n u v a + lb * kap n u v b + lc * kap n u v c).
  { unfold kap, tri_area2, wedge. rewrite !E by lia. replace la with (1 - lb - lc) by lra. ring. }
  rewrite Q. pose proof (Rmult_le_pos _ _ Pa A). pose proof (Rmult_le_pos _ _ Pb B). pose proof (Rmult_le_pos _ _ Pc C). lra.
Qed.
Lemma face_only n pts l y a b c : convex_face n pts -> plane_of n pts -> cuts pts l -> In (a, b, c) l -> in_triangle3 a b c y ->
  (forall p, In p pts -> ndot n (vsub y p) = 0) /\ forall u v, In (u, v) (edges pts) -> 0 <= kap n u v y.
Proof.
  intros C Pl Sl It (la & lb & lc & Pa & Pb & Pc & S1 & E). pose proof C as (L & U & _).
  assert (Vz : forall z, z = a \/ z = b \/ z = c -> (forall p, In p pts -> ndot n (vsub z p) = 0) /\ forall u v, In (u, v) (edges pts) -> 0 <= kap n u v z).
  { intros z Hz.
    assert (In z pts \/ forall k, z k = sumR (map (fun q => q k) pts) / INR (length pts)) as [Iz|M].
    { destruct Sl as [(u & v & w & -> & ->)|[(u & v & w & d & -> & ->)|(m & M & ->)]].
      - left. destruct It as [[= <- <- <-]|[]]. cbn. intuition congruence.
      - left. destruct It as [[= <- <- <-]|[[= <- <- <-]|[]]]; cbn; intuition congruence.
      - apply in_map_iff in It as ([q r] & [= <- <- <-] & Eq). cbn [fst snd] in *. destruct (edge_in _ _ _ Eq) as (Iq & Ir). destruct Hz as [->|[->| ->]]; [right; exact M|now left|now left]. }
    - split; [intros p Ip; exact (Pl p z Ip Iz)|]. intros u v Euv. exact (face_kap n pts u v z C Euv Iz).
    - assert (N : pts <> []) by (intros ->; cbn in L; lia). split; [exact (mean_plane n pts z N M Pl)|]. intros u v Euv.
      rewrite (kap_rot n u v z), (kap_rot n v z u). rewrite (bary_kap n pts z u v N M). apply Rmult_le_pos; [apply sumR_nonneg; intros q Iq; exact (face_kap n pts u v q C Euv Iq)|].
      left. apply Rinv_0_lt_compat, lt_0_INR, (Nat.lt_le_trans _ 3); [lia|exact L]. }
  destruct (Vz a (or_introl eq_refl)) as (Pa1 & Ka). destruct (Vz b (or_intror (or_introl eq_refl))) as (Pb1 & Kb). destruct (Vz c (or_intror (or_intror eq_refl))) as (Pc1 & Kc).
  split.
  - intros p Ip. specialize (Pa1 p Ip). specialize (Pb1 p Ip). specialize (Pc1 p Ip).
    assert (Q : ndot n (vsub y p) = la * ndot n (vsub a p) + lb * ndot n (vsub b p) + lc * ndot n (vsub c p)).
    { unfold ndot, vsub. rewrite !E by lia. replace la with (1 - lb - lc) by lra. ring. }
    rewrite Q, Pa1, Pb1, Pc1. ring.
  - intros u v Euv. apply (tri_linear n a b c y u v); [exists la, lb, lc; repeat split; assumption|now apply Ka|now apply Kb|now apply Kc].
Qed.
(** the vertices of a proper plane convex polygon are in its plane *)
Lemma plane_from n pts : convex_face n pts -> proper_polygon pts -> plane_of n pts.
Proof.
  intros C Pr. assert (Ed : forall a b, In (a, b) (edges pts) -> ndot n (vsub b a) = 0).
  { intros a b E. destruct (Pr a b E) as (c & Ic & X). destruct C as (_ & _ & H). destruct (H a b c E Ic) as (k & K & K1 & K2 & K3).
    assert (Z : cross3_sq a b c = tri_area2 1 2 (a, b, c) ^ 2 + tri_area2 2 0 (a, b, c) ^ 2 + tri_area2 0 1 (a, b, c) ^ 2) by (unfold cross3_sq, tri_area2, wedge; ring).
    assert (Nk : k <> 0) by (intros ->; rewrite Z, K1, K2, K3 in X; lra).
    apply (Rmult_eq_reg_l k); [|exact Nk]. transitivity ((k * n 0%nat) * vsub b a 0%nat + (k * n 1%nat) * vsub b a 1%nat + (k * n 2%nat) * vsub b a 2%nat); [unfold ndot; ring|].
    rewrite <- K1, <- K2, <- K3. unfold tri_area2, wedge, vsub. ring. }
  pose proof (chain_const n pts Ed) as Ch.
  assert (Z : forall p, In p pts -> ndot n (vsub p (nth 0 pts (fun _ => 0))) = 0).
  { intros p Ip. destruct (In_nth pts p (fun _ => 0) Ip) as (i & Hi & <-). now apply Ch. }
  intros p q Ip Iq. pose proof (Z p Ip) as Zp. pose proof (Z q Iq) as Zq. unfold ndot, vsub in *. lra.
Qed.
Lemma polygon_kap n pts y : convex_face n pts -> proper_polygon pts ->
  (in_polygon pts y <-> (forall p, In p pts -> ndot n (vsub y p) = 0) /\ forall u v, In (u, v) (edges pts) -> 0 <= kap n u v y).
Proof.
  intros C Pr. destruct (area_vec n pts C Pr (plane_from n pts C Pr)) as (K & K0 & A). unfold in_polygon.
  assert (E1 : forall p, sprod 3 (fun i => y i - p i) (area_vector pts) = K * ndot n (vsub y p)) by (intros p; rewrite sprod3; unfold ndot; rewrite !A by lia; unfold vsub; ring).
  assert (E2 : forall a b, area_vector pts 0%nat * tri_area2 1 2 (a, b, y) + area_vector pts 1%nat * tri_area2 2 0 (a, b, y) + area_vector pts 2%nat * tri_area2 0 1 (a, b, y) = K * kap n a b y) by (intros a b; rewrite !A by lia; unfold kap; ring).
  split; intros (H1 & H2); split.
  - intros p Ip. specialize (H1 p Ip). rewrite E1 in H1. apply Rmult_integral in H1. destruct H1; lra.
  - intros a b E. specialize (H2 a b E). rewrite E2 in H2. set (z := kap n a b y) in *. nra.
  - intros p Ip. rewrite E1, (H1 p Ip). ring.
  - intros a b E. rewrite E2. apply Rmult_le_pos; [lra|now apply H2].
Qed.

(** ** quadrature points *)
Lemma gm_points_inside degree a b c d r x w : grundmann_moeller_3 degree a b c d = Ok r -> In (x, w) r -> in_tetra a b c d x.
Proof.
  unfold grundmann_moeller_3. destruct (C27_size 3 (gm_rule_of degree) ltac:(lia)) as (_ & l & El & Ll). unfold gm_filled. rewrite El. cbn [bind]. rewrite Ll, Nat.sub_diag. cbn [repeat]. rewrite app_nil_r.
  intros [= <-] I. apply in_map_iff in I as ([q wq] & [= <- <-] & Iq). cbn [fst].
  destruct (C27_inside 3 (gm_rule_of degree) l ltac:(lia) El) as (H & _). destruct (H q wq Iq) as (Lq & Pq & Sq).
  destruct q as [|q0 [|q1 [|q2 [|]]]]; try discriminate. cbn [nth fold_right] in *.
  assert (0 < q0) by (apply Pq; cbn; tauto). assert (0 < q1) by (apply Pq; cbn; tauto). assert (0 < q2) by (apply Pq; cbn; tauto).
  exists (1 - q0 - q1 - q2), q0, q1, q2. repeat split; try lra. intros i _. unfold comb, padd, pscale, psubt. ring.
Qed.
Lemma fold_gm_in degree : forall rss acc r x w, fold_left (fun acc (rs : tetra) => do ret <- acc; let '(a, b, c, d) := rs in do quad_tet <- grundmann_moeller_3 degree a b c d; Ok (ret ++ quad_tet)) rss acc = Ok r ->
  In (x, w) r -> (exists L, acc = Ok L /\ In (x, w) L) \/ exists a b c d, In (a, b, c, d) rss /\ in_tetra a b c d x.
Proof.
  induction rss as [|[[[a b] c] d] rss IH]; intros acc r x w E I.
  - cbn in E. left. exists r. split; assumption.
  - cbn [fold_left] in E. destruct (IH _ r x w E I) as [(L & EL & IL)|(a' & b' & c' & d' & I' & T)].
    + destruct acc as [L0|e|]; cbn [bind] in EL; [|discriminate|discriminate]. destruct (grundmann_moeller_3 degree a b c d) as [q|e|] eqn:Eq; cbn [bind] in EL; [|discriminate|discriminate].
      injection EL as <-. apply in_app_or in IL as [IL|IL]; [left; exists L0; split; [reflexivity|exact IL]|]. right. exists a, b, c, d. split; [now left|]. exact (gm_points_inside degree a b c d q x w Eq IL).
    + right. exists a', b', c', d'. split; [now right|exact T].
Qed.
