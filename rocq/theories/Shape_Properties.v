(** The vertices of the single polygon (C101), the triangles of a polygonal face (C102), the axes of a face (C103). *)
From Coq Require Import List Arith Reals Lra Lia Bool.
From Verif Require Import Common Poly_Spec Poly_Proofs Geo_Spec Geo_Model Geo_Proofs Geo2_Proofs Geo3_Proofs Quad_Spec Shape_Spec Shape_Proofs.
From Verif Require Mesher_Model Single_Model Bases_Model Quad_Model.
Notation pt3 := Quad_Model.pt3.
Import ListNotations.
Local Open Scope R_scope.

(** ** C101: the regular polygon *)
Definition vertex (radius : R) (n k : nat) : pt := nth k (Single_Model.g_points (Single_Model.single_polygon radius n)) (fun _ => 0).
Lemma vertex_eq radius n k : (3 <= n)%nat -> (k < n)%nat ->
  vertex radius n k = Mesher_Model.pt2 (radius * cos (2 * INR k * PI / INR n)) (radius * sin (2 * INR k * PI / INR n)).
Proof.
  intros Hn Hk. unfold vertex, Single_Model.single_polygon. destruct (Nat.ltb_spec n 3) as [|_]; [lia|]. cbn [Single_Model.g_points].
  set (f := fun k => Mesher_Model.pt2 (radius * cos (2 * INR k * PI / INR n)) (radius * sin (2 * INR k * PI / INR n))).
  transitivity (nth k (map f (seq 0 n)) (f O)); [apply nth_indep; rewrite map_length, seq_length; exact Hk|].
  rewrite (map_nth f), seq_nth by exact Hk. reflexivity.
Qed.
(** n vertices on the circle, the first on the x axis; consecutive ones, the last and the first included, at the
    same distance; listed counterclockwise: three vertices in order always turn left *)
Theorem C101_regular : forall radius n, 0 < radius -> (3 <= n)%nat ->
  length (Single_Model.g_points (Single_Model.single_polygon radius n)) = n /\
  vertex radius n 0 0%nat = radius /\ vertex radius n 0 1%nat = 0 /\
  (forall k, (k < n)%nat -> edist 2 (vertex radius n k) (fun _ => 0) = radius) /\
  (forall k, (k < n)%nat -> edist 2 (vertex radius n k) (vertex radius n ((k + 1) mod n)) = 2 * radius * sin (PI / INR n)) /\
  (forall i j k, (i < j)%nat -> (j < k)%nat -> (k < n)%nat -> 0 < cross2 (vertex radius n i) (vertex radius n j) (vertex radius n k)).
Proof.
  intros radius n Hr Hn.
  assert (Pn : 3 <= INR n) by (apply (le_INR 3) in Hn; cbn in Hn; lra).
  assert (E2 : forall p q, edist 2 p q = sqrt ((p 0%nat - q 0%nat) ^ 2 + (p 1%nat - q 1%nat) ^ 2)) by (intros; unfold edist; cbn; f_equal; ring).
  assert (Pp := PI_RGT_0).
  assert (SP : 0 < sin (PI / INR n)).
  { apply sin_gt_0; [apply Rdiv_lt_0_compat; lra|]. apply (Rmult_lt_reg_r (INR n)); [lra|]. unfold Rdiv. rewrite Rmult_assoc, Rinv_l by lra. nra. }
  assert (Half : forall a b, (radius * cos a - radius * cos b) ^ 2 + (radius * sin a - radius * sin b) ^ 2 = (2 * radius * sin ((a - b) / 2)) ^ 2).
  { intros a b. pose proof (cos_minus a b) as C. pose proof (cos_2a_sin ((a - b) / 2)) as D. replace (2 * ((a - b) / 2)) with (a - b) in D by field.
    pose proof (sin2_cos2 a) as A. pose proof (sin2_cos2 b) as B. unfold Rsqr in A, B.
    replace ((radius * cos a - radius * cos b) ^ 2 + (radius * sin a - radius * sin b) ^ 2) with
      (radius ^ 2 * ((sin a * sin a + cos a * cos a) + (sin b * sin b + cos b * cos b) - 2 * (cos a * cos b + sin a * sin b))) by ring.
    rewrite A, B, <- C, D. ring. }
  repeat split.
  - unfold Single_Model.single_polygon. destruct (Nat.ltb_spec n 3) as [|_]; [lia|]. cbn [Single_Model.g_points]. rewrite map_length, seq_length. reflexivity.
  - rewrite vertex_eq by lia. cbn. replace (2 * 0 * PI / INR n) with 0 by (field; lra). rewrite cos_0. ring.
  - rewrite vertex_eq by lia. cbn. replace (2 * 0 * PI / INR n) with 0 by (field; lra). rewrite sin_0. ring.
  - intros k Hk. rewrite vertex_eq, E2 by lia. cbn [Mesher_Model.pt2]. set (t := 2 * INR k * PI / INR n). pose proof (sin2_cos2 t) as A. unfold Rsqr in A.
    replace ((radius * cos t - 0) ^ 2 + (radius * sin t - 0) ^ 2) with (radius ^ 2 * (sin t * sin t + cos t * cos t)) by ring. rewrite A, Rmult_1_r.
    apply sqrt_pow2. lra.
  - intros k Hk. pose proof (Nat.mod_upper_bound (k + 1) n ltac:(lia)) as Hm. rewrite !vertex_eq, E2 by lia. cbn [Mesher_Model.pt2]. rewrite Half.
    assert (S : (2 * radius * sin ((2 * INR k * PI / INR n - 2 * INR ((k + 1) mod n) * PI / INR n) / 2)) ^ 2 = (2 * radius * sin (PI / INR n)) ^ 2).
    { destruct (Nat.eq_dec (k + 1) n) as [E|E].
      - rewrite E, Nat.mod_same by lia. cbn [INR]. replace (INR k) with (INR n - 1) by (rewrite <- E, plus_INR; cbn; ring).
        replace ((2 * (INR n - 1) * PI / INR n - 2 * 0 * PI / INR n) / 2) with (PI - PI / INR n) by (field; lra). rewrite sin_PI_x. reflexivity.
      - rewrite Nat.mod_small by lia. rewrite plus_INR. cbn [INR].
        replace ((2 * INR k * PI / INR n - 2 * (INR k + 1) * PI / INR n) / 2) with (- (PI / INR n)) by (field; lra). rewrite sin_neg. ring. }
    rewrite S. apply sqrt_pow2. apply Rmult_le_pos; lra.
  - intros i j k Hij Hjk Hk. rewrite !vertex_eq by lia. unfold cross2. cbn [Mesher_Model.pt2].
    set (w := PI / INR n) in *. assert (W : forall m, 2 * INR m * PI / INR n = 2 * (INR m * w)) by (intros; unfold w; field; lra). rewrite !W.
    set (a := INR i * w). set (u := INR (j - i) * w). set (v := INR (k - j) * w).
    replace (INR j * w) with (a + u) by (unfold a, u; rewrite minus_INR by lia; ring). replace (INR k * w) with (a + u + v) by (unfold a, u, v; rewrite !minus_INR by lia; ring).
    assert (Wp : 0 < w) by (unfold w; apply Rdiv_lt_0_compat; lra).
    assert (Sn : forall m, (0 < m)%nat -> (m < n)%nat -> 0 < sin (INR m * w)).
    { intros m H0 H1. apply lt_INR in H0. apply lt_INR in H1. cbn [INR] in H0. apply sin_gt_0; [apply Rmult_lt_0_compat; lra|].
      replace PI with (INR n * w) by (unfold w; field; lra). apply Rmult_lt_compat_r; lra. }
    assert (Su : 0 < sin u) by (apply Sn; lia). assert (Sv : 0 < sin v) by (apply Sn; lia).
    assert (Suv : 0 < sin (u + v)). { replace (u + v) with (INR (k - i) * w) by (unfold u, v; rewrite !minus_INR by lia; ring). apply Sn; lia. }
    assert (K : (radius * cos (2 * (a + u)) - radius * cos (2 * a)) * (radius * sin (2 * (a + u + v)) - radius * sin (2 * a)) -
                (radius * sin (2 * (a + u)) - radius * sin (2 * a)) * (radius * cos (2 * (a + u + v)) - radius * cos (2 * a)) =
                radius ^ 2 * (4 * (sin u * sin v * sin (u + v)))) by apply turn.
    unfold cross2 in *. replace (radius * cos (2 * (a + u)) - radius * cos (2 * a)) with (radius * cos (2 * (a + u)) - radius * cos (2 * a)) by ring.
    match goal with |- 0 < ?x => replace x with (radius ^ 2 * (4 * (sin u * sin v * sin (u + v)))) by (rewrite <- K; ring) end.
    apply Rmult_lt_0_compat; [apply pow_lt, Hr|]. pose proof (Rmult_lt_0_compat _ _ Su Sv). pose proof (Rmult_lt_0_compat _ _ H Suv). lra.
Qed.

(** ** C102: the triangles of a polygonal face *)
Lemma bary_left i j pts b p q : pts <> [] -> (forall k, b k = sumR (map (fun q => q k) pts) / INR (length pts)) ->
  tri_area2 i j (b, p, q) = sumR (map (fun c => tri_area2 i j (p, q, c)) pts) / INR (length pts).
Proof.
  intros N E. assert (L : INR (length pts) <> 0) by (apply not_0_INR; destruct pts; [congruence|discriminate]).
  apply (Rmult_eq_reg_r (INR (length pts))); [|exact L]. unfold Rdiv at 1. rewrite Rmult_assoc, Rinv_l, Rmult_1_r by exact L.
  unfold tri_area2, wedge. rewrite !E.
  assert (K : sumR (map (fun c : pt => p i * q j - q i * p j + (q i * c j - c i * q j) + (c i * p j - p i * c j)) pts) =
    INR (length pts) * (p i * q j - q i * p j) + (q i - p i) * sumR (map (fun q => q j) pts) + (p j - q j) * sumR (map (fun q => q i) pts)).
  { clear. induction pts as [|c pts IH]; [cbn; ring|]. cbn [map sumR length]. rewrite IH, S_INR. ring. }
  rewrite K. field. exact L.
Qed.
Lemma fan_area i j b : forall l p, sumR (map (fun e => tri_area2 i j (b, fst e, snd e)) (combine (p :: l) l)) =
  sumR (map (fun e => wedge i j (fst e) (snd e)) (combine (p :: l) l)) + wedge i j b p + wedge i j (last l p) b.
Proof.
  induction l as [|r l IH]; intros p.
  - cbn. unfold wedge. ring.
  - change (combine (p :: r :: l) (r :: l)) with ((p, r) :: combine (r :: l) l). rewrite !(map_cons _ (p, r)). cbn [sumR fst snd]. rewrite IH.
    assert (E : last (r :: l) p = last l r) by (clear; revert r; induction l as [|s l IH]; intros r; [reflexivity|]; change (last (s :: l) p = last (s :: l) r); rewrite IH; destruct l as [|t l]; [reflexivity|]; change (last (t :: l) s = last (t :: l) r); clear; revert t; induction l as [|u l IH]; intros t; [reflexivity|apply IH]).
    rewrite E. unfold tri_area2, wedge. ring.
Qed.
Lemma last_app_one {A} (l : list A) x d : last (l ++ [x]) d = x.
Proof. apply last_last. Qed.
(** the triangles from a point to the edges *)
Lemma star_area i j b pts : pts <> [] -> sumR (map (fun e => tri_area2 i j (b, fst e, snd e)) (edges pts)) = poly_area2 i j pts.
Proof.
  intros N. unfold poly_area2. destruct pts as [|p t]; [congruence|]. cbn [edges].
  assert (E : combine (p :: t) (t ++ [p]) = combine (p :: (t ++ [p])) (t ++ [p])).
  { clear. generalize p at 1 3. revert p. induction t as [|r t IH]; intros p q; [reflexivity|]. cbn [app combine]. f_equal. apply (IH p r). }
  rewrite E, (fan_area i j b (t ++ [p]) p), last_last. unfold wedge. ring.
Qed.
Lemma split_cases pts l : (3 <= length pts)%nat -> split_in_raw_triangles pts = Ok l ->
  (exists a b c, pts = [a; b; c] /\ l = [(a, b, c)]) \/ (exists a b c d, pts = [a; b; c; d] /\ l = [(a, b, c); (c, d, a)]) \/
  (exists b, (forall k, b k = sumR (map (fun q => q k) pts) / INR (length pts)) /\ l = map (fun e => (b, fst e, snd e)) (edges pts)).
Proof.
  intros L. unfold split_in_raw_triangles. destruct (Nat.eqb_spec (length pts) 3) as [E|_].
  - intros H. left. destruct pts as [|a [|b [|c [|d r]]]]; try discriminate. exists a, b, c. injection H as <-. split; reflexivity.
  - destruct (Nat.eqb_spec (length pts) 4) as [E|_].
    + intros H. right; left. destruct pts as [|a [|b [|c [|d [|e r]]]]]; try discriminate. exists a, b, c, d. injection H as <-. split; reflexivity.
    + destruct (barycenter_mean pts) as (b & E & M); [destruct pts; [cbn in L; lia|discriminate]|]. rewrite E. cbn [bind]. intros H. right; right. exists b. split; [exact M|].
      apply (f_equal (fun o => match o with Ok x => x | _ => [] end)) in H. cbv beta iota in H. rewrite <- H, <- edges_seq, map_map. reflexivity.
Qed.
Lemma split_ok pts : (3 <= length pts)%nat -> exists l, split_in_raw_triangles pts = Ok l.
Proof.
  intros L. unfold split_in_raw_triangles. destruct (Nat.eqb_spec (length pts) 3); [eexists; reflexivity|]. destruct (Nat.eqb_spec (length pts) 4); [eexists; reflexivity|].
  destruct (barycenter_mean pts) as (b & E & _); [destruct pts; [cbn in L; lia|discriminate]|]. rewrite E. eexists. reflexivity.
Qed.
(** every polygon, plane or not, convex or not: the oriented areas of the triangles add up to that of the polygon, in
    every coordinate plane *)
Theorem C102_oriented_area : forall pts, (3 <= length pts)%nat -> exists l, split_in_raw_triangles pts = Ok l /\
  forall i j, sumR (map (tri_area2 i j) l) = poly_area2 i j pts.
Proof.
  intros pts L. destruct (split_ok pts L) as (l & E). exists l. split; [exact E|]. intros i j.
  destruct (split_cases pts l L E) as [(a & b & c & -> & ->)|[(a & b & c & d & -> & ->)|(b & M & ->)]].
  - unfold poly_area2, tri_area2, wedge. cbn. ring.
  - unfold poly_area2, tri_area2, wedge. cbn. ring.
  - rewrite map_map. apply star_area. intros ->. cbn in L. lia.
Qed.
Lemma split_dir pts l n : convex_face n pts -> split_in_raw_triangles pts = Ok l -> forall t, In t l -> exists k, 0 <= k /\
  tri_area2 1 2 t = k * n 0%nat /\ tri_area2 2 0 t = k * n 1%nat /\ tri_area2 0 1 t = k * n 2%nat.
Proof.
  intros (L & _ & H) E t Ht. destruct (split_cases pts l L E) as [(a & b & c & -> & ->)|[(a & b & c & d & -> & ->)|(b & M & ->)]].
  - destruct Ht as [<-|[]]. apply H; cbn; tauto.
  - destruct Ht as [<-|[<-|[]]]; apply H; cbn; tauto.
  - apply in_map_iff in Ht as ([p q] & <- & Hpq). cbn [fst snd].
    assert (N : pts <> []) by (intros ->; cbn in L; lia). rewrite !(bary_left _ _ pts b p q N M).
    assert (Ln : 0 < INR (length pts)) by (apply lt_0_INR; lia).
    assert (SS : forall l, (forall c, In c l -> In c pts) -> exists k, 0 <= k /\ sumR (map (fun c => tri_area2 1 2 (p, q, c)) l) = k * n 0%nat /\
      sumR (map (fun c => tri_area2 2 0 (p, q, c)) l) = k * n 1%nat /\ sumR (map (fun c => tri_area2 0 1 (p, q, c)) l) = k * n 2%nat).
    { induction l as [|c l IH]; intros I; [exists 0; cbn; repeat split; lra|]. destruct IH as (k & K0 & K1 & K2 & K3); [intros; apply I; right; assumption|].
      destruct (H p q c Hpq (I c (or_introl eq_refl))) as (k' & J0 & J1 & J2 & J3). exists (k' + k). cbn [map sumR]. rewrite K1, K2, K3, J1, J2, J3. repeat split; try lra. }
    destruct (SS pts (fun c I => I)) as (k & K0 & K1 & K2 & K3). exists (k / INR (length pts)). rewrite K1, K2, K3.
    split; [apply Rmult_le_pos; [exact K0|left; apply Rinv_0_lt_compat, Ln]|]. unfold pt in *. repeat split; unfold Rdiv; ring.
Qed.
Lemma area_dir n a b c k : n 0%nat ^ 2 + n 1%nat ^ 2 + n 2%nat ^ 2 = 1 -> 0 <= k ->
  tri_area2 1 2 (a, b, c) = k * n 0%nat -> tri_area2 2 0 (a, b, c) = k * n 1%nat -> tri_area2 0 1 (a, b, c) = k * n 2%nat ->
  2 * area_triangle_kahan 3 a b c = n 0%nat * tri_area2 1 2 (a, b, c) + n 1%nat * tri_area2 2 0 (a, b, c) + n 2%nat * tri_area2 0 1 (a, b, c).
Proof.
  intros U K A B C. rewrite A, B, C, kahan3.
  assert (E : cross3_sq a b c = k ^ 2).
  { transitivity (k ^ 2 * (n 0%nat ^ 2 + n 1%nat ^ 2 + n 2%nat ^ 2)); [|rewrite U; ring].
    transitivity ((k * n 0%nat) ^ 2 + (k * n 1%nat) ^ 2 + (k * n 2%nat) ^ 2); [|ring]. rewrite <- A, <- B, <- C. unfold cross3_sq, tri_area2, wedge. ring. }
  rewrite E, sqrt_pow2 by exact K.
  replace (n 0%nat * (k * n 0%nat) + n 1%nat * (k * n 1%nat) + n 2%nat * (k * n 2%nat)) with (k * (n 0%nat ^ 2 + n 1%nat ^ 2 + n 2%nat ^ 2)) by ring. rewrite U. field.
Qed.
Definition poly_dir (n : pt) (pts : list pt) : R := n 0%nat * poly_area2 1 2 pts + n 1%nat * poly_area2 2 0 pts + n 2%nat * poly_area2 0 1 pts.
Lemma sum_dir n l : sumR (map (fun t => n 0%nat * tri_area2 1 2 t + n 1%nat * tri_area2 2 0 t + n 2%nat * tri_area2 0 1 t) l) =
  n 0%nat * sumR (map (tri_area2 1 2) l) + n 1%nat * sumR (map (tri_area2 2 0) l) + n 2%nat * sumR (map (tri_area2 0 1) l).
Proof. induction l as [|t l IH]; [cbn; ring|]. cbn [map sumR]. rewrite IH. ring. Qed.
(** plane convex polygon: the triangles do not overlap and fill it, their areas add up to the area of the face, which
    is also what measure computes *)
Theorem C102_face_area : forall n pts, convex_face n pts -> exists l, split_in_raw_triangles pts = Ok l /\
  (forall a b c, In (a, b, c) l -> 0 <= n 0%nat * tri_area2 1 2 (a, b, c) + n 1%nat * tri_area2 2 0 (a, b, c) + n 2%nat * tri_area2 0 1 (a, b, c)) /\
  2 * sumR (map (fun t => let '(a, b, c) := t in area_triangle_kahan 3 a b c) l) =
    n 0%nat * poly_area2 1 2 pts + n 1%nat * poly_area2 2 0 pts + n 2%nat * poly_area2 0 1 pts /\
  sumR (map (fun t => let '(a, b, c) := t in area_triangle_kahan 3 a b c) l) = measure_face3 pts.
Proof.
  intros n pts HC. destruct HC as (L & U & H) eqn:EH. clear EH. destruct (C102_oriented_area pts L) as (l & E & A). exists l. split; [exact E|].
  pose proof (split_dir pts l n (conj L (conj U H)) E) as D.
  assert (P : forall a b c, In (a, b, c) l -> 0 <= n 0%nat * tri_area2 1 2 (a, b, c) + n 1%nat * tri_area2 2 0 (a, b, c) + n 2%nat * tri_area2 0 1 (a, b, c)).
  { intros a b c I. destruct (D (a, b, c) I) as (k & K0 & K1 & K2 & K3). rewrite K1, K2, K3.
    replace (n 0%nat * (k * n 0%nat) + n 1%nat * (k * n 1%nat) + n 2%nat * (k * n 2%nat)) with (k * (n 0%nat ^ 2 + n 1%nat ^ 2 + n 2%nat ^ 2)) by ring. rewrite U. lra. }
  assert (S2 : 2 * sumR (map (fun t => let '(a, b, c) := t in area_triangle_kahan 3 a b c) l) = poly_dir n pts).
  { unfold poly_dir. rewrite <- !A, <- sum_dir, <- (sumR_scal 2). f_equal. apply map_ext_in. intros [[a b] c] I. destruct (D (a, b, c) I) as (k & K0 & K1 & K2 & K3). apply (area_dir n a b c k U K0 K1 K2 K3). }
  split; [exact P|]. split; [exact S2|]. apply (Rmult_eq_reg_l 2); [|lra]. rewrite S2. symmetry.
  (* the fan from the first vertex *)
  unfold measure_face3.
  assert (F : forall (f : nat -> R) m a, fold_left (fun acc i => acc + f i) m a = a + sumR (map f m)).
  { intros f m. induction m as [|x m IH]; intros z; cbn [fold_left map sumR]; [ring|]. rewrite IH. ring. }
  rewrite F, Rplus_0_l, <- (sumR_scal 2). set (p := fun i => nth i pts (fun _ => 0)).
  assert (N : pts <> []) by (intros ->; cbn in L; lia).
  assert (Ed : forall i, (i < length pts)%nat -> In (p i, cyc pts (i + 1)) (edges pts)).
  { intros i Hi. unfold p. rewrite <- (edges_nth pts (fun _ => 0, fun _ => 0) i Hi). apply nth_In. rewrite edges_length. exact Hi. }
  transitivity (sumR (map (fun i => n 0%nat * tri_area2 1 2 (p O, p i, p (i + 1)%nat) + n 1%nat * tri_area2 2 0 (p O, p i, p (i + 1)%nat) + n 2%nat * tri_area2 0 1 (p O, p i, p (i + 1)%nat)) (seq 1 (length pts - 2)))).
  { f_equal. apply map_ext_in. intros i Hi. apply in_seq in Hi.
    assert (I : In (p i, p (i + 1)%nat) (edges pts)). { replace (p (i + 1)%nat) with (cyc pts (i + 1)); [apply Ed; lia|]. unfold cyc. rewrite Nat.mod_small by lia. reflexivity. }
    destruct (H (p i) (p (i + 1)%nat) (p O) I) as (k & K0 & K1 & K2 & K3); [apply nth_In; lia|].
    assert (Rot : forall i j a b c, tri_area2 i j (a, b, c) = tri_area2 i j (b, c, a)) by (intros; unfold tri_area2, wedge; ring).
    apply (area_dir n _ _ _ k U K0); rewrite Rot; assumption. }
  transitivity (sumR (map (fun e => n 0%nat * tri_area2 1 2 (p O, fst e, snd e) + n 1%nat * tri_area2 2 0 (p O, fst e, snd e) + n 2%nat * tri_area2 0 1 (p O, fst e, snd e)) (edges pts))).
  { rewrite <- edges_seq, map_map. cbn [fst snd]. unfold pt in *. destruct (length pts) as [|[|m]] eqn:Em; [lia|lia|]. cbn [Nat.sub]. rewrite Nat.sub_0_r.
    rewrite (seq_S (S m) 0). cbn [seq]. rewrite map_app, sumR_app. cbn [map sumR].
    assert (Z1 : forall i j x, tri_area2 i j (p O, p O, x) = 0) by (intros; unfold tri_area2, wedge; ring).
    assert (Z2 : forall i j x, tri_area2 i j (p O, x, p O) = 0) by (intros; unfold tri_area2, wedge; ring).
    change (nth 0 pts (fun _ : nat => 0)) with (p O). rewrite !Z1.
    assert (C0 : cyc pts (0 + S m + 1) = p O). { unfold cyc, pt. rewrite Em. replace (0 + S m + 1)%nat with (S (S m)) by lia. rewrite Nat.mod_same by lia. reflexivity. }
    rewrite C0, !Z2.
    match goal with |- ?x = ?z0 + ?y + (?z1 + 0) => transitivity y; [|ring] end.
    apply f_equal. apply map_ext_in. intros i Hi. apply in_seq in Hi. unfold cyc, pt. rewrite Em, Nat.mod_small by lia. reflexivity. }
  unfold poly_dir. rewrite <- !(star_area _ _ (p O) pts N). clear. induction (edges pts) as [|e l IH]; [cbn; ring|]. cbn [map sumR]. rewrite IH. ring.
Qed.
Print Assumptions C101_regular.
Print Assumptions C102_oriented_area.
Print Assumptions C102_face_area.
(** a square standing in the plane x = 1, and a pentagon in the plane z = 2 *)
Example C102_square : convex_face (fun i => match i with O => 1 | _ => 0 end)
  [pt3 1 0 0; pt3 1 2 0; pt3 1 2 3; pt3 1 0 3].
Proof.
  split; [cbn; lia|]. split; [cbn; ring|]. intros a b c Hab Hc. exists (tri_area2 1 2 (a, b, c)).
  cbn in Hab, Hc. destruct Hc as [<-|[<-|[<-|[<-|[]]]]]; destruct Hab as [E|[E|[E|[E|[]]]]]; injection E as <- <-; unfold tri_area2, wedge; cbn; repeat split; lra.
Qed.
Example C102_pentagon : convex_face (fun i => match i with 2%nat => 1 | _ => 0 end)
  [pt3 0 0 2; pt3 2 0 2; pt3 3 2 2; pt3 1 4 2; pt3 (-1) 2 2].
Proof.
  split; [cbn; lia|]. split; [cbn; ring|]. intros a b c Hab Hc. exists (tri_area2 0 1 (a, b, c)).
  cbn in Hab, Hc. destruct Hc as [<-|[<-|[<-|[<-|[<-|[]]]]]]; destruct Hab as [E|[E|[E|[E|[E|[]]]]]]; injection E as <- <-; unfold tri_area2, wedge; cbn; repeat split; lra.
Qed.

(** ** C103: the axes kept on a face *)
Theorem C103_face_axes : forall bar axes len, exists m a b,
  (m <> a /\ m <> b /\ a < b /\ m < 3 /\ b < 3)%nat /\ len m <= len a /\ len m <= len b /\
  let F := Bases_Model.face3_frame bar axes len in
  (forall k, Bases_Model.f_bar F k = bar k) /\
  (forall r, Bases_Model.f_axes F r 0%nat = axes r a /\ Bases_Model.f_axes F r 1%nat = axes r b) /\
  Bases_Model.f_len F 0%nat = len a /\ Bases_Model.f_len F 1%nat = len b.
Proof.
  intros bar axes len. unfold Bases_Model.face3_frame. set (m := Bases_Model.min_ind len).
  assert (M : (m < 3)%nat /\ forall k, (k < 3)%nat -> len m <= len k).
  { unfold m, Bases_Model.min_ind. cbn [fold_left fst snd].
    destruct (Rlt_dec (len 1%nat) (len 0%nat)); cbn [fst snd]; destruct (Rlt_dec (len 2%nat) _); cbn [fst snd]; (split; [lia|]);
      intros [|[|[|k]]] Hk; try lia; lra. }
  destruct M as [M1 M2]. clearbody m. exists m, (Bases_Model.keep m 0), (Bases_Model.keep m 1).
  assert (K : (m <> Bases_Model.keep m 0 /\ m <> Bases_Model.keep m 1 /\ Bases_Model.keep m 0 < Bases_Model.keep m 1 /\ m < 3 /\ Bases_Model.keep m 1 < 3)%nat).
  { destruct m as [|[|[|m]]]; [| | |lia]; cbn; lia. }
  split; [exact K|]. split; [apply M2; lia|]. split; [apply M2; lia|]. cbn. repeat split; reflexivity.
Qed.
(** on a flat face (one direction of zero length) the axes kept have positive lengths *)
Theorem C103_flat_face : forall bar axes len o, (o < 3)%nat -> len o = 0 -> (forall k, (k < 3)%nat -> k <> o -> 0 < len k) ->
  let F := Bases_Model.face3_frame bar axes len in
  forall i, (i < 2)%nat -> 0 < Bases_Model.f_len F i /\ exists k, (k < 3)%nat /\ k <> o /\ forall r, Bases_Model.f_axes F r i = axes r k.
Proof.
  intros bar axes len o Ho Z P F i Hi. destruct (C103_face_axes bar axes len) as (m & a & b & K & L1 & L2 & _ & A & E0 & E1). fold F in A, E0, E1.
  assert (m = o). { destruct (Nat.eq_dec m o) as [|N]; [assumption|]. exfalso. pose proof (P m ltac:(lia) N). assert (a = o \/ b = o) as [->| ->] by lia; lra. }
  subst m. destruct i as [|[|i]]; [| |lia].
  - rewrite E0. split; [apply P; lia|]. exists a. split; [lia|]. split; [lia|]. intros r. apply A.
  - rewrite E1. split; [apply P; lia|]. exists b. split; [lia|]. split; [lia|]. intros r. apply A.
Qed.
Print Assumptions C103_face_axes.
Print Assumptions C103_flat_face.
Example C103_ex : let F := Bases_Model.face3_frame (fun _ => 0) (fun r c => INR (r + c)) (fun k => match k with 1%nat => 0 | _ => 5 end) in
  0 < Bases_Model.f_len F 0%nat /\ 0 < Bases_Model.f_len F 1%nat.
Proof. split; apply (C103_flat_face (fun _ => 0) _ _ 1%nat); try lia; try reflexivity; intros [|[|[|k]]]; try lia; lra. Qed.
