From Coq Require Import Reals List Lia Lra Permutation ZArith.
From Verif Require Import Common Poly_Spec Quad_Model Quad_Spec Quad_Proofs Geo_Spec Geo_Model Geo_Proofs.
Import ListNotations.
Open Scope R_scope.

(** ** edges by index *)
Lemma edges_length pts : length (edges pts) = length pts.
Proof. destruct pts as [|p t]; [reflexivity|]. cbn [edges]. rewrite combine_length, app_length. cbn [length]. lia. Qed.

Lemma edges_nth pts d i : (i < length pts)%nat -> nth i (edges pts) d = (nth i pts (fun _ => 0), cyc pts (i + 1)).
Proof.
  intro H. destruct pts as [|p t]; [cbn in H; lia|]. unfold cyc.
  assert (Hl : length (p :: t) = length (t ++ [p])) by (rewrite app_length; cbn; lia).
  rewrite (nth_indep _ d ((fun _ => 0), (fun _ => 0))) by (rewrite edges_length; exact H).
  cbn [edges]. rewrite combine_nth by exact Hl. f_equal.
  cbn [length] in *. destruct (Nat.eq_dec (i + 1) (S (length t))) as [E|E].
  - rewrite E, Nat.mod_same by lia. rewrite app_nth2 by lia. replace (i - length t)%nat with O by lia. reflexivity.
  - rewrite Nat.mod_small by lia. rewrite app_nth1 by lia. replace (i + 1)%nat with (S i) by lia. reflexivity.
Qed.

Lemma edges_seq pts : map (fun i => (nth i pts (fun _ => 0), cyc pts (i + 1))) (seq 0 (length pts)) = edges pts.
Proof.
  apply (nth_ext _ _ ((fun _ => 0), (fun _ => 0)) ((fun _ => 0), (fun _ => 0))).
  - rewrite map_length, seq_length, edges_length. reflexivity.
  - intros i Hi. rewrite map_length, seq_length in Hi. rewrite edges_nth by exact Hi.
    rewrite (nth_indep _ _ ((fun i => (nth i pts (fun _ => 0), cyc pts (i + 1))) 0%nat)) by (rewrite map_length, seq_length; exact Hi).
    rewrite (map_nth (fun i => (nth i pts (fun _ => 0), cyc pts (i + 1))) (seq 0 (length pts)) 0%nat i).
    rewrite seq_nth by exact Hi. reflexivity.
Qed.

Lemma polygon_sums_edges pts : polygon_sums pts =
  (sumR (map (fun e => (fst e 0%nat + snd e 0%nat) * edge_det (fst e) (snd e)) (edges pts)),
   sumR (map (fun e => (fst e 1%nat + snd e 1%nat) * edge_det (fst e) (snd e)) (edges pts)), signed_area pts).
Proof.
  unfold polygon_sums, signed_area. rewrite <- (edges_seq pts), !map_map. cbn [fst snd].
  assert (G : forall l a b c, fold_left (fun acc i => let '(Cx, Cy, A) := acc in
      let p0 := nth i pts (fun _ => 0) in let p1 := cyc pts (i + 1) in let d := edge_det p0 p1 in
      (Cx + (p0 0%nat + p1 0%nat) * d, Cy + (p0 1%nat + p1 1%nat) * d, A + 1 / 2 * d)) l (a, b, c) =
    (a + sumR (map (fun i => (nth i pts (fun _ => 0) 0%nat + cyc pts (i + 1) 0%nat) * edge_det (nth i pts (fun _ => 0)) (cyc pts (i + 1))) l),
     b + sumR (map (fun i => (nth i pts (fun _ => 0) 1%nat + cyc pts (i + 1) 1%nat) * edge_det (nth i pts (fun _ => 0)) (cyc pts (i + 1))) l),
     c + sumR (map (fun i => (nth i pts (fun _ => 0) 0%nat * cyc pts (i + 1) 1%nat - cyc pts (i + 1) 0%nat * nth i pts (fun _ => 0) 1%nat) / 2) l))).
  { induction l as [|i l IH]; intros a b c; cbn [fold_left map sumR]; [f_equal; [f_equal|]; ring|].
    cbv zeta. rewrite IH. unfold edge_det. f_equal; [f_equal; ring|field]. }
  rewrite G, !Rplus_0_l. reflexivity.
Qed.

(** ** moments of an affine function over the polygon *)
Definition aff (al be ga : R) (x : pt) : R := al * x 0%nat + be * x 1%nat + ga.
Definition hmom (al be ga : R) (a b : pt) : R := (aff al be ga a + aff al be ga b + ga) * edge_det a b.
Definition tmom (al be ga : R) (t : pt * pt * pt) : R :=
  let '(a, b, c) := t in (aff al be ga a + aff al be ga b + aff al be ga c) * cross2 a b c.
Fixpoint path (al be ga : R) (l : list pt) (z : pt) : R :=
  match l with
  | [] => 0
  | p :: t => hmom al be ga p (hd z t) + path al be ga t z
  end.
Lemma path_edges al be ga l z : path al be ga l z =
  match l with [] => 0 | p :: t => sumR (map (fun e => hmom al be ga (fst e) (snd e)) (combine l (t ++ [z]))) end.
Proof.
  induction l as [|p t IH]; [reflexivity|]. cbn [path]. rewrite IH. destruct t as [|q t]; cbn [app combine map sumR fst snd hd]; ring.
Qed.
Lemma path_fan al be ga p0 l : l <> [] -> hmom al be ga p0 (hd p0 l) + path al be ga l p0 = sumR (map (tmom al be ga) (fan_from p0 l)).
Proof.
  induction l as [|p t IH]; [congruence|]. intros _. destruct t as [|q t].
  - cbn [hd path fan_from map sumR]. unfold hmom, edge_det, aff. ring.
  - change (fan_from p0 (p :: q :: t)) with ((p0, p, q) :: fan_from p0 (q :: t)). cbn [map sumR].
    rewrite <- IH by congruence. cbn [hd path]. unfold tmom, hmom, edge_det, cross2, aff. ring.
Qed.
Lemma moments_fan al be ga pts : sumR (map (fun e => hmom al be ga (fst e) (snd e)) (edges pts)) = sumR (map (tmom al be ga) (fan pts)).
Proof.
  destruct pts as [|p [|q t]]; [reflexivity| |].
  - cbn [edges fan fan_from combine app map sumR fst snd]. unfold hmom, edge_det. ring.
  - unfold fan. rewrite <- (path_fan al be ga p (q :: t)) by congruence.
    unfold edges. pose proof (path_edges al be ga (p :: q :: t) p) as E. cbn [path] in E |- *. rewrite <- E. reflexivity.
Qed.

Lemma sumR_app l l' : sumR (l ++ l') = sumR l + sumR l'.
Proof. induction l; cbn [app sumR]; [ring|rewrite IHl; ring]. Qed.
Lemma sumR_plus {A} (f g : A -> R) l : sumR (map (fun x => f x + g x) l) = sumR (map f l) + sumR (map g l).
Proof. induction l; cbn [map sumR]; [ring|rewrite IHl; ring]. Qed.
Lemma sumR_scal {A} k (f : A -> R) l : sumR (map (fun x => k * f x) l) = k * sumR (map f l).
Proof. induction l; cbn [map sumR]; [ring|rewrite IHl; ring]. Qed.
Lemma sumR_nonneg {A} (f : A -> R) l : (forall x, In x l -> 0 <= f x) -> 0 <= sumR (map f l).
Proof. induction l as [|x l IH]; intro H; cbn [map sumR]; [lra|]. pose proof (H x (or_introl eq_refl)). pose proof (IH (fun y Hy => H y (or_intror Hy))). lra. Qed.
Lemma sumR_pos {A} (f : A -> R) l : (forall x, In x l -> 0 <= f x) -> (exists x, In x l /\ 0 < f x) -> 0 < sumR (map f l).
Proof.
  induction l as [|x l IH]; intros H (y & Hy & P); [destruct Hy|]. cbn [map sumR].
  pose proof (H x (or_introl eq_refl)). assert (N := sumR_nonneg f l (fun y Hy => H y (or_intror Hy))).
  destruct Hy as [->|Hy]; [lra|]. pose proof (IH (fun y Hy => H y (or_intror Hy)) (ex_intro _ y (conj Hy P))). lra.
Qed.
Lemma sumR_pos_inv {A} (f : A -> R) l : 0 < sumR (map f l) -> exists x, In x l /\ 0 < f x.
Proof.
  induction l as [|x l IH]; cbn [map sumR]; intro H; [lra|]. destruct (Rlt_dec 0 (f x)) as [P|P]; [exists x; cbn; auto|].
  destruct IH as (y & Hy & Py); [lra|]. exists y. cbn; auto.
Qed.

Lemma hmom_split al be ga pts : sumR (map (fun e => hmom al be ga (fst e) (snd e)) (edges pts)) =
  al * sumR (map (fun e => (fst e 0%nat + snd e 0%nat) * edge_det (fst e) (snd e)) (edges pts)) +
  be * sumR (map (fun e => (fst e 1%nat + snd e 1%nat) * edge_det (fst e) (snd e)) (edges pts)) + ga * (6 * signed_area pts).
Proof.
  unfold signed_area. rewrite <- (sumR_scal al), <- (sumR_scal be), <- (sumR_scal 6), <- (sumR_scal ga), <- !sumR_plus.
  f_equal. apply map_ext. intros [a b]. cbn [fst snd]. unfold hmom, aff, edge_det. field.
Qed.

(** the barycenter of a polygon of non-zero area is its centroid *)
Lemma polygon_bary pts : signed_area pts <> 0 -> exists c, polygon_barycenter pts = Some c /\
  forall al be ga, 6 * signed_area pts * aff al be ga c = sumR (map (tmom al be ga) (fan pts)).
Proof.
  intro H. unfold polygon_barycenter. rewrite polygon_sums_edges. destruct (Req_EM_T (signed_area pts) 0) as [|_]; [contradiction|].
  eexists; split; [reflexivity|]. intros al be ga. rewrite <- moments_fan, hmom_split. unfold aff. cbn [pt2]. field. exact H.
Qed.
Lemma signed_area_fan pts : 6 * signed_area pts = sumR (map (tmom 0 0 1) (fan pts)).
Proof. rewrite <- moments_fan, hmom_split. ring. Qed.

(** ** convex polygons *)
Lemma cross2_aff e f x : cross2 e f x = aff (- (f 1%nat - e 1%nat)) (f 0%nat - e 0%nat) ((f 1%nat - e 1%nat) * e 0%nat - (f 0%nat - e 0%nat) * e 1%nat) x.
Proof. unfold cross2, aff. ring. Qed.
Lemma same_line e f x y z : (e 0%nat <> f 0%nat \/ e 1%nat <> f 1%nat) ->
  cross2 e f x = 0 -> cross2 e f y = 0 -> cross2 e f z = 0 -> cross2 x y z = 0.
Proof.
  unfold cross2. set (u := f 0%nat - e 0%nat). set (v := f 1%nat - e 1%nat). intros N X Y Z.
  assert (E1 : u * ((y 0%nat - x 0%nat) * (z 1%nat - x 1%nat) - (y 1%nat - x 1%nat) * (z 0%nat - x 0%nat)) = 0).
  { transitivity ((y 0%nat - x 0%nat) * ((u * (z 1%nat - e 1%nat) - v * (z 0%nat - e 0%nat)) - (u * (x 1%nat - e 1%nat) - v * (x 0%nat - e 0%nat)))
      - (z 0%nat - x 0%nat) * ((u * (y 1%nat - e 1%nat) - v * (y 0%nat - e 0%nat)) - (u * (x 1%nat - e 1%nat) - v * (x 0%nat - e 0%nat)))); [ring|].
    rewrite X, Y, Z. ring. }
  assert (E2 : v * ((y 0%nat - x 0%nat) * (z 1%nat - x 1%nat) - (y 1%nat - x 1%nat) * (z 0%nat - x 0%nat)) = 0).
  { transitivity ((y 1%nat - x 1%nat) * ((u * (z 1%nat - e 1%nat) - v * (z 0%nat - e 0%nat)) - (u * (x 1%nat - e 1%nat) - v * (x 0%nat - e 0%nat)))
      - (z 1%nat - x 1%nat) * ((u * (y 1%nat - e 1%nat) - v * (y 0%nat - e 0%nat)) - (u * (x 1%nat - e 1%nat) - v * (x 0%nat - e 0%nat)))); [ring|].
    rewrite X, Y, Z. ring. }
  apply Rmult_integral in E1. apply Rmult_integral in E2. unfold u, v in *. destruct N as [N|N]; [destruct E1|destruct E2]; auto; exfalso; apply N; lra.
Qed.

Lemma fan_from_edges p0 l x y z : In (x, y, z) (fan_from p0 l) -> x = p0 /\ In y l /\ In z l /\ exists a t, (exists s, l = s ++ a :: t) /\ hd_error t = Some z /\ a = y.
Proof.
  induction l as [|p t IH]; [intros []|]. destruct t as [|q t]; [intros []|].
  change (fan_from p0 (p :: q :: t)) with ((p0, p, q) :: fan_from p0 (q :: t)). intros [E|I].
  - injection E as -> -> ->. repeat split; cbn; auto. exists y, (z :: t). repeat split; auto. now exists [].
  - destruct (IH I) as (-> & Iy & Iz & a & t' & (s & E) & Hz & ->). repeat split; cbn [In]; auto. exists y, t'. repeat split; auto.
    exists (p :: s). now rewrite E.
Qed.
Lemma in_edges_mid p s a b t : In (a, b) (edges (p :: s ++ a :: b :: t)).
Proof.
  unfold edges. revert p. assert (G : forall s z w, In (a, b) (combine (z :: s ++ a :: b :: t) ((s ++ a :: b :: t) ++ w))).
  { induction s0 as [|c s0 IH]; intros z w.
    - cbn [app combine]. right. left. reflexivity.
    - change ((c :: s0) ++ a :: b :: t) with (c :: s0 ++ a :: b :: t). cbn [combine app]. right. apply IH. }
  intro p. apply G.
Qed.
Lemma fan_in_edges pts x y z : In (x, y, z) (fan pts) -> In x pts /\ In y pts /\ In z pts /\ In (y, z) (edges pts).
Proof.
  destruct pts as [|p l]; [intros []|]. intro I. destruct (fan_from_edges p l x y z I) as (-> & Iy & Iz & a & t & (s & E) & Hz & ->).
  destruct t as [|z' t]; [discriminate|]. injection Hz as ->. repeat split; cbn [In]; auto.
  rewrite E. apply in_edges_mid.
Qed.

Lemma cross2_cycle a b c : cross2 a b c = cross2 b c a.
Proof. unfold cross2. ring. Qed.
Lemma fan_cross_nonneg pts x y z : convex_polygon pts -> In (x, y, z) (fan pts) -> 0 <= cross2 x y z.
Proof. intros [_ C] I. destruct (fan_in_edges pts x y z I) as (Ix & Iy & Iz & Ie). rewrite cross2_cycle. now apply (C y z Ie). Qed.

Lemma centroid_left pts e f : convex_polygon pts -> 0 < signed_area pts -> In (e, f) (edges pts) ->
  exists c, polygon_barycenter pts = Some c /\ 0 < cross2 e f c.
Proof.
  intros C A I. destruct (polygon_bary pts) as (c & E & M); [lra|]. exists c. split; [exact E|].
  set (al := - (f 1%nat - e 1%nat)). set (be := f 0%nat - e 0%nat). set (ga := (f 1%nat - e 1%nat) * e 0%nat - (f 0%nat - e 0%nat) * e 1%nat).
  assert (L : forall x, aff al be ga x = cross2 e f x) by (intro; symmetry; apply cross2_aff).
  specialize (M al be ga). rewrite L in M.
  assert (P : 0 < sumR (map (tmom al be ga) (fan pts))).
  { apply sumR_pos.
    - intros [[x y] z] It. pose proof (fan_cross_nonneg pts x y z C It). destruct (fan_in_edges pts x y z It) as (Ix & Iy & Iz & _).
      unfold tmom. rewrite !L. destruct C as [_ C]. destruct (C e f I) as [_ Cv].
      apply Rmult_le_pos; [|assumption]. pose proof (Cv x Ix). pose proof (Cv y Iy). pose proof (Cv z Iz). lra.
    - pose proof (signed_area_fan pts) as SA. destruct (sumR_pos_inv (tmom 0 0 1) (fan pts)) as ([[x y] z] & It & P); [lra|].
      exists (x, y, z). split; [exact It|]. destruct (fan_in_edges pts x y z It) as (Ix & Iy & Iz & _).
      destruct C as [_ C]. destruct (C e f I) as [Ne Cv]. unfold tmom, aff in P.
      assert (Q : 0 < cross2 x y z) by (replace (_ * cross2 x y z) with (3 * cross2 x y z) in P by ring; lra).
      unfold tmom. rewrite !L. apply Rmult_lt_0_compat; [|exact Q]. pose proof (Cv x Ix). pose proof (Cv y Iy). pose proof (Cv z Iz).
      destruct (Rlt_dec 0 (cross2 e f x + cross2 e f y + cross2 e f z)) as [|N]; [assumption|]. exfalso.
      pose proof (same_line e f x y z Ne ltac:(lra) ltac:(lra) ltac:(lra)). lra. }
  rewrite <- M in P. assert (0 < 6 * signed_area pts) by lra. apply (Rmult_lt_reg_l (6 * signed_area pts)); [assumption|]. rewrite Rmult_0_r. exact P.
Qed.

(** ** normals *)
Lemma norm2_pos x y : (x <> 0 \/ y <> 0) -> 0 < norm 2 (pt2 x y).
Proof. intro H. apply sqrt_lt_R0. cbn [dot pt2]. destruct H; nra. Qed.

(** the outward unit normal of the counterclockwise edge e f *)
Definition outer2 (e f : pt) : pt :=
  pscale (/ norm 2 (psubt f e)) (pt2 (f 1%nat - e 1%nat) (- (f 0%nat - e 0%nat))).
Lemma norm2_rot x y : norm 2 (pt2 (- y) x) = norm 2 (pt2 x y).
Proof. unfold norm. cbn [dot pt2]. f_equal. ring. Qed.
Lemma norm2_neg x y : norm 2 (pt2 (- x) (- y)) = norm 2 (pt2 x y).
Proof. unfold norm. cbn [dot pt2]. f_equal. ring. Qed.
Lemma norm2_psubt e f : norm 2 (psubt f e) = norm 2 (pt2 (f 0%nat - e 0%nat) (f 1%nat - e 1%nat)).
Proof. reflexivity. Qed.

Lemma normal2_spec c e f : 0 < cross2 e f c ->
  (exists n, normal2 c e f = Some n /\ forall i, (i < 2)%nat -> n i = outer2 e f i) /\
  (exists n, normal2 c f e = Some n /\ forall i, (i < 2)%nat -> n i = outer2 e f i).
Proof.
  intro H.
  assert (P : 0 < norm 2 (psubt f e)).
  { rewrite norm2_psubt. apply norm2_pos. unfold cross2 in H.
    destruct (Req_dec (f 0%nat - e 0%nat) 0) as [X|X]; [|auto]. destruct (Req_dec (f 1%nat - e 1%nat) 0) as [Y|Y]; [|auto].
    rewrite X, Y in H. lra. }
  split.
  - unfold normal2. cbv zeta.
    assert (EN : norm 2 (pt2 (- psubt f e 1%nat) (psubt f e 0%nat)) = norm 2 (psubt f e)) by (rewrite norm2_psubt; apply norm2_rot).
    rewrite EN. destruct (Req_EM_T (norm 2 (psubt f e)) 0) as [Z|_]; [lra|].
    match goal with |- context [Rlt_dec ?d 0] => assert (ED : d = - cross2 e f c) end.
    { unfold cross2, psubt, pscale, padd. cbn [dot pt2]. field. }
    rewrite ED. destruct (Rlt_dec (- cross2 e f c) 0) as [_|Z]; [|lra].
    eexists; split; [reflexivity|]. intros i Hi. unfold outer2, pscale, psubt. destruct i as [|[|i]]; [| |lia]; cbn [pt2]; ring.
  - unfold normal2. cbv zeta.
    assert (EN : norm 2 (pt2 (- psubt e f 1%nat) (psubt e f 0%nat)) = norm 2 (psubt f e)).
    { rewrite norm2_rot, norm2_psubt, <- norm2_neg. unfold psubt. f_equal. f_equal; ring. }
    rewrite EN. destruct (Req_EM_T (norm 2 (psubt f e)) 0) as [Z|_]; [lra|].
    match goal with |- context [Rlt_dec ?d 0] => assert (ED : d = cross2 e f c) end.
    { unfold cross2, psubt, pscale, padd. cbn [dot pt2]. field. }
    rewrite ED. destruct (Rlt_dec (cross2 e f c) 0) as [Z|_]; [lra|].
    eexists; split; [reflexivity|]. intros i Hi. unfold outer2, pscale, psubt. destruct i as [|[|i]]; [| |lia]; cbn [pt2]; ring.
Qed.

Lemma outer2_props e f : (e 0%nat <> f 0%nat \/ e 1%nat <> f 1%nat) ->
  dot 2 (outer2 e f) (outer2 e f) = 1 /\ dot 2 (outer2 e f) (psubt f e) = 0 /\
  forall x, dot 2 (outer2 e f) (psubt x e) = - cross2 e f x / norm 2 (psubt f e).
Proof.
  intro N. assert (P : 0 < norm 2 (psubt f e)) by (rewrite norm2_psubt; apply norm2_pos; destruct N; [left|right]; lra).
  pose proof (norm_sq 2 (psubt f e)) as SQ. cbn [dot] in SQ.
  repeat split.
  - unfold outer2, pscale. cbn [dot pt2]. set (m := norm 2 (psubt f e)) in *. unfold psubt in SQ.
    transitivity ((m * m) / (m * m)); [|field; lra]. rewrite SQ at 1. field. lra.
  - unfold outer2, pscale, psubt. cbn [dot pt2]. ring.
  - intro x. unfold outer2, pscale, cross2. cbn [dot pt2]. set (m := norm 2 (psubt f e)) in *. clearbody m. unfold psubt. field. lra.
Qed.

(** ** measure of a convex polygon *)

Lemma measure_faces c es : forall faces tot, Forall2 same_edge faces es -> (forall e f, In (e, f) es -> 0 < cross2 e f c) ->
  fold_left (fun acc fc => match acc, normal2 c (fst fc) (snd fc) with
          | Some tot, Some n =>
              let bar := pscale (/ 2) (padd (fst fc) (snd fc)) in
              let meas := norm 2 (psubt (snd fc) (fst fc)) in
              Some (tot + meas * (bar 0%nat * n 0%nat / 2 + bar 1%nat * n 1%nat / 2))
          | _, _ => None
          end) faces (Some tot) = Some (tot + sumR (map (fun e => (fst e 0%nat * snd e 1%nat - snd e 0%nat * fst e 1%nat) / 2) es)).
Proof.
  intros faces. revert es. induction faces as [|fc faces IH]; intros es tot F H; inversion F as [|? [e f] ? es' SE F']; subst.
  - cbn [fold_left map sumR]. f_equal. ring.
  - cbn [fold_left map sumR]. pose proof (H e f (or_introl eq_refl)) as P.
    assert (Q : 0 < norm 2 (psubt f e)).
    { rewrite norm2_psubt. apply norm2_pos. unfold cross2 in P.
      destruct (Req_dec (f 0%nat - e 0%nat) 0) as [X|X]; [|auto]. destruct (Req_dec (f 1%nat - e 1%nat) 0) as [Y|Y]; [|auto].
      rewrite X, Y in P. lra. }
    destruct (normal2_spec c e f P) as [(n & E1 & N1) (n' & E2 & N2)].
    destruct SE as [->| ->]; cbn [fst snd]; [rewrite E1|rewrite E2]; cbv zeta.
    + rewrite (IH es') by (auto; intros; apply H; now right). rewrite !N1 by lia. f_equal. unfold outer2, pscale, padd. cbn [pt2 fst snd].
      field. lra.
    + rewrite (IH es') by (auto; intros; apply H; now right). rewrite !N2 by lia. f_equal.
      assert (NE : norm 2 (psubt e f) = norm 2 (psubt f e)) by (rewrite !norm2_psubt, <- norm2_neg; f_equal; f_equal; ring).
      rewrite NE. unfold outer2, pscale, padd. cbn [pt2 fst snd]. field. lra.
Qed.

Lemma measure_convex pts faces es : convex_polygon pts -> 0 < signed_area pts -> Permutation es (edges pts) -> Forall2 same_edge faces es ->
  measure_polygon pts faces = Some (signed_area pts).
Proof.
  intros C A P F. destruct (polygon_bary pts) as (c & E & _); [lra|]. unfold measure_polygon. rewrite E.
  rewrite (measure_faces c es); [|exact F|].
  - f_equal. unfold signed_area. rewrite Rplus_0_l. apply sumR_perm, Permutation_map. exact P.
  - intros e f I. destruct (centroid_left pts e f C A) as (c' & E' & L); [eapply Permutation_in; eauto|].
    rewrite E in E'. injection E' as <-. exact L.
Qed.
