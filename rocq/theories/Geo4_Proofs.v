From Coq Require Import Reals List Lia Lra Permutation ZArith.
From Verif Require Import Common Poly_Spec Poly_Proofs Quad_Model Quad_Spec Quad_Proofs Geo_Spec Geo_Model Geo_Proofs Geo2_Proofs Geo3_Proofs.
Import ListNotations.
Open Scope R_scope.

(** ** the mean of an affine function *)
Lemma mean_pos (f : pt -> R) pts : (forall x, In x pts -> 0 <= f x) -> (exists x, In x pts /\ f x <> 0) -> 0 < sumR (map f pts) / INR (length pts).
Proof.
  intros H (x & I & N). apply Rdiv_lt_0_compat.
  - apply sumR_pos; [exact H|]. exists x. split; [exact I|]. pose proof (H x I). lra.
  - apply lt_0_INR. destruct pts; [destruct I|cbn; lia].
Qed.
Lemma cross2_mean pts b e f : barycenter pts = Ok b -> cross2 e f b = sumR (map (cross2 e f) pts) / INR (length pts).
Proof.
  intro E. assert (N : pts <> []) by (intros ->; discriminate). destruct (barycenter_mean pts N) as (b' & E' & M). rewrite E in E'. injection E' as <-.
  rewrite <- cross2_center by exact N. unfold cross2. now rewrite !M, !center_mean.
Qed.
Lemma triple_aff a b c x : triple a b c x =
  ((b 1%nat - a 1%nat) * (c 2%nat - a 2%nat) - (b 2%nat - a 2%nat) * (c 1%nat - a 1%nat)) * (x 0%nat - a 0%nat) +
  ((b 2%nat - a 2%nat) * (c 0%nat - a 0%nat) - (b 0%nat - a 0%nat) * (c 2%nat - a 2%nat)) * (x 1%nat - a 1%nat) +
  ((b 0%nat - a 0%nat) * (c 1%nat - a 1%nat) - (b 1%nat - a 1%nat) * (c 0%nat - a 0%nat)) * (x 2%nat - a 2%nat).
Proof. unfold triple. ring. Qed.
Lemma triple_mean pts b e f g : barycenter pts = Ok b -> triple e f g b = sumR (map (triple e f g) pts) / INR (length pts).
Proof.
  intro E. assert (N : pts <> []) by (intros ->; discriminate). destruct (barycenter_mean pts N) as (b' & E' & M). rewrite E in E'. injection E' as <-.
  assert (L : INR (length pts) <> 0) by (apply not_0_INR; destruct pts; [congruence|discriminate]).
  rewrite triple_aff, !M.
  set (A := (f 1%nat - e 1%nat) * _ - _). set (B := (f 2%nat - e 2%nat) * _ - _). set (C := (f 0%nat - e 0%nat) * _ - _).
  assert (S : forall l, sumR (map (triple e f g) l) = A * (sumR (map (fun q => q 0%nat) l) - INR (length l) * e 0%nat) +
     B * (sumR (map (fun q => q 1%nat) l) - INR (length l) * e 1%nat) + C * (sumR (map (fun q => q 2%nat) l) - INR (length l) * e 2%nat)).
  { induction l as [|x l IH]; [cbn [map sumR length]; cbn; ring|]. cbn [map sumR length]. rewrite IH, S_INR, triple_aff. fold A B C. ring. }
  rewrite S. field. exact L.
Qed.

(** ** normals *)
Lemma cross2_flip e f x : cross2 f e x = - cross2 e f x.
Proof. unfold cross2. ring. Qed.
Lemma cross2_nondeg e f x : cross2 e f x <> 0 -> e 0%nat <> f 0%nat \/ e 1%nat <> f 1%nat.
Proof.
  intro H. destruct (Req_dec (e 0%nat) (f 0%nat)) as [X|X]; [|auto]. destruct (Req_dec (e 1%nat) (f 1%nat)) as [Y|Y]; [|auto].
  exfalso. apply H. unfold cross2. rewrite X, Y. ring.
Qed.

Definition good_normal2 (e f n : pt) (inside : pt -> Prop) : Prop :=
  dot 2 n n = 1 /\ dot 2 n (psubt f e) = 0 /\ forall x, inside x -> dot 2 n (psubt x e) <= 0.

Lemma normal2_left c e f (inside : pt -> Prop) : 0 < cross2 e f c -> (forall x, inside x -> 0 <= cross2 e f x) ->
  (exists n, normal2 c e f = Some n /\ good_normal2 e f n inside) /\ (exists n, normal2 c f e = Some n /\ good_normal2 f e n inside).
Proof.
  intros P H. destruct (normal2_spec c e f P) as [(n & E1 & N1) (n' & E2 & N2)].
  assert (ND : e 0%nat <> f 0%nat \/ e 1%nat <> f 1%nat) by (apply (cross2_nondeg e f c); lra).
  assert (Q : 0 < norm 2 (psubt f e)) by (rewrite norm2_psubt; apply norm2_pos; destruct ND; [left|right]; lra).
  destruct (outer2_props e f ND) as (U & O & V).
  assert (D : forall n, (forall i, (i < 2)%nat -> n i = outer2 e f i) -> forall v, dot 2 n v = dot 2 (outer2 e f) v) by (intros m Hm v; cbn [dot]; rewrite !Hm by lia; reflexivity).
  assert (G : forall x, inside x -> dot 2 (outer2 e f) (psubt x e) <= 0).
  { intros x I. rewrite V. pose proof (H x I). apply Rmult_le_reg_r with (norm 2 (psubt f e)); [exact Q|]. unfold Rdiv. rewrite Rmult_assoc, Rinv_l by lra. lra. }
  split; [exists n|exists n']; (split; [assumption|]); repeat split.
  - rewrite (D n N1). rewrite <- U. cbn [dot]. rewrite !N1 by lia. reflexivity.
  - rewrite (D n N1). exact O.
  - intros x I. rewrite (D n N1). auto.
  - rewrite (D n' N2). rewrite <- U. cbn [dot]. rewrite !N2 by lia. reflexivity.
  - rewrite (D n' N2). cbn [dot] in O |- *. unfold psubt in O |- *. lra.
  - intros x I. rewrite (D n' N2). pose proof (G x I) as K. cbn [dot] in O, K |- *. unfold psubt in O, K |- *. lra.
Qed.

Lemma normal2_cell pts b e f : barycenter pts = Ok b -> ((forall x, In x pts -> 0 <= cross2 e f x) \/ (forall x, In x pts -> cross2 e f x <= 0)) ->
  (exists x, In x pts /\ cross2 e f x <> 0) -> exists n, normal2 b e f = Some n /\ good_normal2 e f n (fun x => In x pts).
Proof.
  intros B [H|H] X.
  - destruct (normal2_left b e f (fun x => In x pts)) as [R _]; [|exact H|exact R]. rewrite (cross2_mean pts) by exact B. now apply mean_pos.
  - destruct (normal2_left b f e (fun x => In x pts)) as [_ R]; [| |exact R].
    + rewrite (cross2_mean pts) by exact B. apply mean_pos; [intros x I; rewrite cross2_flip; pose proof (H x I); lra|].
      destruct X as (x & I & N). exists x. split; [exact I|]. rewrite cross2_flip. lra.
    + intros x I. rewrite cross2_flip. pose proof (H x I). lra.
Qed.

Lemma normal2_polygon pts c e f fc : convex_polygon pts -> 0 < signed_area pts -> polygon_barycenter pts = Some c -> In (e, f) (edges pts) -> same_edge fc (e, f) ->
  exists n, normal2 c (fst fc) (snd fc) = Some n /\ good_normal2 (fst fc) (snd fc) n (fun x => In x pts).
Proof.
  intros C A B I S. destruct (centroid_left pts e f C A I) as (c' & E & P). rewrite B in E. injection E as <-.
  destruct C as [L C]. destruct (C e f I) as [_ Cv]. destruct (normal2_left c e f (fun x => In x pts) P Cv) as [N1 N2].
  destruct S as [->| ->]; [exact N1|exact N2].
Qed.

Lemma dot3_vcross f0 f1 f2 x : dot 3 (vcross (psubt f1 f0) (psubt f2 f1)) (psubt x f0) = triple f0 f1 f2 x.
Proof. unfold triple, vcross, psubt. cbn [dot pt3]. ring. Qed.
Lemma normal3_face cb fb f0 f1 f2 : triple f0 f1 f2 fb = 0 -> triple f0 f1 f2 cb <> 0 ->
  exists n, normal3 cb fb f0 f1 f2 = Some n /\ dot 3 n n = 1 /\
    exists k, 0 < k /\ forall x, dot 3 n (psubt x f0) = - k * triple f0 f1 f2 cb * triple f0 f1 f2 x.
Proof.
  intros Fb Cb. set (n0 := vcross (psubt f1 f0) (psubt f2 f1)).
  assert (NZ : 0 < norm 3 n0).
  { destruct (Rle_lt_or_eq_dec _ _ (norm_nonneg 3 n0)) as [|E]; [assumption|]. exfalso. apply Cb. rewrite <- dot3_vcross. fold n0.
    pose proof (norm_sq 3 n0) as SQ. rewrite <- E in SQ. cbn [dot] in SQ |- *.
    assert (K : n0 0%nat ^ 2 + n0 1%nat ^ 2 + n0 2%nat ^ 2 = 0) by lra. apply sumsq3 in K. destruct K as (K0 & K1 & K2). rewrite K0, K1, K2. ring. }
  assert (DD : dot 3 n0 (psubt fb cb) = - triple f0 f1 f2 cb).
  { transitivity (triple f0 f1 f2 fb - triple f0 f1 f2 cb); [|lra]. rewrite <- !dot3_vcross. fold n0. cbn [dot]. unfold psubt. ring. }
  assert (U : forall s, s * s = 1 -> dot 3 (pscale (/ norm 3 n0) (pscale s n0)) (pscale (/ norm 3 n0) (pscale s n0)) = 1).
  { intros s Hs. pose proof (norm_sq 3 n0) as SQ. unfold pscale. cbn [dot] in SQ |- *. set (m := norm 3 n0) in *. clearbody m n0.
    transitivity ((s * s) * (m * m) / (m * m)); [rewrite SQ at 1; field; lra|]. rewrite Hs. field. lra. }
  unfold normal3. cbv zeta. fold n0. destruct (Req_EM_T (norm 3 n0) 0) as [|_]; [lra|]. rewrite DD.
  destruct (Rlt_dec (- triple f0 f1 f2 cb) 0) as [L|L].
  - eexists; split; [reflexivity|]. split; [apply U; ring|].
    exists (/ (norm 3 n0 * triple f0 f1 f2 cb)). split; [apply Rinv_0_lt_compat, Rmult_lt_0_compat; lra|].
    intro x. rewrite <- (dot3_vcross f0 f1 f2 x). fold n0. unfold pscale. cbn [dot]. field. split; [exact Cb|lra].
  - eexists; split; [reflexivity|]. split.
    + rewrite <- (U 1) by ring. unfold pscale. cbn [dot]. ring.
    + assert (triple f0 f1 f2 cb < 0) by (apply Rnot_lt_le in L; destruct (Rle_lt_or_eq_dec _ _ L); lra).
      exists (/ (norm 3 n0 * (- triple f0 f1 f2 cb))). split; [apply Rinv_0_lt_compat, Rmult_lt_0_compat; lra|].
      intro x. rewrite <- (dot3_vcross f0 f1 f2 x). fold n0. unfold pscale. cbn [dot]. field. split; [exact Cb|lra].
Qed.
Lemma normal3_cell pts fpts cb fb f0 f1 f2 : barycenter pts = Ok cb -> barycenter fpts = Ok fb ->
  (forall x, In x fpts -> triple f0 f1 f2 x = 0) ->
  ((forall x, In x pts -> 0 <= triple f0 f1 f2 x) \/ (forall x, In x pts -> triple f0 f1 f2 x <= 0)) ->
  (exists x, In x pts /\ triple f0 f1 f2 x <> 0) ->
  exists n, normal3 cb fb f0 f1 f2 = Some n /\ dot 3 n n = 1 /\ (forall x, In x fpts -> dot 3 n (psubt x f0) = 0) /\
    (forall x, In x pts -> dot 3 n (psubt x f0) <= 0) /\ (forall x, In x pts -> dot 3 n (psubt x f0) = 0 -> triple f0 f1 f2 x = 0).
Proof.
  intros B Fb HF HS X.
  assert (Z : triple f0 f1 f2 fb = 0).
  { rewrite (triple_mean fpts) by exact Fb. replace (sumR _) with 0; [unfold Rdiv; ring|]. clear Fb. induction fpts as [|x l IH]; [reflexivity|].
    cbn [map sumR]. rewrite HF by now left. rewrite <- IH; [ring|]. intros; apply HF; now right. }
  set (T := triple f0 f1 f2) in *.
  assert (S : (0 < T cb /\ forall x, In x pts -> 0 <= T x) \/ (T cb < 0 /\ forall x, In x pts -> T x <= 0)).
  { unfold T. rewrite (triple_mean pts) by exact B. fold T. destruct HS as [H|H]; [left|right]; (split; [|exact H]).
    - now apply mean_pos.
    - apply Ropp_lt_cancel. rewrite Ropp_0. replace (- (sumR (map T pts) / INR (length pts))) with (sumR (map (fun x => -1 * T x) pts) / INR (length pts)) by (rewrite sumR_scal; unfold Rdiv; ring).
      apply mean_pos; [intros x I; pose proof (H x I); lra|]. destruct X as (x & I & N). exists x; split; [exact I|lra]. }
  destruct (normal3_face cb fb f0 f1 f2 Z) as (n & E & U & k & K & V); [fold T; lra|]. fold T in V.
  exists n. repeat split; auto.
  - intros x I. rewrite V. rewrite (HF x I). ring.
  - intros x I. rewrite V. destruct S as [[P Q]|[P Q]]; specialize (Q x I).
    + pose proof (Rmult_le_pos _ _ (Rlt_le _ _ (Rmult_lt_0_compat _ _ K P)) Q). lra.
    + assert (0 <= k * (- T cb) * (- T x)) by (apply Rmult_le_pos; [apply Rmult_le_pos|]; lra). lra.
  - intros x I H. rewrite V in H. apply Rmult_integral in H. destruct H as [H|H]; [|exact H]. exfalso. apply Rmult_integral in H. lra.
Qed.

(** ** is_convex *)
Lemma is_convex_of_convex pts : convex_polygon pts -> is_convex pts = true.
Proof.
  intros [L C]. unfold is_convex. destruct (Nat.eqb (length pts) 3); [reflexivity|]. apply forallb_forall. intros i Hi. apply in_seq in Hi. cbv zeta.
  assert (I1 : In (cyc pts i, cyc pts (i + 1)) (edges pts)).
  { unfold cyc at 1. rewrite Nat.mod_small by lia. rewrite <- (edges_nth pts ((fun _ => 0), (fun _ => 0))) by lia. apply nth_In. rewrite edges_length. lia. }
  assert (I2 : In (cyc pts (i + 2)) pts) by (unfold cyc; apply nth_In, Nat.mod_upper_bound; lia).
  destruct (C _ _ I1) as [_ Cv]. specialize (Cv _ I2).
  destruct (Rlt_dec _ 0) as [N|]; [|reflexivity]. exfalso. revert N Cv. generalize (cyc pts i) (cyc pts (i + 1)) (cyc pts (i + 2)). intros a b c. unfold cross2, psubt. lra.
Qed.
Lemma is_convex_quad a b c d : is_convex [a; b; c; d] = true <-> convex_ccw a b c d.
Proof.
  unfold is_convex, convex_ccw, cyc, cross2, psubt. cbn.
  repeat match goal with |- context [Rlt_dec ?x 0] => destruct (Rlt_dec x 0) end; cbn; split; try discriminate; try reflexivity; intros; try lra; try (repeat split; lra).
Qed.

(** ** diameter *)
Lemma fold_max_ge (g : pt -> R) l : forall d, d <= fold_left (fun d q => max_with d (g q)) l d /\ forall q, In q l -> g q <= fold_left (fun d q => max_with d (g q)) l d.
Proof.
  induction l as [|q l IH]; intro d; cbn [fold_left]; [split; [lra|intros q []]|]. destruct (IH (max_with d (g q))) as [A B]. unfold max_with in *.
  pose proof (Rmax_l (g q) d). pose proof (Rmax_r (g q) d). split; [lra|]. intros x [->|I]; [lra|auto].
Qed.
Lemma fold_max_att (g : pt -> R) l : forall d, fold_left (fun d q => max_with d (g q)) l d = d \/ exists q, In q l /\ fold_left (fun d q => max_with d (g q)) l d = g q.
Proof.
  induction l as [|q l IH]; intro d; cbn [fold_left]; [auto|]. destruct (IH (max_with d (g q))) as [E|(x & I & E)].
  - rewrite E. assert (M : max_with d (g q) = d \/ max_with d (g q) = g q) by (unfold max_with, Rmax; destruct (Rle_dec (g q) d); auto).
    destruct M as [M|M]; [left; exact M|right; exists q; split; [now left|exact M]].
  - right. exists x. split; [now right|exact E].
Qed.
Lemma diameter_from_ge D pts : forall d, d <= diameter_from D pts d /\
  forall s p t q, pts = s ++ p :: t -> In q t -> norm D (psubt p q) <= diameter_from D pts d.
Proof.
  induction pts as [|x l IH]; intro d; cbn [diameter_from].
  - split; [lra|]. intros [|y s] p t q E; discriminate.
  - destruct (fold_max_ge (fun q => norm D (psubt x q)) l d) as [A B]. destruct (IH (fold_left (fun d q => max_with d (norm D (psubt x q))) l d)) as [A' B'].
    split; [lra|]. intros [|y s] p t q E I.
    + injection E as E1 E2. subst. pose proof (B q I). lra.
    + injection E as E1 E2. now apply (B' s p t q).
Qed.
Lemma diameter_from_att D pts : forall d, diameter_from D pts d = d \/ exists p q, In p pts /\ In q pts /\ diameter_from D pts d = norm D (psubt p q).
Proof.
  induction pts as [|x l IH]; intro d; cbn [diameter_from]; [auto|].
  destruct (IH (fold_left (fun d q => max_with d (norm D (psubt x q))) l d)) as [E|(p & q & Ip & Iq & E)].
  - rewrite E. destruct (fold_max_att (fun q => norm D (psubt x q)) l d) as [E'|(q & I & E')]; [left; exact E'|].
    right. exists x, q. repeat split; [now left|now right|exact E'].
  - right. exists p, q. repeat split; [now right|now right|exact E].
Qed.
Lemma norm_psubt_sym D p q : norm D (psubt p q) = norm D (psubt q p).
Proof. unfold norm. f_equal. unfold psubt. induction D as [|D IH]; cbn [dot]; [reflexivity|]. rewrite IH. ring. Qed.
Lemma norm_psubt_refl D p : norm D (psubt p p) = 0.
Proof. unfold norm. replace (dot D _ _) with 0; [apply sqrt_0|]. unfold psubt. induction D as [|D IH]; cbn [dot]; [reflexivity|]. rewrite <- IH. ring. Qed.
Lemma diameter_max D pts : (forall p q, In p pts -> In q pts -> norm D (psubt p q) <= diameter D pts) /\
  (pts <> [] -> exists p q, In p pts /\ In q pts /\ diameter D pts = norm D (psubt p q)).
Proof.
  unfold diameter. destruct (diameter_from_ge D pts 0) as [A B]. split.
  - intros p q Ip Iq. apply in_split in Ip. destruct Ip as (s & t & E). rewrite E in Iq. apply in_app_or in Iq. destruct Iq as [Iq|[->|Iq]].
    + apply in_split in Iq. destruct Iq as (s1 & s2 & ->). rewrite norm_psubt_sym. apply (B s1 q (s2 ++ p :: t) p).
      * rewrite E, <- app_assoc. reflexivity.
      * apply in_or_app. right. now left.
    + rewrite norm_psubt_refl. exact A.
    + now apply (B s p t q).
  - intro N. destruct (diameter_from_att D pts 0) as [E|H]; [|exact H]. destruct pts as [|p l]; [congruence|]. exists p, p. rewrite norm_psubt_refl. cbn [In]. auto.
Qed.
Lemma fold_rmax_ge (g : pt -> R) l : forall d, d <= fold_left (fun d q => Rmax d (g q)) l d /\ forall q, In q l -> g q <= fold_left (fun d q => Rmax d (g q)) l d.
Proof.
  induction l as [|q l IH]; intro d; cbn [fold_left]; [split; [lra|intros q []]|]. destruct (IH (Rmax d (g q))) as [A B].
  pose proof (Rmax_l d (g q)). pose proof (Rmax_r d (g q)). split; [lra|]. intros x [->|I]; [lra|auto].
Qed.
Lemma fold_rmax_att (g : pt -> R) l : forall d, fold_left (fun d q => Rmax d (g q)) l d = d \/ exists q, In q l /\ fold_left (fun d q => Rmax d (g q)) l d = g q.
Proof.
  induction l as [|q l IH]; intro d; cbn [fold_left]; [auto|]. destruct (IH (Rmax d (g q))) as [E|(x & I & E)].
  - rewrite E. assert (M : Rmax d (g q) = d \/ Rmax d (g q) = g q) by (unfold Rmax; destruct (Rle_dec d (g q)); auto).
    destruct M as [M|M]; [left; exact M|right; exists q; split; [now left|exact M]].
  - right. exists x. split; [now right|exact E].
Qed.
Lemma diameters_from_ge k pts : forall d, d <= diameters_from pts k d /\
  forall s p t q, pts = s ++ p :: t -> In q t -> Rabs (p k - q k) <= diameters_from pts k d.
Proof.
  induction pts as [|x l IH]; intro d; cbn [diameters_from].
  - split; [lra|]. intros [|y s] p t q E; discriminate.
  - destruct (fold_rmax_ge (fun q => Rabs (x k - q k)) l d) as [A B]. destruct (IH (fold_left (fun d q => Rmax d (Rabs (x k - q k))) l d)) as [A' B'].
    cbv beta in A, B. split; [exact (Rle_trans _ _ _ A A')|]. intros [|y s] p t q E I.
    + injection E as E1 E2. subst. exact (Rle_trans _ _ _ (B q I) A').
    + injection E as E1 E2. now apply (B' s p t q).
Qed.
Lemma diameters_from_att k pts : forall d, diameters_from pts k d = d \/ exists p q, In p pts /\ In q pts /\ diameters_from pts k d = Rabs (p k - q k).
Proof.
  induction pts as [|x l IH]; intro d; cbn [diameters_from]; [auto|].
  destruct (IH (fold_left (fun d q => Rmax d (Rabs (x k - q k))) l d)) as [E|(p & q & Ip & Iq & E)].
  - rewrite E. destruct (fold_rmax_att (fun q => Rabs (x k - q k)) l d) as [E'|(q & I & E')]; [left; exact E'|].
    right. exists x, q. repeat split; [now left|now right|exact E'].
  - right. exists p, q. repeat split; [now right|now right|exact E].
Qed.
Lemma diameters_max k pts : (forall p q, In p pts -> In q pts -> Rabs (p k - q k) <= diameters pts k) /\
  (pts <> [] -> exists p q, In p pts /\ In q pts /\ diameters pts k = Rabs (p k - q k)).
Proof.
  unfold diameters. destruct (diameters_from_ge k pts 0) as [A B]. split.
  - intros p q Ip Iq. apply in_split in Ip. destruct Ip as (s & t & E). rewrite E in Iq. apply in_app_or in Iq. destruct Iq as [Iq|[->|Iq]].
    + apply in_split in Iq. destruct Iq as (s1 & s2 & ->). rewrite Rabs_minus_sym. apply (B s1 q (s2 ++ p :: t) p).
      * rewrite E, <- app_assoc. reflexivity.
      * apply in_or_app. right. now left.
    + rewrite Rminus_diag_eq, Rabs_R0 by reflexivity. exact A.
    + now apply (B s p t q).
  - intro N. destruct (diameters_from_att k pts 0) as [E|H]; [|exact H]. destruct pts as [|p l]; [congruence|]. exists p, p.
    rewrite Rminus_diag_eq, Rabs_R0 by reflexivity. cbn [In]. auto.
Qed.

(** bounding box *)
Lemma fold_rmin_le (g : pt -> R) l : forall d, fold_left (fun d q => Rmin d (g q)) l d <= d /\ forall q, In q l -> fold_left (fun d q => Rmin d (g q)) l d <= g q.
Proof.
  induction l as [|q l IH]; intro d; cbn [fold_left]; [split; [lra|intros q []]|]. destruct (IH (Rmin d (g q))) as [A B].
  pose proof (Rmin_l d (g q)). pose proof (Rmin_r d (g q)). split; [lra|]. intros x [->|I]; [lra|auto].
Qed.
Lemma fold_rmin_att (g : pt -> R) l : forall d, fold_left (fun d q => Rmin d (g q)) l d = d \/ exists q, In q l /\ fold_left (fun d q => Rmin d (g q)) l d = g q.
Proof.
  induction l as [|q l IH]; intro d; cbn [fold_left]; [auto|]. destruct (IH (Rmin d (g q))) as [E|(x & I & E)].
  - rewrite E. assert (M : Rmin d (g q) = d \/ Rmin d (g q) = g q) by (unfold Rmin; destruct (Rle_dec d (g q)); auto).
    destruct M as [M|M]; [left; exact M|right; exists q; split; [now left|exact M]].
  - right. exists x. split; [now right|exact E].
Qed.
Lemma fold_ext {A B} (f g : A -> B -> A) l : (forall a b, f a b = g a b) -> forall a, fold_left f l a = fold_left g l a.
Proof. intro H. induction l as [|x l IH]; intro a; cbn [fold_left]; [reflexivity|]. now rewrite H, IH. Qed.
Lemma box_extrema (p : pt) t k : exists lo hi, fold_left (fun m q => Rmin m (q k)) t (p k) = lo /\ fold_left (fun m q => Rmax m (q k)) t (p k) = hi /\
  (forall q, In q (p :: t) -> lo <= q k <= hi) /\ (exists q, In q (p :: t) /\ q k = lo) /\ (exists q, In q (p :: t) /\ q k = hi).
Proof.
  destruct (fold_rmin_le (fun q => q k) t (p k)) as [A B]. destruct (fold_rmax_ge (fun q => q k) t (p k)) as [A' B'].
  eexists; eexists; split; [reflexivity|]; split; [reflexivity|]. repeat split.
  - destruct H as [->|H]; [exact A|auto].
  - destruct H as [->|H]; [exact A'|auto].
  - destruct (fold_rmin_att (fun q => q k) t (p k)) as [E|(q & I & E)]; [exists p; split; [now left|now symmetry]|exists q; split; [now right|now symmetry]].
  - destruct (fold_rmax_att (fun q => q k) t (p k)) as [E|(q & I & E)]; [exists p; split; [now left|now symmetry]|exists q; split; [now right|now symmetry]].
Qed.

(** ** local axes *)
Lemma axes3_spec p0 p1 p2 p3 : ~ coplanar p0 p1 p2 p3 -> exists v0 v1 v2, element_local_axes3 p0 p1 p2 p3 = Some (v0, v1, v2) /\
  dot 3 v0 v1 = 0 /\ dot 3 v0 v2 = 0 /\ dot 3 v1 v2 = 0 /\
  dot 3 v0 (vcross v1 v2) = triple p0 p1 p2 p3.
Proof.
  intro N.
  assert (T : triple p0 p1 p2 p3 <> 0) by (intro H; apply N, triple_coplanar, H).
  unfold element_local_axes3. cbv zeta.
  set (u := psubt p1 p0). set (v := psubt p2 p0). set (w := psubt p3 p0).
  assert (TE : triple p0 p1 p2 p3 = dot 3 u (vcross v w)) by (unfold triple, u, v, w, vcross, psubt; cbn [dot pt3]; ring).
  destruct (Req_EM_T (dot 3 u u) 0) as [Z|NZ].
  { exfalso. apply T. rewrite TE. cbn [dot] in Z |- *. assert (K : u 0%nat ^ 2 + u 1%nat ^ 2 + u 2%nat ^ 2 = 0) by lra.
    apply sumsq3 in K. destruct K as (K0 & K1 & K2). rewrite K0, K1, K2. ring. }
  set (v1 := psubt v (pscale (dot 3 v u / dot 3 u u) u)).
  assert (O1 : dot 3 u v1 = 0) by (unfold v1, psubt, pscale; clear v1; cbn [dot] in NZ |- *; field; intro K; apply NZ; lra).
  assert (TE1 : triple p0 p1 p2 p3 = dot 3 u (vcross v1 w)).
  { rewrite TE. unfold v1, vcross, psubt, pscale. set (kk := dot 3 v u / dot 3 u u). cbn [dot pt3]. ring. }
  destruct (Req_EM_T (dot 3 v1 v1) 0) as [Z|NZ1].
  { exfalso. apply T. rewrite TE1. unfold vcross. cbn [dot pt3] in Z |- *. assert (K : v1 0%nat ^ 2 + v1 1%nat ^ 2 + v1 2%nat ^ 2 = 0) by lra.
    apply sumsq3 in K. destruct K as (K0 & K1 & K2). rewrite K0, K1, K2. ring. }
  eexists; eexists; eexists; split; [reflexivity|]. clearbody v1. repeat split.
  - exact O1.
  - set (k1 := dot 3 w v1 / dot 3 v1 v1).
    transitivity (dot 3 u w - dot 3 w u / dot 3 u u * dot 3 u u - k1 * dot 3 u v1); [cbn [dot]; unfold psubt, pscale; ring|]. rewrite O1.
    replace (dot 3 w u / dot 3 u u * dot 3 u u) with (dot 3 w u) by (field; exact NZ). cbn [dot]. ring.
  - set (k0 := dot 3 w u / dot 3 u u).
    transitivity (dot 3 v1 w - k0 * dot 3 u v1 - dot 3 w v1 / dot 3 v1 v1 * dot 3 v1 v1); [cbn [dot]; unfold psubt, pscale; ring|]. rewrite O1.
    replace (dot 3 w v1 / dot 3 v1 v1 * dot 3 v1 v1) with (dot 3 w v1) by (field; exact NZ1). cbn [dot]. ring.
  - rewrite TE1. unfold vcross, psubt, pscale. set (k0 := dot 3 w u / dot 3 u u). set (k1 := dot 3 w v1 / dot 3 v1 v1). cbn [dot pt3]. ring.
Qed.
