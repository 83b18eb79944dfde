From Coq Require Import Reals List Lia Lra Permutation ZArith.
From Verif Require Import Common Poly_Spec Poly_Proofs Quad_Model Quad_Spec Quad_Proofs Geo_Spec Geo_Model Geo_Proofs Geo2_Proofs.
Import ListNotations.
Open Scope R_scope.

(** ** permutations of three and four elements *)
Lemma perm3_inv {A} (a b c x y z : A) : Permutation [a; b; c] [x; y; z] ->
  [x; y; z] = [a; b; c] \/ [x; y; z] = [a; c; b] \/ [x; y; z] = [b; a; c] \/ [x; y; z] = [b; c; a] \/ [x; y; z] = [c; a; b] \/ [x; y; z] = [c; b; a].
Proof.
  intro P. assert (I : In x [a; b; c]) by (apply Permutation_in with [x; y; z]; [symmetry; exact P|now left]).
  destruct I as [->|[->|[->|[]]]].
  - apply Permutation_cons_inv, Permutation_length_2_inv in P. destruct P as [E|E]; injection E; intros; subst; auto 10.
  - assert (P' : Permutation [x; a; c] [x; y; z]) by (rewrite <- P; apply perm_swap).
    apply Permutation_cons_inv, Permutation_length_2_inv in P'. destruct P' as [E|E]; injection E; intros; subst; auto 10.
  - assert (P' : Permutation [x; a; b] [x; y; z]) by (rewrite <- P; rewrite perm_swap; apply perm_skip, perm_swap).
    apply Permutation_cons_inv, Permutation_length_2_inv in P'. destruct P' as [E|E]; injection E; intros; subst; auto 10.
Qed.
Lemma perm4_sym {A B} (F : A -> A -> A -> A -> B) :
  (forall a b c d, F a b c d = F b a c d) -> (forall a b c d, F a b c d = F a c b d) -> (forall a b c d, F a b c d = F a b d c) ->
  forall a b c d x y z w, Permutation [a; b; c; d] [x; y; z; w] -> F a b c d = F x y z w.
Proof.
  intros S1 S2 S3.
  assert (G : forall a b c d y z w, Permutation [b; c; d] [y; z; w] -> F a b c d = F a y z w).
  { intros a b c d y z w P. apply perm3_inv in P.
    repeat (destruct P as [P|P]; [injection P; intros; subst; clear P|]); [| | | | |injection P; intros; subst; clear P].
    - reflexivity.
    - apply S3.
    - apply S2.
    - now rewrite S2, S3.
    - now rewrite S3, S2.
    - now rewrite S2, S3, S2. }
  intros a b c d x y z w P. assert (I : In x [a; b; c; d]) by (apply Permutation_in with [x; y; z; w]; [symmetry; exact P|now left]).
  destruct I as [->|[->|[->|[->|[]]]]].
  - apply Permutation_cons_inv in P. now apply G.
  - rewrite S1. apply G. apply Permutation_cons_inv with x. rewrite <- P. apply perm_swap.
  - rewrite S2, S1. apply G. apply Permutation_cons_inv with x. rewrite <- P. rewrite perm_swap. apply perm_skip, perm_swap.
  - rewrite S3, S2, S1. apply G. apply Permutation_cons_inv with x. rewrite <- P. rewrite perm_swap. apply perm_skip. rewrite perm_swap. apply perm_skip, perm_swap.
Qed.
Lemma perm3_sym {A B} (F : A -> A -> A -> B) :
  (forall a b c, F a b c = F b a c) -> (forall a b c, F a b c = F a c b) ->
  forall a b c x y z, Permutation [a; b; c] [x; y; z] -> F a b c = F x y z.
Proof.
  intros S1 S2 a b c x y z P. apply perm3_inv in P.
  repeat (destruct P as [P|P]; [injection P; intros; subst; clear P|]); [| | | | |injection P; intros; subst; clear P].
  - reflexivity.
  - apply S2.
  - apply S1.
  - now rewrite S1, S2.
  - now rewrite S2, S1.
  - now rewrite S1, S2, S1.
Qed.

(** ** integrals of affine functions *)
Lemma int_simplex2_affine A B C : is_int_simplex 2 1 (fun z => A + B * z 0%nat + C * z 1%nat) (A / 2 + B / 6 + C / 6).
Proof.
  pose proof (is_int_simplex_scal 2 1 A _ _ (is_int_simplex_mono [0; 0]%nat 1)) as H0.
  pose proof (is_int_simplex_scal 2 1 B _ _ (is_int_simplex_mono [1; 0]%nat 1)) as H1.
  pose proof (is_int_simplex_scal 2 1 C _ _ (is_int_simplex_mono [0; 1]%nat 1)) as H2.
  pose proof (is_int_simplex_plus 2 1 _ _ _ _ (is_int_simplex_plus 2 1 _ _ _ _ H0 H1) H2) as H.
  replace (A / 2 + B / 6 + C / 6) with (A * smoment (length [0; 0]%nat) [0; 0]%nat 1 + B * smoment (length [1; 0]%nat) [1; 0]%nat 1 + C * smoment (length [0; 1]%nat) [0; 1]%nat 1)
    by (unfold smoment; cbn; field).
  refine (is_int_simplex_ext 2 1 _ _ _ _ H). intro x. unfold mono. cbn. ring.
Qed.
Lemma int_simplex3_const A : is_int_simplex 3 1 (fun z => A) (A / 6).
Proof.
  pose proof (is_int_simplex_scal 3 1 A _ _ (is_int_simplex_mono [0; 0; 0]%nat 1)) as H.
  replace (A / 6) with (A * smoment (length [0; 0; 0]%nat) [0; 0; 0]%nat 1) by (unfold smoment; cbn; field).
  refine (is_int_simplex_ext 3 1 _ _ _ _ H). intro x. unfold mono. cbn. ring.
Qed.
Lemma int_triangle_affine a b c al be ga I : is_int_triangle a b c (aff al be ga) I <->
  I = Rabs (cross2 a b c) / 6 * (aff al be ga a + aff al be ga b + aff al be ga c).
Proof.
  assert (H : is_int_simplex 2 1 (fun z => aff al be ga (fun i => a i + z 0%nat * (b i - a i) + z 1%nat * (c i - a i)))
    ((aff al be ga a + aff al be ga b + aff al be ga c) / 6)).
  { replace ((aff al be ga a + aff al be ga b + aff al be ga c) / 6) with
      (aff al be ga a / 2 + (aff al be ga b - aff al be ga a) / 6 + (aff al be ga c - aff al be ga a) / 6) by field.
    refine (is_int_simplex_ext 2 1 _ _ _ _ (int_simplex2_affine _ _ _)). intro x. unfold aff. ring. }
  split.
  - intros (J & HJ & ->). rewrite (is_int_simplex_unique 2 1 _ _ _ HJ H). field.
  - intros ->. eexists; split; [exact H|]. field.
Qed.
Lemma is_int_triangle_ext a b c f g I : (forall x, f x = g x) -> is_int_triangle a b c f I -> is_int_triangle a b c g I.
Proof. intros E (J & H & ->). exists J. split; [|reflexivity]. refine (is_int_simplex_ext 2 1 _ _ _ _ H). intro x. apply E. Qed.
Lemma is_int_triangles_affine al be ga l I : (forall a b c, In (a, b, c) l -> 0 <= cross2 a b c) ->
  is_int_triangles l (aff al be ga) I <-> I = sumR (map (tmom al be ga) l) / 6.
Proof.
  revert I. induction l as [|[[a b] c] l IH]; intros I P; cbn [is_int_triangles map sumR].
  - split; intros ->; field.
  - assert (P' := P a b c (or_introl eq_refl)).
    assert (IH' := fun I => IH I (fun x y z H => P x y z (or_intror H))). split.
    + intros (I1 & I2 & H1 & H2 & ->). apply int_triangle_affine in H1. apply IH' in H2. rewrite H1, H2, (Rabs_pos_eq _ P'). unfold tmom. field.
    + intros ->. eexists; eexists; repeat split; [apply int_triangle_affine; reflexivity|apply IH'; reflexivity|].
      rewrite (Rabs_pos_eq _ P'). unfold tmom. field.
Qed.
Lemma is_int_triangles_ext l f g I : (forall x, f x = g x) -> is_int_triangles l f I -> is_int_triangles l g I.
Proof.
  intro E. revert I. induction l as [|[[a b] c] l IH]; intros I; [auto|]. intros (I1 & I2 & H1 & H2 & ->). exists I1, I2. repeat split; auto.
  eapply is_int_triangle_ext; eauto.
Qed.
Lemma int_triangles_one pts I : convex_polygon pts -> is_int_triangles (fan pts) (fun _ => 1) I <-> I = signed_area pts.
Proof.
  intro C. assert (E := is_int_triangles_affine 0 0 1 (fan pts) I (fun a b c H => fan_cross_nonneg pts a b c C H)).
  rewrite <- signed_area_fan in E. replace (6 * signed_area pts / 6) with (signed_area pts) in E by field. rewrite <- E.
  split; apply is_int_triangles_ext; intro x; unfold aff; ring.
Qed.
Lemma int_triangles_coord pts k I : convex_polygon pts -> (k < 2)%nat -> 0 < signed_area pts -> exists c, polygon_barycenter pts = Some c /\
  (is_int_triangles (fan pts) (fun x => x k) I <-> I = signed_area pts * c k).
Proof.
  intros C K A. destruct (polygon_bary pts) as (c & E & M); [lra|]. exists c. split; [exact E|].
  assert (G : exists al be, forall x, x k = aff al be 0 x).
  { unfold aff. destruct k as [|[|k]]; [exists 1, 0|exists 0, 1|lia]; intro x; ring. }
  destruct G as (al & be & G).
  assert (F := is_int_triangles_affine al be 0 (fan pts) I (fun a b c H => fan_cross_nonneg pts a b c C H)).
  rewrite <- M, <- G in F. replace (6 * signed_area pts * c k / 6) with (signed_area pts * c k) in F by field. rewrite <- F.
  split; apply is_int_triangles_ext; intro x; [|symmetry]; apply G.
Qed.

(** ** translations *)
Lemma edges_map f pts : edges (map f pts) = map (fun e => (f (fst e), f (snd e))) (edges pts).
Proof.
  destruct pts as [|p t]; [reflexivity|]. cbn [map edges]. change [f p] with (map f [p]). rewrite <- map_app. change (f p :: map f t) with (map f (p :: t)).
  generalize (p :: t) (t ++ [p]). induction l as [|a l IH]; intros [|b l']; cbn [map combine]; auto. cbn [fst snd]. f_equal. apply IH.
Qed.
Lemma cross2_shift v a b c : cross2 (shift v a) (shift v b) (shift v c) = cross2 a b c.
Proof. unfold cross2, shift, padd. ring. Qed.
Lemma fan_map f pts : fan (map f pts) = map (fun t => let '(a, b, c) := t in (f a, f b, f c)) (fan pts).
Proof.
  destruct pts as [|p t]; [reflexivity|]. cbn [map fan]. induction t as [|a t IH]; [reflexivity|]. destruct t as [|b t]; [reflexivity|].
  cbn [map] in *. cbn [fan_from]. cbn [fan_from] in IH. cbn [map]. f_equal. exact IH.
Qed.
Lemma signed_area_shift v pts : signed_area (map (shift v) pts) = signed_area pts.
Proof.
  apply (Rmult_eq_reg_l 6); [|lra]. rewrite !signed_area_fan, fan_map, map_map. f_equal. apply map_ext. intros [[a b] c]. unfold tmom, aff. rewrite cross2_shift. ring.
Qed.
Lemma polygon_bary_shift v pts : signed_area pts <> 0 -> exists c c', polygon_barycenter pts = Some c /\ polygon_barycenter (map (shift v) pts) = Some c' /\
  forall k, (k < 2)%nat -> c' k = c k + v k.
Proof.
  intro H. destruct (polygon_bary pts H) as (c & E & M). destruct (polygon_bary (map (shift v) pts)) as (c' & E' & M'); [now rewrite signed_area_shift|].
  exists c, c'. repeat split; auto. intros k K. rewrite signed_area_shift in M'.
  assert (G : exists al be, forall x, x k = aff al be 0 x).
  { unfold aff. destruct k as [|[|k]]; [exists 1, 0|exists 0, 1|lia]; intro x; ring. }
  destruct G as (al & be & G). specialize (M' al be 0). specialize (M al be (v k)). apply (Rmult_eq_reg_l (6 * signed_area pts)); [|lra].
  rewrite (G c'), M'. replace (c k + v k) with (aff al be (v k) c) by (rewrite (G c); unfold aff; ring). rewrite M, fan_map, map_map.
  f_equal. apply map_ext. intros [[x y] z]. unfold tmom. rewrite cross2_shift. rewrite <- !G. unfold shift, padd.
  f_equal. pose proof (G x). pose proof (G y). pose proof (G z). unfold aff in *. lra.
Qed.

(** ** triangulation from the vertex average *)
Lemma center_mean pts k : polygon_center pts k = sumR (map (fun q => q k) pts) / INR (length pts).
Proof. unfold polygon_center, pscale. rewrite fold_padd. unfold Rdiv. ring. Qed.
Lemma cross2_center pts e f : pts <> [] -> cross2 e f (polygon_center pts) = sumR (map (cross2 e f) pts) / INR (length pts).
Proof.
  intro N. assert (L : INR (length pts) <> 0) by (apply not_0_INR; destruct pts; [congruence|discriminate]).
  unfold cross2 at 1. rewrite !center_mean.
  assert (S : forall l, sumR (map (cross2 e f) l) = (f 0%nat - e 0%nat) * (sumR (map (fun q => q 1%nat) l) - INR (length l) * e 1%nat) - (f 1%nat - e 1%nat) * (sumR (map (fun q => q 0%nat) l) - INR (length l) * e 0%nat)).
  { induction l as [|x l IH]; [cbn [map sumR length]; cbn; ring|]. cbn [map sumR length]. rewrite IH, S_INR. unfold cross2. ring. }
  rewrite S. field. exact L.
Qed.
Lemma center_left pts e f : convex_polygon pts -> In (e, f) (edges pts) -> 0 <= cross2 e f (polygon_center pts).
Proof.
  intros C I. destruct C as [L C]. destruct (C e f I) as [_ Cv].
  rewrite cross2_center by (intros ->; cbn in L; lia). apply div_nonneg; [apply sumR_nonneg; exact Cv|apply lt_0_INR; lia].
Qed.
Lemma triangulate_edges pts : triangulate_convex_polygon pts = map (fun e => (fst e, snd e, polygon_center pts)) (edges pts).
Proof. unfold triangulate_convex_polygon. rewrite <- (edges_seq pts), map_map. reflexivity. Qed.
Lemma hmom_shift_origin al be ga c pts : sumR (map (fun e => tmom al be ga (fst e, snd e, c)) (edges pts)) =
  sumR (map (fun e => hmom al be ga (fst e) (snd e)) (edges pts)).
Proof.
  assert (T : forall l z, l <> [] -> sumR (map (fun e => hmom al be ga (snd e) c + hmom al be ga c (fst e)) (combine l (tl l ++ [z]))) =
      hmom al be ga z c + hmom al be ga c (hd z l)).
  { induction l as [|x l IH]; [congruence|]. intros z _. destruct l as [|y l].
    - cbn [tl app combine map sumR hd fst snd]. ring.
    - specialize (IH z ltac:(congruence)). cbn [tl app] in IH |- *.
      change (combine (x :: y :: l) (y :: l ++ [z])) with ((x, y) :: combine (y :: l) (l ++ [z])). cbn [map sumR hd fst snd]. rewrite IH. cbn [hd].
      unfold hmom, edge_det. ring. }
  destruct pts as [|p t]; [reflexivity|]. specialize (T (p :: t) p ltac:(congruence)). cbn [tl hd] in T. unfold edges.
  transitivity (sumR (map (fun e => hmom al be ga (fst e) (snd e) + (hmom al be ga (snd e) c + hmom al be ga c (fst e))) (combine (p :: t) (t ++ [p])))).
  { f_equal. apply map_ext. intros [a b]. cbn [fst snd]. unfold tmom, hmom, edge_det, cross2, aff. ring. }
  rewrite sumR_plus, T. unfold hmom, edge_det. ring.
Qed.
