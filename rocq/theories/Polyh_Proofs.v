(** Proofs for C188-C191. *)
From Coq Require Import Reals List Arith Lra Lia Permutation.
From Verif Require Import Common Poly_Spec Poly_Proofs Quad_Model Quad_Spec Geo_Spec Geo_Model Geo_Proofs Geo2_Proofs Geo3_Proofs Geo4_Proofs
  Shape_Spec Shape_Proofs Shape_Properties GM_Model Geo_Properties GM_Properties Polyh_Model Polyh_Spec.
Import ListNotations.
Local Open Scope R_scope.

(** ** sums *)
Lemma sumR_ext_in {A} (f g : A -> R) l : (forall x, In x l -> f x = g x) -> sumR (map f l) = sumR (map g l).
Proof. intros H. f_equal. now apply map_ext_in. Qed.
Lemma sumR_le {A} (f g : A -> R) l : (forall x, In x l -> f x <= g x) -> sumR (map f l) <= sumR (map g l).
Proof. intros H. induction l as [|x l IH]; cbn; [lra|]. pose proof (H x (or_introl eq_refl)). assert (sumR (map f l) <= sumR (map g l)) by (apply IH; intros; apply H; now right). lra. Qed.

(** ** splitting *)
Definition cone (bar : pt) (t : pt * pt * pt) : tetra := let '(a, b, c) := t in (bar, a, b, c).
Lemma fold_split bar : forall faces acc L, (forall f, In f faces -> exists l, split_in_raw_triangles f = Ok l) ->
  acc = Ok L -> exists ls, Forall2 (fun f l => split_in_raw_triangles f = Ok l) faces ls /\
  fold_left (fun acc fc => do raw_simplices <- acc; do tris <- split_in_raw_triangles fc;
    Ok (raw_simplices ++ map (fun t => let '(a, b, c) := t in (bar, a, b, c)) tris)) faces acc = Ok (L ++ map (cone bar) (concat ls)).
Proof.
  induction faces as [|f faces IH]; intros acc L H ->.
  - exists []. split; [constructor|]. cbn. now rewrite app_nil_r.
  - destruct (H f (or_introl eq_refl)) as (l & E).
    destruct (IH (Ok (L ++ map (cone bar) l)) (L ++ map (cone bar) l)) as (ls & F & G); [intros; apply H; now right|reflexivity|].
    exists (l :: ls). split; [now constructor|]. cbn [fold_left bind concat]. rewrite E. cbn [bind].
    etransitivity; [exact G|]. now rewrite map_app, app_assoc.
Qed.
Lemma split_tets pts faces : pts <> [] -> length pts <> 4%nat -> (forall f, In f faces -> (3 <= length f)%nat) ->
  exists bar ls, barycenter pts = Ok bar /\ Forall2 (fun f l => split_in_raw_triangles f = Ok l) faces ls /\
  split_in_raw_tetrahedra pts faces = Ok (map (cone bar) (concat ls)).
Proof.
  intros N L4 H. destruct (barycenter_mean pts N) as (bar & E & _).
  destruct (fold_split bar faces (Ok []) []) as (ls & F & G); [intros f If; now apply split_ok, H|reflexivity|].
  exists bar, ls. split; [exact E|]. split; [exact F|]. unfold split_in_raw_tetrahedra.
  destruct (Nat.eqb_spec (length pts) 4); [congruence|]. rewrite E. cbn [bind]. rewrite G. reflexivity.
Qed.
Lemma measure_sum l : forall v, fold_left (fun vol (rs : tetra) => let '(a, b, c, d) := rs in vol + volume_tetrahedron_kahan a b c d) l v =
  v + sumR (map (fun rs : tetra => let '(a, b, c, d) := rs in volume_tetrahedron_kahan a b c d) l).
Proof. induction l as [|[[[a b] c] d] l IH]; intros v; cbn [fold_left map sumR]; [ring|]. rewrite IH. ring. Qed.

(** ** one face *)
Definition ndot (n u : pt) : R := n 0%nat * u 0%nat + n 1%nat * u 1%nat + n 2%nat * u 2%nat.
Lemma sprod3 n u : sprod 3 n u = ndot n u.
Proof. unfold sprod, ndot. cbn. ring. Qed.
Lemma triple_area bar a b c : triple bar a b c =
  (a 0%nat - bar 0%nat) * tri_area2 1 2 (a, b, c) + (a 1%nat - bar 1%nat) * tri_area2 2 0 (a, b, c) + (a 2%nat - bar 2%nat) * tri_area2 0 1 (a, b, c).
Proof. unfold triple, tri_area2, wedge. ring. Qed.
Lemma mean_ndot n pts b p : pts <> [] -> (forall k, b k = sumR (map (fun q => q k) pts) / INR (length pts)) ->
  ndot n (fun i => b i - p i) = sumR (map (fun q => ndot n (fun i => q i - p i)) pts) / INR (length pts).
Proof.
  intros N M. assert (L : INR (length pts) <> 0) by (apply not_0_INR; destruct pts; [congruence|discriminate]).
  assert (K : sumR (map (fun q => ndot n (fun i => q i - p i)) pts) = n 0%nat * sumR (map (fun q => q 0%nat) pts) +
    n 1%nat * sumR (map (fun q => q 1%nat) pts) + n 2%nat * sumR (map (fun q => q 2%nat) pts) - INR (length pts) * ndot n p).
  { clear. induction pts as [|c pts IH]; [cbn; ring|]. cbn [map sumR length]. rewrite IH, S_INR. unfold ndot. ring. }
  rewrite K. unfold ndot. rewrite !M. field. exact L.
Qed.
Lemma sum_zero {A} (f : A -> R) l : (forall x, In x l -> f x = 0) -> sumR (map f l) = 0.
Proof. intros H. induction l as [|x l IH]; cbn; [reflexivity|]. rewrite H by now left. rewrite IH; [ring|]. intros; apply H; now right. Qed.
Lemma sum_nonpos {A} (f : A -> R) l : (forall x, In x l -> f x <= 0) -> sumR (map f l) <= 0.
Proof. intros H. induction l as [|x l IH]; cbn; [lra|]. pose proof (H x (or_introl eq_refl)). assert (sumR (map f l) <= 0) by (apply IH; intros; apply H; now right). lra. Qed.
Lemma sgn_sq s : sgn s * sgn s = 1. Proof. destruct s; unfold sgn; ring. Qed.
Lemma sgn_abs s : Rabs (sgn s) = 1. Proof. destruct s; unfold sgn; [apply Rabs_R1|]. rewrite Rabs_left; lra. Qed.

(** what face_of says, in coordinates *)
Lemma face_facts cell s pts : face_of cell (s, pts) -> exists n, convex_face n pts /\
  (forall p q, In p pts -> In q pts -> ndot n (fun i => q i - p i) = 0) /\
  (forall p x, In p pts -> In x cell -> sgn s * ndot n (fun i => x i - p i) <= 0).
Proof.
  intros (n & C & _ & P & O). cbn [fst snd] in *. exists n. split; [exact C|]. split.
  - intros p q Hp Hq. specialize (P p q Hp Hq). rewrite sprod3 in P. unfold ndot in *.
    apply (Rmult_eq_reg_l (sgn s)); [|pose proof (sgn_sq s); nra]. lra.
  - intros p x Hp Hx. specialize (O p x Hp Hx). rewrite sprod3 in O. unfold ndot in *. lra.
Qed.
Lemma first_in_plane n pts l p : (3 <= length pts)%nat -> split_in_raw_triangles pts = Ok l -> In p pts ->
  (forall p q, In p pts -> In q pts -> ndot n (fun i => q i - p i) = 0) ->
  forall a b c, In (a, b, c) l -> ndot n (fun i => a i - p i) = 0.
Proof.
  intros L E Ip P a b c It. destruct (split_cases pts l L E) as [(u & v & w & -> & ->)|[(u & v & w & z & -> & ->)|(m & M & ->)]].
  - destruct It as [[= <- <- <-]|[]]. apply P; [exact Ip|cbn; tauto].
  - destruct It as [[= <- <- <-]|[[= <- <- <-]|[]]]; apply P; try exact Ip; cbn; tauto.
  - apply in_map_iff in It as (e & [= <- <- <-] & _). assert (N : pts <> []) by (intros ->; cbn in L; lia).
    rewrite (mean_ndot n pts m p N M), sum_zero; [unfold Rdiv; ring|]. intros q Iq. now apply P.
Qed.
Lemma bar_behind cell bar n s p : barycenter cell = Ok bar -> (forall x, In x cell -> sgn s * ndot n (fun i => x i - p i) <= 0) ->
  sgn s * ndot n (fun i => bar i - p i) <= 0.
Proof.
  intros E O. assert (N : cell <> []) by (intros ->; discriminate). destruct (barycenter_mean cell N) as (b' & E' & M). rewrite E in E'. injection E' as <-.
  rewrite (mean_ndot n cell bar p N M). assert (L : 0 < INR (length cell)) by (apply lt_0_INR; destruct cell; [congruence|cbn; lia]).
  unfold Rdiv. rewrite <- Rmult_assoc, <- sumR_scal.
  pose proof (sum_nonpos (fun q => sgn s * ndot n (fun i => q i - p i)) cell O) as Z. pose proof (Rinv_0_lt_compat _ L) as I.
  replace 0 with (0 * / INR (length cell)) by ring. apply Rmult_le_compat_r; [lra|exact Z].
Qed.
(** the cone over one triangle of the face, from any point behind the face *)
Lemma cone_triangle s n p bar a b c k : 0 <= k -> tri_area2 1 2 (a, b, c) = k * n 0%nat -> tri_area2 2 0 (a, b, c) = k * n 1%nat -> tri_area2 0 1 (a, b, c) = k * n 2%nat ->
  ndot n (fun i => a i - p i) = 0 -> sgn s * ndot n (fun i => bar i - p i) <= 0 ->
  volume_tetrahedron_kahan bar a b c = sgn s / 6 * ((p 0%nat - bar 0%nat) * tri_area2 1 2 (a, b, c) + (p 1%nat - bar 1%nat) * tri_area2 2 0 (a, b, c) + (p 2%nat - bar 2%nat) * tri_area2 0 1 (a, b, c)).
Proof.
  intros K K1 K2 K3 A B. rewrite volume_triple, triple_area, K1, K2, K3.
  assert (T : (a 0%nat - bar 0%nat) * (k * n 0%nat) + (a 1%nat - bar 1%nat) * (k * n 1%nat) + (a 2%nat - bar 2%nat) * (k * n 2%nat) = - k * ndot n (fun i => bar i - p i)).
  { replace ((a 0%nat - bar 0%nat) * (k * n 0%nat) + (a 1%nat - bar 1%nat) * (k * n 1%nat) + (a 2%nat - bar 2%nat) * (k * n 2%nat))
      with (k * ndot n (fun i => a i - p i) - k * ndot n (fun i => bar i - p i)) by (unfold ndot; ring). rewrite A. ring. }
  rewrite T. replace ((p 0%nat - bar 0%nat) * (k * n 0%nat) + (p 1%nat - bar 1%nat) * (k * n 1%nat) + (p 2%nat - bar 2%nat) * (k * n 2%nat))
    with (- k * ndot n (fun i => bar i - p i)) by (unfold ndot; ring).
  replace (Rabs (- k * ndot n (fun i => bar i - p i))) with (Rabs (sgn s * (- k * ndot n (fun i => bar i - p i)))) by (rewrite Rabs_mult, sgn_abs; ring).
  rewrite Rabs_pos_eq; [field|]. set (z := ndot n (fun i => bar i - p i)) in *. nra.
Qed.
Lemma face_cones s pts bar l : face_of [bar] (s, pts) -> split_in_raw_triangles pts = Ok l ->
  sumR (map (fun rs : tetra => let '(a, b, c, d) := rs in volume_tetrahedron_kahan a b c d) (map (cone bar) l)) = cone_volume bar (s, pts).
Proof.
  intros F Sl. destruct (face_facts [bar] s pts F) as (n & C & P & O). pose proof C as (L & _ & _).
  set (p := nth 0 pts (fun _ => 0)). assert (Ip : In p pts) by (apply nth_In; lia).
  pose proof (O p bar Ip (or_introl eq_refl)) as B.
  rewrite map_map.
  assert (S1 : sumR (map (fun t => let '(a, b, c, d) := cone bar t in volume_tetrahedron_kahan a b c d) l) = sumR (map (fun t =>
    sgn s / 6 * ((p 0%nat - bar 0%nat) * tri_area2 1 2 t + (p 1%nat - bar 1%nat) * tri_area2 2 0 t + (p 2%nat - bar 2%nat) * tri_area2 0 1 t)) l)).
  { apply sumR_ext_in. intros [[a b] c] It. cbn [cone]. destruct (split_dir pts l n C Sl (a, b, c) It) as (k & K & K1 & K2 & K3).
    apply (cone_triangle s n p bar a b c k K K1 K2 K3); [|exact B]. exact (first_in_plane n pts l p L Sl Ip P a b c It). }
  rewrite S1. rewrite sumR_scal, !sumR_plus, !sumR_scal.
  destruct (C102_oriented_area pts L) as (l' & E' & A). rewrite Sl in E'. injection E' as <-. rewrite !A.
  unfold cone_volume. cbn [fst snd]. fold p. rewrite sprod3. unfold ndot, area_vector. field.
Qed.

(** ** the closed surface *)
Lemma wedge_swap i j e : wedge i j (fst (swap e)) (snd (swap e)) = - wedge i j (fst e) (snd e).
Proof. unfold swap, wedge. cbn [fst snd]. ring. Qed.
Lemma sum_swap i j es : sumR (map (fun e => wedge i j (fst e) (snd e)) (map swap es)) = - sumR (map (fun e => wedge i j (fst e) (snd e)) es).
Proof. induction es as [|e es IH]; cbn [map sumR]; [ring|]. rewrite IH, wedge_swap. ring. Qed.
Lemma outer_sum i j fs : sumR (map (fun e => wedge i j (fst e) (snd e)) (flat_map outer_edges fs)) = sumR (map (fun f : oface => sgn (fst f) * poly_area2 i j (snd f)) fs).
Proof.
  induction fs as [|[s pts] fs IH]; [reflexivity|]. cbn [flat_map map sumR]. rewrite map_app, sumR_app, IH. f_equal.
  unfold outer_edges, poly_area2. cbn [fst snd]. destruct s; [unfold sgn; ring|]. rewrite sum_swap. unfold sgn. ring.
Qed.
Lemma closed_area i j fs : closed_surface fs -> sumR (map (fun f : oface => sgn (fst f) * poly_area2 i j (snd f)) fs) = 0.
Proof.
  intros C. rewrite <- outer_sum.
  pose proof (sumR_perm _ _ (Permutation_map (fun e => wedge i j (fst e) (snd e)) C)) as H. rewrite sum_swap in H.
  lra.
Qed.
Lemma apex_free fs x y : closed_surface fs -> polyhedron_volume x fs = polyhedron_volume y fs.
Proof.
  intros C. unfold polyhedron_volume.
  assert (H : sumR (map (cone_volume x) fs) - sumR (map (cone_volume y) fs) =
    (y 0%nat - x 0%nat) / 6 * sumR (map (fun f : oface => sgn (fst f) * poly_area2 1 2 (snd f)) fs) +
    (y 1%nat - x 1%nat) / 6 * sumR (map (fun f : oface => sgn (fst f) * poly_area2 2 0 (snd f)) fs) +
    (y 2%nat - x 2%nat) / 6 * sumR (map (fun f : oface => sgn (fst f) * poly_area2 0 1 (snd f)) fs)).
  { clear C. induction fs as [|f fs IH]; cbn [map sumR]; [ring|].
    replace (cone_volume x f + sumR (map (cone_volume x) fs) - (cone_volume y f + sumR (map (cone_volume y) fs)))
      with (cone_volume x f - cone_volume y f + (sumR (map (cone_volume x) fs) - sumR (map (cone_volume y) fs))) by ring.
    rewrite IH. unfold cone_volume. rewrite !sprod3. unfold ndot, area_vector. field. }
  rewrite !(closed_area _ _ _ C) in H. lra.
Qed.

(** ** the volume *)
Lemma faces_sum bar : forall fs ls, (forall f, In f fs -> face_of [bar] f) ->
  Forall2 (fun f l => split_in_raw_triangles f = Ok l) (map snd fs) ls ->
  sumR (map (fun rs : tetra => let '(a, b, c, d) := rs in volume_tetrahedron_kahan a b c d) (map (cone bar) (concat ls))) = polyhedron_volume bar fs.
Proof.
  induction fs as [|[s pts] fs IH]; intros ls H F.
  - inversion F. reflexivity.
  - cbn [map] in F. inversion F as [|? l ? ls' F1 F2]; subst. cbn [concat]. rewrite !map_app, sumR_app, (IH ls') by (trivial; intros; apply H; now right).
    cbn [snd] in F1. rewrite (face_cones s pts bar l (H _ (or_introl eq_refl)) F1). reflexivity.
Qed.
Lemma faces_three cell fs : (forall f, In f fs -> face_of cell f) -> forall f, In f (map snd fs) -> (3 <= length f)%nat.
Proof. intros H f If. apply in_map_iff in If as ([s g] & <- & I). destruct (H _ I) as (n & (L & _) & _). exact L. Qed.
Lemma star_measure cell fs bar x : barycenter cell = Ok bar -> (forall f, In f fs -> face_of [bar] f) -> closed_surface fs -> length cell <> 4%nat ->
  measure_cell cell (map snd fs) = Ok (polyhedron_volume x fs).
Proof.
  intros E H C L4. assert (N : cell <> []) by (intros ->; discriminate).
  destruct (split_tets cell (map snd fs) N L4 (faces_three [bar] fs H)) as (bar' & ls & E' & F & T). rewrite E in E'. injection E' as <-.
  unfold measure_cell. rewrite T. cbn [bind]. rewrite measure_sum, Rplus_0_l, (faces_sum bar fs ls H F). f_equal. now apply apex_free.
Qed.
Lemma convex_star cell bar f : barycenter cell = Ok bar -> face_of cell f -> face_of [bar] f.
Proof.
  intros E F. destruct f as [s pts]. destruct (face_facts cell s pts F) as (n & C & P & O). exists n. cbn [fst snd]. split; [exact C|].
  split; [|split].
  - rewrite sprod3. unfold ndot. destruct C as (_ & U & _). pose proof (sgn_sq s) as S2. rewrite <- U.
    transitivity (sgn s * sgn s * (n 0%nat ^ 2 + n 1%nat ^ 2 + n 2%nat ^ 2)); [ring|rewrite S2; ring].
  - intros p q Ip Iq. specialize (P p q Ip Iq). rewrite sprod3.
    transitivity (sgn s * ndot n (fun i => q i - p i)); [unfold ndot; ring|rewrite P; ring].
  - intros p x Ip [<-|[]]. rewrite sprod3.
    replace (ndot (fun i => sgn s * n i) (fun i => bar i - p i)) with (sgn s * ndot n (fun i => bar i - p i)) by (unfold ndot; ring).
    apply (bar_behind cell bar n s p E). intros x Ix. now apply O.
Qed.
Lemma convex_measure cell fs x : convex_polyhedron cell fs -> length cell <> 4%nat -> measure_cell cell (map snd fs) = Ok (polyhedron_volume x fs).
Proof.
  intros (N & H & C) L4. destruct (barycenter_mean cell N) as (bar & E & _).
  apply (star_measure cell fs bar x E); [|exact C|exact L4]. intros f If. exact (convex_star cell bar f E (H f If)).
Qed.

(** ** the quadrature *)
Definition gm4 (degree : nat) (rs : tetra) : outcome (list (pt * R)) := let '(a, b, c, d) := rs in grundmann_moeller_3 degree a b c d.
Lemma fold_gm degree : forall rss acc L, acc = Ok L -> exists r,
  fold_left (fun acc (rs : tetra) => do ret <- acc; let '(a, b, c, d) := rs in do quad_tet <- grundmann_moeller_3 degree a b c d; Ok (ret ++ quad_tet)) rss acc = Ok (L ++ r) /\ length r = (length rss * gm_rule_size (gm_rule_of degree) 3)%nat /\ forall p I, pvars 3 p -> (pdeg p <= degree)%nat -> is_int_tetras rss (peval p) I -> qsum r (peval p) = I.
Proof.
  induction rss as [|[[[a b] c] d] rss IH]; intros acc L ->.
  - exists []. split; [cbn; now rewrite app_nil_r|]. split; [reflexivity|]. intros p I _ _ H. cbn in *. now symmetry.
  - destruct (C27_tetrahedron degree a b c d) as (q & Eq & Lq & Hq). destruct (IH (Ok (L ++ q)) (L ++ q) eq_refl) as (r & Er & Lr & Hr).
    exists (q ++ r). split; [|split].
    + cbn [fold_left bind]. rewrite Eq. cbn [bind]. etransitivity; [exact Er|]. now rewrite app_assoc.
    + rewrite app_length, Lq, Lr. cbn [length]. lia.
    + intros p I V Dg (I1 & I2 & H1 & H2 & ->). rewrite qsum_app. now rewrite (Hq p I1 V Dg H1), (Hr p I2 V Dg H2).
Qed.
Lemma int_one rss : is_int_tetras rss (peval (PC 1)) (sumR (map (fun rs : tetra => let '(a, b, c, d) := rs in volume_tetrahedron_kahan a b c d) rss)).
Proof.
  induction rss as [|[[[a b] c] d] rss IH]; [reflexivity|]. cbn [is_int_tetras map sumR]. do 2 eexists. split; [|split; [exact IH|reflexivity]].
  exact (proj2 (proj1 (proj2 (proj2 (C47_tetrahedron a b c d))) _) eq_refl).
Qed.
Lemma qsum_weights (r : list (pt * R)) : qsum r (peval (PC 1)) = sumR (map snd r).
Proof. induction r as [|[x w] r IH]; [reflexivity|]. cbn [qsum map sumR snd]. rewrite IH. cbn. ring. Qed.
Lemma split_any pts faces : (4 <= length pts)%nat -> (forall f, In f faces -> (3 <= length f)%nat) ->
  exists rss, split_in_raw_tetrahedra pts faces = Ok rss.
Proof.
  intros L H. destruct (Nat.eq_dec (length pts) 4) as [E|E].
  - unfold split_in_raw_tetrahedra. rewrite E. cbn [Nat.eqb]. now eexists.
  - destruct (split_tets pts faces) as (bar & ls & _ & _ & T); [intros ->; cbn in L; lia|exact E|exact H|]. rewrite T. now eexists.
Qed.
