(** The volume of polyhedral cells (C188, C189) and the quadratures of polyhedral cells and of their faces (C190, C191). *)
From Coq Require Import Reals List Arith Lra Lia Permutation.
From Verif Require Import Common Poly_Spec Poly_Proofs Quad_Model Quad_Spec Geo_Spec Geo_Model Geo_Proofs Geo2_Proofs Geo3_Proofs
  Shape_Spec Shape_Properties Tri_Tables Tri_Model QChk_Proofs Tri_Proofs Tri_Properties GM_Model Geo_Properties GM_Properties Polyh_Model Polyh_Spec Polyh_Proofs.
Import ListNotations.
Local Open Scope R_scope.

(** ** C188: the volume of a convex polyhedron, whatever the directions in which the faces are listed; the reference
    point x of the divergence theorem is arbitrary *)
Theorem C188_convex_volume : forall cell fs x, convex_polyhedron cell fs -> length cell <> 4%nat ->
  measure_cell cell (map snd fs) = Ok (polyhedron_volume x fs).
Proof. intros cell fs x. apply convex_measure. Qed.

Lemma perm4 {A} (l : list A) a b c d : Permutation l [a; b; c; d] -> exists p q r s, l = [p; q; r; s].
Proof. intros P. pose proof (Permutation_length P) as L. destruct l as [|p [|q [|r [|s [|t l]]]]]; try discriminate. now exists p, q, r, s. Qed.
Lemma flip_cone x s u v w : cone_volume x (negb s, rev [u; v; w]) = cone_volume x (s, [u; v; w]).
Proof. unfold cone_volume. cbn [fst snd rev app nth]. rewrite !sprod3. unfold ndot, area_vector, poly_area2, wedge. cbn. destruct s; unfold sgn; cbn; field. Qed.
(** four vertices: the volume of the tetrahedron, whatever the order of the vertices; the faces are not looked at *)
Theorem C188_tetrahedron : forall cell a b c d fs gs x, Permutation cell [a; b; c; d] -> 0 < triple a b c d ->
  Forall2 same_face fs gs -> Permutation gs (tetra_faces a b c d) ->
  measure_cell cell (map snd fs) = Ok (polyhedron_volume x fs) /\ polyhedron_volume x fs = triple a b c d / 6.
Proof.
  intros cell a b c d fs gs x P T F G.
  assert (V : polyhedron_volume x fs = triple a b c d / 6).
  { assert (E1 : polyhedron_volume x fs = polyhedron_volume x gs).
    { assert (G3 : forall g, In g gs -> exists s u v w, g = (s, [u; v; w])).
      { intros g Ig. pose proof (Permutation_in g G Ig) as I. cbn in I. destruct I as [<-|[<-|[<-|[<-|[]]]]]; repeat eexists. }
      clear G P T. unfold polyhedron_volume. induction F as [|f g fs gs S F IH]; [reflexivity|]. cbn [map sumR].
      rewrite IH by (intros; apply G3; now right). f_equal. destruct S as [->| ->]; [reflexivity|].
      destruct (G3 g (or_introl eq_refl)) as (s & u & v & w & ->). cbn [fst snd]. apply flip_cone. }
    rewrite E1. unfold polyhedron_volume. rewrite (sumR_perm _ _ (Permutation_map (cone_volume x) G)).
    unfold tetra_faces. cbn [map sumR]. unfold cone_volume. cbn [fst snd nth]. rewrite !sprod3. unfold ndot, area_vector, poly_area2, wedge, triple. cbn. field. }
  split; [|exact V]. destruct (perm4 cell a b c d P) as (p & q & r & s & ->). unfold measure_cell, split_in_raw_tetrahedra. cbn [length Nat.eqb bind nth fold_left].
  rewrite Rplus_0_l, V. f_equal.
  destruct (C47_tetrahedron p q r s) as (_ & _ & _ & Perm & _). rewrite <- (Perm a b c d P), volume_triple, Rabs_pos_eq by lra. reflexivity.
Qed.

(** ** C189: cells that are not convex *)
(** it is enough that every face is convex and shows its inner side to the mean of the vertices *)
Theorem C189_star_volume_partial : forall cell fs bar x, barycenter cell = Ok bar -> (forall f, In f fs -> face_of [bar] f) -> closed_surface fs ->
  length cell <> 4%nat -> measure_cell cell (map snd fs) = Ok (polyhedron_volume x fs).
Proof. intros cell fs bar x. apply star_measure. Qed.

(** permutations of a list of distinct names *)
Ltac find_perm :=
  unfold outer_edges, swap; cbn [flat_map map fst snd edges app combine tetra_faces];
  repeat match goal with
  | |- Permutation [] [] => constructor
  | |- Permutation (?x :: ?l) ?r =>
      let rec go pre t := lazymatch t with
        | x :: ?t' => change (Permutation (x :: l) (pre ++ x :: t')); apply Permutation_cons_app; cbn [app]
        | ?y :: ?t' => go (pre ++ [y]) t'
        end in go (@nil (pt * pt)) r
  end.
(** a tetrahedron abcd with a dent abce in the face abc *)
Definition dent_faces (a b c d e : pt) : list oface :=
  [(true, [a; b; d]); (true, [b; c; d]); (true, [c; a; d]); (true, [b; a; e]); (true, [c; b; e]); (true, [a; c; e])].
Lemma dent_closed a b c d e : closed_surface (dent_faces a b c d e).
Proof. unfold closed_surface, dent_faces. find_perm. Qed.
Definition dent : list pt := [pt3 0 0 0; pt3 14 0 0; pt3 0 14 0; pt3 0 0 14; pt3 1 1 11].
(** a cell with a deep dent: closed, its faces triangles; the volume is 98 and measure returns 490 *)
Theorem C189_nonconvex_refuted : exists cell fs, closed_surface fs /\ (forall f, In f fs -> length (snd f) = 3%nat) /\
  (forall f p, In f fs -> In p (snd f) -> In p cell) /\
  (forall x, polyhedron_volume x fs = 98) /\ measure_cell cell (map snd fs) = Ok 490.
Proof.
  exists dent, (dent_faces (pt3 0 0 0) (pt3 14 0 0) (pt3 0 14 0) (pt3 0 0 14) (pt3 1 1 11)). split; [apply dent_closed|]. split; [|split; [|split]].
  - intros f I. cbn in I. repeat (destruct I as [<-|I]; [reflexivity|]). destruct I.
  - intros f p I J. cbn in I. repeat (destruct I as [<-|I]; [cbn in J |- *; intuition (subst; auto 10)|]). destruct I.
  - intros x. rewrite (apex_free _ x (fun _ => 0)) by apply dent_closed. unfold polyhedron_volume, dent_faces. cbn [map sumR]. unfold cone_volume. cbn [fst snd nth].
    rewrite !sprod3. unfold ndot, area_vector, poly_area2, wedge. cbn. lra.
  - unfold measure_cell, split_in_raw_tetrahedra. cbn [dent length Nat.eqb barycenter fold_left bind].
    unfold dent_faces. cbn [map snd fold_left bind split_in_raw_triangles length Nat.eqb nth app].
    set (m := pscale _ _).
    assert (M : m 0%nat = 3 /\ m 1%nat = 3 /\ m 2%nat = 5) by (unfold m, pscale, padd; cbn; repeat split; field). destruct M as (M0 & M1 & M2).
    f_equal. rewrite !volume_triple. unfold triple. rewrite M0, M1, M2. cbn [pt3].
    repeat match goal with |- context [Rabs ?u] => lazymatch u with IZR _ => fail | _ => idtac end;
      first [ rewrite (Rabs_pos_eq u) by lra | rewrite (Rabs_left1 u) by lra ] end. lra.
Qed.

(** ** C190: the quadrature of a cell *)
(** degree one or more: exact on the union of the tetrahedra of the cell for every polynomial of the degree; the
    weights add up to the measure *)
Theorem C190_cell_quadrature : forall pts faces degree, (1 <= degree)%nat -> (4 <= length pts)%nat -> (forall f, In f faces -> (3 <= length f)%nat) ->
  exists rss r v, split_in_raw_tetrahedra pts faces = Ok rss /\ integrate_cell pts faces degree = Ok r /\ measure_cell pts faces = Ok v /\
  (forall p I, pvars 3 p -> (pdeg p <= degree)%nat -> is_int_tetras rss (peval p) I -> qsum r (peval p) = I) /\
  sumR (map snd r) = v /\ is_int_tetras rss (fun _ => 1) v.
Proof.
  intros pts faces degree D L H. destruct (split_any pts faces L H) as (rss & T). destruct (fold_gm degree rss (Ok []) [] eq_refl) as (r & Er & _ & Hr).
  exists rss, r. eexists. split; [exact T|]. split; [|split; [|split; [exact Hr|split]]].
  - unfold integrate_cell. destruct (Nat.eqb_spec degree 0); [lia|]. destruct (Nat.ltb_spec (length pts) 4); [lia|]. unfold integrate_polyhedron. rewrite T. exact Er.
  - unfold measure_cell. rewrite T. cbn [bind]. rewrite measure_sum, Rplus_0_l. reflexivity.
  - rewrite <- qsum_weights. apply Hr; [exact I|cbn; lia|apply int_one].
  - exact (int_one rss).
Qed.
(** on a convex polyhedron the weights add up to its volume, whatever the degree *)
Theorem C190_weights : forall cell fs x degree, convex_polyhedron cell fs -> (4 < length cell)%nat ->
  exists r, integrate_cell cell (map snd fs) degree = Ok r /\ sumR (map snd r) = polyhedron_volume x fs.
Proof.
  intros cell fs x degree C L. pose proof (convex_measure cell fs x C ltac:(lia)) as M. destruct C as (N & H & _). destruct (Nat.eq_dec degree 0) as [->|D].
  - destruct (barycenter_mean cell N) as (bar & E & _). exists [(bar, polyhedron_volume x fs)]. split; [|cbn; ring].
    unfold integrate_cell. cbn [Nat.eqb]. rewrite E. cbn [bind]. rewrite M. reflexivity.
  - destruct (C190_cell_quadrature cell (map snd fs) degree) as (rss & r & v & _ & Er & Mv & _ & W & _); [lia|lia|exact (faces_three cell fs H)|].
    exists r. split; [exact Er|]. rewrite M in Mv. injection Mv as <-. exact W.
Qed.
(** degree zero: one point, the mean of the vertices, with the measure as its weight; less than four points is an error
    when the degree is not zero *)
Theorem C190_special : forall pts faces,
  (forall bar v, barycenter pts = Ok bar -> measure_cell pts faces = Ok v -> integrate_cell pts faces 0 = Ok [(bar, v)]) /\
  (forall degree, (1 <= degree)%nat -> (length pts < 4)%nat -> integrate_cell pts faces degree = Throw InvalidArgument).
Proof.
  intros pts faces. split.
  - intros bar v E M. unfold integrate_cell. cbn [Nat.eqb]. rewrite E. cbn [bind]. rewrite M. reflexivity.
  - intros degree D L. unfold integrate_cell. destruct (Nat.eqb_spec degree 0); [lia|]. destruct (Nat.ltb_spec (length pts) 4); [reflexivity|lia].
Qed.

(** ** C191: the quadrature of a face *)
Lemma fold_tg triquad degree : (degree <= 30)%nat -> forall rss acc L, acc = Ok L -> exists r,
  fold_left (fun acc (rs : pt * pt * pt) => do ret <- acc; let '(a, b, c) := rs in do quad_tri <- triangle_gauss triquad 3 degree a b c; Ok (ret ++ quad_tri)) rss acc = Ok (L ++ r) /\
  forall p I, pvars 3 p -> (pdeg p <= degree)%nat -> is_int_triangles3 rss (peval p) I -> Rabs (qsum r (peval p) - I) <=
    tri_eps * sumR (map (fun t => let '(a, b, c) := t in sqrt (cross3_sq a b c) * pmag p (fun i => Rabs (a i) + Rabs (b i - a i) + Rabs (c i - a i))) rss).
Proof.
  intros D. induction rss as [|[[a b] c] rss IH]; intros acc L ->.
  - exists []. split; [cbn; now rewrite app_nil_r|]. intros p I _ _ H. cbn in *. subst I. rewrite Rminus_0_r, Rabs_R0. lra.
  - destruct (C26_triangle_gauss_space triquad degree a b c D) as (q & Eq & _ & Hq). destruct (IH (Ok (L ++ q)) (L ++ q) eq_refl) as (r & Er & Hr).
    exists (q ++ r). split.
    + cbn [fold_left bind]. rewrite Eq. cbn [bind]. etransitivity; [exact Er|]. now rewrite app_assoc.
    + intros p I V Dg (I1 & I2 & H1 & H2 & ->). rewrite qsum_app. cbn [map sumR]. specialize (Hq p I1 V Dg H1). specialize (Hr p I2 V Dg H2).
      replace (qsum q (peval p) + qsum r (peval p) - (I1 + I2)) with ((qsum q (peval p) - I1) + (qsum r (peval p) - I2)) by ring.
      eapply Rle_trans; [apply Rabs_triang|]. rewrite Rmult_plus_distr_l. apply Rplus_le_compat; [|exact Hr]. rewrite <- Rmult_assoc. exact Hq.
Qed.
(** up to degree 30: the rule integrates over the triangles of the face up to the printed precision of the tables *)
Theorem C191_face_quadrature : forall triquad pts degree, (1 <= degree <= 30)%nat -> (3 <= length pts)%nat ->
  exists rss r, split_in_raw_triangles pts = Ok rss /\ integrate_face triquad pts degree = Ok r /\
  forall p I, pvars 3 p -> (pdeg p <= degree)%nat -> is_int_triangles3 rss (peval p) I -> Rabs (qsum r (peval p) - I) <=
    tri_eps * sumR (map (fun t => let '(a, b, c) := t in sqrt (cross3_sq a b c) * pmag p (fun i => Rabs (a i) + Rabs (b i - a i) + Rabs (c i - a i))) rss).
Proof.
  intros triquad pts degree D L. destruct (split_ok pts L) as (rss & T). destruct (fold_tg triquad degree (proj2 D) rss (Ok []) [] eq_refl) as (r & Er & Hr).
  exists rss, r. split; [exact T|]. split; [|exact Hr]. unfold integrate_face. destruct (Nat.eqb_spec degree 0); [lia|]. destruct (Nat.ltb_spec (length pts) 3); [lia|].
  unfold integrate_polyhedron_face. rewrite T. cbn [bind]. unfold vget.
  assert (G : exists tab, nth_error triangle_gauss_rules degree = Some tab).
  { destruct (nth_error triangle_gauss_rules degree) eqn:E; [now eexists|]. apply nth_error_None in E. change (length triangle_gauss_rules) with 31%nat in E. lia. }
  destruct G as (tab & ->). cbn [bind]. exact Er.
Qed.
Lemma area3 a b c : area_triangle_kahan 3 a b c = sqrt (cross3_sq a b c) / 2.
Proof. apply kahan3. Qed.
Lemma int3_one a b c : is_int_triangle3 a b c (peval (PC 1)) (area_triangle_kahan 3 a b c).
Proof.
  rewrite area3. exists (1 / 2). split; [|field].
  replace (1 / 2) with (1 / 2 + 0 / 6 + 0 / 6) by field. refine (is_int_simplex_ext 2 1 _ _ _ _ (int_simplex2_affine 1 0 0)). intro; cbn; ring.
Qed.
(** on a plane convex face the weights add up to the measure, to the precision of the tables; exactly when the degree is zero *)
Theorem C191_weights : forall triquad n pts degree, convex_face n pts -> (degree <= 30)%nat -> exists r, integrate_face triquad pts degree = Ok r /\
  Rabs (sumR (map snd r) - measure_face3 pts) <= 2 * tri_eps * measure_face3 pts.
Proof.
  intros triquad n pts degree C D. destruct (C102_face_area n pts C) as (l & T & _ & _ & A). pose proof C as (L & _). destruct (Nat.eq_dec degree 0) as [->|D0].
  - destruct (barycenter_mean pts) as (bar & E & _); [intros ->; cbn in L; lia|]. exists [(bar, measure_face3 pts)]. split; [unfold integrate_face; cbn [Nat.eqb]; rewrite E; reflexivity|].
    cbn. rewrite Rplus_0_r. unfold Rminus. rewrite Rplus_opp_r, Rabs_R0.
    assert (0 <= measure_face3 pts) by (rewrite <- A; apply sumR_nonneg; intros [[a b] c] _; rewrite area3; pose proof (sqrt_pos (cross3_sq a b c)); lra).
    pose proof tri_eps_pos. nra.
  - destruct (C191_face_quadrature triquad pts degree ltac:(lia) L) as (rss & r & T' & Er & H). rewrite T in T'. injection T' as <-. exists r. split; [exact Er|].
    assert (K : is_int_triangles3 l (peval (PC 1)) (measure_face3 pts)).
    { rewrite <- A. clear. induction l as [|[[a b] c] l IH]; [reflexivity|]. cbn [is_int_triangles3 map sumR]. do 2 eexists. split; [apply int3_one|]. split; [exact IH|reflexivity]. }
    specialize (H (PC 1) _ Logic.I ltac:(cbn; lia) K). rewrite qsum_weights in H. eapply Rle_trans; [exact H|]. rewrite <- A. apply Req_le.
    rewrite (Rmult_comm 2), Rmult_assoc, <- (sumR_scal 2). f_equal. apply sumR_ext_in. intros [[a b] c] _. rewrite area3. cbn. rewrite Rabs_R1. field.
Qed.
(** less than three points is an error; the table is read past its end when the degree is above 30, although the
    triangle rule itself has a branch for those degrees *)
Theorem C191_few_points : forall triquad pts degree, (1 <= degree)%nat -> (length pts < 3)%nat -> integrate_face triquad pts degree = Throw InvalidArgument.
Proof. intros triquad pts degree D L. unfold integrate_face. destruct (Nat.eqb_spec degree 0); [lia|]. destruct (Nat.ltb_spec (length pts) 3); [reflexivity|lia]. Qed.
Theorem C191_high_degree_refuted : forall triquad pts degree, (31 <= degree)%nat -> (3 <= length pts)%nat -> integrate_face triquad pts degree = UB /\
  forall a b c, exists r, triangle_gauss triquad 3 degree a b c = Ok r.
Proof.
  intros triquad pts degree D L. split.
  - destruct (split_ok pts L) as (rss & T). unfold integrate_face. destruct (Nat.eqb_spec degree 0); [lia|]. destruct (Nat.ltb_spec (length pts) 3); [lia|].
    unfold integrate_polyhedron_face. rewrite T. cbn [bind]. unfold vget.
    assert (E : nth_error triangle_gauss_rules degree = None) by (apply nth_error_None; change (length triangle_gauss_rules) with 31%nat; lia). rewrite E. reflexivity.
  - intros a b c. unfold triangle_gauss. change (length triangle_gauss_rules) with 31%nat. destruct (Nat.ltb_spec degree 31); [lia|]. now eexists.
Qed.

(** ** a prism with a right triangle as its base: two triangles and three rectangles, some listed from inside *)
Definition prism_faces (a b c d e f : pt) : list oface :=
  [(false, [a; b; c]); (true, [d; e; f]); (true, [a; b; e; d]); (false, [c; b; e; f]); (true, [c; a; d; f])].
Definition prism : list pt := [pt3 0 0 0; pt3 3 0 0; pt3 0 4 0; pt3 0 0 2; pt3 3 0 2; pt3 0 4 2].
Definition prism_fs := prism_faces (pt3 0 0 0) (pt3 3 0 0) (pt3 0 4 0) (pt3 0 0 2) (pt3 3 0 2) (pt3 0 4 2).
Ltac face_check nn := exists nn; split; [split; [cbn; lia|split; [cbn; field|]]|split; [unfold sprod, sgn; cbn; field|split]];
  [ let a := fresh in let b := fresh in let c := fresh in let I := fresh in let J := fresh in
    intros a b c I J; cbn in I, J; repeat (destruct I as [I|I]; [|]); try destruct I; repeat (destruct J as [J|J]; [|]); try destruct J; try (injection I as <- <-);
    repeat match goal with H : _ = c |- _ => subst c end;
    match goal with |- exists k, 0 <= k /\ tri_area2 1 2 ?t = _ /\ _ => exists (nn 0%nat * tri_area2 1 2 t + nn 1%nat * tri_area2 2 0 t + nn 2%nat * tri_area2 0 1 t) end;
    unfold tri_area2, wedge; cbn; repeat split; lra
  | let p := fresh in let q := fresh in let I := fresh in let J := fresh in
    intros p q I J; cbn in I, J; repeat (destruct I as [<-|I]; [|]); try destruct I; repeat (destruct J as [<-|J]; [|]); try destruct J; unfold sprod, sgn; cbn; lra
  | let p := fresh in let q := fresh in let I := fresh in let J := fresh in
    intros p q I J; cbn in I, J; repeat (destruct I as [<-|I]; [|]); try destruct I; repeat (destruct J as [<-|J]; [|]); try destruct J; unfold sprod, sgn; cbn; lra ].
Example C188_prism : convex_polyhedron prism prism_fs /\ length prism <> 4%nat /\ polyhedron_volume (fun _ => 0) prism_fs = 12.
Proof.
  split; [|split; [discriminate|]].
  - split; [discriminate|]. split; [|unfold closed_surface, prism_fs, prism_faces; generalize (pt3 0 0 0), (pt3 3 0 0), (pt3 0 4 0), (pt3 0 0 2), (pt3 3 0 2), (pt3 0 4 2); intros; find_perm].
    intros f I. cbn in I. destruct I as [<-|[<-|[<-|[<-|[<-|[]]]]]].
    + face_check (pt3 0 0 1).
    + face_check (pt3 0 0 1).
    + face_check (pt3 0 (-1) 0).
    + face_check (pt3 (-4/5) (-3/5) 0).
    + face_check (pt3 (-1) 0 0).
  - unfold polyhedron_volume, prism_fs, prism_faces. cbn [map sumR]. unfold cone_volume. cbn [fst snd nth]. rewrite !sprod3. unfold ndot, area_vector, poly_area2, wedge, sgn. cbn. lra.
Qed.
Example C190_prism : forall degree, exists r, integrate_cell prism (map snd prism_fs) degree = Ok r /\ sumR (map snd r) = 12.
Proof.
  intros degree. destruct C188_prism as (C & _ & V). rewrite <- V. apply C190_weights; [exact C|cbn; lia].
Qed.
Example C188_tetra : let a := pt3 0 0 0 in let b := pt3 1 0 0 in let c := pt3 0 1 0 in let d := pt3 0 0 1 in
  0 < triple a b c d /\ Permutation [d; b; a; c] [a; b; c; d] /\
  Forall2 same_face [(true, [a; b; d]); (false, [b; c; a]); (true, [b; c; d]); (false, [c; d; a])] [(true, [a; b; d]); (true, [a; c; b]); (true, [b; c; d]); (true, [a; d; c])] /\
  Permutation [(true, [a; b; d]); (true, [a; c; b]); (true, [b; c; d]); (true, [a; d; c])] (tetra_faces a b c d).
Proof.
  cbv zeta. split; [unfold triple; cbn; lra|]. split; [|split].
  - generalize (pt3 0 0 0), (pt3 1 0 0), (pt3 0 1 0), (pt3 0 0 1). intros a b c d.
    etransitivity; [apply perm_swap|]. etransitivity; [|apply perm_swap]. apply perm_skip. etransitivity; [apply perm_swap|]. apply perm_skip, perm_swap.
  - repeat constructor; solve [left; reflexivity|right; reflexivity].
  - unfold tetra_faces. apply perm_swap.
Qed.
(** a box with a pyramid cut out of its top: not convex, seen in full from the mean of its nine vertices *)
Definition box_faces (a b c d e f g h k : pt) : list oface :=
  [(true, [a; d; c; b]); (true, [a; b; f; e]); (true, [b; c; g; f]); (true, [c; d; h; g]); (false, [a; d; h; e]);
   (true, [e; f; k]); (true, [f; g; k]); (true, [g; h; k]); (false, [e; h; k])].
Definition box : list pt := [pt3 (-3) (-3) 0; pt3 3 (-3) 0; pt3 3 3 0; pt3 (-3) 3 0; pt3 (-3) (-3) 17; pt3 3 (-3) 17; pt3 3 3 17; pt3 (-3) 3 17; pt3 0 0 13].
Definition box_fs := box_faces (pt3 (-3) (-3) 0) (pt3 3 (-3) 0) (pt3 3 3 0) (pt3 (-3) 3 0) (pt3 (-3) (-3) 17) (pt3 3 (-3) 17) (pt3 3 3 17) (pt3 (-3) 3 17) (pt3 0 0 13).
Lemma face_of_ext b b' f : (forall i, (i < 3)%nat -> b i = b' i) -> face_of [b] f -> face_of [b'] f.
Proof.
  intros E (n & C & U & P & O). exists n. split; [exact C|]. split; [exact U|]. split; [exact P|].
  intros p x Ip [<-|[]]. specialize (O p b Ip (or_introl eq_refl)). rewrite sprod3 in *. unfold ndot in *. rewrite <- !E by lia. exact O.
Qed.
Example C189_box : exists bar, barycenter box = Ok bar /\ (forall f, In f box_fs -> face_of [bar] f) /\ closed_surface box_fs /\ length box <> 4%nat /\
  polyhedron_volume (fun _ => 0) box_fs = 564.
Proof.
  eexists. split; [reflexivity|]. split; [|split; [|split; [discriminate|]]].
  - intros f I. apply (face_of_ext (pt3 0 0 9)).
    { intros i Hi. destruct i as [|[|[|i]]]; [| | |lia]; unfold pscale, padd; cbn; field. }
    cbn in I. destruct I as [<-|[<-|[<-|[<-|[<-|[<-|[<-|[<-|[<-|[]]]]]]]]]].
    + face_check (pt3 0 0 (-1)).
    + face_check (pt3 0 (-1) 0).
    + face_check (pt3 1 0 0).
    + face_check (pt3 0 1 0).
    + face_check (pt3 1 0 0).
    + face_check (pt3 0 (4/5) (3/5)).
    + face_check (pt3 (-4/5) 0 (3/5)).
    + face_check (pt3 0 (-4/5) (3/5)).
    + face_check (pt3 (-4/5) 0 (-3/5)).
  - unfold closed_surface, box_fs, box_faces. generalize (pt3 (-3) (-3) 0), (pt3 3 (-3) 0), (pt3 3 3 0), (pt3 (-3) 3 0), (pt3 (-3) (-3) 17), (pt3 3 (-3) 17), (pt3 3 3 17), (pt3 (-3) 3 17), (pt3 0 0 13). intros. find_perm.
  - unfold polyhedron_volume, box_fs, box_faces. cbn [map sumR]. unfold cone_volume. cbn [fst snd nth]. rewrite !sprod3. unfold ndot, area_vector, poly_area2, wedge, sgn. cbn. lra.
Qed.
(** a square face of the prism: integrals of 1 over its triangles exist and the hypotheses of C191 hold *)
Example C191_square : convex_face (pt3 0 (-1) 0) [pt3 0 0 0; pt3 3 0 0; pt3 3 0 2; pt3 0 0 2].
Proof.
  split; [cbn; lia|split; [cbn; field|]]. intros a b c I J. cbn in I, J.
  repeat (destruct I as [I|I]; [|]); try contradiction; repeat (destruct J as [J|J]; [|]); try contradiction; injection I as <- <-; subst c;
  match goal with |- exists k, 0 <= k /\ tri_area2 1 2 ?t = _ /\ _ => exists (- tri_area2 2 0 t) end; unfold tri_area2, wedge; cbn; repeat split; lra.
Qed.

Print Assumptions C188_convex_volume.
Print Assumptions C188_tetrahedron.
Print Assumptions C189_star_volume_partial.
Print Assumptions C189_nonconvex_refuted.
Print Assumptions C190_cell_quadrature.
Print Assumptions C190_weights.
Print Assumptions C190_special.
Print Assumptions C191_face_quadrature.
Print Assumptions C191_weights.
Print Assumptions C191_few_points.
Print Assumptions C191_high_degree_refuted.
