(** C11, C92: the hexagonal mesh generator. *)
From Coq Require Import List Arith Bool Sorted Permutation Lia ZArith Reals Lra.
From Verif Require Import Common Mesh_Model Mesh_Spec Mesh_Proofs Elem_Model Elem_Spec Elem_Proofs Mesher_Model Mesher_Proofs
  Hier_Model Single_Model Single_Properties Hex_Model Hex_Spec Hex_Proofs Hex2_Proofs Hex3_Proofs Hex4_Proofs Hex5_Proofs.
Import ListNotations.
Local Open Scope nat_scope.

Lemma su_nodup {A} (ltb : A -> A -> bool) l : strict_total_order ltb -> sorted_unique ltb l -> NoDup l.
Proof.
  intros O. induction 1 as [|x l S0 IH F]; constructor; [|exact IH]. intros K. rewrite Forall_forall in F. pose proof (F x K) as L.
  rewrite (sto_irrefl _ O) in L. discriminate.
Qed.
Lemma nodup_map_in {A B} (f : A -> B) l : (forall x y, In x l -> In y l -> f x = f y -> x = y) -> NoDup l -> NoDup (map f l).
Proof.
  intros Hi. induction 1 as [|x l Nx ND IH]; [constructor|]. cbn [map]. constructor.
  - intros K. apply in_map_iff in K as (y & Ey & Hy). apply Nx. rewrite <- (Hi y x); [exact Hy|right; exact Hy|left; reflexivity|exact Ey].
  - apply IH. intros; apply Hi; auto; right; assumption.
Qed.
Lemma inner_outer_disjoint l e : In e (inner_und_edges l) -> In e (outer_und_edges l) -> False.
Proof.
  pose proof (und_nodup (2 ^ l)) as ND. fold (inner_und_edges l) in ND. fold (outer_und_edges l) in ND. revert ND.
  generalize (inner_und_edges l) as a, (outer_und_edges l) as b. induction a as [|x a IH]; intros b ND I O; [destruct I|]. inversion ND; subst.
  destruct I as [->|I]; [apply H1, in_or_app; right; exact O|eapply IH; eassumption].
Qed.

(** make_hexmesh never throws, for any level *)
Theorem C11_never_throws : forall l, exists hm, make_hexmesh l = Ok hm /\ hm_max hm = 4 * 2 ^ l.
Proof. intros l. destruct (make_hexmesh_ok l) as (hm & E & H). exists hm. split; [exact E|apply (ho_max _ _ H)]. Qed.
Print Assumptions C11_never_throws.

(** every edge is recorded with the polygons it is a side of: two different ones, and then it is no boundary edge,
    or a single one, and then it is a boundary edge, recorded on exactly one side of the square, on which both of its ends lie *)
Theorem C11_owners : forall l hm e, make_hexmesh l = Ok hm -> In e (hm_edges hm) ->
  (exists p q, hm_owners hm e = (Some p, Some q) /\ p <> q /\
     (forall k, (exists P, nth_error (hm_polys hm) k = Some P /\ has_side P (fst e) (snd e)) <-> k = p \/ k = q) /\
     forall s, ~ In (s, e) (hm_bedges hm)) \/
  (exists p s, hm_owners hm e = (Some p, None) /\
     (forall k, (exists P, nth_error (hm_polys hm) k = Some P /\ has_side P (fst e) (snd e)) <-> k = p) /\
     In (s, e) (hm_bedges hm) /\ (forall s', In (s', e) (hm_bedges hm) -> s' = s) /\
     on_side (hm_max hm) s (fst e) /\ on_side (hm_max hm) s (snd e)).
Proof.
  intros l hm e E He. destruct (make_hexmesh_ok l) as (hm' & E' & H). rewrite E in E'. injection E' as <-.
  destruct (owners_two_or_one l hm e H He) as [(p & q & A & B & C & _ & D)|R]; [left; exists p, q; auto|right; exact R].
Qed.
Print Assumptions C11_owners.

(** the edges are the sides of the polygons, each stored once, and every boundary edge is one of them *)
Theorem C11_edges : forall l hm, make_hexmesh l = Ok hm ->
  NoDup (hm_edges hm) /\
  (forall e, In e (hm_edges hm) -> fst e <> snd e /\ exists P, In P (hm_polys hm) /\ has_side P (fst e) (snd e)) /\
  (forall P a b, In P (hm_polys hm) -> goes P a b -> In (a, b) (hm_edges hm) \/ In (b, a) (hm_edges hm)) /\
  (forall s e, In (s, e) (hm_bedges hm) -> In e (hm_edges hm)) /\
  NoDup (hm_points hm) /\ (forall a, In a (hm_points hm) <-> exists P, In P (hm_polys hm) /\ In a P).
Proof.
  intros l hm E. destruct (make_hexmesh_ok l) as (hm' & E' & H). rewrite E in E'. injection E' as <-.
  split; [eapply su_nodup; [apply hedge_sto|apply (ho_edges _ _ H)]|]. split; [|split; [|split; [|split]]].
  - intros e He. split.
    + destruct (edge_points l hm H e He) as (_ & _ & L). intros Eq. rewrite Eq, (sto_irrefl _ hpt_sto) in L. discriminate.
    + destruct (owners_two_or_one l hm e H He) as [(p & q & _ & _ & C & _)|(p & s & _ & C & _)].
      * destruct (proj2 (C p) (or_introl eq_refl)) as (P & N & K). exists P. split; [eapply nth_error_In; exact N|exact K].
      * destruct (proj2 (C p) eq_refl) as (P & N & K). exists P. split; [eapply nth_error_In; exact N|exact K].
  - intros P a b HP G. apply goes_ring in G. pose proof (poly_in l hm H P (a, b) HP G) as K. unfold und, hedge_make in K. cbn [fst snd] in K.
    destruct (hpt_ltb b a); auto.
  - intros s e Hs. apply (bedge_in l hm H) in Hs. exact Hs.
  - eapply su_nodup; [apply hpt_sto|apply (ho_points _ _ H)].
  - intros a. rewrite (ho_points_set _ _ H a), in_concat. split; intros (P & HP & Ha); exists P; (split; [|exact Ha]).
    + apply (Permutation_in _ (Permutation_sym (ho_polys _ _ H))). exact HP.
    + apply (Permutation_in _ (ho_polys _ _ H)). exact HP.
Qed.
Print Assumptions C11_edges.

(** the polygons are convex, counter-clockwise, inside the square, and neighbours traverse their common side in opposite directions *)
Theorem C11_shapes : forall l hm, make_hexmesh l = Ok hm ->
  (forall P, In P (hm_polys hm) -> 3 <= length P /\ NoDup P /\ (0 < area2 P)%Z /\ convex_ccw P /\
     forall a, In a P -> fst a <= hm_max hm /\ snd a <= hm_max hm) /\
  (forall k k' P P' a b, nth_error (hm_polys hm) k = Some P -> nth_error (hm_polys hm) k' = Some P' -> goes P a b -> goes P' a b -> k = k').
Proof.
  intros l hm E. destruct (make_hexmesh_ok l) as (hm' & E' & H). rewrite E in E'. injection E' as <-. split.
  - intros P HP. pose proof (polys_facts _ _ H _ HP) as HP'. destruct (poly_facts l P HP') as (A & B & _ & _ & C & D). repeat (split; [assumption|]).
    intros a Ha. rewrite (ho_max _ _ H). eapply poly_bounds; eassumption.
  - intros k k' P P' a b. eapply directed_once. exact H.
Qed.
Print Assumptions C11_shapes.

(** the areas sum to the area of the square *)
Theorem C11_area : forall l hm, make_hexmesh l = Ok hm ->
  fold_right (fun P s => (area2 P + s)%Z) 0%Z (hm_polys hm) = (2 * (Z.of_nat (hm_max hm) * Z.of_nat (hm_max hm)))%Z.
Proof.
  intros l hm E. destruct (make_hexmesh_ok l) as (hm' & E' & H). rewrite E in E'. injection E' as <-.
  change (zsum area2 (hm_polys hm) = (2 * (Z.of_nat (hm_max hm) * Z.of_nat (hm_max hm)))%Z). rewrite (zsum_perm _ _ _ (ho_polys _ _ H)), (ho_max _ _ H).
  apply total_area.
Qed.
Print Assumptions C11_area.

Example hexmesh_0 : match make_hexmesh 0 with Throw _ | UB => False | Ok hm => length (hm_points hm) = 13 /\ length (hm_edges hm) = 19 /\ length (hm_bedges hm) = 8 /\
  hm_polys hm = [[(0,0);(1,1);(0,2)]; [(0,2);(1,3);(0,4)]; [(0,0);(3,0);(2,1);(1,1)]; [(0,4);(1,3);(2,3);(3,4)];
                 [(4,0);(4,2);(3,2);(2,1);(3,0)]; [(4,2);(4,4);(3,4);(2,3);(3,2)]; [(0,2);(1,1);(2,1);(3,2);(2,3);(1,3)]] end.
Proof. vm_compute. repeat split; reflexivity. Qed.

(** ** C92: fvca5_hex_mesher *)
Definition scl (c : R) (a : nat * nat) : pt := pt2 (INR (fst a) / c) (INR (snd a) / c).
Lemma shoelace_scale c : (0 < c)%R -> forall p first, IZR (shoelace first p) = (c * c * r_shoelace (scl c first) (map (scl c) p))%R.
Proof.
  intros Hc. assert (G : forall a b : nat * nat, IZR (cross a b) = (c * c * r_cross (scl c a) (scl c b))%R).
  { intros a b. unfold cross, r_cross, scl, pt2. rewrite minus_IZR, !mult_IZR, <- !INR_IZR_INZ. field. lra. }
  induction p as [|a p IH]; intros first; [cbn; ring|]. destruct p as [|b p].
  - cbn [map shoelace r_shoelace]. apply G.
  - specialize (IH first). cbn [map shoelace r_shoelace] in *. rewrite plus_IZR, IH, G. ring.
Qed.
Lemma area_scale c : (0 < c)%R -> forall p, r_area (map (scl c) p) = (IZR (area2 p) / (2 * (c * c)))%R.
Proof.
  intros Hc [|a p]; [cbn; field; lra|]. change (r_area (map (scl c) (a :: p))) with (r_shoelace (scl c a) (map (scl c) (a :: p)) / 2)%R.
  unfold area2. rewrite (shoelace_scale c Hc). field. lra.
Qed.

(** the position of vertex [v] *)
Definition at_vertex (g : gstore) (v : nat) : pt := nth v (g_points g) (fun _ => 0%R).
Lemma hm_max_pos level hm : hex_ok level hm -> (0 < INR (hm_max hm))%R.
Proof. intros H. rewrite (ho_max _ _ H). apply lt_0_INR. pose proof (Nat.pow_nonzero 2 level). lia. Qed.
Lemma at_ix level hm g a : hex_ok level hm -> g_points g = map (scale hm) (hm_points hm) -> In a (hm_points hm) ->
  nth_error (g_points g) (ix hm a) = Some (scl (INR (hm_max hm)) a) /\ at_vertex g (ix hm a) = scl (INR (hm_max hm)) a.
Proof.
  intros H Ep Ha. assert (N : nth_error (g_points g) (ix hm a) = Some (scl (INR (hm_max hm)) a)).
  { rewrite Ep. rewrite (map_nth_error (scale hm) _ _ (ix_nth hm a Ha)). reflexivity. }
  split; [exact N|]. unfold at_vertex. apply nth_error_nth. exact N.
Qed.
Lemma ring_nth p i : i < length p -> nth_error (ring p) i = Some (nth i p (0, 0), nth ((i + 1) mod length p) p (0, 0)).
Proof.
  intros Hi. unfold ring. erewrite map_nth_error; [reflexivity|]. rewrite nth_error_nth' with (d := 0) by (rewrite seq_length; exact Hi). rewrite seq_nth by exact Hi. reflexivity.
Qed.

(** the mesh is built for every level: the i-th face of a cell joins its i-th and its next vertex, and every face is found again *)
Theorem C92_faces : forall level, exists g, hex_mesh level = Ok g /\
  (forall c, In c (g_surfs g) -> 3 <= length (gc_pts c) /\ NoDup (gc_pts c) /\ length (gc_faces c) = length (gc_pts c) /\ NoDup (gc_faces c) /\
     forall i, i < length (gc_pts c) -> exists f, nth_error (g_edges g) (nth i (gc_faces c) 0) = Some f /\
       Permutation (ge_sub f) [nth i (gc_pts c) 0; nth ((i + 1) mod length (gc_pts c)) (gc_pts c) 0]) /\
  (forall i f, nth_error (g_edges g) i = Some f -> lookup gedge gedge_ltb (g_edges g) f = Ok i).
Proof.
  intros level. destruct (hex_mesh_ok level) as (hm & g & _ & H & Eg & Ep & Ee & Pc & _). exists g. split; [exact Eg|]. split.
  - intros c Hc. apply (Permutation_in _ Pc) in Hc. apply in_map_iff in Hc as (p & <- & Hp). cbn [cell_of gc_pts gc_faces].
    pose proof (polys_facts _ _ H _ Hp) as Hp'. destruct (poly_facts level p Hp') as (L3 & ND & NE & Pr & _).
    assert (Lr : length (ring p) = length p) by (unfold ring; rewrite map_length, seq_length; reflexivity).
    rewrite !map_length, Lr. split; [exact L3|]. split.
    { apply nodup_map_in; [|exact ND]. intros a b Ha Hb. apply (ix_inj hm); eapply vertex_in; eassumption. }
    split; [reflexivity|]. split.
    { rewrite poly_edges_und in NE. rewrite <- (map_map und (eid hm)). apply nodup_map_in; [|exact NE]. intros x y Hx Hy Eq.
      apply in_map_iff in Hx as (d & <- & Hd), Hy as (d' & <- & Hd').
      destruct (eid_nth level hm H (und d) (poly_in level hm H p d Hp Hd)) as [N _], (eid_nth level hm H (und d') (poly_in level hm H p d' Hp Hd')) as [N' _].
      rewrite Eq, N' in N. congruence. }
    intros i Hi. set (d := (nth i p (0, 0), nth ((i + 1) mod length p) p (0, 0))).
    assert (Hd : nth_error (ring p) i = Some d) by (apply ring_nth; exact Hi).
    assert (Hd' : In d (ring p)) by (eapply nth_error_In; exact Hd).
    destruct (eid_nth level hm H (und d) (poly_in level hm H p d Hp Hd')) as [_ N].
    exists (mkg (ek hm (und d))). split.
    + rewrite Ee. rewrite (nth_error_nth (map (fun d => eid hm (und d)) (ring p)) i 0 (map_nth_error _ _ _ Hd)). exact N.
    + assert (Hj : (i + 1) mod length p < length p) by (apply Nat.mod_upper_bound; lia).
      rewrite (nth_indep _ 0 (ix hm (0, 0))) by (rewrite map_length; exact Hi). rewrite (nth_indep (map (ix hm) p) 0 (ix hm (0, 0)) (n := (i + 1) mod length p)) by (rewrite map_length; exact Hj).
      rewrite !map_nth. cbn [mkg ge_sub]. unfold ek. change (nth i p (0, 0)) with (fst d). change (nth ((i + 1) mod length p) p (0, 0)) with (snd d).
      destruct (und_ends d) as [[A B]|[A B]]; unfold hedge in *; rewrite A, B; [apply Permutation_refl|apply perm_swap].
  - intros i f Hf. rewrite Ee in *. rewrite nth_error_map in Hf. destruct (nth_error (keys hm) i) as [k|] eqn:Hk; [|discriminate]. cbn [option_map] in Hf. injection Hf as <-.
    rewrite lookup_map. apply lookup_stored; [apply lex_ltb_sto|apply (keys_sorted level hm H)|exact Hk].
Qed.
Print Assumptions C92_faces.

(** a face is a boundary face exactly when it belongs to one cell; otherwise it belongs to two; the boundary id is the side of the
    unit square (0 bottom, 1 right, 2 top, 3 left) that holds the face *)
Theorem C92_boundary : forall level g, hex_mesh level = Ok g -> length (g_binfo g) = length (g_edges g) /\
  forall i f d, nth_error (g_edges g) i = Some f -> nth_error (g_binfo g) i = Some d ->
    (bd_is_b d = true /\ incidences Nat.eq_dec gc_faces (g_surfs g) i = 1 /\
       forall v, In v (ge_sub f) -> v < length (g_points g) /\ on_unit_side (bd_id d) (at_vertex g v)) \/
    (bd_is_b d = false /\ incidences Nat.eq_dec gc_faces (g_surfs g) i = 2).
Proof.
  intros level g Eg. destruct (hex_mesh_ok level) as (hm & g' & _ & H & Eg' & Ep & Ee & Pc & Lb & Pb & _). rewrite Eg in Eg'. injection Eg' as <-.
  split; [rewrite Lb, Ee, map_length; unfold keys; rewrite map_length; reflexivity|].
  intros i f d Hf Hd. rewrite Ee in Hf. unfold keys in Hf. rewrite map_map, nth_error_map in Hf.
  destruct (nth_error (hm_edges hm) i) as [e|] eqn:He; [|discriminate]. cbn [option_map] in Hf. injection Hf as <-.
  pose proof (nth_error_In _ _ He) as Hin. pose proof (proj1 (ho_edges_set _ _ H e) Hin) as Hin'.
  rewrite (cell_count level hm H i e _ Pc He).
  rewrite edge_count. destruct (owners_two_or_one level hm e H Hin) as [(p & q & _ & _ & _ & Hi & NB)|(p & s & _ & _ & Hs & Us & Sa & Sb)].
  - right. destruct (Pb i e He) as [(s & Hs & _)|[_ N]]; [exfalso; eapply NB; exact Hs|]. rewrite N in Hd. injection Hd as <-.
    destruct (in_dec deqd e (inner_und_edges level)); [split; reflexivity|contradiction].
  - left. destruct (Pb i e He) as [(s' & Hs' & N)|[NB _]]; [|exfalso; eapply NB; exact Hs]. rewrite N in Hd. injection Hd as <-.
    pose proof (Us s' Hs') as ->. split; [reflexivity|].
    rewrite (ho_bedges _ _ H) in Hs. apply bedges_in in Hs as (d0 & Hs & Ed).
    assert (Ho : In e (outer_und_edges level)).
    { unfold outer_und_edges. rewrite <- Ed. apply in_map. change d0 with (snd (s, d0)). apply in_map. exact Hs. }
    split.
    { destruct (in_dec deqd e (inner_und_edges level)) as [Hi|_].
      - exfalso. eapply inner_outer_disjoint; eassumption.
      - destruct (in_dec deqd e (outer_und_edges level)); [reflexivity|contradiction]. }
    destruct (edge_points level hm H e Hin) as (A & B & _). pose proof (hm_max_pos level hm H) as Cp.
    assert (K : forall a, In a (hm_points hm) -> on_side (hm_max hm) s a -> ix hm a < length (g_points g) /\ on_unit_side s (at_vertex g (ix hm a))).
    { intros a Ha Hs2. destruct (at_ix level hm g a H Ep Ha) as [N1 ->]. split; [apply nth_error_Some; rewrite N1; discriminate|].
      unfold on_side in Hs2. unfold on_unit_side, scl, pt2.
      destruct s as [|[|[|[|s]]]]; try (rewrite Hs2); try (cbn [INR]; field; lra); try exact Hs2. }
    intros v Hv. cbn [mkg ge_sub ek In] in Hv. destruct Hv as [<-|[<-|[]]]; apply K; assumption.
Qed.
Print Assumptions C92_boundary.

(** the vertices are distinct points of the unit square, the cells have positive area and fill the square *)
Theorem C92_area : forall level g, hex_mesh level = Ok g ->
  (forall i p, nth_error (g_points g) i = Some p -> (0 <= p 0%nat <= 1 /\ 0 <= p 1%nat <= 1)%R) /\
  (forall i j p q, nth_error (g_points g) i = Some p -> nth_error (g_points g) j = Some q -> p 0 = q 0 -> p 1 = q 1 -> i = j) /\
  (forall c v, In c (g_surfs g) -> In v (gc_pts c) -> v < length (g_points g)) /\
  (forall c, In c (g_surfs g) -> (0 < r_area (map (at_vertex g) (gc_pts c)))%R) /\
  fold_right (fun c s => (r_area (map (at_vertex g) (gc_pts c)) + s)%R) 0%R (g_surfs g) = 1%R.
Proof.
  intros level g Eg. destruct (hex_mesh_ok level) as (hm & g' & _ & H & Eg' & Ep & Ee & Pc & _). rewrite Eg in Eg'. injection Eg' as <-.
  pose proof (hm_max_pos level hm H) as Cp. set (c := INR (hm_max hm)) in *.
  assert (Bd : forall a, In a (hm_points hm) -> fst a <= hm_max hm /\ snd a <= hm_max hm).
  { intros a Ha. apply (ho_points_set _ _ H) in Ha. apply in_concat in Ha as (p & Hp & Ha). rewrite (ho_max _ _ H). eapply poly_bounds; eassumption. }
  assert (Ca : forall p, In p (hm_polys hm) -> map (at_vertex g) (gc_pts (cell_of hm p)) = map (scl c) p).
  { intros p Hp. cbn [cell_of gc_pts]. rewrite map_map. apply map_ext_in. intros a Ha. apply (at_ix level hm g a H Ep). eapply vertex_in; eassumption. }
  split; [|split; [|split; [|split]]].
  - intros i p Hi. rewrite Ep, nth_error_map in Hi. destruct (nth_error (hm_points hm) i) as [a|] eqn:Ha; [|discriminate]. injection Hi as <-.
    apply nth_error_In in Ha. destruct (Bd a Ha) as [B1 B2]. unfold scale, pt2. fold c.
    assert (Q : forall n, n <= hm_max hm -> (0 <= INR n / c <= 1)%R).
    { intros n Hn. apply le_INR in Hn. fold c in Hn. pose proof (pos_INR n). split.
      - apply Rmult_le_pos; [assumption|]. left. apply Rinv_0_lt_compat. exact Cp.
      - apply Rmult_le_reg_r with c; [exact Cp|]. unfold Rdiv. rewrite Rmult_assoc, Rinv_l by lra. lra. }
    split; apply Q; assumption.
  - intros i j p q Hi Hj E0 E1. rewrite Ep, nth_error_map in Hi, Hj. destruct (nth_error (hm_points hm) i) as [a|] eqn:Ha; [|discriminate].
    destruct (nth_error (hm_points hm) j) as [b|] eqn:Hb; [|discriminate]. injection Hi as <-. injection Hj as <-. unfold scale, pt2 in E0, E1. fold c in E0, E1.
    assert (Q : forall m n, (INR m / c = INR n / c)%R -> m = n).
    { intros m n Q. apply INR_eq. apply Rmult_eq_reg_r with (/ c)%R; [exact Q|]. apply Rinv_neq_0_compat. lra. }
    apply Q in E0, E1. assert (a = b) by (destruct a, b; cbn [fst snd] in *; congruence). subst b.
    assert (ND : NoDup (hm_points hm)) by (eapply su_nodup; [apply hpt_sto|apply (ho_points _ _ H)]).
    apply (proj1 (NoDup_nth_error _) ND); [apply nth_error_Some; rewrite Ha; discriminate|congruence].
  - intros cl v Hc Hv. apply (Permutation_in _ Pc) in Hc. apply in_map_iff in Hc as (p & <- & Hp). cbn [cell_of gc_pts] in Hv. apply in_map_iff in Hv as (a & <- & Ha).
    destruct (at_ix level hm g a H Ep) as [N _]; [eapply vertex_in; eassumption|]. apply nth_error_Some. rewrite N. discriminate.
  - intros cl Hc. apply (Permutation_in _ Pc) in Hc. apply in_map_iff in Hc as (p & <- & Hp). rewrite (Ca p Hp), (area_scale c Cp).
    pose proof (polys_facts _ _ H _ Hp) as Hp'. destruct (poly_facts level p Hp') as (_ & _ & _ & _ & Ar & _).
    apply Rdiv_lt_0_compat; [apply IZR_lt; exact Ar|]. nra.
  - assert (RP : forall l l' : list gcell, Permutation l l' -> fold_right (fun c s => (r_area (map (at_vertex g) (gc_pts c)) + s)%R) 0%R l = fold_right (fun c s => (r_area (map (at_vertex g) (gc_pts c)) + s)%R) 0%R l').
    { induction 1; cbn [fold_right]; lra. }
    rewrite (RP _ _ Pc).
    assert (S0 : forall ps, incl ps (hm_polys hm) -> fold_right (fun c s => (r_area (map (at_vertex g) (gc_pts c)) + s)%R) 0%R (map (cell_of hm) ps) = (IZR (zsum area2 ps) / (2 * (c * c)))%R).
    { induction ps as [|p ps IH]; intros Hi; [cbn; field; lra|]. cbn [map fold_right]. rewrite IH by (intros x Hx; apply Hi; right; exact Hx).
      rewrite (Ca p) by (apply Hi; left; reflexivity). rewrite (area_scale c Cp). unfold zsum. cbn [fold_right]. rewrite plus_IZR. field. lra. }
    rewrite (S0 _ (incl_refl _)), (zsum_perm _ _ _ (ho_polys _ _ H)), total_area, <- (ho_max _ _ H). rewrite !mult_IZR, <- INR_IZR_INZ. fold c. field. lra.
Qed.
Print Assumptions C92_area.
