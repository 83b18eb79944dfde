(** Properties of the mesh hierarchy (C12, C89). *)
From Coq Require Import List Arith Bool Sorted Permutation Lia Reals Lra.
From Verif Require Import Common Mesh_Model Mesh_Spec Mesh_Proofs Elem_Model Elem_Spec Elem_Proofs
  Elem_Properties Refine_Proofs Mesher_Model Mesher_Spec Mesher_Proofs Mesher2_Proofs Mesher5_Proofs
  Hier_Model Hier_Spec Hier_Proofs Hier2_Proofs.
Import ListNotations.
Local Open Scope nat_scope.

Lemma hier_mesh s L i m : nth_error (meshes (hier_of s L)) i = Some m -> i <= L /\ m = hlevel s i.
Proof.
  unfold hier_of. cbn [meshes]. intros Hm.
  assert (Hi : i < S L). { rewrite <- (seq_length (S L) 0), <- (map_length (hlevel s)). apply nth_error_Some. congruence. }
  rewrite nth_map_seq in Hm by exact Hi. injection Hm as <-. split; [lia|reflexivity].
Qed.

(** C12, construction: building any number of levels on a conforming mesh succeeds, every mesh of the hierarchy is
    conforming, has four times as many triangles as the previous one, and starts from the given one. *)
Theorem C12_build : forall s L, triangle_mesh s -> exists h, build_hierarchy s L = Ok h /\
  length (meshes h) = L + 1 /\ length (coarse_to_fine h) = L /\ nth_error (meshes h) 0 = Some s /\
  forall i m, nth_error (meshes h) i = Some m -> triangle_mesh m /\ length (s_surfs m) = 4 ^ i * length (s_surfs s).
Proof.
  intros s L T. pose proof (triangle_mesh_ok s T) as H. exists (hier_of s L). split; [apply build_hierarchy_ok; exact H|].
  unfold hier_of at 1 2 3. cbn [meshes coarse_to_fine]. rewrite !map_length, !seq_length. split; [lia|]. split; [reflexivity|].
  split; [reflexivity|]. intros i m Hm. apply hier_mesh in Hm as (Hi & ->). split; [apply ok_triangle_mesh, hlevel_ok, H|].
  clear Hi. induction i as [|i IH]; [cbn; lia|]. cbn [hlevel]. cbn [Nat.pow].
  pose proof (tri_next_length (hnorm (hlevel s i))) as N. cbn [hnext s_surfs]. cbn [hnorm s_surfs] in N. rewrite N, IH. lia.
Qed.
Print Assumptions C12_build.

(** C12, one refinement: the four children recorded for a triangle have a quarter of its area and cover it, and every
    triangle of the fine mesh is recorded exactly once. *)
Theorem C12_children : forall s L h i m m' cf, triangle_mesh s -> build_hierarchy s L = Ok h ->
  nth_error (meshes h) i = Some m -> nth_error (meshes h) (S i) = Some m' -> nth_error (coarse_to_fine h) i = Some cf ->
  length cf = length (s_surfs m) /\ Permutation (concat cf) (seq 0 (length (s_surfs m'))) /\
  forall t c ks, nth_error (s_surfs m) t = Some c -> nth_error cf t = Some ks -> length ks = 4 /\
    (forall k c', In k ks -> nth_error (s_surfs m') k = Some c' -> area_of m' c' = (area_of m c / 4)%R) /\
    (forall p, in_hull m c p 2 -> exists k, In k ks /\ contains m' k p).
Proof.
  intros s L h i m m' cf T B Hm Hm' Hc. pose proof (triangle_mesh_ok s T) as H.
  rewrite (build_hierarchy_ok s L H) in B. injection B as <-.
  apply hier_mesh in Hm as (Hi & ->). apply hier_mesh in Hm' as (Hi' & ->). cbn [hlevel].
  unfold hier_of in Hc. cbn [coarse_to_fine] in Hc. rewrite (nth_map_seq (fun i => hmap (hlevel s i))) in Hc by lia. injection Hc as <-.
  pose proof (hlevel_ok s i H) as Hs. set (m := hlevel s i) in *.
  pose proof (to_conf _ (hnext_ok m Hs)) as K'. pose proof (lex_nodup _ (cf_Cs _ _ _ _ _ _ _ K')) as ND.
  change (s_surfs (hnorm (hnext m))) with (s_surfs (hnext m)) in ND.
  split; [unfold hmap; apply map_length|]. split.
  - set (ix := fun k => index_of k (s_surfs (hnext m))).
    assert (E1 : concat (hmap m) = map ix (flat_map (hkids m) (s_surfs m))).
    { unfold hmap. rewrite map_flat_map, flat_map_concat_map. reflexivity. }
    assert (P1 : Permutation (flat_map (hkids m) (s_surfs m)) (s_surfs (hnext m))).
    { rewrite (kids_all m). apply Permutation_sym. apply (std_sort_perm lex_ltb). }
    rewrite E1. rewrite (Permutation_map ix P1).
    replace (map ix (s_surfs (hnext m))) with (seq 0 (length (s_surfs (hnext m)))); [apply Permutation_refl|].
    unfold ix. clear P1 E1. revert ND. generalize (s_surfs (hnext m)) as l. intros l ND.
    apply (nth_ext _ _ 0 (index_of [] l)); [rewrite seq_length, map_length; reflexivity|].
    intros j Hj. rewrite seq_length in Hj. rewrite seq_nth by exact Hj. rewrite (map_nth (fun k => index_of k l)).
    symmetry. apply index_of_eq; [exact ND|]. apply nth_error_nth'. exact Hj.
  - intros t c ks Ht Hk. unfold hmap in Hk. rewrite nth_error_map, Ht in Hk. cbn [option_map] in Hk.
    assert (Ek : map (fun k => index_of k (s_surfs (hnext m))) (hkids m c) = ks) by congruence. subst ks. clear Hk.
    pose proof (nth_error_In _ _ Ht) as Hc. split; [reflexivity|]. split.
    + intros k c' Hk Hc'. apply in_map_iff in Hk as (q & <- & Hq). rewrite (index_of_nth q) in Hc' by (apply (kid_in m c q Hc Hq)).
      injection Hc' as <-. apply (kid_area m Hs c q Hc Hq).
    + intros p Hp. destruct (kid_cover m Hs c p Hc Hp) as (q & Hq & Hh). exists (index_of q (s_surfs (hnext m))).
      split; [apply in_map_iff; exists q; auto|]. exists q. split; [apply index_of_nth, (kid_in m c q Hc Hq)|exact Hh].
Qed.
Print Assumptions C12_children.

(** C12, location: a point of the coarse mesh is found at every existing level, in a triangle that contains it; a point outside is
    reported. *)
Theorem C12_locate : forall s L h p level, triangle_mesh s -> nondegenerate s -> build_hierarchy s L = Ok h -> level <= L ->
  ((exists t, contains s t p) -> exists r m, locate_point h p level = Ok r /\ nth_error (meshes h) level = Some m /\ contains m r p) /\
  ((forall t, ~ contains s t p) -> locate_point h p level = Throw InvalidArgument).
Proof.
  intros s L h p level T N B HL. pose proof (triangle_mesh_ok s T) as H.
  rewrite (build_hierarchy_ok s L H) in B. injection B as <-. split.
  - intros Hc. destruct (locate_found s H N L p level HL Hc) as (r & E & C). exists r, (hlevel s level). split; [exact E|].
    split; [|exact C]. unfold hier_of. cbn [meshes]. apply nth_map_seq. lia.
  - apply locate_outside; assumption.
Qed.
Print Assumptions C12_locate.

(** Levels beyond the first missing one are reported. *)
Theorem C12_deep_level_reported_partial : forall s L h p level, triangle_mesh s -> nondegenerate s -> build_hierarchy s L = Ok h ->
  L + 1 < level -> locate_point h p level = Throw InvalidArgument.
Proof.
  intros s L h p level T N B HL. pose proof (triangle_mesh_ok s T) as H.
  rewrite (build_hierarchy_ok s L H) in B. injection B as <-.
  destruct (first_ok s H (seq 0 (length (s_surfs s))) p N) as [(t & E1 & I1 & C1)|(E1 & C1)].
  - intros t Ht. apply in_seq in Ht. lia.
  - apply locate_deep; eauto.
  - apply locate_outside; auto. intros t (c & Ec & Hh). apply (C1 t); [|exists c; auto].
    apply in_seq. split; [lia|]. apply nth_error_Some. congruence.
Qed.
Print Assumptions C12_deep_level_reported_partial.

(** The first missing level is not: locate_recursive compares with meshes.size() instead of meshes.size()-1 and reads past
    the end of the vector of meshes, for every point of the mesh. *)
Theorem C12_missing_level_refuted : forall s L h p, triangle_mesh s -> nondegenerate s -> build_hierarchy s L = Ok h ->
  (exists t, contains s t p) -> locate_point h p (L + 1) = UB.
Proof.
  intros s L h p T N B HC. pose proof (triangle_mesh_ok s T) as H.
  rewrite (build_hierarchy_ok s L H) in B. injection B as <-. apply locate_ub; assumption.
Qed.
Print Assumptions C12_missing_level_refuted.

(** C89: a boundary edge of a refined mesh is half of a boundary edge of the previous mesh and has its id. *)
Theorem C89_boundary_ids : forall s L h i m m', triangle_mesh s -> build_hierarchy s L = Ok h ->
  nth_error (meshes h) i = Some m -> nth_error (meshes h) (S i) = Some m' ->
  forall j f d, nth_error (s_edges m') j = Some f -> nth_error (s_binfo m') j = Some d -> bd_is_b d = true ->
  exists j0 a b d0, nth_error (s_edges m) j0 = Some [a; b] /\ nth_error (s_binfo m) j0 = Some d0 /\
    bd_is_b d0 = true /\ bd_id d = bd_id d0 /\
    exists u v, Permutation f [u; v] /\ (vertex m' u = vertex m a \/ vertex m' u = vertex m b) /\
      vertex m' v = mid2 (vertex m a) (vertex m b).
Proof.
  intros s L h i m m' T B Hm Hm'. pose proof (triangle_mesh_ok s T) as H.
  rewrite (build_hierarchy_ok s L H) in B. injection B as <-.
  apply hier_mesh in Hm as (Hi & ->). apply hier_mesh in Hm' as (Hi' & ->). cbn [hlevel].
  pose proof (hlevel_ok s i H) as Hs. set (m := hlevel s i) in *.
  intros j f d Hf Hd Hb. cbn [hnext s_edges s_binfo] in Hf, Hd.
  destruct (tri_next_edge (hnorm m) Hs j f d Hf Hd) as [(e & SP & He & HSP & -> & Hbd)|(c & I & _ & _ & _ & ->)]; [|discriminate Hb].
  destruct (to_edge _ Hs e He) as (a & b & Ee & Hab & Hbn). cbn [hnorm s_edges s_binfo s_nodes] in *. subst e.
  rewrite nth_error_map in Hbd. destruct (nth_error (s_binfo m) (index_of [a; b] (s_edges m))) as [d0|] eqn:E0; [|discriminate].
  cbn in Hbd. injection Hbd as <-. exists (index_of [a; b] (s_edges m)), a, b, d0. split; [apply index_of_nth; exact He|]. split; [exact E0|].
  cbn in Hb. split; [exact Hb|]. split; [cbn; rewrite Hb; reflexivity|].
  pose proof (tp_mid (hnorm m) Hs a b He) as M. pose proof (tp_old (hnorm m) Hs a ltac:(cbn; lia)) as O1. pose proof (tp_old (hnorm m) Hs b ltac:(cbn; lia)) as O2.
  change (vertex (tri_next (hnorm m))) with (vertex (hnext m)) in *. change (vertex (hnorm m)) with (vertex m) in *.
  cbn in HSP. destruct HSP as [<-|[<-|[]]]; unfold gk, gids, lab; cbn [map nth].
  - exists (lid (length (s_nodes m)) (s_edges m) [a]), (lid (length (s_nodes m)) (s_edges m) [a; b]).
    split; [apply std_sort_perm|]. split; [left; exact O1|exact M].
  - exists (lid (length (s_nodes m)) (s_edges m) [b]), (lid (length (s_nodes m)) (s_edges m) [a; b]).
    split; [apply std_sort_perm|]. split; [right; exact O2|exact M].
Qed.
Print Assumptions C89_boundary_ids.

(** The meshes of the triangular mesher (C07) qualify. *)
Lemma tri_norm s : tri_ok s -> tri_ok (hnorm s).
Proof.
  intros H. destruct H as [A1 A2 A3 A4 A5 A6].
  constructor; unfold hnorm; cbn [s_points s_nodes s_edges s_surfs s_binfo s_sub]; auto.
  destruct A5 as [B1 B2 B3 B4 B5 B6 B7 B8 B9]. constructor; auto.
  - rewrite map_length. exact B8.
  - intros i f d Hf Hd. rewrite nth_error_map in Hd. destruct (nth_error (s_binfo s) i) as [d'|] eqn:Ed; [|discriminate].
    cbn in Hd. injection Hd as <-. rewrite (B9 i f d' Hf Ed). reflexivity.
Qed.
Example hier_start : triangle_mesh tri_init /\ nondegenerate tri_init /\ contains tri_init 0 (pt2 (1/2) (1/4)).
Proof.
  split; [apply ok_triangle_mesh, tri_norm, tri_init_ok|]. split.
  - intros c Hc. rewrite (tg_area 0 tri_init tri_init_geo c Hc). apply Rinv_0_lt_compat, pow_lt. lra.
  - exists [0; 1; 4]. split; [reflexivity|]. apply in_hull3. exists (1/4)%R, (1/4)%R, (1/2)%R.
    repeat split; try lra. intros i Hi. assert (i = 0 \/ i = 1) as [-> | ->] by lia; cbn; lra.
Qed.
