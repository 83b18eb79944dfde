(** Properties of the tetrahedral mesher (C10). *)
From Coq Require Import List Arith Bool Sorted Permutation Lia Reals Lra.
From Verif Require Import Common Mesh_Model Mesh_Spec Mesh_Proofs Elem_Model Elem_Spec Elem_Proofs
  Elem_Properties Refine_Proofs Mesher_Model Mesher_Spec Mesher_Proofs Mesher2_Proofs Mesher3_Proofs Mesher4_Proofs
  Mesher5_Proofs Mesher6_Proofs Mesher_Properties.
Import ListNotations.
Local Open Scope nat_scope.

(** The mesh made of the stored cells (volumes) and faces (surfaces). *)
Definition vol_mesh (s : store) : mesh (list nat) (list nat) := mkMesh (s_vols s) (s_surfs s) (s_binfo s).

Lemma tet_faces_nodup s c : tet_ok s -> In c (s_vols s) -> NoDup (tet_faces c) /\ length (tet_faces c) = 4.
Proof.
  intros H Hc. destruct (tet_cell s H c Hc) as (x & y & z & w & Ec & Hxy & Hyz & Hzw & Hw).
  rewrite (cf_faces _ _ _ _ _ _ _ (te_conf s H) c Hc). subst c. split; [|reflexivity].
  unfold tetFL, lab. cbn [map nth]. repeat constructor; cbn; intuition; match goal with X : [_; _; _] = [_; _; _] |- _ => injection X; lia end.
Qed.

(** C10, the whole mesh: after any number [n] of refinements the mesh of the unit cube is conforming, has 6*8^n
    tetrahedra of volume 1/(6*8^n), 12*4^n boundary triangles whose id names the side of the cube they lie on, and covers the cube. *)
Theorem C10_tet_mesh_conforming : forall n, exists s, tet_mesh n = Ok s /\
  wf_mesh lex_ltb lex_ltb tet_faces (vol_mesh s) /\
  (forall t f, In t (s_vols s) -> In f (tet_faces t) -> exists i, lookup _ lex_ltb (s_surfs s) f = Ok i /\ stored (s_surfs s) i f) /\
  owners_match feq tet_faces (s_vols s) (s_surfs s) (s_binfo s) /\
  (forall t a b, In t (s_vols s) -> In a t -> In b t -> a < b -> In [a; b] (s_edges s)) /\
  length (s_vols s) = 6 * 8 ^ n /\
  length (filter bd_is_b (s_binfo s)) = 12 * 4 ^ n /\
  2 * length (s_surfs s) = 4 * (6 * 8 ^ n) + 12 * 4 ^ n.
Proof.
  intros n. destruct (tet_mesh_all n) as (s & E & H & G & L & B). exists s. split; [exact E|].
  split; [eapply conf_wf; [apply (te_conf s H)|intros c Hc; apply (tet_faces_nodup s c H Hc)]|].
  split; [apply (conf_lookup _ _ _ _ _ _ _ (te_conf s H))|].
  split; [apply (conf_owners _ _ _ _ _ _ _ (te_conf s H))|].
  split.
  { intros t a b Ht Ha Hb Hab. destruct (tet_cell s H t Ht) as (x & y & z & w & -> & Hxy & Hyz & Hzw & Hw).
    destruct (tet_cell_edges s H x y z w Ht) as (E1 & E2 & E3 & E4 & E5 & E6).
    cbn in Ha, Hb. destruct Ha as [<-|[<-|[<-|[<-|[]]]]], Hb as [<-|[<-|[<-|[<-|[]]]]]; try lia; assumption. }
  split; [exact L|]. split; [exact B|].
  rewrite (conf_count _ _ _ _ _ _ _ (te_conf s H)) by (intros c Hc; apply (tet_faces_nodup s c H Hc)). rewrite L, B. reflexivity.
Qed.
Print Assumptions C10_tet_mesh_conforming.

Theorem C10_tet_mesh_sides_and_volume : forall n, exists s, tet_mesh n = Ok s /\
  (forall i f d k, stored (s_surfs s) i f -> stored (s_binfo s) i d ->
     ((forall v, In v f -> on_cube_side k (vertex s v)) <-> (bd_is_b d = true /\ bd_id d = k))) /\
  (forall t, In t (s_vols s) -> volume_of s t = / (6 * 8 ^ n))%R /\
  rsum (map (volume_of s) (s_vols s)) = 1%R /\
  (forall v, v < length (s_points s) -> in_cube (vertex s v)) /\
  (forall p, in_cube p -> exists t, In t (s_vols s) /\ in_hull s t p 3).
Proof.
  intros n. destruct (tet_mesh_all n) as (s & E & H & G & L & B). exists s. split; [exact E|].
  split; [intros i f d k; apply (qg_side n s G i f d k)|].
  split; [apply (qg_vol n s G)|].
  split; [|split; [intros v Hv; apply (qg_in n s G); rewrite <- (te_len s H); exact Hv|apply (qg_cover n s G)]].
  rewrite (rsum_const _ (/ (6 * 8 ^ n))%R) by (apply (qg_vol n s G)). rewrite L, mult_INR, pow_INR.
  replace (INR 6) with 6%R by (cbn; ring). replace (INR 8) with 8%R by (cbn; ring).
  apply Rinv_r. apply Rmult_integral_contrapositive. split; [lra|apply pow_nonzero; lra].
Qed.
Print Assumptions C10_tet_mesh_sides_and_volume.

Lemma with_points_ok s pts : tet_ok s -> length pts = length (s_points s) -> tet_ok (with_points s pts).
Proof.
  intros H L. constructor; cbn.
  - rewrite L. apply (te_len s H).
  - apply (te_nodes s H).
  - apply (te_edge s H).
  - apply (te_Es s H).
  - apply (te_Ein s H).
  - apply (te_cell s H).
  - apply (te_conf s H).
  - apply (te_sub s H).
Qed.

(** C10, one tetrahedron: whatever the coordinates of the points, refine() replaces every tetrahedron by eight
    children of one eighth of its volume, contained in it and covering it. *)
Theorem C10_refine_tiles : forall n s pts, tet_mesh n = Ok s -> length pts = length (s_points s) ->
  exists s' ch, tet_refine (with_points s pts) = Ok s' /\
    Permutation (s_vols s') (flat_map ch (s_vols s)) /\ NoDup (s_vols s') /\
    forall t, In t (s_vols s) -> length (ch t) = 8 /\
      (forall t', In t' (ch t) -> (volume_of s' t' = volume_of (with_points s pts) t / 8)%R /\
         forall p, in_hull s' t' p 3 -> in_hull (with_points s pts) t p 3) /\
      (forall p, in_hull (with_points s pts) t p 3 -> exists t', In t' (ch t) /\ in_hull s' t' p 3).
Proof.
  intros n s pts E L. destruct (tet_mesh_all n) as (s1 & E1 & H1 & _). rewrite E in E1. injection E1 as <-.
  pose proof (with_points_ok s pts H1 L) as H. set (s0 := with_points s pts) in *.
  destruct (tet_refine_eq s0 H) as (ed & R1 & R2 & R3).
  exists (tet_next s0 ed), (fun t => map (child (lid (length (s_nodes s0)) (s_edges s0)) sord t) tetCH).
  split; [exact R1|]. split; [apply (std_sort_perm lex_ltb)|].
  split; [eapply Permutation_NoDup; [apply Permutation_sym, (std_sort_perm lex_ltb)|apply (tet_children_nodup s0 H)]|].
  intros t Ht. split; [reflexivity|]. split.
  - intros t' Ht'. apply in_map_iff in Ht' as (P & <- & HP). split; [apply (tet_child_vol s0 H ed t P Ht HP)|].
    intros p. apply (tet_child_sub s0 H ed t P p Ht HP).
  - intros p Hp. destruct (tet_child_cover s0 H ed t p Ht Hp) as (P & HP & Hh).
    eexists. split; [apply in_map; exact HP|exact Hh].
Qed.
Print Assumptions C10_refine_tiles.

(** non-degenerate tetrahedra have non-degenerate children *)
Theorem C10_children_nondegenerate : forall n s pts, tet_mesh n = Ok s -> length pts = length (s_points s) ->
  (forall t, In t (s_vols s) -> 0 < volume_of (with_points s pts) t)%R ->
  exists s', tet_refine (with_points s pts) = Ok s' /\ forall t', In t' (s_vols s') -> (0 < volume_of s' t')%R.
Proof.
  intros n s pts E L V. destruct (C10_refine_tiles n s pts E L) as (s' & ch & R & Pm & _ & T). exists s'. split; [exact R|].
  intros t' Ht'. apply (Permutation_in _ Pm) in Ht'. apply in_flat_map in Ht' as (t & Ht & Hc).
  destruct (T t Ht) as (_ & T1 & _). destruct (T1 t' Hc) as (-> & _). specialize (V t Ht). lra.
Qed.
Print Assumptions C10_children_nondegenerate.

Lemma hull3_vertex s a b c v dim : In v [a; b; c] -> in_hull s [a; b; c] (vertex s v) dim.
Proof.
  intros [<-|[<-|[<-|[]]]]; [exists [1; 0; 0]%R|exists [0; 1; 0]%R|exists [0; 0; 1]%R]; (split; [reflexivity|]);
    (split; [intros x [<-|[<-|[<-|[]]]]; lra|]); (split; [cbn; lra|]); intros i _; cbn; lra.
Qed.
Lemma hull3_mid s a b c u v dim : In u [a; b; c] -> In v [a; b; c] -> in_hull s [a; b; c] (mid2 (vertex s u) (vertex s v)) dim.
Proof.
  intros Hu Hv. destruct (hull3_vertex s a b c u dim Hu) as (w1 & L1 & P1 & S1 & X1).
  destruct (hull3_vertex s a b c v dim Hv) as (w2 & L2 & P2 & S2 & X2).
  destruct w1 as [|p1 [|p2 [|p3 [|]]]]; try discriminate. destruct w2 as [|q1 [|q2 [|q3 [|]]]]; try discriminate.
  exists [((p1 + q1) / 2); ((p2 + q2) / 2); ((p3 + q3) / 2)]%R. split; [reflexivity|].
  pose proof (P1 p1 ltac:(cbn; tauto)). pose proof (P1 p2 ltac:(cbn; tauto)). pose proof (P1 p3 ltac:(cbn; tauto)).
  pose proof (P2 q1 ltac:(cbn; tauto)). pose proof (P2 q2 ltac:(cbn; tauto)). pose proof (P2 q3 ltac:(cbn; tauto)).
  cbn in S1, S2. split; [intros x [<-|[<-|[<-|[]]]]; lra|]. split; [cbn; lra|].
  intros i Hi. unfold mid2. rewrite (X1 i Hi), (X2 i Hi). cbn. lra.
Qed.

(** C10, boundary: every triangle of the mesh is replaced by four triangles with vertices in it that carry its
    descriptor, no triangle arises twice, and no other triangle is boundary. *)
Theorem C10_faces_pass_descriptor : forall n s pts, tet_mesh n = Ok s -> length pts = length (s_points s) ->
  exists s' sub, tet_refine (with_points s pts) = Ok s' /\
    NoDup (flat_map sub (s_surfs s)) /\
    (forall i f d, stored (s_surfs s) i f -> stored (s_binfo s) i d -> length (sub f) = 4 /\
       forall g, In g (sub f) ->
         (exists j, stored (s_surfs s') j g /\ stored (s_binfo s') j d) /\
         forall v, In v g -> in_hull (with_points s pts) f (vertex s' v) 3) /\
    (forall j g d, stored (s_surfs s') j g -> stored (s_binfo s') j d -> bd_is_b d = true ->
       exists i f, stored (s_surfs s) i f /\ stored (s_binfo s) i d /\ In g (sub f)).
Proof.
  intros n s pts E L. destruct (tet_mesh_all n) as (s1 & E1 & H1 & _). rewrite E in E1. injection E1 as <-.
  pose proof (with_points_ok s pts H1 L) as H. set (s0 := with_points s pts) in *.
  destruct (tet_refine_eq s0 H) as (ed & R1 & R2 & R3).
  destruct (pattern_check _ _ _ _ _ tet_pattern) as (PO & _ & _).
  set (id := lid (length (s_nodes s0)) (s_edges s0)).
  exists (tet_next s0 ed), (fun f => map (gk id f) triSUB).
  split; [exact R1|]. change (s_surfs s) with (s_surfs s0) in *. change (s_binfo s) with (s_binfo s0) in *.
  pose proof (tet_keys_nodup s0 H) as KN.
  split.
  { rewrite (tet_pairs_fst s0) in KN. unfold new_faces in KN. fold id in KN. revert KN.
    generalize (flat_map (fun f => map (gk id f) triSUB) (s_surfs s0)). intros l. generalize (flat_map (fun c => map (gk id c) tetINN) (s_vols s0)).
    clear. intros l' KN. induction l as [|a l IH]; [constructor|]. inversion KN as [|? ? N1 N2]; subst. constructor; auto.
    intros X. apply N1. apply in_or_app. auto. }
  split.
  - intros i f d Hf Hd. split; [reflexivity|]. intros g Hg. apply in_map_iff in Hg as (SP & <- & HS).
    assert (Hin : In f (s_surfs s0)) by (eapply nth_error_In; exact Hf).
    split.
    + assert (Hp : In (gk id f SP, d) (std_sort nes_ltb (tet_pairs s0))).
      { apply (Permutation_in _ (Permutation_sym (std_sort_perm nes_ltb _))). unfold tet_pairs. apply in_or_app. left.
        apply in_flat_map. exists f. split; [exact Hin|]. apply in_map_iff. exists SP. split; [|exact HS]. f_equal.
        rewrite (index_of_eq _ i f); [apply nth_error_nth; exact Hd| |exact Hf]. apply lex_nodup, (cf_Fs _ _ _ _ _ _ _ (te_conf s0 H)). }
      apply In_nth_error in Hp as (j & Hj). exists j. unfold stored. cbn [tet_next s_surfs s_binfo].
      split; [apply (map_nth_error fst _ _ Hj)|apply (map_nth_error snd _ _ Hj)].
    + intros v Hv. unfold gk in Hv. apply (Permutation_in _ (std_sort_perm Nat.ltb _)) in Hv. unfold gids in Hv.
      apply in_map_iff in Hv as (loc & <- & Hloc).
      destruct (tet_own s0 H f Hin) as (c & Hc & Hfc). rewrite (cf_faces _ _ _ _ _ _ _ (te_conf s0 H) c Hc) in Hfc.
      apply in_map_iff in Hfc as (phi & Ef & Hphi).
      assert (Lf : exists a b e, f = [a; b; e]) by (rewrite <- Ef; cbn in Hphi; destruct Hphi as [<-|[<-|[<-|[<-|[]]]]]; cbn; eauto).
      destruct Lf as (a & b & e & Ef2).
      assert (HL : Lab2 (length (s_nodes s0)) (s_edges s0) (lab f loc)).
      { rewrite <- Ef. rewrite lab_lab.
        - apply tet_lab; [exact H|exact Hc|]. cbn in Hphi, HS.
          destruct Hphi as [<-|[<-|[<-|[<-|[]]]]], HS as [<-|[<-|[<-|[<-|[]]]]]; cbn in Hloc; destruct Hloc as [<-|[<-|[<-|[]]]]; cbn; tauto.
        - intros k Hk. cbn in Hphi, HS. destruct Hphi as [<-|[<-|[<-|[<-|[]]]]], HS as [<-|[<-|[<-|[<-|[]]]]]; cbn in Hloc;
            destruct Hloc as [<-|[<-|[<-|[]]]]; cbn in Hk |- *; lia. }
      assert (Hsub : forall v, In v (lab f loc) -> In v [a; b; e]).
      { intros v Hv. rewrite Ef2 in Hv. cbn in HS. destruct HS as [<-|[<-|[<-|[<-|[]]]]]; cbn in Hloc;
          destruct Hloc as [<-|[<-|[<-|[]]]]; cbn in Hv |- *; tauto. }
      destruct HL as [(v & El & Hv)|(He & u & v & El)]; rewrite El in *; rewrite Ef2.
      * pose proof (qp_old s0 H ed v Hv) as Q. fold id in Q. rewrite Q. apply hull3_vertex. apply Hsub. cbn. auto.
      * pose proof (qp_mid s0 H ed u v He) as Q. fold id in Q. rewrite Q. apply hull3_mid; apply Hsub; cbn; auto.
  - intros j g d Hg Hd Hb. destruct (tet_next_face s0 H ed j g d Hg Hd) as [(f & SP & Hf & HS & -> & Hfd)|(c & I & Hc & HI & -> & ->)]; [|discriminate Hb].
    exists (index_of f (s_surfs s0)), f. split; [apply index_of_nth; exact Hf|]. split; [exact Hfd|]. apply in_map. exact HS.
Qed.
Print Assumptions C10_faces_pass_descriptor.

Example tet_mesh_0 : exists s, tet_mesh 0 = Ok s /\ length (s_points s) = 8 /\ length (s_edges s) = 19 /\ length (s_surfs s) = 18 /\
  s_vols s = [[0;1;3;7]; [0;1;4;7]; [1;2;3;7]; [1;2;6;7]; [1;4;5;7]; [1;5;6;7]].
Proof.
  exists tet_s0. split; [unfold tet_mesh; rewrite tet_init_eq; reflexivity|]. cbn. repeat (split; [reflexivity|]). reflexivity.
Qed.
