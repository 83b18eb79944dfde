(** Point location in the mesh hierarchy. *)
From Coq Require Import List Arith Bool Sorted Permutation Lia Reals Lra.
From Verif Require Import Common Mesh_Model Mesh_Spec Mesh_Proofs Elem_Model Elem_Spec Elem_Proofs
  Elem_Properties Refine_Proofs Mesher_Model Mesher_Spec Mesher_Proofs Mesher2_Proofs Mesher5_Proofs Hier_Model Hier_Spec Hier_Proofs.
Import ListNotations.
Local Open Scope nat_scope.

Lemma triangle_mesh_ok s : triangle_mesh s -> tri_ok (hnorm s).
Proof.
  intros [A1 A2 A3 A4 A5 A6 (A7 & A8)].
  assert (Cs : forall c, In c (s_surfs s) -> sorted_unique Nat.ltb c).
  { intros c Hc. destruct (A5 c Hc) as (x & y & z & -> & Hxy & Hyz & _). apply sorted3; lia. }
  constructor; unfold hnorm; cbn [s_points s_nodes s_edges s_surfs s_binfo s_sub]; auto.
  - constructor.
    + intros c Hc. destruct (A5 c Hc) as (x & y & z & -> & Hxy & Hyz & _). split; [reflexivity|]. split.
      * apply sorted_nodup, sorted3; lia.
      * cbn. intros v [<-|[<-|[<-|[]]]]; lia.
    + intros c Hc. destruct (A5 c Hc) as (x & y & z & Ec & _). apply tri_faces_sorted; [rewrite Ec; reflexivity|apply Cs, Hc].
    + intros c Hc. destruct (A5 c Hc) as (x & y & z & Ec & Hxy & Hyz & E1 & E2 & E3).
      rewrite tri_faces_sorted by (try (apply Cs; exact Hc); rewrite Ec; reflexivity). rewrite Ec. unfold triFL, lab. cbn.
      intros f [<-|[<-|[<-|[]]]]; assumption.
    + exact A4.
    + intros f Hf. destruct (A3 f Hf) as (a & b & -> & Hab). apply sorted2. lia.
    + exact A6.
    + intros c c' Hc Hc' HS. apply (sorted_unique_ext Nat.ltb nat_ltb_sto); auto.
    + rewrite map_length. exact A7.
    + intros i f d Hf Hd. rewrite nth_error_map in Hd. destruct (nth_error (s_binfo s) i) as [d'|] eqn:Ed; [|discriminate].
      cbn in Hd. injection Hd as <-. rewrite (A8 i f d' Hf Ed). reflexivity.
Qed.

Lemma ok_triangle_mesh s : tri_ok (hnorm s) -> triangle_mesh s.
Proof.
  intros H. pose proof (to_conf _ H) as K. constructor.
  - exact (to_len _ H).
  - exact (to_nodes _ H).
  - intros e He. destruct (to_edge _ H e He) as (a & b & -> & Hab). exists a, b. cbn in Hab. split; [reflexivity|lia].
  - exact (cf_Fs _ _ _ _ _ _ _ K).
  - intros c Hc. destruct (tri_cell _ H c Hc) as (x & y & z & Ec & Hxy & Hyz & Hz).
    destruct (tri_cell_edges _ H c x y z Hc Ec) as (E1 & E2 & E3). exists x, y, z. cbn in Hz. repeat split; auto.
  - exact (cf_Cs _ _ _ _ _ _ _ K).
  - split.
    + pose proof (cf_len _ _ _ _ _ _ _ K) as L. cbn in L. rewrite map_length in L. exact L.
    + intros i f d Hf Hd. exact (cf_own _ _ _ _ _ _ _ K i f (norm_bd d) Hf (map_nth_error norm_bd _ _ Hd)).
Qed.

(** ** is_inside *)
Local Open Scope R_scope.
Lemma leb_iff x y : leb x y = true <-> x <= y.
Proof. unfold leb. destruct (Rle_dec x y); split; intros; auto; discriminate. Qed.

Lemma inside_ok s a b c p : (a < length (s_points s))%nat -> (b < length (s_points s))%nat -> (c < length (s_points s))%nat ->
  0 < area_of s [a; b; c] ->
  exists r, is_inside s [a; b; c] p = Ok r /\ (r = true <-> in_hull s [a; b; c] p 2).
Proof.
  intros Ha Hb Hc A.
  assert (V : forall v, (v < length (s_points s))%nat -> vget (s_points s) v = Ok (vertex s v)).
  { intros v Hv. apply vget_ok. apply nth_error_nth'. exact Hv. }
  unfold is_inside. rewrite (V a Ha), (V b Hb), (V c Hc). cbn [bind]. cbv zeta beta.
  cbn [area_of] in A. unfold tri_area in A.
  set (p0 := vertex s a) in *. set (p1 := vertex s b) in *. set (p2 := vertex s c) in *.
  assert (Dn : tri_det p0 p1 p2 <> 0) by (intros Z; rewrite Z, Rabs_R0 in A; lra).
  assert (Dsq : forall v0x v0y v1x v1y : R, (v0x * v0x + v0y * v0y) * (v1x * v1x + v1y * v1y) - (v0x * v1x + v0y * v1y) * (v0x * v1x + v0y * v1y)
     = (v0x * v1y - v1x * v0y) * (v0x * v1y - v1x * v0y)) by (intros; ring).
  unfold tri_det in Dn.
  set (x1 := p1 0%nat - p0 0%nat) in *. set (y1 := p1 1%nat - p0 1%nat) in *.
  set (x2 := p2 0%nat - p0 0%nat) in *. set (y2 := p2 1%nat - p0 1%nat) in *.
  set (x := p 0%nat - p0 0%nat). set (y := p 1%nat - p0 1%nat).
  rewrite Dsq. set (d := x1 * y2 - x2 * y1) in *.
  destruct (Req_EM_T (d * d) 0) as [Z|NZ]; [exfalso; apply Rmult_integral in Z; tauto|].
  eexists. split; [reflexivity|].
  assert (U : ((x2 * x2 + y2 * y2) * (x1 * x + y1 * y) - (x1 * x2 + y1 * y2) * (x2 * x + y2 * y)) * (1 / (d * d)) = (x * y2 - x2 * y) / d).
  { unfold d in *. field. exact Dn. }
  assert (W : ((x1 * x1 + y1 * y1) * (x2 * x + y2 * y) - (x1 * x2 + y1 * y2) * (x1 * x + y1 * y)) * (1 / (d * d)) = (x1 * y - x * y1) / d).
  { unfold d in *. field. exact Dn. }
  rewrite U, W. rewrite !andb_true_iff, !leb_iff. rewrite in_hull3. fold p0 p1 p2. split.
  - intros [[L1 L2] L3]. set (u := (x * y2 - x2 * y) / d) in *. set (w := (x1 * y - x * y1) / d) in *.
    exists (1 - u - w), u, w. repeat split; try lra. intros i Hi.
    assert (i = 0 \/ i = 1)%nat as [-> | ->] by lia.
    + assert (x = u * x1 + w * x2) by (unfold u, w, d in *; field; exact Dn). unfold x, x1, x2 in H. lra.
    + assert (y = u * y1 + w * y2) by (unfold u, w, d in *; field; exact Dn). unfold y, y1, y2 in H. lra.
  - intros (al & be & ga & H1 & H2 & H3 & Es & Hi). pose proof (Hi 0%nat ltac:(lia)) as X. pose proof (Hi 1%nat ltac:(lia)) as Y.
    assert (Ex : x = be * x1 + ga * x2) by (unfold x, x1, x2; rewrite X; replace al with (1 - be - ga) by lra; ring).
    assert (Ey : y = be * y1 + ga * y2) by (unfold y, y1, y2; rewrite Y; replace al with (1 - be - ga) by lra; ring).
    assert (U2 : (x * y2 - x2 * y) / d = be) by (rewrite Ex, Ey; unfold d in *; field; exact Dn).
    assert (W2 : (x1 * y - x * y1) / d = ga) by (rewrite Ex, Ey; unfold d in *; field; exact Dn).
    rewrite U2, W2. lra.
Qed.
Local Close Scope R_scope.

(** the hierarchy's points are those of the refined mesh *)
Lemma vertex_hnext s v : vertex (hnext s) v = vertex (tri_next (hnorm s)) v.
Proof. reflexivity. Qed.
Lemma hull_hnext s c p : in_hull (hnext s) c p 2 <-> in_hull (tri_next (hnorm s)) c p 2.
Proof. reflexivity. Qed.

Section Kids.
  Variable s : store.
  Hypothesis H : tri_ok (hnorm s).
  Let s1 := hnorm s.
  Let kidsperm c P : Permutation (gids (hid s) c P) (child (hid s) sord c P).
  Proof. apply Permutation_sym, std_sort_perm. Qed.

  Lemma kid_area c k : In c (s_surfs s) -> In k (hkids s c) -> (area_of (hnext s) k = area_of s c / 4)%R.
  Proof.
    intros Hc Hk. rewrite hkids_tri in Hk. apply in_map_iff in Hk as (P & <- & HP).
    destruct (tri_cell s1 H c Hc) as (x & y & z & Ec & Hxy & Hyz & Hz).
    destruct (tri_cell_edges s1 H c x y z Hc Ec) as (E1 & E2 & E3). subst c.
    destruct (tri_area_quarter (vertex s x) (vertex s y) (vertex s z)) as (Q1 & Q2 & Q3 & Q4).
    pose proof (tp_mid s1 H x y E1) as M1. pose proof (tp_mid s1 H y z E2) as M2. pose proof (tp_mid s1 H x z E3) as M3.
    pose proof (tp_old s1 H x ltac:(lia)) as O1. pose proof (tp_old s1 H y ltac:(lia)) as O2. pose proof (tp_old s1 H z ltac:(lia)) as O3.
    change (vertex s1) with (vertex s) in *. change (vertex (tri_next s1)) with (vertex (hnext s)) in *.
    change (lid (length (s_nodes s1)) (s_edges s1)) with (hid s) in *.
    cbn [area_of].
    cbn in HP. destruct HP as [<-|[<-|[<-|[<-|[]]]]];
      match goal with |- area_of _ (child (hid s) sord ?c ?P) = _ =>
        let Q := fresh in pose proof (kidsperm c P) as Q; unfold gids, lab in Q; cbn [map nth] in Q; rewrite (area_of_perm (hnext s) _ _ _ _ Q) end;
      rewrite ?O1, ?O2, ?O3, ?M1, ?M2, ?M3; assumption.
  Qed.

  Lemma kid_cover c p : In c (s_surfs s) -> in_hull s c p 2 -> exists k, In k (hkids s c) /\ in_hull (hnext s) k p 2.
  Proof.
    intros Hc Hh. rewrite hkids_tri.
    destruct (tri_cell s1 H c Hc) as (x & y & z & Ec & Hxy & Hyz & Hz).
    destruct (tri_cell_edges s1 H c x y z Hc Ec) as (E1 & E2 & E3). subst c.
    pose proof (tp_mid s1 H x y E1) as M1. pose proof (tp_mid s1 H y z E2) as M2. pose proof (tp_mid s1 H x z E3) as M3.
    pose proof (tp_old s1 H x ltac:(lia)) as O1. pose proof (tp_old s1 H y ltac:(lia)) as O2. pose proof (tp_old s1 H z ltac:(lia)) as O3.
    change (vertex s1) with (vertex s) in *. change (vertex (tri_next s1)) with (vertex (hnext s)) in *.
    change (lid (length (s_nodes s1)) (s_edges s1)) with (hid s) in *.
    apply in_hull3 in Hh as (a & b & d & Ha & Hb & Hd & Es & Hi).
    assert (Fin : forall P, In P triCH -> in_hull (hnext s) (gids (hid s) [x; y; z] P) p 2 ->
       exists k, In k (map (child (hid s) sord [x; y; z]) triCH) /\ in_hull (hnext s) k p 2).
    { intros P HP Hh. exists (child (hid s) sord [x; y; z] P). split; [apply in_map; exact HP|].
      eapply in_hull_perm; [apply kidsperm|exact Hh]. }
    destruct (Rle_dec (1/2) a) as [Ca|Ca]; [|destruct (Rle_dec (1/2) b) as [Cb|Cb]; [|destruct (Rle_dec (1/2) d) as [Cd|Cd]]].
    - apply (Fin [[0]; [0;1]; [0;2]]%nat); [cbn; tauto|]. unfold gids, lab; cbn [map nth]. apply in_hull3.
      exists (2 * a - 1)%R, (2 * b)%R, (2 * d)%R. repeat split; try lra. intros i Hi'. rewrite (Hi i Hi'), O1, M1, M3. unfold mid2. nra.
    - apply (Fin [[1]; [0;1]; [1;2]]%nat); [cbn; tauto|]. unfold gids, lab; cbn [map nth]. apply in_hull3.
      exists (2 * b - 1)%R, (2 * a)%R, (2 * d)%R. repeat split; try lra. intros i Hi'. rewrite (Hi i Hi'), O2, M1, M2. unfold mid2. nra.
    - apply (Fin [[2]; [0;2]; [1;2]]%nat); [cbn; tauto|]. unfold gids, lab; cbn [map nth]. apply in_hull3.
      exists (2 * d - 1)%R, (2 * a)%R, (2 * b)%R. repeat split; try lra. intros i Hi'. rewrite (Hi i Hi'), O3, M3, M2. unfold mid2. nra.
    - apply (Fin [[0;1]; [0;2]; [1;2]]%nat); [cbn; tauto|]. unfold gids, lab; cbn [map nth]. apply in_hull3.
      exists (1 - 2 * d)%R, (1 - 2 * b)%R, (1 - 2 * a)%R. repeat split; try lra. intros i Hi'. rewrite (Hi i Hi'), O1 || rewrite (Hi i Hi'). rewrite M1, M3, M2. unfold mid2.
      replace d with (1 - a - b)%R by lra. field.
  Qed.

  Lemma kid_of k : In k (s_surfs (hnext s)) -> exists c, In c (s_surfs s) /\ In k (hkids s c).
  Proof.
    intros Hk. cbn [hnext s_surfs tri_next] in Hk. apply (Permutation_in _ (std_sort_perm lex_ltb _)) in Hk.
    unfold children in Hk. apply in_flat_map in Hk as (c & Hc & Hk). exists c. split; [exact Hc|]. rewrite hkids_tri. exact Hk.
  Qed.

  Lemma next_nondeg : nondegenerate s -> nondegenerate (hnext s).
  Proof.
    intros N k Hk. destruct (kid_of k Hk) as (c & Hc & Hk'). rewrite (kid_area c k Hc Hk'). specialize (N c Hc). lra.
  Qed.

  Lemma cell_inside c p : nondegenerate s -> In c (s_surfs s) -> exists r, is_inside s c p = Ok r /\ (r = true <-> in_hull s c p 2).
  Proof.
    intros N Hc. destruct (tri_cell s1 H c Hc) as (x & y & z & Ec & Hxy & Hyz & Hz).
    pose proof (to_len s1 H) as L. cbn in L, Hz. specialize (N c Hc). subst c.
    apply inside_ok; [lia..|exact N].
  Qed.

  Lemma first_ok l p : nondegenerate s -> (forall t, In t l -> t < length (s_surfs s)) ->
    (exists t, first_inside s p l = Ok (Some t) /\ In t l /\ contains s t p) \/
    (first_inside s p l = Ok None /\ forall t, In t l -> ~ contains s t p).
  Proof.
    intros N. induction l as [|t l IH]; intros Hl; [right; split; [reflexivity|intros t []]|].
    assert (Ht : t < length (s_surfs s)) by (apply Hl; left; reflexivity).
    destruct (nth_error (s_surfs s) t) as [c|] eqn:Ec; [|apply nth_error_None in Ec; lia].
    destruct (cell_inside c p N (nth_error_In _ _ Ec)) as (r & Hr & Hi).
    cbn [first_inside]. rewrite (vget_ok _ _ _ Ec). cbn [bind]. rewrite Hr. cbn [bind]. destruct r.
    - left. exists t. split; [reflexivity|]. split; [left; reflexivity|]. exists c. split; [exact Ec|apply Hi; reflexivity].
    - assert (NC : ~ contains s t p).
      { intros (c' & Ec' & Hh). rewrite Ec in Ec'. injection Ec' as <-. apply Hi in Hh. discriminate. }
      destruct IH as [(t' & E1 & H1 & H2)|(E1 & H1)]; [intros; apply Hl; right; assumption| |].
      + left. exists t'. split; [exact E1|]. split; [right; exact H1|exact H2].
      + right. split; [exact E1|]. intros t' [<-|Ht']; auto.
  Qed.
End Kids.

Lemma hlevel_nondeg s k : tri_ok (hnorm s) -> nondegenerate s -> nondegenerate (hlevel s k).
Proof. intros H N. induction k as [|k IH]; [exact N|]. cbn [hlevel]. apply next_nondeg; [apply hlevel_ok; exact H|exact IH]. Qed.

Section Locate.
  Variable s : store.
  Hypothesis H : tri_ok (hnorm s).
  Hypothesis N : nondegenerate s.
  Variables (L : nat) (p : pt).

  Lemma locate_loop max : max <= L -> forall fuel cur t, 1 <= cur -> max + 1 <= fuel + cur -> cur <= max + 1 ->
    contains (hlevel s (cur - 1)) t p ->
    exists r, locate_recursive (hier_of s L) p fuel cur max t = Ok r /\ contains (hlevel s max) r p.
  Proof.
    intros HL. induction fuel as [|f IH]; intros cur t H1 H2 H3 Hc.
    - assert (cur = max + 1) by lia. subst cur. exists t. replace (max + 1 - 1) with max in Hc by lia. split; [|exact Hc].
      unfold locate_recursive. unfold hier_of. cbn [meshes]. rewrite map_length, seq_length.
      destruct (Nat.ltb_spec (S L) max); [lia|]. destruct (Nat.ltb_spec max (max + 1)); [reflexivity|lia].
    - cbn [locate_recursive]. unfold hier_of at 1. cbn [meshes]. rewrite map_length, seq_length.
      destruct (Nat.ltb_spec (S L) max); [lia|]. destruct (Nat.ltb_spec max cur).
      + assert (cur = max + 1) by lia. subst cur. exists t. replace (max + 1 - 1) with max in Hc by lia. split; [reflexivity|exact Hc].
      + unfold hier_of at 1 2. cbn [meshes coarse_to_fine].
        rewrite (vget_ok _ cur (hlevel s cur)) by (apply nth_map_seq; lia). cbn [bind].
        unfold vat at 1. rewrite (nth_map_seq (fun i => hmap (hlevel s i)) L (cur - 1)) by lia. cbn [bind].
        destruct Hc as (c & Ec & Hh). set (m := hlevel s (cur - 1)) in *.
        assert (Em : hlevel s cur = hnext m) by (destruct cur as [|cur']; [lia|]; unfold m; cbn [hlevel]; rewrite Nat.sub_succ, Nat.sub_0_r; reflexivity).
        assert (Hm : tri_ok (hnorm m)) by (apply hlevel_ok; exact H).
        pose proof (nth_error_In _ _ Ec) as Hc.
        unfold vat at 1. unfold hmap. rewrite nth_error_map, Ec. cbn [option_map bind]. rewrite Em.
        destruct (kid_cover m Hm c p Hc Hh) as (k & Hk & Hkh).
        pose proof (kid_in m c k Hc Hk) as Hki.
        destruct (first_ok (hnext m) (hnext_ok m Hm) (map (fun k => index_of k (s_surfs (hnext m))) (hkids m c)) p) as [(t' & E1 & I1 & C1)|(E1 & C1)].
        * rewrite <- Em. apply hlevel_nondeg; assumption.
        * intros t' Ht'. apply in_map_iff in Ht' as (k' & <- & Hk'). apply index_of_lt. apply (kid_in m c k' Hc Hk').
        * rewrite E1. cbn [bind]. apply IH; try lia. replace (S cur - 1) with cur by lia. rewrite Em. exact C1.
        * exfalso. apply (C1 (index_of k (s_surfs (hnext m)))).
          -- apply in_map_iff. exists k. auto.
          -- exists k. split; [apply index_of_nth; exact Hki|exact Hkh].
  Qed.

  Lemma locate_found max : max <= L -> (exists t, contains s t p) ->
    exists r, locate_point (hier_of s L) p max = Ok r /\ contains (hlevel s max) r p.
  Proof.
    intros HL (t0 & C0). unfold locate_point, hier_of at 1. cbn [meshes seq map hlevel].
    destruct (first_ok s H (seq 0 (length (s_surfs s))) p N) as [(t & E1 & I1 & C1)|(E1 & C1)].
    - intros t Ht. apply in_seq in Ht. lia.
    - rewrite E1. cbn [bind]. destruct (Nat.ltb_spec 0 max).
      + apply locate_loop; try lia. exact C1.
      + assert (max = 0) by lia. subst max. exists t. auto.
    - exfalso. apply (C1 t0); [|exact C0]. destruct C0 as (c & Ec & _). apply in_seq. split; [lia|]. apply nth_error_Some. congruence.
  Qed.

  Lemma locate_outside max : (forall t, ~ contains s t p) -> locate_point (hier_of s L) p max = Throw InvalidArgument.
  Proof.
    intros HN. unfold locate_point, hier_of at 1. cbn [meshes seq map hlevel].
    destruct (first_ok s H (seq 0 (length (s_surfs s))) p N) as [(t & E1 & I1 & C1)|(E1 & C1)].
    - intros t Ht. apply in_seq in Ht. lia.
    - exfalso. apply (HN t C1).
    - rewrite E1. reflexivity.
  Qed.

  Lemma locate_deep max : L + 1 < max -> (exists t, contains s t p) -> locate_point (hier_of s L) p max = Throw InvalidArgument.
  Proof.
    intros HL (t0 & C0). unfold locate_point, hier_of at 1. cbn [meshes seq map hlevel].
    destruct (first_ok s H (seq 0 (length (s_surfs s))) p N) as [(t & E1 & I1 & C1)|(E1 & C1)].
    - intros t Ht. apply in_seq in Ht. lia.
    - rewrite E1. cbn [bind]. destruct (Nat.ltb_spec 0 max); [|lia]. destruct max as [|m]; [lia|].
      cbn [locate_recursive]. unfold hier_of. cbn [meshes]. rewrite map_length, seq_length.
      destruct (Nat.ltb_spec (S L) (S m)); [reflexivity|lia].
    - exfalso. apply (C1 t0); [|exact C0]. destruct C0 as (c & Ec & _). apply in_seq. split; [lia|]. apply nth_error_Some. congruence.
  Qed.

  (** one level too deep: the walk reaches the last mesh and then reads past the end of the vector *)
  Lemma locate_loop_ub fuel : forall cur t, 1 <= cur <= L + 1 -> L + 2 <= fuel + cur -> contains (hlevel s (cur - 1)) t p ->
    locate_recursive (hier_of s L) p fuel cur (L + 1) t = UB.
  Proof.
    induction fuel as [|f IH]; intros cur t H1 H2 Hc; [lia|].
    cbn [locate_recursive]. unfold hier_of at 1. cbn [meshes]. rewrite map_length, seq_length.
    destruct (Nat.ltb_spec (S L) (L + 1)); [lia|]. destruct (Nat.ltb_spec (L + 1) cur); [lia|].
    unfold hier_of at 1 2. cbn [meshes coarse_to_fine].
    destruct (Nat.eq_dec cur (L + 1)) as [->|Ne].
    - unfold vget. rewrite (proj2 (nth_error_None _ _)); [reflexivity|]. rewrite map_length, seq_length. lia.
    - rewrite (vget_ok _ cur (hlevel s cur)) by (apply nth_map_seq; lia). cbn [bind].
      unfold vat at 1. rewrite (nth_map_seq (fun i => hmap (hlevel s i)) L (cur - 1)) by lia. cbn [bind].
      destruct Hc as (c & Ec & Hh). set (m := hlevel s (cur - 1)) in *.
      assert (Em : hlevel s cur = hnext m) by (destruct cur as [|cur']; [lia|]; unfold m; cbn [hlevel]; rewrite Nat.sub_succ, Nat.sub_0_r; reflexivity).
      assert (Hm : tri_ok (hnorm m)) by (apply hlevel_ok; exact H).
      pose proof (nth_error_In _ _ Ec) as Hc.
      unfold vat at 1. unfold hmap. rewrite nth_error_map, Ec. cbn [option_map bind]. rewrite Em.
      destruct (kid_cover m Hm c p Hc Hh) as (k & Hk & Hkh).
      pose proof (kid_in m c k Hc Hk) as Hki.
      destruct (first_ok (hnext m) (hnext_ok m Hm) (map (fun k => index_of k (s_surfs (hnext m))) (hkids m c)) p) as [(t' & E1 & I1 & C1)|(E1 & C1)].
      * rewrite <- Em. apply hlevel_nondeg; assumption.
      * intros t' Ht'. apply in_map_iff in Ht' as (k' & <- & Hk'). apply index_of_lt. apply (kid_in m c k' Hc Hk').
      * rewrite E1. cbn [bind]. apply IH; try lia. replace (S cur - 1) with cur by lia. rewrite Em. exact C1.
      * exfalso. apply (C1 (index_of k (s_surfs (hnext m)))).
        -- apply in_map_iff. exists k. auto.
        -- exists k. split; [apply index_of_nth; exact Hki|exact Hkh].
  Qed.
  Lemma locate_ub : (exists t, contains s t p) -> locate_point (hier_of s L) p (L + 1) = UB.
  Proof.
    intros (t0 & C0). unfold locate_point, hier_of at 1. cbn [meshes seq map hlevel].
    destruct (first_ok s H (seq 0 (length (s_surfs s))) p N) as [(t & E1 & I1 & C1)|(E1 & C1)].
    - intros t Ht. apply in_seq in Ht. lia.
    - rewrite E1. cbn [bind]. destruct (Nat.ltb_spec 0 (L + 1)); [|lia]. apply locate_loop_ub; try lia. exact C1.
    - exfalso. apply (C1 t0); [|exact C0]. destruct C0 as (c & Ec & _). apply in_seq. split; [lia|]. apply nth_error_Some. congruence.
  Qed.
End Locate.
