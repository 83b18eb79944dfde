(** C150, C155, C156: numbering of the unknowns of the virtual element method *)
From Coq Require Import List Arith Bool Lia ZArith Sorting.
From Verif Require Import Common Mesh_Model Mesh_Spec Mesh_Proofs Elem_Model Elem_Proofs Mesher_Model Single_Model Asm_Model VDof_Model VDof_Spec VDof_Proofs.
Import ListNotations.

(** C150: faces_ccw lists the sides of a closed walk through the points of the cell, in order, and sets the flag of those
    that are walked from their larger to their smaller point. *)
Theorem C150_walk : forall C faces_ccw (walk : C -> list nat) m c, planar faces_ccw walk m -> good_mesh walk m -> In c (vm_cells m) ->
  faces_ccw c = Ok (map (fun s => (edge_of s, snd s <=? fst s)) (sides (walk c))).
Proof.
  intros C fc walk m c HP HG Hc. assert (fc c = Ok (map oriented (sides (walk c)))) as E.
  { destruct HP as [m H|m H|m H].
    - apply tri_ccw, H, Hc.
    - apply quad_ccw, H, Hc.
    - destruct (gm_cells _ _ HG c Hc) as (N & L & _). apply poly_ccw; [exact (gm_faces _ _ HG)| |apply H, Hc|exact N|exact L].
      intros e He. destruct (gm_edges _ _ HG e He) as (a & b & E & L' & _). eauto. }
  rewrite E. f_equal. apply map_ext. intros s. unfold oriented. f_equal. apply eq_sym, Nat.leb_antisym.
Qed.
Lemma walk_oriented C faces_ccw (walk : C -> list nat) m : planar faces_ccw walk m -> good_mesh walk m ->
  forall c, In c (vm_cells m) -> faces_ccw c = Ok (map oriented (sides (walk c))).
Proof.
  intros HP HG c Hc. rewrite (C150_walk _ _ _ _ _ HP HG Hc). f_equal. apply map_ext. intros s. unfold oriented. f_equal. apply Nat.leb_antisym.
Qed.

(** C150: the numbering exists for every degree but 0, which is refused. *)
Theorem C150_defined : forall C faces_ccw (walk : C -> list nat) m k, planar faces_ccw walk m -> good_mesh walk m ->
  (k = 0 -> dof_mapper faces_ccw m k = Throw InvalidArgument) /\ (1 <= k -> exists d, dof_mapper faces_ccw m k = Ok d).
Proof.
  intros C fc walk m k HP HG. split; [intros ->; reflexivity|]. intros Hk. eexists. apply (fresh_ok fc walk m k HG (walk_oriented _ _ _ _ HP HG) Hk).
Qed.
(** C150: an edge has its two points, by their number, and between them k - 1 numbers of its own. *)
Theorem C150_edges : forall C faces_ccw (walk : C -> list nat) m k d i e, planar faces_ccw walk m -> good_mesh walk m ->
  dof_mapper faces_ccw m k = Ok d -> nth_error (vm_faces m) i = Some e -> face_to_global d i = Ok (edge_unknowns (vm_points m) k i e).
Proof.
  intros C fc walk m k d i e HP HG HD He. destruct k as [|k]; [discriminate|].
  rewrite (fresh_ok fc walk m (S k) HG (walk_oriented _ _ _ _ HP HG) ltac:(lia)) in HD. injection HD as <-.
  apply vget_ok. cbn [fresh byface]. rewrite (numbers_nth _ _ _ _ _ He). reflexivity.
Qed.
(** C150: those numbers follow the numbers of the points, without gaps, and no two edges share one. *)
Theorem C150_no_gap : forall npts k nf x, npts <= x < npts + nf * (k - 1) <-> exists i, i < nf /\ In x (inner npts k i).
Proof.
  intros npts k nf x. split.
  - intros [H1 H2]. assert (k - 1 <> 0) as H0 by (intros E; rewrite E in H2; lia). exists ((x - npts) / (k - 1)).
    pose proof (Nat.div_mod (x - npts) (k - 1) H0) as D. rewrite Nat.mul_comm in D. pose proof (Nat.mod_upper_bound (x - npts) (k - 1) H0).
    split; [apply Nat.div_lt_upper_bound; [exact H0|rewrite (Nat.mul_comm (k - 1) nf); lia]|]. apply inner_in. generalize dependent ((x - npts) / (k - 1)). intros q D. generalize dependent (q * (k - 1)). intros; lia.
  - intros (i & Hi & H). apply inner_in in H. revert H. generalize (k - 1). intros n H. split; [nia|]. assert (S i * n <= nf * n) by (apply Nat.mul_le_mono_r; lia). lia.
Qed.
Theorem C150_no_overlap : forall npts k i j x, In x (inner npts k i) -> In x (inner npts k j) -> i = j /\ npts <= x.
Proof. intros npts k i j x H1 H2. split; [exact (inner_disjoint _ _ _ _ _ H1 H2)|]. apply inner_in in H1. revert H1. generalize (k - 1). intros n H. nia. Qed.
(** C150: the unknowns of a cell are met in order by the walk around it *)
Theorem C150_cells : forall C faces_ccw (walk : C -> list nat) m k d j c, planar faces_ccw walk m -> good_mesh walk m ->
  dof_mapper faces_ccw m k = Ok d -> nth_error (vm_cells m) j = Some c ->
  cell_to_global d j = Ok (flat_map (side_unknowns (vm_points m) k (vm_faces m)) (sides (walk c))).
Proof.
  intros C fc walk m k d j c HP HG HD Hc. destruct k as [|k]; [discriminate|].
  rewrite (fresh_ok fc walk m (S k) HG (walk_oriented _ _ _ _ HP HG) ltac:(lia)) in HD. injection HD as <-.
  apply vget_ok. cbn [fresh bycell]. rewrite nth_error_map, Hc. reflexivity.
Qed.
(** C150: k for each side, none twice. *)
Lemma walk_points C faces_ccw (walk : C -> list nat) m c s : planar faces_ccw walk m -> good_mesh walk m -> In c (vm_cells m) -> In s (sides (walk c)) -> fst s < vm_points m.
Proof.
  intros HP HG Hc Hs. destruct (gm_cells _ _ HG c Hc) as (N & L & H). apply H in Hs. apply (gm_edges _ _ HG) in Hs as (a & b & E & H1 & H2).
  unfold edge_of in E. destruct (_ <? _); injection E as E1 E2; lia.
Qed.
Theorem C150_cell_numbers_distinct : forall C faces_ccw (walk : C -> list nat) m k d j c l, planar faces_ccw walk m -> good_mesh walk m ->
  dof_mapper faces_ccw m k = Ok d -> nth_error (vm_cells m) j = Some c -> cell_to_global d j = Ok l ->
  length l = length (walk c) * k /\ NoDup l /\ forall x, In x l -> x < vm_points m + length (vm_faces m) * (k - 1).
Proof.
  intros C fc walk m k d j c l HP HG HD Hc Hl. rewrite (C150_cells _ _ _ _ _ _ _ _ HP HG HD Hc) in Hl. injection Hl as <-.
  assert (1 <= k) as Hk by (destruct k; [discriminate|lia]). pose proof (nth_error_In _ _ Hc) as Ic. destruct (gm_cells _ _ HG c Ic) as (N & L & H).
  split; [rewrite cell_length, sides_length by exact Hk; reflexivity|]. split.
  - apply unknowns_nodup; [exact H| |rewrite fst_sides; exact N|intros s t; apply sides_edge_inj; assumption].
    intros s Hs. exact (walk_points _ _ _ _ _ _ HP HG Ic Hs).
  - intros x Hx. apply in_flat_map in Hx as (s & Hs & Hx). cbn in Hx. destruct Hx as [<-|Hx]; [exact (Nat.lt_le_trans _ _ _ (walk_points _ _ _ _ _ _ HP HG Ic Hs) (Nat.le_add_r _ _))|].
    apply along_in in Hx. apply (C150_no_gap _ k (length (vm_faces m))). exists (position (vm_faces m) (edge_of s)). split; [|exact Hx].
    apply (stored_lt (vm_faces m) _ (edge_of s)), position_stored, H, Hs.
Qed.
(** C150: the k + 1 unknowns from place i k of a cell on (the last side ends at place 0) are those of its side number i,
    in the direction of the walk. *)
Lemma flat_nth npts k es l : 1 <= k -> forall i s j, nth_error l i = Some s -> j < k ->
  nth_error (flat_map (side_unknowns npts k es) l) (i * k + j) = nth_error (side_unknowns npts k es s) j.
Proof.
  intros Hk. induction l as [|t l IH]; intros [|i] s j H Hj; cbn [nth_error] in H; try discriminate; cbn [flat_map].
  - injection H as ->. rewrite nth_error_app1 by (rewrite side_length; lia). reflexivity.
  - rewrite nth_error_app2 by (rewrite side_length by exact Hk; lia). rewrite side_length by exact Hk.
    replace (S i * k + j - k) with (i * k + j) by lia. apply IH; assumption.
Qed.
Theorem C150_cell_sides : forall C faces_ccw (walk : C -> list nat) m k d n c l i s e f b t, planar faces_ccw walk m -> good_mesh walk m ->
  dof_mapper faces_ccw m k = Ok d -> nth_error (vm_cells m) n = Some c -> cell_to_global d n = Ok l ->
  nth_error (sides (walk c)) i = Some s ->
  nth_error (vm_faces m) f = Some e -> e = edge_of s -> face_to_global d f = Ok b -> t <= k ->
  nth_error l ((i * k + t) mod length l) = nth_error (if fst s <? snd s then b else rev b) t.
Proof.
  intros C fc walk m k d n c l i s e f b t HP HG HD Hc Hl Hs He Ee Hb Ht.
  rewrite (C150_edges _ _ _ _ _ _ _ _ HP HG HD He) in Hb. injection Hb as <-.
  assert (1 <= k) as Hk by (destruct k; [discriminate|lia]).
  destruct (C150_cell_numbers_distinct _ _ _ _ _ _ _ _ _ HP HG HD Hc Hl) as (LL & _ & _).
  rewrite (C150_cells _ _ _ _ _ _ _ _ HP HG HD Hc) in Hl. injection Hl as <-.
  pose proof (nth_error_In _ _ Hc) as Ic. destruct (gm_cells _ _ HG c Ic) as (N & L & H).
  pose proof (nth_error_In _ _ Hs) as Is. pose proof (H _ Is) as Ie. pose proof (sides_ne _ _ N ltac:(lia) Is) as Hn.
  assert (f = position (vm_faces m) (edge_of s)) as ->.
  { apply (stored_unique lex_ltb lex_ltb_sto (vm_faces m) e f _ (gm_faces _ _ HG)); [exact He|rewrite Ee; apply position_stored, Ie]. }
  assert ((if fst s <? snd s then edge_unknowns (vm_points m) k (position (vm_faces m) (edge_of s)) e else rev (edge_unknowns (vm_points m) k (position (vm_faces m) (edge_of s)) e))
     = through (vm_points m) k (vm_faces m) s) as ->.
  { rewrite <- (directed (vm_points m) k (vm_faces m) s Hn), Ee. unfold oriented. cbn [snd]. destruct (fst s <? snd s); reflexivity. }
  assert (i < length (walk c)) as Hi by (rewrite <- sides_length; apply nth_error_Some; rewrite Hs; discriminate).
  assert (S i * k <= length (walk c) * k) as HM by (apply Nat.mul_le_mono_r; lia).
  rewrite LL. unfold through. destruct (Nat.eq_dec t k) as [->|Htk].
  - rewrite nth_error_app2 by (rewrite side_length; lia). rewrite side_length, Nat.sub_diag by exact Hk. cbn [nth_error].
    destruct (sides_next _ _ _ Hs) as [_ Hq].
    replace ((i * k + k) mod (length (walk c) * k)) with (((i + 1) mod length (walk c)) * k + 0).
    2:{ replace (i * k + k) with ((i + 1) * k) by lia. rewrite Nat.mul_mod_distr_r by lia. lia. }
    destruct (nth_error_some (sides (walk c)) ((i + 1) mod length (walk c))) as [s' Hs']; [rewrite sides_length; apply Nat.mod_upper_bound; lia|].
    rewrite (flat_nth _ _ _ _ Hk _ _ 0 Hs') by lia. cbn [side_unknowns nth_error]. destruct (sides_next _ _ _ Hs') as [Hp' _]. congruence.
  - rewrite Nat.mod_small by lia. rewrite (flat_nth _ _ _ _ Hk _ _ t Hs) by lia. rewrite nth_error_app1 by (rewrite side_length; lia). reflexivity.
Qed.
(** C150: an unknown shared by two cells sits at a common point or inside a common edge. *)
Theorem C150_conforming : forall C faces_ccw (walk : C -> list nat) m k d j1 j2 c1 c2 l1 l2 x, planar faces_ccw walk m -> good_mesh walk m ->
  dof_mapper faces_ccw m k = Ok d -> nth_error (vm_cells m) j1 = Some c1 -> nth_error (vm_cells m) j2 = Some c2 ->
  cell_to_global d j1 = Ok l1 -> cell_to_global d j2 = Ok l2 ->
  (In x l1 /\ In x l2 <-> (In x (walk c1) /\ In x (walk c2)) \/
     exists s1 s2, In s1 (sides (walk c1)) /\ In s2 (sides (walk c2)) /\ edge_of s1 = edge_of s2 /\ In x (inner (vm_points m) k (position (vm_faces m) (edge_of s1)))).
Proof.
  intros C fc walk m k d j1 j2 c1 c2 l1 l2 x HP HG HD H1 H2 L1 L2.
  rewrite (C150_cells _ _ _ _ _ _ _ _ HP HG HD H1) in L1. rewrite (C150_cells _ _ _ _ _ _ _ _ HP HG HD H2) in L2. injection L1 as <-. injection L2 as <-.
  pose proof (nth_error_In _ _ H1) as I1. pose proof (nth_error_In _ _ H2) as I2.
  destruct (gm_cells _ _ HG c1 I1) as (_ & _ & E1). destruct (gm_cells _ _ HG c2 I2) as (_ & _ & E2).
  assert (forall c, In c (vm_cells m) -> (In x (flat_map (side_unknowns (vm_points m) k (vm_faces m)) (sides (walk c))) <->
     In x (walk c) \/ exists s, In s (sides (walk c)) /\ In x (inner (vm_points m) k (position (vm_faces m) (edge_of s))))) as HX.
  { intros c Ic. rewrite in_flat_map. split.
    - intros (s & Hs & Hx). cbn in Hx. destruct Hx as [<-|Hx]; [left; rewrite <- (fst_sides (walk c)); apply in_map; exact Hs|].
      right. exists s. split; [exact Hs|]. apply along_in in Hx. exact Hx.
    - intros [Hx|(s & Hs & Hx)].
      + rewrite <- (fst_sides (walk c)) in Hx. apply in_map_iff in Hx as (s & <- & Hs). exists s. split; [exact Hs|left; reflexivity].
      + exists s. split; [exact Hs|]. right. apply along_in. exact Hx. }
  assert (forall c s, In c (vm_cells m) -> In x (walk c) -> ~ In x (inner (vm_points m) k (position (vm_faces m) (edge_of s)))) as HV.
  { intros c s Ic Hx Hy. rewrite <- (fst_sides (walk c)) in Hx. apply in_map_iff in Hx as (t & <- & Ht). pose proof (walk_points _ _ _ _ _ _ HP HG Ic Ht) as W. apply inner_in in Hy as [Hy _]. revert Hy W. generalize (position (vm_faces m) (edge_of s)), (k - 1), (vm_points m). intros; nia. }
  rewrite (HX c1 I1), (HX c2 I2). split.
  - intros [[A|(s1 & S1 & A)] [B|(s2 & S2 & B)]].
    + left. split; assumption.
    + destruct (HV _ _ I1 A B).
    + destruct (HV _ _ I2 B A).
    + right. exists s1, s2. repeat split; try assumption. apply (position_inj (vm_faces m)); [apply E1, S1|apply E2, S2|exact (inner_disjoint _ _ _ _ _ A B)].
  - intros [[A B]|(s1 & s2 & S1 & S2 & E & A)]; split; auto; right; [exists s1|exists s2]; split; try assumption. rewrite <- E. exact A.
Qed.
(** C150: bnd_to_global gives the unknowns of an edge of the boundary, directed along the last cell that has it (for an
    edge of one cell, that cell), and nothing for any other edge. *)
Theorem C150_boundary : forall C faces_ccw (walk : C -> list nat) m k d i e b, planar faces_ccw walk m -> good_mesh walk m ->
  dof_mapper faces_ccw m k = Ok d -> nth_error (vm_faces m) i = Some e -> face_to_global d i = Ok b ->
  (on_boundary m i = false -> bnd_to_global d i = []) /\
  ((forall c s, In c (vm_cells m) -> In s (sides (walk c)) -> edge_of s <> e) -> bnd_to_global d i = []) /\
  (on_boundary m i = true -> forall before c after s, vm_cells m = before ++ c :: after ->
     In s (sides (walk c)) -> edge_of s = e -> (forall c' s', In c' after -> In s' (sides (walk c')) -> edge_of s' <> e) ->
     bnd_to_global d i = if fst s <? snd s then b else rev b).
Proof.
  intros C fc walk m k d i e b HP HG HD He Hb. rewrite (C150_edges _ _ _ _ _ _ _ _ HP HG HD He) in Hb. injection Hb as <-.
  assert (1 <= k) as Hk by (destruct k; [discriminate|lia]).
  rewrite (fresh_ok fc walk m k HG (walk_oriented _ _ _ _ HP HG) Hk) in HD. injection HD as <-.
  unfold bnd_to_global. cbn [fresh bndfaces]. rewrite puts_find. set (P := fun s => (position (vm_faces m) (edge_of s) =? i) && flagged m s).
  assert (forall s, In (edge_of s) (vm_faces m) -> (position (vm_faces m) (edge_of s) = i <-> edge_of s = e)) as HPOS.
  { intros s Hs. pose proof (position_stored _ _ Hs) as ST. split.
    - intros E. rewrite E in ST. unfold stored in ST. congruence.
    - intros E. apply (stored_unique lex_ltb lex_ltb_sto (vm_faces m) e _ _ (gm_faces _ _ HG)); [rewrite <- E; exact ST|exact He]. }
  assert (forall s, position (vm_faces m) (edge_of s) = i -> flagged m s = on_boundary m i) as HFL by (intros s <-; reflexivity).
  assert (forall s, In s (all_sides walk m) -> exists c, In c (vm_cells m) /\ In s (sides (walk c))) as HAS by (intros s H; apply in_flat_map in H; exact H).
  assert (forall s, In s (all_sides walk m) -> In (edge_of s) (vm_faces m)) as HIN.
  { intros s H. destruct (HAS s H) as (c & Ic & Hs). exact (proj2 (proj2 (gm_cells _ _ HG c Ic)) s Hs). }
  split; [|split].
  - intros HB. destruct (find P _) as [s|] eqn:F; [|reflexivity]. apply find_some in F as [_ F]. unfold P in F. apply andb_true_iff in F as [F1 F2].
    apply Nat.eqb_eq in F1. rewrite (HFL _ F1), HB in F2. discriminate.
  - intros HN. destruct (find P _) as [s|] eqn:F; [|reflexivity]. apply find_some in F as [F0 F]. unfold P in F. apply andb_true_iff in F as [F1 F2].
    apply Nat.eqb_eq in F1. apply in_rev in F0. destruct (HAS s F0) as (c & Ic & Hs). apply HPOS in F1; [|exact (HIN _ F0)]. destruct (HN c s Ic Hs F1).
  - intros HB before c after s EC Hs Ee HA.
    assert (In c (vm_cells m)) as Ic by (rewrite EC; apply in_elt). destruct (gm_cells _ _ HG c Ic) as (N & L & H).
    destruct (find P (rev (all_sides walk m))) as [t|] eqn:F.
    + assert (t = s) as ->.
      { unfold all_sides in F. rewrite EC, flat_map_app in F. cbn [flat_map] in F. rewrite !rev_app_distr in F. rewrite <- app_assoc in F.
        assert (forall (u v : list (nat * nat)), find P (u ++ v) = match find P u with Some x => Some x | None => find P v end) as FA.
        { intros u v. induction u as [|x u IH]; cbn; [reflexivity|]. destruct (P x); [reflexivity|exact IH]. }
        rewrite FA in F. destruct (find P (rev (flat_map _ after))) as [s'|] eqn:F1.
        { exfalso. apply find_some in F1 as [F1 F2]. apply in_rev, in_flat_map in F1 as (c' & Ic' & Hs'). unfold P in F2. apply andb_true_iff in F2 as [F2 _]. apply Nat.eqb_eq in F2.
          apply HPOS in F2; [exact (HA c' s' Ic' Hs' F2)|]. assert (In c' (vm_cells m)) as Ic2 by (rewrite EC; apply in_or_app; right; right; exact Ic').
          exact (proj2 (proj2 (gm_cells _ _ HG c' Ic2)) s' Hs'). }
        rewrite FA in F. destruct (find P (rev (sides (walk c)))) as [s'|] eqn:F2.
        - injection F as <-. apply find_some in F2 as [F2 F3]. apply in_rev in F2. unfold P in F3. apply andb_true_iff in F3 as [F3 _]. apply Nat.eqb_eq in F3.
          apply HPOS in F3; [|exact (H _ F2)]. apply (sides_edge_inj _ _ _ N L F2 Hs). congruence.
        - exfalso. apply in_rev in Hs. pose proof (find_none _ _ F2 _ Hs) as Q. unfold P in Q. apply in_rev in Hs.
          assert (position (vm_faces m) (edge_of s) = i) as E by (apply HPOS; [exact (H _ Hs)|exact Ee]). rewrite E, Nat.eqb_refl, (HFL _ E), HB in Q. discriminate. }
      pose proof (sides_ne _ _ N ltac:(lia) Hs) as Hn. rewrite <- (directed (vm_points m) k (vm_faces m) s Hn).
      assert (position (vm_faces m) (edge_of s) = i) as E by (apply HPOS; [exact (H _ Hs)|exact Ee]). rewrite E, Ee. unfold oriented. cbn [snd]. destruct (fst s <? snd s); reflexivity.
    + exfalso. assert (In s (rev (all_sides walk m))) as Ia by (rewrite <- in_rev; apply in_flat_map; exists c; split; assumption).
      pose proof (find_none _ _ F _ Ia) as Q. unfold P in Q.
      assert (position (vm_faces m) (edge_of s) = i) as E by (apply HPOS; [exact (H _ Hs)|exact Ee]). rewrite E, Nat.eqb_refl, (HFL _ E), HB in Q. discriminate.
Qed.

(** Non-vacuity: two triangles; a cartesian square; a pentagon and a triangle of a generic mesh *)
Definition ex_tri : vmesh (list nat) := mkVM 4 [[0; 1]; [0; 2]; [1; 2]; [1; 3]; [2; 3]]
  [bd_make 0 true; bd_make 0 true; bd_default; bd_make 1 true; bd_make 1 true] [[0; 1; 2]; [1; 2; 3]].
Definition ex_quad : vmesh (list nat) := mkVM 4 [[0; 1]; [0; 2]; [1; 3]; [2; 3]] [bd_make 0 true; bd_make 1 true; bd_make 2 true; bd_make 3 true] [[0; 1; 2; 3]].
Definition ex_poly : vmesh gcell := mkVM 6 [[0; 1]; [0; 4]; [0; 5]; [1; 2]; [2; 3]; [3; 4]; [4; 5]]
  [bd_make 0 true; bd_default; bd_make 0 true; bd_make 0 true; bd_make 0 true; bd_make 0 true; bd_make 0 true] [mkGC [0; 1; 3; 4; 5] [0; 1; 2; 3; 4]; mkGC [1; 2; 6] [0; 4; 5]].
Ltac sorted_list := repeat (apply SSorted_cons || apply SSorted_nil); repeat constructor.
Ltac small_cases := repeat match goal with H : _ \/ _ |- _ => destruct H as [H|H] | H : False |- _ => destruct H end; subst.
Example C150_good_tri : planar tri_faces_ccw tri_walk ex_tri /\ good_mesh tri_walk ex_tri.
Proof.
  split; [constructor; cbn; intros t H; small_cases; unfold tri_ok; repeat eexists; lia|]. constructor.
  - sorted_list.
  - cbn. intros e H. small_cases; repeat eexists; lia.
  - reflexivity.
  - cbn. intros c H. small_cases; (split; [repeat constructor; cbn; lia|split; [cbn; lia|]]); cbn; intros s Hs; small_cases; cbn; tauto.
Qed.
Example C150_good_quad : planar quad_faces_ccw quad_walk ex_quad /\ good_mesh quad_walk ex_quad.
Proof.
  split; [constructor; cbn; intros t H; small_cases; unfold quad_ok; repeat eexists; lia|]. constructor.
  - sorted_list.
  - cbn. intros e H. small_cases; repeat eexists; lia.
  - reflexivity.
  - cbn. intros c H. small_cases; (split; [repeat constructor; cbn; lia|split; [cbn; lia|]]); cbn; intros s Hs; small_cases; cbn; tauto.
Qed.
Example C150_good_poly : planar (poly_faces_ccw (vm_faces ex_poly)) poly_walk ex_poly /\ good_mesh poly_walk ex_poly.
Proof.
  split.
  - constructor. intros c H. cbn in H. small_cases; (split; [repeat constructor; cbn; lia|split; [cbn; intros; small_cases; lia|]]); cbn; intros s Hs; small_cases;
      match goal with |- exists i, _ /\ nth_error _ i = Some ?e => let n := eval vm_compute in (position (vm_faces ex_poly) e) in exists n end; (split; [tauto|reflexivity]).
  - constructor.
    + sorted_list.
    + cbn. intros e H. small_cases; repeat eexists; lia.
    + reflexivity.
    + cbn. intros c H. small_cases; (split; [repeat constructor; cbn; lia|split; [cbn; lia|]]); cbn; intros s Hs; small_cases; cbn; tauto.
Qed.
Example C150_numbers : exists d, dof_mapper tri_faces_ccw ex_tri 3 = Ok d /\ bycell d = [[0; 4; 5; 1; 8; 9; 2; 7; 6]; [1; 8; 9; 2; 12; 13; 3; 11; 10]] /\
  face_to_global d 2 = Ok [1; 8; 9; 2] /\ bnd_to_global d 2 = [] /\ bnd_to_global d 1 = [2; 7; 6; 0].
Proof. eexists. split; [vm_compute; reflexivity|]. repeat split. Qed.
Example C150_numbers_poly : exists d, dof_mapper (poly_faces_ccw (vm_faces ex_poly)) ex_poly 2 = Ok d /\ bycell d = [[0; 6; 1; 9; 2; 10; 3; 11; 4; 7]; [0; 7; 4; 12; 5; 8]].
Proof. eexists. split; [vm_compute; reflexivity|]. reflexivity. Qed.

(** C155 (partial): the walk around a triangle is counterclockwise exactly when its points, in the order of their numbers,
    are met counterclockwise. *)
Definition located (at_ : nat -> Z * Z) (fcs : list (edge * bool)) : list (Z * Z) :=
  map (fun '(e, flip) => at_ (if flip : bool then nth 1 e 0 else nth 0 e 0)) fcs.
Theorem C155_counterclockwise_partial : forall (at_ : nat -> Z * Z) a b c fcs, a < b -> b < c -> tri_faces_ccw [a; b; c] = Ok fcs ->
  (0 < signed_area2 (located at_ fcs) <-> 0 < (fst (at_ b) - fst (at_ a)) * (snd (at_ c) - snd (at_ a)) - (fst (at_ c) - fst (at_ a)) * (snd (at_ b) - snd (at_ a)))%Z.
Proof.
  intros at_ a b c fcs H1 H2 E. rewrite tri_ccw in E by (exists a, b, c; repeat split; assumption). injection E as <-. unfold located, tri_walk, sides. cbn [tl firstn app combine map].
  unfold oriented, edge_of. cbn [fst snd]. rewrite (proj2 (Nat.ltb_lt a b)), (proj2 (Nat.ltb_lt b c)), (proj2 (Nat.ltb_ge c a)) by lia. cbn [negb nth].
  destruct (at_ a) as [xa ya], (at_ b) as [xb yb], (at_ c) as [xc yc]. unfold signed_area2. cbn [tl firstn app combine map fold_right fst snd]. lia.
Qed.
(** C155 refuted: a triangle whose points are numbered clockwise is walked clockwise. *)
Theorem C155_counterclockwise_refuted : exists (at_ : nat -> Z * Z) t fcs, tri_ok t /\ tri_faces_ccw t = Ok fcs /\ (signed_area2 (located at_ fcs) < 0)%Z.
Proof.
  exists (fun i => match i with O => (0, 0)%Z | S O => (0, 1)%Z | _ => (1, 0)%Z end), [0; 1; 2]. eexists. split; [exists 0, 1, 2; repeat split; lia|].
  split; [reflexivity|]. vm_compute. reflexivity.
Qed.

(** C156 (partial): numbering the same mesh again with the same degree changes no answer *)
Theorem C156_recompute_partial : forall C faces_ccw (walk : C -> list nat) m k d, planar faces_ccw walk m -> good_mesh walk m ->
  dof_mapper faces_ccw m k = Ok d -> exists d', recompute faces_ccw m k d = Ok d' /\
  (forall i, i < length (vm_faces m) -> face_to_global d' i = face_to_global d i) /\
  (forall j, j < length (vm_cells m) -> cell_to_global d' j = cell_to_global d j) /\
  (forall i, bnd_to_global d' i = bnd_to_global d i).
Proof.
  intros C fc walk m k d HP HG HD. assert (1 <= k) as Hk by (destruct k; [discriminate|lia]).
  pose proof (walk_oriented _ _ _ _ HP HG) as HF. rewrite (fresh_ok fc walk m k HG HF Hk) in HD. injection HD as <-.
  eexists. split; [apply (again_ok fc walk m k HG HF Hk)|]. repeat split.
  - intros i Hi. unfold face_to_global, vget. cbn [byface fresh]. rewrite nth_error_app1; [reflexivity|rewrite numbers_length; exact Hi].
  - intros i Hi. unfold cell_to_global, vget. cbn [bycell fresh]. rewrite nth_error_app1; [reflexivity|rewrite map_length; exact Hi].
  - intros i. unfold bnd_to_global. cbn [bndfaces fresh]. rewrite puts_again. reflexivity.
Qed.
(** C156: whatever the mesh and the degree, the edges and cells numbered before keep their old numbers. *)
Theorem C156_keeps_old : forall C (faces_ccw : C -> outcome (list (edge * bool))) m k d d' i l, recompute faces_ccw m k d = Ok d' ->
  (face_to_global d i = Ok l -> face_to_global d' i = Ok l) /\ (cell_to_global d i = Ok l -> cell_to_global d' i = Ok l).
Proof.
  intros C fc m k d d' i l H. destruct (recompute_keeps _ _ _ _ _ H) as (f & c & EF & EC).
  unfold face_to_global, cell_to_global, vget. rewrite EF, EC. split; intros E.
  - destruct (nth_error (byface d) i) eqn:N; [|discriminate]. rewrite nth_error_app1 by (apply nth_error_Some; rewrite N; discriminate). rewrite N. exact E.
  - destruct (nth_error (bycell d) i) eqn:N; [|discriminate]. rewrite nth_error_app1 by (apply nth_error_Some; rewrite N; discriminate). rewrite N. exact E.
Qed.
(** C156 refuted: after recompute with another degree the answers are still those of the old one. *)
Theorem C156_recompute_refuted : exists m d1 d2 d3, planar tri_faces_ccw tri_walk m /\ good_mesh tri_walk m /\
  dof_mapper tri_faces_ccw m 1 = Ok d1 /\ recompute tri_faces_ccw m 2 d1 = Ok d2 /\ dof_mapper tri_faces_ccw m 2 = Ok d3 /\
  cell_to_global d2 0 = cell_to_global d1 0 /\ cell_to_global d2 0 <> cell_to_global d3 0.
Proof.
  exists ex_tri. do 3 eexists. split; [exact (proj1 C150_good_tri)|]. split; [exact (proj2 C150_good_tri)|].
  split; [vm_compute; reflexivity|]. split; [vm_compute; reflexivity|]. split; [vm_compute; reflexivity|]. split; [reflexivity|]. discriminate.
Qed.

Print Assumptions C150_walk.
Print Assumptions C150_defined.
Print Assumptions C150_edges.
Print Assumptions C150_no_gap.
Print Assumptions C150_no_overlap.
Print Assumptions C150_cells.
Print Assumptions C150_cell_numbers_distinct.
Print Assumptions C150_cell_sides.
Print Assumptions C150_conforming.
Print Assumptions C150_boundary.
Print Assumptions C155_counterclockwise_partial.
Print Assumptions C155_counterclockwise_refuted.
Print Assumptions C156_recompute_partial.
Print Assumptions C156_keeps_old.
Print Assumptions C156_recompute_refuted.
