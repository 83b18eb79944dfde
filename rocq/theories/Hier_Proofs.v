(** The mesh hierarchy: refinement, coarse-to-fine maps. *)
From Coq Require Import List Arith Bool Sorted Permutation Lia Reals Lra.
From Verif Require Import Common Mesh_Model Mesh_Spec Mesh_Proofs Elem_Model Elem_Spec Elem_Proofs
  Elem_Properties Refine_Proofs Mesher_Model Mesher_Spec Mesher_Proofs Mesher2_Proofs Mesher5_Proofs Hier_Model.
Import ListNotations.
Local Open Scope nat_scope.

(** ** Lists *)
Lemma collect_ok {A B} (f : A -> outcome B) (g : A -> B) l : (forall x, In x l -> f x = Ok (g x)) -> collect f l = Ok (map g l).
Proof.
  induction l as [|x l IH]; intros H; [reflexivity|]. cbn [collect map]. rewrite (H x) by (left; reflexivity). cbn [bind].
  rewrite IH by (intros; apply H; right; assumption). reflexivity.
Qed.

Lemma sort_map {A B} (ltbA : A -> A -> bool) (ltbB : B -> B -> bool) (g : A -> B) l :
  (forall x y, In x l -> In y l -> ltbB (g x) (g y) = ltbA x y) -> std_sort ltbB (map g l) = map g (std_sort ltbA l).
Proof.
  induction l as [|x l IH]; intros H; [reflexivity|]. cbn [map std_sort].
  rewrite IH by (intros; apply H; right; assumption).
  assert (Hs : forall y, In y (std_sort ltbA l) -> In y l) by (intros y; apply Permutation_in, std_sort_perm).
  revert Hs. generalize (std_sort ltbA l). intros k Hs.
  induction k as [|y k IHk]; [reflexivity|]. cbn [sort_insert map].
  rewrite (H y x) by (cbn; auto using in_eq; right; apply Hs; left; reflexivity).
  destruct (ltbA y x); [|reflexivity]. cbn [map]. rewrite IHk; [reflexivity|]. intros; apply Hs; right; assumption.
Qed.

Lemma unique_map {A B} (eqA : A -> A -> outcome bool) (eqB : B -> B -> outcome bool) (g : A -> B) l :
  (forall x y, In x l -> In y l -> eqB (g x) (g y) = eqA x y) ->
  std_unique eqB (map g l) = bind (std_unique eqA l) (fun r => Ok (map g r)).
Proof.
  destruct l as [|x l]; [reflexivity|]. cbn [map std_unique]. revert x.
  induction l as [|y l IH]; intros x H; [reflexivity|]. cbn [map unique_from].
  rewrite (H x y) by (cbn; auto). destruct (eqA x y) as [b| |]; cbn [bind]; try reflexivity.
  destruct b.
  - apply IH. intros u v [<-|Hu] [<-|Hv]; apply H; cbn; auto.
  - rewrite IH by (intros; apply H; right; assumption). destruct (unique_from eqA y l); reflexivity.
Qed.

Lemma sort_uniq_map {A B} ltbA ltbB (eqA : A -> A -> outcome bool) (eqB : B -> B -> outcome bool) (g : A -> B) l :
  (forall x y, In x l -> In y l -> ltbB (g x) (g y) = ltbA x y) ->
  (forall x y, In x l -> In y l -> eqB (g x) (g y) = eqA x y) ->
  sort_uniq ltbB eqB (map g l) = bind (sort_uniq ltbA eqA l) (fun r => Ok (map g r)).
Proof.
  intros H1 H2. unfold sort_uniq. rewrite (sort_map ltbA ltbB g l H1). apply unique_map.
  intros x y Hx Hy. apply H2; apply (Permutation_in _ (std_sort_perm ltbA l)); assumption.
Qed.

(** ** Edges as pairs (key, descriptor) *)
Definition toie (p : nes) : iedge :=
  mkIE (nth 0 (fst p) 0) (nth 1 (fst p) 0) 0 (bd_is_b (snd p)) false (bd_id (snd p)).
Definition key2 (k : list nat) : Prop := exists a b, k = [a; b].

Lemma toie_ltb a b : key2 (fst a) -> key2 (fst b) -> ie_ltb (toie a) (toie b) = nes_ltb a b.
Proof.
  intros (x & y & E) (x' & y' & E'). unfold ie_ltb, toie, nes_ltb. rewrite E, E'. cbn [fst nth ie_p0 ie_p1 lex_ltb].
  destruct (Nat.ltb_spec x x'); cbn [orb]; [reflexivity|]. destruct (Nat.ltb_spec x' x); destruct (Nat.eqb_spec x x'); try lia; cbn [andb]; try reflexivity.
  destruct (y <? y'); [reflexivity|]. destruct (y' <? y); reflexivity.
Qed.
Lemma toie_eqb a b : key2 (fst a) -> key2 (fst b) -> ie_eqb (toie a) (toie b) = nes_eqb a b.
Proof.
  intros (x & y & E) (x' & y' & E'). unfold ie_eqb, toie, nes_eqb. rewrite E, E'. cbn. rewrite andb_true_r. reflexivity.
Qed.
Lemma ie_make_toie a b d : ie_make a b (bd_id d) (bd_is_b d) = toie (sord [a; b], d).
Proof. unfold ie_make, toie, sord. cbn [fst snd std_sort sort_insert]. destruct (b <? a); reflexivity. Qed.

(** what the hierarchy keeps of a descriptor *)
Definition norm_bd (d : bdesc) : bdesc := bd_make (if bd_is_b d then bd_id d else 0) (bd_is_b d).
Definition hnorm (s : store) : store :=
  mkS (s_points s) (s_nodes s) (s_edges s) (s_surfs s) [] (map norm_bd (s_binfo s)) (length (s_surfs s)).
(** the refined mesh *)
Definition hnext (s : store) : store :=
  let t := tri_next (hnorm s) in mkS (s_points t) (s_nodes t) (s_edges t) (s_surfs t) [] (s_binfo t) 0.
Definition hCH := [[[0]; [0;1]; [0;2]]; [[1]; [0;1]; [1;2]]; [[2]; [1;2]; [0;2]]; [[0;1]; [1;2]; [0;2]]].
Definition hid (s : store) := lid (length (s_nodes s)) (s_edges s).
Definition hkids (s : store) (c : list nat) : list (list nat) := map (child (hid s) sord c) hCH.
Definition hmap (s : store) : list (list nat) :=
  map (fun c => map (fun k => index_of k (s_surfs (hnext s))) (hkids s c)) (s_surfs s).

Lemma hkids_tri s c : hkids s c = map (child (hid s) sord c) triCH.
Proof.
  assert (Q : forall a b d, child (hid s) sord c [a; b; d] = child (hid s) sord c [a; d; b]).
  { intros a b d. apply sord_perm. cbn [gids map]. apply perm_skip, perm_swap. }
  unfold hkids, hCH, triCH. cbn [map]. rewrite (Q [2] [1;2] [0;2]), (Q [0;1] [1;2] [0;2]). reflexivity.
Qed.

Section HierStep.
  Variable s : store.
  Hypothesis H : tri_ok (hnorm s).
  Let s1 := hnorm s.
  Let n := length (s_nodes s).
  Let E := s_edges s.
  Let C := s_surfs s.
  Let id := lid n E.
  Let D (e : list nat) : bdesc := nth (index_of e E) (s_binfo s1) bd_default.
  Let K := to_conf s1 H.

  Let E_sorted : sorted_unique lex_ltb E.
  Proof. exact (cf_Fs _ _ _ _ _ _ _ K). Qed.
  Let E_good e : In e E -> good_edge n e.
  Proof. exact (to_edge s1 H e). Qed.
  Let len_pts : length (s_points s) = n.
  Proof. exact (to_len s1 H). Qed.
  Let C_sorted c : In c C -> sorted_unique Nat.ltb c.
  Proof. exact (to_cell s1 H c). Qed.
  Let C_cell c : In c C -> exists x y z, c = [x; y; z] /\ x < y /\ y < z /\ z < n.
  Proof. exact (tri_cell s1 H c). Qed.
  Let len_b : length (s_binfo s) = length E.
  Proof. pose proof (cf_len _ _ _ _ _ _ _ K) as L. cbn in L. rewrite map_length in L. exact L. Qed.
  Let C_edges c x y z : In c C -> c = [x; y; z] -> In [x; y] E /\ In [y; z] E /\ In [x; z] E.
  Proof. exact (tri_cell_edges s1 H c x y z). Qed.

  Lemma D_norm e : In e E -> D e = bd_make (bd_id (D e)) (bd_is_b (D e)).
  Proof.
    intros He. unfold D. change (s_binfo s1) with (map norm_bd (s_binfo s)).
    replace bd_default with (norm_bd bd_default) by reflexivity. rewrite map_nth. reflexivity.
  Qed.

  Lemma ie_of_mesh_ok e : In e E -> ie_of_mesh s e = Ok (toie (e, D e)).
  Proof.
    intros He. destruct (E_good e He) as (a & b & Ee & Hab & Hb). rewrite Ee. unfold ie_of_mesh. cbv zeta iota beta.
    unfold is_boundary, boundary_id_face, is_boundary_id, boundary_id, is_boundary_id. rewrite <- Ee.
    cbn [m_faces m_binfo]. fold E. rewrite (lookup_stored lex_ltb lex_ltb_sto E e (index_of e E) E_sorted (index_of_nth e E He)).
    cbn [bind]. unfold vat.
    assert (Hi : index_of e E < length (s_binfo s)) by (rewrite len_b; apply index_of_lt, He).
    destruct (nth_error (s_binfo s) (index_of e E)) as [d|] eqn:Ed; [|apply nth_error_None in Ed; lia].
    cbn [bind]. unfold toie, D. change (s_binfo s1) with (map norm_bd (s_binfo s)).
    rewrite (nth_error_nth _ _ _ (map_nth_error norm_bd _ _ Ed)). rewrite Ee. cbn [fst snd nth].
    destruct (bd_is_b d) eqn:Eb; cbn [bind]; unfold norm_bd; rewrite Eb; reflexivity.
  Qed.

  Lemma to_internal_ok : to_internal s = Ok (mkH (s_points s) (map (fun e => toie (e, D e)) E) C []).
  Proof.
    unfold to_internal. rewrite (collect_ok _ (fun e => toie (e, D e))) by (intros e He; apply ie_of_mesh_ok; exact He).
    cbn [bind]. do 2 f_equal.
    - rewrite (sort_map lex_ltb ie_ltb (fun e => toie (e, D e))).
      + f_equal. apply std_sort_id; [apply lex_ltb_sto|exact E_sorted].
      + intros x y Hx Hy. rewrite toie_ltb; [reflexivity| |];
          [destruct (E_good x Hx) as (a & b & -> & _)|destruct (E_good y Hy) as (a & b & -> & _)]; cbn; unfold key2; eauto.
    - fold C. rewrite <- (map_id C) at 2. apply map_ext_in. intros c Hc. apply std_sort_id; [apply nat_ltb_sto|apply C_sorted; exact Hc].
  Qed.

  (** ** breaking the edges *)
  Definition brk (e : list nat) : iedge :=
    mkIE (nth 0 e 0) (nth 1 e 0) (id e) (bd_is_b (D e)) true (bd_id (D e)).

  Lemma break_ok : break_edges (s_points s) (map (fun e => toie (e, D e)) E) =
    Ok (s_points s ++ map (edge_mid (s_points s)) E, map brk E).
  Proof.
    assert (G : forall rest done, E = done ++ rest ->
      break_edges (s_points s ++ map (edge_mid (s_points s)) done) (map (fun e => toie (e, D e)) rest) =
      Ok (s_points s ++ map (edge_mid (s_points s)) E, map brk rest)).
    { induction rest as [|e rest IH]; intros done Ed; [cbn; rewrite app_nil_r in Ed; rewrite Ed; reflexivity|].
      assert (He : In e E) by (rewrite Ed; apply in_elt).
      destruct (E_good e He) as (a & b & Ee & Hab & Hb).
      assert (Ix : index_of e E = length done).
      { apply index_of_eq; [apply lex_nodup, E_sorted|]. rewrite Ed, nth_error_app2, Nat.sub_diag by lia. reflexivity. }
      cbn [map break_edges]. 
      replace (ie_p0 (toie (e, D e))) with a by (rewrite Ee; reflexivity).
      replace (ie_p1 (toie (e, D e))) with b by (rewrite Ee; reflexivity).
      rewrite vget_pts by lia. cbn [bind]. rewrite vget_pts by lia. cbn [bind].
      assert (Em : edge_mid (s_points s) e = mid2 (ptat (s_points s) a) (ptat (s_points s) b)) by (rewrite Ee; reflexivity).
      rewrite <- Em, <- app_assoc.
      replace (map (edge_mid (s_points s)) done ++ [edge_mid (s_points s) e]) with (map (edge_mid (s_points s)) (done ++ [e]))
        by (rewrite map_app; reflexivity).
      rewrite IH by (rewrite <- app_assoc; exact Ed). cbn [bind fst snd]. do 3 f_equal.
      unfold brk, toie. cbn [ie_bnd ie_id fst snd]. f_equal; [rewrite Ee; reflexivity..|].
      rewrite app_length, map_length. unfold id. rewrite Ee. cbn [lid]. rewrite <- Ee, Ix. lia. }
    specialize (G E [] eq_refl). cbn [map] in G. rewrite app_nil_r in G. exact G.
  Qed.

  Lemma find_ok a b : In [a; b] E -> find_edge (map brk E) a b = Ok (brk [a; b]).
  Proof.
    intros He. destruct (E_good _ He) as (a' & b' & Eq & Hab & Hb). injection Eq as <- <-.
    unfold find_edge. set (i := index_of [a; b] E). pose proof (index_of_nth _ _ He) as Hi. fold i in Hi.
    assert (Hm : forall e, In e E -> ie_ltb (brk e) (ie_make a b 0 false) = lex_ltb e [a; b]).
    { intros e Hin. transitivity (ie_ltb (toie (e, bd_default)) (toie (sord [a; b], bd_make 0 false))).
      - rewrite <- ie_make_toie. reflexivity.
      - destruct (E_good e Hin) as (u & v & -> & _). rewrite toie_ltb.
        + unfold nes_ltb. cbn [fst]. rewrite sord2 by lia. reflexivity.
        + unfold key2; cbn; eauto.
        + rewrite sord2 by lia. unfold key2; cbn; eauto. }
    rewrite (lower_bound_correct ie_ltb (map brk E) (ie_make a b 0 false) i).
    - cbn [bind]. apply vget_ok. apply (map_nth_error brk). exact Hi.
    - destruct (stored_partition lex_ltb lex_ltb_sto E [a; b] i E_sorted Hi) as (P0 & P1 & P2).
      split; [rewrite map_length; exact P0|]. split; intros j x Hx Hj; rewrite nth_error_map in Hx;
        destruct (nth_error E j) as [e|] eqn:Ej; try discriminate; cbn in Hx; injection Hx as <-; rewrite Hm by (eapply nth_error_In; eauto);
        [eapply P1|eapply P2]; eauto.
  Qed.

  Definition hedges (c : list nat) : list nes :=
    match c with
    | [x; y; z] =>
        [(gk id [x; y] [[0]; [0;1]], D [x; y]); (gk id c [[0;1]; [0;2]], bd_default); (gk id [x; z] [[0]; [0;1]], D [x; z]);
         (gk id [x; y] [[1]; [0;1]], D [x; y]); (gk id c [[0;1]; [1;2]], bd_default); (gk id [y; z] [[0]; [0;1]], D [y; z]);
         (gk id [y; z] [[1]; [0;1]], D [y; z]); (gk id c [[1;2]; [0;2]], bd_default); (gk id [x; z] [[1]; [0;1]], D [x; z])]
    | _ => []
    end.

  Lemma split_ok c : In c C -> split_tri (map brk E) c = Ok (map toie (hedges c), hkids s c).
  Proof.
    intros Hc. destruct (C_cell c Hc) as (x & y & z & Ec & Hxy & Hyz & Hz).
    destruct (C_edges c x y z Hc Ec) as (E1 & E2 & E3). subst c. unfold split_tri.
    rewrite !find_ok by assumption. cbn [bind brk ie_p0 ie_p1 ie_pb ie_id ie_bnd nth]. do 2 f_equal.
    unfold gk, gids, lab. cbn [hedges map nth]. unfold gk, gids, lab. cbn [map nth].
    change (std_sort Nat.ltb) with sord. rewrite <- !ie_make_toie. reflexivity.
  Qed.

  Let news := flat_map hedges C.

  Lemma news_pairs : same_set news (tri_pairs s1).
  Proof.
    assert (Half : forall e SP, In e E -> In SP edgSUB -> In (gk id e SP, D e) (tri_pairs s1)).
    { intros e SP He HS. unfold tri_pairs. apply in_or_app. left. apply in_flat_map. exists e. split; [exact He|].
      apply in_map_iff. exists SP. split; [reflexivity|exact HS]. }
    assert (Inn : forall c I, In c C -> In I triINN -> In (gk id c I, bd_default) (tri_pairs s1)).
    { intros c I Hc HI. unfold tri_pairs. apply in_or_app. right. apply in_flat_map. exists c. split; [exact Hc|].
      apply in_map_iff. exists I. split; [reflexivity|exact HI]. }
    assert (Sw : forall c a b, gk id c [a; b] = gk id c [b; a]) by (intros; apply sord_perm; cbn; apply perm_swap).
    intros p. unfold news. rewrite in_flat_map. split.
    - intros (c & Hc & Hp). destruct (C_cell c Hc) as (x & y & z & Ec & Hxy & Hyz & Hz).
      destruct (C_edges c x y z Hc Ec) as (E1 & E2 & E3). subst c. cbn [hedges In] in Hp.
      destruct Hp as [<-|[<-|[<-|[<-|[<-|[<-|[<-|[<-|[<-|[]]]]]]]]]];
        first [apply Half; [assumption|cbn; tauto]|apply Inn; [assumption|cbn; tauto]|rewrite Sw; apply Inn; [assumption|cbn; tauto]].
    - unfold tri_pairs. rewrite in_app_iff, !in_flat_map. intros [(e & He & Hp)|(c & Hc & Hp)]; apply in_map_iff in Hp as (SP & <- & HS).
      + destruct (Hown2 s1 H e He) as (c & Hc & Hf). exists c. split; [exact Hc|].
        rewrite (cf_faces _ _ _ _ _ _ _ K c Hc) in Hf. destruct (C_cell c Hc) as (x & y & z & Ec & Hxy & Hyz & Hz). subst c.
        cbn in Hf. cbn in HS. destruct Hf as [<-|[<-|[<-|[]]]], HS as [<-|[<-|[]]]; cbn [hedges In]; auto 12.
      + exists c. split; [exact Hc|]. destruct (C_cell c Hc) as (x & y & z & Ec & Hxy & Hyz & Hz). subst c.
        cbn in HS. cbn [hedges In]. destruct HS as [<-|[<-|[<-|[]]]]; auto 12.
        right; right; right; right; right; right; right; left. f_equal. apply Sw.
  Qed.

  Lemma news_key2 p : In p (tri_pairs s1) -> key2 (fst p).
  Proof.
    intros Hp. assert (Hf : In (fst p) (new_faces edgSUB triINN id E C)).
    { change (new_faces edgSUB triINN id E C) with (new_faces edgSUB triINN (lid (length (s_nodes s1)) (s_edges s1)) (s_edges s1) (s_surfs s1)).
      rewrite <- (tri_pairs_fst s1). apply in_map. exact Hp. }
    destruct (new_edge_good s1 H _ Hf) as (a & b & -> & _). unfold key2. eauto.
  Qed.

  Lemma hedges_len c : In c C -> length (hedges c) = 9.
  Proof. intros Hc. destruct (C_cell c Hc) as (x & y & z & Ec & _). subst c. reflexivity. Qed.

  Lemma news_len : length E <= length news.
  Proof.
    assert (L1 : length news = 9 * length C).
    { unfold news. assert (G : forall l, incl l C -> length (flat_map hedges l) = 9 * length l).
      { induction l as [|c l IH]; intros Hl; [reflexivity|]. cbn [flat_map]. rewrite app_length, (hedges_len c) by (apply Hl; left; reflexivity).
        rewrite IH by (intros w Hw; apply Hl; right; exact Hw). cbn [length]. lia. }
      apply G. intros w; auto. }
    assert (L2 : length (flat_map tri_faces C) = 3 * length C).
    { assert (G : forall l, incl l C -> length (flat_map tri_faces l) = 3 * length l).
      { induction l as [|c l IH]; intros Hl; [reflexivity|]. cbn [flat_map]. rewrite app_length.
        rewrite (cf_faces _ _ _ _ _ _ _ K c) by (apply Hl; left; reflexivity).
        rewrite IH by (intros w Hw; apply Hl; right; exact Hw). cbn [length map triFL]. lia. }
      apply G. intros w; auto. }
    assert (L3 : length E <= length (flat_map tri_faces C)).
    { apply NoDup_incl_length; [apply lex_nodup, E_sorted|]. intros e He. destruct (Hown2 s1 H e He) as (c & Hc & Hf).
      apply in_flat_map. exists c. auto. }
    lia.
  Qed.

  Lemma removed : exists k, remove_if ie_broken (map brk E ++ map toie news) = map toie (news ++ skipn k news).
  Proof.
    assert (F1 : forall l, filter (fun x => negb (ie_broken x)) (map brk l) = []) by (induction l; cbn; auto).
    assert (F2 : forall l, filter (fun x => negb (ie_broken x)) (map toie l) = map toie l) by (induction l as [|a l IH]; cbn; [|rewrite IH]; auto).
    exists (length news - length E). unfold remove_if. rewrite filter_app, F1, F2. cbn [app]. rewrite map_app. f_equal.
    rewrite map_length, skipn_app, map_length, skipn_map. rewrite (skipn_all2 E) by apply news_len. cbn [map app].
    rewrite skipn_map. reflexivity.
  Qed.

  Lemma sorted_pairs_edges : sort_uniq ie_ltb ie_eqb (remove_if ie_broken (map brk E ++ map toie news)) =
    Ok (map toie (std_sort nes_ltb (tri_pairs s1))).
  Proof.
    destruct removed as (k & ->).
    assert (SS : same_set (news ++ skipn k news) (tri_pairs s1)).
    { intros p. rewrite in_app_iff. rewrite (news_pairs p). split; [|auto]. intros [Hp|Hp]; [exact Hp|].
      apply news_pairs. rewrite <- (firstn_skipn k news). apply in_or_app. right. exact Hp. }
    rewrite (sort_uniq_map nes_ltb ie_ltb nes_eqb ie_eqb toie).
    - rewrite (sort_uniq_keys _ _ (tri_keys_nodup s1 H) SS). reflexivity.
    - intros x y Hx Hy. apply toie_ltb; apply news_key2, SS; assumption.
    - intros x y Hx Hy. apply toie_eqb; apply news_key2, SS; assumption.
  Qed.

  Definition h_after : hstate :=
    mkH (s_points s ++ map (edge_mid (s_points s)) E) (map toie (std_sort nes_ltb (tri_pairs s1)))
      (flat_map (hkids s) C) (combine C (map (hkids s) C)).

  Lemma h_refine_ok : h_refine (mkH (s_points s) (map (fun e => toie (e, D e)) E) C []) = Ok h_after.
  Proof.
    unfold h_refine. cbn [h_points h_edges h_tris]. rewrite break_ok. cbn [bind fst snd].
    rewrite (collect_ok _ (fun c => (map toie (hedges c), hkids s c))) by (intros c Hc; apply split_ok; exact Hc). cbn [bind].
    replace (flat_map fst (map (fun c => (map toie (hedges c), hkids s c)) C)) with (map toie news).
    - rewrite sorted_pairs_edges. cbn [bind]. unfold h_after. do 2 f_equal.
      + rewrite !flat_map_concat_map, map_map. reflexivity.
      + rewrite map_map. reflexivity.
    - unfold news. rewrite map_flat_map, !flat_map_concat_map, map_map. reflexivity.
  Qed.

  Lemma pair_norm p : In p (tri_pairs s1) -> bd_make (bd_id (snd p)) (bd_is_b (snd p)) = snd p.
  Proof.
    intros Hp. unfold tri_pairs in Hp. rewrite in_app_iff, !in_flat_map in Hp.
    destruct Hp as [(e & He & Hp)|(c & Hc & Hp)]; apply in_map_iff in Hp as (SP & <- & HS); cbn [snd]; [|reflexivity].
    symmetry. apply (D_norm e He).
  Qed.

  Lemma kid_sorted c k : In c C -> In k (hkids s c) -> sorted_unique Nat.ltb k /\ length k = 3.
  Proof.
    intros Hc Hk. rewrite hkids_tri in Hk. apply in_map_iff in Hk as (P & <- & HP). apply (tri_child_sorted s1 H c P Hc HP).
  Qed.

  Lemma smake3 k : sorted_unique Nat.ltb k -> length k = 3 -> simplicial_make 3 k = Ok k.
  Proof.
    intros Hs L. unfold simplicial_make, copy_to_array. rewrite L. cbn [Nat.eqb bind]. rewrite std_sort_id; auto. apply nat_ltb_sto.
  Qed.

  Lemma kids_all : flat_map (hkids s) C = children triCH id sord C.
  Proof. unfold children. rewrite !flat_map_concat_map. f_equal. apply map_ext. intros c. apply hkids_tri. Qed.

  Lemma to_simplicial_ok : to_simplicial h_after = Ok (hnext s).
  Proof.
    unfold to_simplicial, h_after. cbn [h_points h_edges h_tris].
    set (ps := std_sort nes_ltb (tri_pairs s1)).
    assert (Hps : forall p, In p ps -> In p (tri_pairs s1)) by (intros p; apply Permutation_in, std_sort_perm).
    rewrite (collect_ok _ (fun e => [ie_p0 e; ie_p1 e])).
    2:{ intros e He. apply in_map_iff in He as (p & <- & Hp). apply Hps in Hp.
        assert (Hf : In (fst p) (new_faces edgSUB triINN id E C)).
        { change (new_faces edgSUB triINN id E C) with (new_faces edgSUB triINN (lid (length (s_nodes s1)) (s_edges s1)) (s_edges s1) (s_surfs s1)).
          rewrite <- (tri_pairs_fst s1). apply in_map. exact Hp. }
        destruct (new_edge_good s1 H _ Hf) as (a & b & Ef & Hab & _). unfold toie. cbn [ie_p0 ie_p1]. rewrite Ef. cbn [nth].
        unfold simplicial_make, copy_to_array. cbn [length Nat.eqb bind]. f_equal. apply sord2. exact Hab. }
    cbn [bind].
    rewrite (collect_ok _ (fun t => t)).
    2:{ intros k Hk. apply in_flat_map in Hk as (c & Hc & Hk). destruct (kid_sorted c k Hc Hk). apply smake3; assumption. }
    cbn [bind]. rewrite map_id. unfold hnext. cbn zeta. unfold tri_next. cbn [s_points s_nodes s_edges s_surfs s_binfo hnorm]. do 2 f_equal.
    - rewrite app_length, map_length, len_pts, seq_app. f_equal. symmetry. exact (to_nodes s1 H).
    - rewrite map_map. fold s1. fold ps. apply map_ext_in. intros p Hp. destruct (news_key2 p (Hps p Hp)) as (a & b & Ep).
      unfold toie. cbn [ie_p0 ie_p1]. rewrite Ep. reflexivity.
    - f_equal. apply kids_all.
    - rewrite map_map. fold s1. fold ps. apply map_ext_in. intros p Hp. unfold toie. cbn [ie_id ie_bnd]. apply pair_norm, Hps, Hp.
  Qed.

  Lemma build_next_ok : build_next s = Ok (h_after, hnext s).
  Proof.
    unfold build_next. rewrite to_internal_ok. cbn [bind]. rewrite h_refine_ok. cbn [bind]. rewrite to_simplicial_ok. reflexivity.
  Qed.

  Lemma hnext_ok : tri_ok (hnorm (hnext s)).
  Proof.
    pose proof (tri_next_ok s1 H) as G. destruct G as [A1 A2 A3 A4 A5 A6].
    assert (Eb : map norm_bd (s_binfo (hnext s)) = s_binfo (tri_next s1)).
    { cbn [hnext s_binfo]. fold s1. cbn [tri_next s_binfo]. rewrite map_map. apply map_ext_in. intros p Hp.
      apply (Permutation_in _ (std_sort_perm nes_ltb _)) in Hp. 
      unfold tri_pairs in Hp. rewrite in_app_iff, !in_flat_map in Hp.
      destruct Hp as [(e & He & Hp)|(c & Hc & Hp)]; apply in_map_iff in Hp as (SP & <- & HS); cbn [snd]; [|reflexivity].
      change (s_binfo s1) with (map norm_bd (s_binfo s)).
      replace bd_default with (norm_bd bd_default) by reflexivity. rewrite map_nth.
      destruct (nth (index_of e (s_edges s1)) (s_binfo s) bd_default) as [i t [|] q]; reflexivity. }
    constructor; unfold hnorm; cbn [s_points s_nodes s_edges s_surfs s_binfo s_sub]; try rewrite Eb; auto.
  Qed.

  Lemma kid_in c k : In c C -> In k (hkids s c) -> In k (s_surfs (hnext s)).
  Proof.
    intros Hc Hk. cbn [hnext s_surfs]. cbn [tri_next s_surfs].
    apply (Permutation_in _ (Permutation_sym (std_sort_perm lex_ltb _))).
    fold s1. change (children triCH (lid (length (s_nodes s1)) (s_edges s1)) sord (s_surfs s1)) with (children triCH id sord C).
    rewrite <- kids_all. apply in_flat_map. exists c. auto.
  Qed.

  Lemma make_c2f_ok : make_c2f h_after s (hnext s) = Ok (hmap s).
  Proof.
    unfold make_c2f, h_after. cbn [h_c2f]. fold C.
    pose proof (to_conf _ hnext_ok) as K'.
    assert (Cs : sorted_unique lex_ltb C) by exact (cf_Cs _ _ _ _ _ _ _ K).
    set (g := fun c => map (fun k => index_of k (s_surfs (hnext s))) (hkids s c)).
    assert (G : forall rest done, C = done ++ rest ->
       each (c2f_step s (hnext s)) (combine rest (map (hkids s) rest)) (map g done ++ repeat [0;0;0;0] (length rest)) = Ok (map g C)).
    { induction rest as [|c rest IH]; intros done Ed; [cbn; rewrite app_nil_r in Ed; rewrite app_nil_r, Ed; reflexivity|].
      assert (Hc : In c C) by (rewrite Ed; apply in_elt).
      assert (Ix : index_of c C = length done).
      { apply index_of_eq; [apply lex_nodup, Cs|]. rewrite Ed, nth_error_app2, Nat.sub_diag by lia. reflexivity. }
      cbn [map combine each]. unfold c2f_step at 1. cbn [fst snd].
      destruct (C_cell c Hc) as (x & y & z & Ec & _).
      rewrite (smake3 c) by (try (apply C_sorted; exact Hc); rewrite Ec; reflexivity). cbn [bind].
      fold C. rewrite (lookup_stored lex_ltb lex_ltb_sto C c (index_of c C) Cs (index_of_nth c C Hc)). cbn [bind].
      rewrite (collect_ok _ (fun k => index_of k (s_surfs (hnext s)))).
      2:{ intros k Hk. destruct (kid_sorted c k Hc Hk). rewrite smake3 by assumption. cbn [bind].
          apply (lookup_stored lex_ltb lex_ltb_sto); [exact (cf_Cs _ _ _ _ _ _ _ K')|]. apply index_of_nth. apply (kid_in c k Hc Hk). }
      cbn [bind]. fold (g c). unfold vset.
      assert (U : forall (l : list (list nat)) x v r, upd (l ++ x :: r) (length l) v = Some (l ++ v :: r)).
      { clear. induction l as [|h l IH]; intros x v r; [reflexivity|]. cbn [app length upd]. rewrite IH. reflexivity. }
      rewrite Ix. cbn [length repeat]. replace (length done) with (length (map g done)) by apply map_length.
      rewrite U. cbn [bind]. rewrite <- (IH (done ++ [c])) by (rewrite <- app_assoc; exact Ed).
      rewrite map_app, <- app_assoc. reflexivity. }
    specialize (G C [] eq_refl). exact G.
  Qed.
End HierStep.

(** ** The whole hierarchy *)
Fixpoint hlevel (s : store) (k : nat) : store := match k with O => s | S k' => hnext (hlevel s k') end.

Lemma hlevel_ok s k : tri_ok (hnorm s) -> tri_ok (hnorm (hlevel s k)).
Proof. intros H. induction k as [|k IH]; [exact H|]. cbn [hlevel]. apply hnext_ok. exact IH. Qed.

Definition hier_of (s : store) (L : nat) : hier :=
  mkHier (map (hlevel s) (seq 0 (S L))) (map (fun i => hmap (hlevel s i)) (seq 0 L)).

Lemma nth_map_seq {A} (f : nat -> A) m i : i < m -> nth_error (map f (seq 0 m)) i = Some (f i).
Proof.
  intros Hi. rewrite nth_error_map. rewrite (nth_error_nth' _ 0) by (rewrite seq_length; lia). rewrite seq_nth by lia. reflexivity.
Qed.

Lemma build_hierarchy_ok s L : tri_ok (hnorm s) -> build_hierarchy s L = Ok (hier_of s L).
Proof.
  intros H. unfold build_hierarchy.
  assert (G : forall k i, build_loop k i (hier_of s i) = Ok (hier_of s (i + k))).
  { induction k as [|k IH]; intros i; [rewrite Nat.add_0_r; reflexivity|]. cbn [build_loop].
    unfold hier_of at 1. cbn [meshes]. rewrite (vget_ok _ i (hlevel s i)) by (apply nth_map_seq; lia). cbn [bind].
    rewrite (build_next_ok _ (hlevel_ok s i H)). cbn [bind fst snd].
    assert (Em : meshes (hier_of s i) ++ [hnext (hlevel s i)] = map (hlevel s) (seq 0 (S (S i)))).
    { unfold hier_of. cbn [meshes]. rewrite (seq_S (S i)). rewrite map_app. reflexivity. }
    rewrite Em. rewrite (vget_ok _ (S i) (hlevel s (S i))) by (apply nth_map_seq; lia). cbn [bind hlevel].
    rewrite (make_c2f_ok _ (hlevel_ok s i H)). cbn [bind].
    replace (mkHier (map (hlevel s) (seq 0 (S (S i)))) (coarse_to_fine (hier_of s i) ++ [hmap (hlevel s i)])) with (hier_of s (S i)).
    - rewrite IH. f_equal. f_equal. lia.
    - unfold hier_of. cbn [coarse_to_fine]. rewrite (seq_S i). rewrite map_app. reflexivity. }
  specialize (G L 0). exact G.
Qed.
