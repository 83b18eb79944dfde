From Coq Require Import List Arith Bool Permutation Sorted Lia.
From Verif Require Import Common Mesh_Model Mesh_Spec Mesh_Proofs Mesh2_Proofs Mesh_Properties Elem_Model Elem_Spec Elem_Proofs
  Refine_Proofs Hier_Proofs Conn_Model Conn_Spec Conn_Proofs.
Import ListNotations.
Local Open Scope nat_scope.

(** ** The renumbering *)
Section Renumber.
  Variables C F : Type.
  Variables (cltb : C -> C -> bool) (fltb : F -> F -> bool) (faces_of : C -> list F).
  Variable feq : forall a b : F, {a = b} + {a <> b}.
  Variable bnum : C -> F -> option nat.
  Variable m : mesh C F.
  Hypothesis HO : strict_total_order fltb.
  Hypothesis HC : strict_total_order cltb.
  Hypothesis W : wf_mesh cltb fltb faces_of m.
  Variable tbl : list owners.
  Hypothesis HT : connectivity C F fltb faces_of m = Ok tbl.

  Let ext c f := external faces_of (m_cells m) c f.

  Lemma neighbour_ext c f : In c (m_cells m) -> In f (faces_of c) ->
    (ext c f /\ neighbour_via C F cltb fltb m tbl c f = Ok None) \/
    (~ ext c f /\ exists x, neighbour_via C F cltb fltb m tbl c f = Ok (Some x)).
  Proof.
    intros Hc Hf. destruct (In_nth_error _ _ Hc) as (i & Hi).
    destruct (C05_neighbour_is_other_owner C F cltb fltb faces_of feq m tbl i c f HO HC W HT Hi Hf)
      as [(d & dl & N & Od & Hd & _ & E)|(U & E)].
    - right. split; [|eauto]. intros (_ & k & Hk & K).
      assert (k = i) by (apply eq_sym, K; exists c; auto). subst k. apply N, K, Od.
    - left. split; [|exact E]. split; [exact Hf|]. exists i. auto.
  Qed.
  Lemma ext_unique c c' f : ext c f -> ext c' f -> c = c'.
  Proof.
    intros (Hf & i & Hi & U) (Hf' & j & Hj & U'). assert (j = i) by (apply U; exists c'; auto). subst j. congruence.
  Qed.

  Lemma renumber_faces_spec cl : In cl (m_cells m) -> forall fcs, incl fcs (faces_of cl) -> NoDup fcs ->
    forall bi, length bi = length (m_faces m) ->
    exists b bi', renumber_faces C F cltb fltb bnum m tbl cl fcs bi = Ok (b, bi') /\ length bi' = length (m_faces m) /\
      (b = true <-> forall f, In f fcs -> ext cl f -> bnum cl f <> None) /\
      (forall i f, stored (m_faces m) i f -> ~ (In f fcs /\ ext cl f) -> nth_error bi' i = nth_error bi i) /\
      (b = true -> forall i f k, stored (m_faces m) i f -> In f fcs -> ext cl f -> bnum cl f = Some k ->
         nth_error bi' i = Some (mkB k k true false)).
  Proof.
    intros Hc. pose proof (wf_faces _ _ _ _ W) as WF.
    induction fcs as [|f fcs IH]; intros Hi ND bi L.
    - exists true, bi. cbn [renumber_faces]. repeat split; auto; intros; contradiction.
    - apply NoDup_cons_iff in ND as [N1 ND].
      assert (Hf : In f (faces_of cl)) by (apply Hi; left; reflexivity).
      assert (Hi' : incl fcs (faces_of cl)) by (intros x Hx; apply Hi; right; exact Hx).
      cbn [renumber_faces]. destruct (neighbour_ext cl f Hc Hf) as [(E & ->)|(E & x & ->)]; cbn [bind].
      + destruct (bnum cl f) as [k|] eqn:Bk.
        * destruct (in_stored _ _ (wf_stored _ _ _ _ W cl Hc f Hf)) as (i & Si).
          rewrite (C03_offset_of_stored F fltb (m_faces m) f i HO WF Si). cbn [bind].
          unfold vset. destruct (upd_some bi i (mkB k k true false)) as (b1 & E1); [rewrite L; eapply stored_lt; exact Si|].
          rewrite E1. cbn [bind].
          destruct (IH Hi' ND b1) as (b & bi' & E' & L' & B1 & B2 & B3); [rewrite (upd_length _ _ _ _ E1); exact L|].
          exists b, bi'. split; [exact E'|]. split; [exact L'|]. split; [|split].
          -- rewrite B1. split; intros H g Hg Eg.
             ++ destruct Hg as [<-|Hg]; [congruence|auto].
             ++ apply H; [right; exact Hg|exact Eg].
          -- intros j g Sj Nj. rewrite (B2 j g Sj) by (intros (A1 & A2); apply Nj; split; [right; exact A1|exact A2]).
             apply (upd_nth_other _ _ _ _ _ E1). intros Eij. subst j. apply Nj.
             assert (g = f) by (unfold stored in *; congruence). subst g. split; [left; reflexivity|exact E].
          -- intros Bt j g k' Sj Hg Eg Bg. destruct Hg as [Hg|Hg].
             ++ subst g. assert (j = i) by exact (stored_unique fltb HO _ _ _ _ WF Sj Si). subst j.
                rewrite (B2 i f Si) by (intros (A1 & _); contradiction). rewrite (upd_nth_same _ _ _ _ E1). congruence.
             ++ eapply B3; eauto.
        * exists false, bi. split; [reflexivity|]. split; [exact L|]. split; [|split].
          -- split; [discriminate|]. intros H. exfalso. apply (H f); [left; reflexivity|exact E|exact Bk].
          -- reflexivity.
          -- discriminate.
      + destruct (IH Hi' ND bi L) as (b & bi' & E' & L' & B1 & B2 & B3).
        exists b, bi'. split; [exact E'|]. split; [exact L'|]. split; [|split].
        * rewrite B1. split; intros H g Hg Eg; [destruct Hg as [<-|Hg]; [contradiction|auto]|apply H; [right; exact Hg|exact Eg]].
        * intros j g Sj Nj. apply (B2 j g Sj). intros (A1 & A2). apply Nj. split; [right; exact A1|exact A2].
        * intros Bt j g k' Sj [<-|Hg] Eg; [contradiction|]. eapply B3; eauto.
  Qed.

  Lemma renumber_cells_spec cls : incl cls (m_cells m) -> forall bi, length bi = length (m_faces m) ->
    exists b bi', renumber_cells C F cltb fltb faces_of bnum m tbl cls bi = Ok (b, bi') /\ length bi' = length (m_faces m) /\
      (b = true <-> forall c f, In c cls -> ext c f -> bnum c f <> None) /\
      (forall i f, stored (m_faces m) i f -> (forall c, In c cls -> ~ ext c f) -> nth_error bi' i = nth_error bi i) /\
      (b = true -> forall i f c k, stored (m_faces m) i f -> In c cls -> ext c f -> bnum c f = Some k ->
         nth_error bi' i = Some (mkB k k true false)).
  Proof.
    induction cls as [|c cls IH]; intros Hi bi L.
    - exists true, bi. cbn [renumber_cells]. repeat split; auto; intros; contradiction.
    - assert (Hc : In c (m_cells m)) by (apply Hi; left; reflexivity).
      destruct (renumber_faces_spec c Hc (faces_of c) (incl_refl _) (wf_nodup _ _ _ _ W c Hc) bi L)
        as (b & b1 & E1 & L1 & A1 & A2 & A3).
      cbn [renumber_cells]. rewrite E1. cbn [bind fst snd]. destruct b.
      + destruct (IH (fun x Hx => Hi x (or_intror Hx)) b1 L1) as (b & bi' & E & L' & B1 & B2 & B3).
        exists b, bi'. split; [exact E|]. split; [exact L'|]. split; [|split].
        * rewrite B1. split; intros H d f Hd Ed.
          -- destruct Hd as [<-|Hd]; [|eapply H; eauto]. apply (proj1 A1 eq_refl f); [apply Ed|exact Ed].
          -- eapply H; [right; exact Hd|exact Ed].
        * intros i f Si N. rewrite (B2 i f Si) by (intros d Hd; apply N; right; exact Hd).
          apply (A2 i f Si). intros (_ & X). apply (N c); [left; reflexivity|exact X].
        * intros Bt i f d k Si Hd Ed Bk. destruct Hd as [Hd|Hd]; [subst d|eapply B3; eauto].
          destruct (in_dec (sto_dec cltb HC) c cls) as [I|I]; [eapply B3; eauto|].
          rewrite (B2 i f Si); [eapply A3; eauto; apply Ed|]. intros d Hd Ed'. apply I. rewrite (ext_unique c d f Ed Ed'). exact Hd.
      + exists false, b1. split; [reflexivity|]. split; [exact L1|]. split; [|split].
        * split; [discriminate|]. intros H. apply A1. intros f Hf Ef. apply (H c f); [left; reflexivity|exact Ef].
        * intros i f Si N. apply (A2 i f Si). intros (_ & X). apply (N c); [left; reflexivity|exact X].
        * discriminate.
  Qed.
End Renumber.

Lemma renumber_spec (C F : Type) cltb fltb faces_of (feq : forall a b : F, {a = b} + {a <> b}) bnum (m : mesh C F) :
  strict_total_order fltb -> strict_total_order cltb -> wf_mesh cltb fltb faces_of m ->
  (forall f, In f (m_faces m) -> incidences feq faces_of (m_cells m) f <= 2) ->
  exists b bi', renumber C F cltb fltb faces_of bnum m = Ok (b, bi') /\ length bi' = length (m_faces m) /\
    (b = true <-> forall c f, external faces_of (m_cells m) c f -> bnum c f <> None) /\
    (forall i f, stored (m_faces m) i f -> (forall c, ~ external faces_of (m_cells m) c f) ->
       nth_error bi' i = nth_error (m_binfo m) i) /\
    (b = true -> forall i f c k, stored (m_faces m) i f -> external faces_of (m_cells m) c f -> bnum c f = Some k ->
       nth_error bi' i = Some (mkB k k true false)).
Proof.
  intros HO HC W I.
  destruct (proj2 (proj1 (C05_connectivity_built_iff C F cltb fltb faces_of feq m HO W)) I) as (tbl & HT).
  unfold renumber. rewrite HT. cbn [bind].
  destruct (renumber_cells_spec C F cltb fltb faces_of feq bnum m HO HC W tbl HT (m_cells m) (incl_refl _) (m_binfo m)
    (wf_binfo _ _ _ _ W)) as (b & bi' & E & L & B1 & B2 & B3).
  assert (IN : forall c f, external faces_of (m_cells m) c f -> In c (m_cells m)).
  { intros c f (_ & i & Hi & _). eapply nth_error_In; eauto. }
  exists b, bi'. split; [exact E|]. split; [exact L|]. split; [|split].
  - rewrite B1. split; intros H c f; [intros Ex; eapply H; eauto|auto].
  - intros i f Si N. apply (B2 i f Si). auto.
  - intros Bt i f c k Si Ex. eapply B3; eauto.
Qed.

(** ** populate_mesh *)
Section Populate.
  Variable d : conn_file.
  Hypothesis K : consistent d.

  Let sE := std_sort snd_ltb (cn_edges (seen d)).
  Definition converted (p : nat -> nat) (l : list (nat * list nat)) := map (fun q => (fst q, map p (snd q))) l.
  Definition elems (p : nat -> nat) (pts : list (list nat)) (l : list (nat * list nat)) : list gelem :=
    map (fun q => mkG (snd q) (nth (fst q) pts [])) (std_sort snd_ltb (converted p l)).

  Lemma edges_stage set : total_set set ->
    exists te pe, build_table set 0 sE (repeat 0 (length sE)) = Ok te /\
      (forall i, i < length (cf_edges d) -> nth_error te i = Some (pe i)) /\
      placed_as (length (cf_edges d)) pe (map snd sE) (edge_item d) /\
      conv_all te (cf_faces d) = Ok (converted pe (cf_faces d)).
  Proof.
    intros HS. destruct K as [K1 K2 K3 K4 K5 K6 K7]. pose proof (numbered_seen d K1) as N.
    assert (L : length (cn_edges (seen d)) = length (cf_edges d)) by (cbn; apply map_length).
    destruct (table_placed set HS (cn_edges (seen d)) (repeat 0 (length sE)) N) as (te & pe & E & Lt & P).
    { rewrite repeat_length. apply (Permutation_length (std_sort_perm snd_ltb _)). }
    exists te, pe. split; [exact E|].
    assert (T : forall i, i < length (cf_edges d) -> nth_error te i = Some (pe i)).
    { intros i Hi. apply (pl_table _ _ _ P). rewrite L. exact Hi. }
    split; [exact T|]. split; [apply (edges_placed d te pe K1 P)|].
    apply (conv_all_ok te pe (length (cf_edges d)) _ T). exact K4.
  Qed.

  Lemma faces_stage pe te : exists tf pf,
    make_elems (cf_fpts d) (std_sort snd_ltb (converted pe (cf_faces d))) = Ok (elems pe (cf_fpts d) (cf_faces d)) /\
    build_table vset 0 (std_sort snd_ltb (converted pe (cf_faces d)))
      (resize (length (std_sort snd_ltb (converted pe (cf_faces d)))) te) = Ok tf /\
    (forall i, i < length (cf_faces d) -> nth_error tf i = Some (pf i)) /\
    placed_as (length (cf_faces d)) pf (elems pe (cf_fpts d) (cf_faces d)) (face_item d pe) /\
    conv_all tf (cf_vols d) = Ok (converted pf (cf_vols d)).
  Proof.
    destruct K as [K1 K2 K3 K4 K5 K6 K7]. pose proof (numbered_conv pe _ K2) as N.
    assert (L : length (converted pe (cf_faces d)) = length (cf_faces d)) by apply map_length.
    destruct (table_placed vset vset_total (converted pe (cf_faces d)) (resize (length (std_sort snd_ltb (converted pe (cf_faces d)))) te) N)
      as (tf & pf & E & Lt & P).
    { rewrite resize_length. apply (Permutation_length (std_sort_perm snd_ltb _)). }
    exists tf, pf. split; [apply (level_elems (cf_faces d) pe (cf_fpts d) K2 K6)|]. split; [exact E|].
    assert (T : forall i, i < length (cf_faces d) -> nth_error tf i = Some (pf i)).
    { intros i Hi. apply (pl_table _ _ _ P). rewrite L. exact Hi. }
    split; [exact T|]. split; [apply (level_placed (cf_faces d) pe (cf_fpts d) K2 K6 tf pf P)|].
    apply (conv_all_ok tf pf (length (cf_faces d)) _ T). exact K5.
  Qed.

  Lemma vols_stage pf : exists pv,
    make_elems (cf_vpts d) (std_sort snd_ltb (converted pf (cf_vols d))) = Ok (elems pf (cf_vpts d) (cf_vols d)) /\
    placed_as (length (cf_vols d)) pv (elems pf (cf_vpts d) (cf_vols d)) (vol_item d pf).
  Proof.
    destruct K as [K1 K2 K3 K4 K5 K6 K7]. pose proof (numbered_conv pf _ K3) as N.
    assert (L : length (converted pf (cf_vols d)) = length (cf_vols d)) by apply map_length.
    destruct (table_placed vset vset_total (converted pf (cf_vols d)) (repeat 0 (length (cf_vols d))) N)
      as (tv & pv & E & Lt & P).
    { rewrite repeat_length. auto. }
    exists pv. split; [apply (level_elems (cf_vols d) pf (cf_vpts d) K3 K7)|].
    apply (level_placed (cf_vols d) pf (cf_vpts d) K3 K7 tv pv P).
  Qed.

  (** the stored lists are sorted *)
  Lemma elems_sorted p n pts l : renumbering n p -> (forall id x, In (id, x) l -> Forall (fun e => e < n) x) ->
    NoDup (map snd l) -> sorted_unique lex_ltb (map g_sub (elems p pts l)).
  Proof.
    intros R H ND. unfold elems, converted. rewrite level_subs. apply level_sorted. apply (conv_nodup l p n R H ND).
  Qed.

  Lemma groups_stage get set t n p gs len : (forall i, i < n -> nth_error t i = Some (p i)) -> renumbering n p ->
    (forall i x, nth_error t i = Some x -> get t i = Ok x) -> (forall b i x b', upd b i x = Some b' -> set b i x = Ok b') ->
    len = n -> Forall (fun g => Forall (fun m => m < n) (snd g)) gs ->
    exists bi, mark_groups get set t gs (repeat bd_default len) = Ok bi /\ described n p gs bi.
  Proof.
    intros T P G U -> F. destruct (mark_groups_ok t n p T P get set G U gs (repeat bd_default n)) as (bi & E & L & H).
    { apply repeat_length. }
    { exact F. }
    exists bi. split; [exact E|]. split; [exact L|]. intros m Hm. destruct (H m Hm) as (A & B). split; [exact A|].
    intros N. rewrite (B N). apply nth_error_repeat. apply (p_lt n p P), Hm.
  Qed.

  Lemma sorted_length p l : length (std_sort snd_ltb (converted p l)) = length l.
  Proof. rewrite (Permutation_length (std_sort_perm snd_ltb _)). apply map_length. Qed.

  Lemma poly3_ok : Forall (fun g => Forall (fun m => m < length (cf_faces d)) (snd g)) (cf_grps d) ->
    exists m pe pf pv, poly3_populate (seen d) = Ok (true, m) /\
      same_mesh d (cm_edges m) (cm_faces m) (cm_vols m) pe pf pv /\
      described (length (cf_faces d)) pf (cf_grps d) (cm_binfo m) /\
      (no_repeats d -> sorted_unique lex_ltb (cm_edges m) /\ sorted_unique lex_ltb (map g_sub (cm_faces m)) /\
        sorted_unique lex_ltb (map g_sub (cm_vols m))).
  Proof.
    intros HG. destruct (edges_stage vset_at vset_at_total) as (te & pe & E1 & T1 & P1 & C1).
    destruct (faces_stage pe te) as (tf & pf & M2 & E2 & T2 & P2 & C2). destruct (vols_stage pf) as (pv & M3 & P3).
    destruct (groups_stage vat vset_at tf (length (cf_faces d)) pf (cf_grps d) (length (std_sort snd_ltb (converted pe (cf_faces d)))) T2)
      as (bi & E4 & P4).
    { apply P2. } { intros i x H. apply vat_ok, H. } { intros b i x b' H. unfold vset_at. rewrite H. reflexivity. }
    { apply sorted_length. } { exact HG. }
    eexists _, pe, pf, pv. split; [|split; [|split]].
    - unfold poly3_populate. fold sE. rewrite E1. cbn [bind]. cbn [cn_faces cn_fpts cn_vols cn_vpts cn_grps seen].
      rewrite C1. cbn [bind]. rewrite M2. cbn [bind]. rewrite E2. cbn [bind]. rewrite E4. cbn [bind]. rewrite C2. cbn [bind].
      rewrite M3. cbn [bind]. reflexivity.
    - cbn [cm_edges cm_faces cm_vols]. split; assumption.
    - exact P4.
    - intros R. cbn [cm_edges cm_faces cm_vols]. destruct K as [K1 K2 K3 K4 K5 K6 K7]. split; [apply edges_sorted; assumption|]. split.
      + apply (elems_sorted pe (length (cf_edges d))); [apply P1|exact K4|apply R].
      + apply (elems_sorted pf (length (cf_faces d))); [apply P2|exact K5|apply R].
  Qed.

  Lemma medit3_ok : Forall (fun g => Forall (fun m => m < length (cf_faces d)) (snd g)) (cf_grps d) ->
    exists m pe pf pv, medit3_populate (seen d) = Ok (false, m) /\
      same_mesh d (cm_edges m) (cm_faces m) (cm_vols m) pe pf pv /\
      described (length (cf_faces d)) pf (cf_grps d) (cm_binfo m) /\
      (no_repeats d -> sorted_unique lex_ltb (cm_edges m) /\ sorted_unique lex_ltb (map g_sub (cm_faces m)) /\
        sorted_unique lex_ltb (map g_sub (cm_vols m))).
  Proof.
    intros HG. destruct (edges_stage vset vset_total) as (te & pe & E1 & T1 & P1 & C1).
    destruct (faces_stage pe te) as (tf & pf & M2 & E2 & T2 & P2 & C2). destruct (vols_stage pf) as (pv & M3 & P3).
    destruct (groups_stage vget vset tf (length (cf_faces d)) pf (cf_grps d) (length (std_sort snd_ltb (converted pe (cf_faces d)))) T2)
      as (bi & E4 & P4).
    { apply P2. } { intros i x H. apply vget_ok, H. } { intros b i x b' H. unfold vset. rewrite H. reflexivity. }
    { apply sorted_length. } { exact HG. }
    eexists _, pe, pf, pv. split; [|split; [|split]].
    - unfold medit3_populate. fold sE. rewrite E1. cbn [bind]. cbn [cn_faces cn_fpts cn_vols cn_vpts cn_grps seen].
      rewrite C1. cbn [bind]. rewrite M2. cbn [bind]. rewrite E2. cbn [bind]. rewrite C2. cbn [bind].
      rewrite M3. cbn [bind]. rewrite E4. cbn [bind]. reflexivity.
    - cbn [cm_edges cm_faces cm_vols]. split; assumption.
    - exact P4.
    - intros R. cbn [cm_edges cm_faces cm_vols]. destruct K as [K1 K2 K3 K4 K5 K6 K7]. split; [apply edges_sorted; assumption|]. split.
      + apply (elems_sorted pe (length (cf_edges d))); [apply P1|exact K4|apply R].
      + apply (elems_sorted pf (length (cf_faces d))); [apply P2|exact K5|apply R].
  Qed.

  Lemma poly2_ok : Forall (fun g => Forall (fun m => m < length (cf_edges d)) (snd g)) (cf_grps d) ->
    exists m pe pf, poly2_populate (seen d) = Ok (true, m) /\
      placed_as (length (cf_edges d)) pe (cm_edges m) (edge_item d) /\
      placed_as (length (cf_faces d)) pf (cm_faces m) (face_item d pe) /\ cm_vols m = [] /\
      described (length (cf_edges d)) pe (cf_grps d) (cm_binfo m) /\
      (no_repeats d -> sorted_unique lex_ltb (cm_edges m) /\ sorted_unique lex_ltb (map g_sub (cm_faces m))).
  Proof.
    intros HG. destruct (edges_stage vset_at vset_at_total) as (te & pe & E1 & T1 & P1 & C1).
    destruct (faces_stage pe te) as (tf & pf & M2 & E2 & T2 & P2 & C2).
    destruct (groups_stage vget vset_at te (length (cf_edges d)) pe (cf_grps d) (length sE) T1) as (bi & E4 & P4).
    { apply P1. } { intros i x H. apply vget_ok, H. } { intros b i x b' H. unfold vset_at. rewrite H. reflexivity. }
    { unfold sE. rewrite (Permutation_length (std_sort_perm snd_ltb _)). cbn. apply map_length. } { exact HG. }
    eexists _, pe, pf. split; [|split; [|split; [|split; [|split]]]].
    - unfold poly2_populate. fold sE. rewrite E1. cbn [bind]. cbn [cn_faces cn_fpts cn_vols cn_vpts cn_grps seen].
      rewrite C1. cbn [bind]. rewrite E4. cbn [bind]. rewrite M2. cbn [bind]. rewrite E2. cbn [bind]. reflexivity.
    - exact P1.
    - exact P2.
    - reflexivity.
    - exact P4.
    - intros R. cbn [cm_edges cm_faces]. destruct K as [K1 K2 K3 K4 K5 K6 K7]. split; [apply edges_sorted; assumption|].
      apply (elems_sorted pe (length (cf_edges d))); [apply P1|exact K4|apply R].
  Qed.
End Populate.
