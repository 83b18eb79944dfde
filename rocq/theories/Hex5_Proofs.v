(** The mesh built by fvca5_hex_mesher. *)
From Coq Require Import List Arith Bool Sorted Permutation Lia ZArith Reals Lra.
From Verif Require Import Common Mesh_Model Mesh_Spec Mesh_Proofs Elem_Model Elem_Spec Elem_Proofs Refine_Proofs Mesher_Model Mesher_Proofs
  Hier_Model Hier_Proofs Single_Model Single_Properties Hex_Model Hex_Spec Hex_Proofs Hex2_Proofs Hex3_Proofs Hex4_Proofs.
Import ListNotations.
Local Open Scope nat_scope.

Fixpoint hidx (p : hpt) (l : list hpt) : nat := match l with [] => 0 | q :: r => if heqd q p then 0 else S (hidx p r) end.
Lemma hidx_nth p l : In p l -> nth_error l (hidx p l) = Some p.
Proof. induction l as [|q r IH]; intros H; [destruct H|]. cbn [hidx]. destruct (heqd q p) as [->|N]; [reflexivity|]. destruct H; [contradiction|]. auto. Qed.

Lemma find_map l e : find_element_id gedge gedge_ltb (map mkg l) (mkg e) = find_element_id _ lex_ltb l e.
Proof.
  assert (G : forall fuel first len, lb_loop gedge gedge_ltb (map mkg l) (mkg e) fuel first len = lb_loop _ lex_ltb l e fuel first len).
  { induction fuel as [|f IH]; intros first len; [reflexivity|]. cbn [lb_loop]. destruct (len =? 0); [reflexivity|].
    unfold vget. rewrite nth_error_map. destruct (nth_error l (first + len / 2)) as [x|]; [|reflexivity]. cbn [option_map bind].
    change (gedge_ltb (mkg x) (mkg e)) with (lex_ltb x e). rewrite !IH. reflexivity. }
  unfold find_element_id, lower_bound. rewrite map_length, G. destruct (lb_loop _ lex_ltb l e (length l) 0 (length l)) as [i| |]; cbn [bind]; try reflexivity.
  destruct (i =? length l); [reflexivity|]. unfold vget. rewrite nth_error_map. destruct (nth_error l i) as [x|]; [|reflexivity].
  cbn [option_map bind]. change (gedge_ltb (mkg e) (mkg x)) with (lex_ltb e x). destruct (lex_ltb e x); reflexivity.
Qed.

Lemma upd_nth_same {A} (l : list A) : forall i x, i < length l -> exists l', upd l i x = Some l' /\ length l' = length l /\ nth_error l' i = Some x /\
  forall j, j <> i -> nth_error l' j = nth_error l j.
Proof.
  induction l as [|h t IH]; intros i x Hi; [cbn in Hi; lia|]. destruct i as [|i]; cbn [upd].
  - exists (x :: t). repeat split. intros [|j] Hj; [lia|reflexivity].
  - cbn [length] in Hi. destruct (IH i x) as (t' & E & L & N & F); [lia|]. rewrite E. exists (h :: t'). cbn [length nth_error]. repeat split; auto.
    intros [|j] Hj; [reflexivity|]. apply F. lia.
Qed.

Section Mesh.
  Variables (l : nat) (hm : hexmesh).
  Hypothesis H : hex_ok l hm.
  Let ps := hm_points hm.
  Let E := hm_edges hm.
  Definition ix (p : hpt) : nat := hidx p (hm_points hm).
  Definition ek (e : hedge) : list nat := [ix (fst e); ix (snd e)].
  Definition keys : list (list nat) := map ek (hm_edges hm).

  Lemma ix_nth p : In p ps -> nth_error ps (ix p) = Some p.
  Proof. apply hidx_nth. Qed.
  Lemma ix_inj p q : In p ps -> In q ps -> ix p = ix q -> p = q.
  Proof. intros Hp Hq Eq. pose proof (ix_nth p Hp) as A. pose proof (ix_nth q Hq) as B. rewrite Eq, B in A. congruence. Qed.
  Lemma ix_lt p q : In p ps -> In q ps -> hpt_ltb p q = true -> ix p < ix q.
  Proof.
    intros Hp Hq L. destruct (lt_eq_lt_dec (ix p) (ix q)) as [[K|K]|K]; [exact K| |].
    - apply ix_inj in K; auto. subst. rewrite (sto_irrefl _ hpt_sto) in L. discriminate.
    - pose proof (sorted_nth_lt hpt_ltb ps (ho_points _ _ H) _ _ _ _ (ix_nth q Hq) (ix_nth p Hp) K) as L'.
      rewrite (ltb_asym _ hpt_sto _ _ L) in L'. discriminate.
  Qed.

  Lemma edge_points e : In e E -> In (fst e) ps /\ In (snd e) ps /\ hpt_ltb (fst e) (snd e) = true.
  Proof.
    intros He. apply (ho_edges_set _ _ H) in He. pose proof (edge_sorted _ _ He) as S0. apply in_flat_map in He as (p & Hp & He).
    rewrite poly_edges_und in He. apply in_map_iff in He as (d & <- & Hd).
    assert (K : In (fst d) p /\ In (snd d) p).
    { unfold ring in Hd. apply in_map_iff in Hd as (i & <- & Hi). apply in_seq in Hi. cbn [fst snd]. split; apply nth_In; [lia|]. apply Nat.mod_upper_bound. lia. }
    assert (Q : forall x, In x p -> In x ps) by (intros x Hx; apply (ho_points_set _ _ H); apply in_concat; exists p; auto).
    destruct K as [K1 K2]. split; [|split; [|exact S0]]; destruct (und_ends d) as [[A B]|[A B]]; unfold hedge in *; first [rewrite A|rewrite B]; auto.
  Qed.

  Lemma offset_ok p : In p ps -> hex_offset hm p = Ok (ix p).
  Proof.
    intros Hp. unfold hex_offset. fold ps. pose proof (ix_nth p Hp) as Hi.
    rewrite (lower_bound_correct hpt_ltb ps p (ix p)) by (apply stored_partition; [apply hpt_sto|apply (ho_points _ _ H)|exact Hi]). cbn [bind].
    assert (L : ix p < length ps) by (apply nth_error_Some; rewrite Hi; discriminate).
    destruct (Nat.eqb_spec (ix p) (length ps)); [lia|]. rewrite (vget_ok _ _ _ Hi). cbn [bind].
    rewrite (proj2 (hpt_eqb_iff p p) eq_refl). reflexivity.
  Qed.
  Lemma gmake_sorted a b : a < b -> gedge_make a b = mkg [a; b].
  Proof. intros L. unfold gedge_make, mkg. destruct (Nat.ltb_spec a b); [reflexivity|lia]. Qed.
  Lemma transform_ok e : In e E -> edge_transform hm e = Ok (mkg (ek e)).
  Proof.
    intros He. destruct (edge_points e He) as (A & B & C). unfold edge_transform. rewrite !offset_ok by assumption. cbn [bind].
    rewrite gmake_sorted by (apply ix_lt; assumption). reflexivity.
  Qed.

  Lemma ek_lt e f : In e E -> In f E -> hedge_ltb e f = true -> lex_ltb (ek e) (ek f) = true.
  Proof.
    intros He Hf L. destruct (edge_points e He) as (A & B & C), (edge_points f Hf) as (A' & B' & C').
    apply hedge_ltb_iff in L as [L|[Eq L]]; unfold ek; cbn [lex_ltb].
    - apply ix_lt in L; auto. destruct (Nat.ltb_spec (ix (fst e)) (ix (fst f))); [reflexivity|lia].
    - rewrite Eq, Nat.ltb_irrefl. apply ix_lt in L; auto. destruct (Nat.ltb_spec (ix (snd e)) (ix (snd f))); [reflexivity|lia].
  Qed.
  Lemma keys_sorted : sorted_unique lex_ltb keys.
  Proof.
    unfold keys. pose proof (ho_edges _ _ H) as S0. assert (In0 : forall e, In e (hm_edges hm) -> In e E) by auto. revert S0 In0.
    generalize (hm_edges hm). intros L. induction 1 as [|e L S0 IH F]; intros In0; [constructor|]. cbn [map]. constructor.
    - apply IH. intros; apply In0; right; assumption.
    - rewrite Forall_forall in *. intros k Hk. apply in_map_iff in Hk as (f & <- & Hf). apply ek_lt; [apply In0; left; reflexivity|apply In0; right; exact Hf|auto].
  Qed.
  Lemma ek_inj e f : In e E -> In f E -> ek e = ek f -> e = f.
  Proof.
    intros He Hf Eq. destruct (edge_points e He) as (A & B & _), (edge_points f Hf) as (A' & B' & _). unfold ek in Eq. injection Eq as E1 E2.
    apply ix_inj in E1, E2; auto. destruct e, f. cbn [fst snd] in *. congruence.
  Qed.

  Definition eid (e : hedge) : nat := index_of (ek e) keys.
  Lemma eid_nth e : In e E -> nth_error E (eid e) = Some e /\ nth_error (map mkg keys) (eid e) = Some (mkg (ek e)).
  Proof.
    intros He. assert (K : In (ek e) keys) by (apply in_map; exact He). pose proof (index_of_nth _ _ K) as N. split; [|apply map_nth_error; exact N].
    unfold eid. revert N. generalize (index_of (ek e) keys). intros k N. unfold keys in N. rewrite nth_error_map in N. fold E in N.
    destruct (nth_error E k) as [f|] eqn:Ef; [|cbn [option_map] in N; discriminate].
    cbn [option_map] in N. f_equal. apply ek_inj; auto; [eapply nth_error_In; exact Ef|]. congruence.
  Qed.
  Lemma eid_of i e : nth_error E i = Some e -> eid e = i.
  Proof.
    intros Hi. unfold eid. apply index_of_eq; [apply lex_nodup, keys_sorted|]. unfold keys. apply map_nth_error. exact Hi.
  Qed.
  Lemma position_ok e : In e E -> gposition (map mkg keys) (mkg (ek e)) = Ok (eid e).
  Proof.
    intros He. unfold gposition. rewrite find_map. assert (K : In (ek e) keys) by (apply in_map; exact He).
    rewrite (find_stored lex_ltb lex_ltb_sto keys (ek e) (eid e) keys_sorted (index_of_nth _ _ K)). reflexivity.
  Qed.

  Lemma set_boundaries L : forall bi, length bi = length E -> (forall se, In se L -> In (snd se) E) ->
    exists bi', each (set_boundary hm (map mkg keys)) L bi = Ok bi' /\ length bi' = length E /\
      forall i e, nth_error E i = Some e ->
        (exists s, In (s, e) L /\ nth_error bi' i = Some (bd_make s true)) \/ ((forall s, ~ In (s, e) L) /\ nth_error bi' i = nth_error bi i).
  Proof.
    induction L as [|[s e] L IH]; intros bi Lb HL.
    - exists bi. split; [reflexivity|]. split; [exact Lb|]. intros i e _. right. auto.
    - assert (He : In e E) by (apply (HL (s, e)); left; reflexivity).
      cbn [each]. unfold set_boundary. cbn [fst snd]. rewrite transform_ok by exact He. cbn [bind]. rewrite position_ok by exact He. cbn [bind].
      destruct (eid_nth e He) as [Hi _]. assert (Li : eid e < length bi) by (rewrite Lb; apply nth_error_Some; rewrite Hi; discriminate).
      destruct (upd_nth_same bi (eid e) (bd_make s true) Li) as (b1 & Eb & L1 & N1 & F1). unfold vset_at. rewrite Eb. cbn [bind].
      destruct (IH b1) as (bi' & E1 & L' & P); [lia|intros; apply HL; right; assumption|].
      unfold set_boundary in E1. unfold vset_at in E1. exists bi'. split; [exact E1|]. split; [exact L'|].
      intros i f Hf. destruct (P i f Hf) as [(s' & Hs & N)|[A N]].
      + left. exists s'. split; [right; exact Hs|exact N].
      + destruct (deqd f e) as [->|Nf].
        * left. exists s. split; [left; reflexivity|]. rewrite N, <- (eid_of i e Hf). exact N1.
        * right. split.
          { intros s' [K|K]; [congruence|]. eapply A; eassumption. }
          { rewrite N. apply F1. intros ->. rewrite Hi in Hf. congruence. }
  Qed.

  Lemma by_side_in se : In se (by_side (hm_bedges hm)) <-> In se (hm_bedges hm).
  Proof.
    unfold by_side. rewrite in_flat_map. split; [intros (s & _ & K); apply filter_In in K; tauto|].
    intros K. exists (fst se). split; [|apply filter_In; split; [exact K|apply Nat.eqb_refl]].
    rewrite (ho_bedges _ _ H) in K. destruct se as [s e]. apply bedges_in in K as (d & K & _). unfold outer_edges in K. apply in_flat_map in K as (i & _ & K).
    cbn [fst]. cbn [In] in K. repeat (destruct K as [K|K]; [injection K as <- _; cbn; tauto|]). destruct K.
  Qed.
  Lemma bedge_in s e : In (s, e) (hm_bedges hm) -> In e E.
  Proof.
    rewrite (ho_bedges _ _ H). intros K. apply bedges_in in K as (d & K & <-). apply (ho_edges_set _ _ H).
    apply (Permutation_in _ (Permutation_sym (all_edges_perm l))). do 2 (apply in_or_app; right). unfold outer_und_edges. apply in_map. change d with (snd (s, d)). apply in_map. exact K.
  Qed.

  Definition cell_of (p : poly) : gcell := mkGC (map (fun d => eid (und d)) (ring p)) (map ix p).
  Lemma ring_fst p : map fst (ring p) = p.
  Proof.
    rewrite ring_combine. destruct p as [|a p]; [reflexivity|]. cbn [skipn firstn].
    assert (G : forall (x y : list hpt), length x = length y -> map fst (combine x y) = x).
    { induction x as [|u x IH]; intros [|v y] Lx; try discriminate; [reflexivity|]. cbn [combine map fst]. rewrite IH by (cbn in Lx; lia). reflexivity. }
    apply G. rewrite app_length. cbn [length]. lia.
  Qed.
  Lemma poly_in p d : In p (hm_polys hm) -> In d (ring p) -> In (und d) E.
  Proof.
    intros Hp Hd. apply (ho_edges_set _ _ H). apply in_flat_map. exists p. split; [eapply polys_facts; eassumption|]. rewrite poly_edges_und. apply in_map. exact Hd.
  Qed.
  Lemma vertex_in p a : In p (hm_polys hm) -> In a p -> In a ps.
  Proof. intros Hp Ha. apply (ho_points_set _ _ H). apply in_concat. exists p. split; [eapply polys_facts; eassumption|exact Ha]. Qed.

  Lemma surface_ok p : In p (hm_polys hm) -> hex_surface hm (map mkg keys) p = Ok (cell_of p).
  Proof.
    intros Hp. unfold hex_surface.
    rewrite (collect_ok _ (fun d => eid (und d))).
    2: { intros d Hd. change (hedge_make (fst d) (snd d)) with (und d). rewrite transform_ok by (eapply poly_in; eassumption). cbn [bind].
         apply position_ok. eapply poly_in; eassumption. }
    cbn [bind]. rewrite (collect_ok _ (fun d => ix (fst d))).
    2: { intros d Hd. apply offset_ok. eapply vertex_in; [exact Hp|]. rewrite <- (ring_fst p). apply in_map. exact Hd. }
    cbn [bind]. rewrite <- (map_map fst ix), ring_fst. reflexivity.
  Qed.

  Definition scale (p : hpt) : pt := pt2 (INR (fst p) / INR (hm_max hm)) (INR (snd p) / INR (hm_max hm)).

  Lemma count_map_inj {A} (da : forall a b : A, {a = b} + {a <> b}) (g : A -> nat) L x : (forall y, In y L -> g y = g x -> y = x) ->
    count_occ Nat.eq_dec (map g L) (g x) = count_occ da L x.
  Proof.
    induction L as [|y L IH]; intros Hi; [reflexivity|]. cbn [map count_occ]. rewrite IH by (intros; apply Hi; [right|]; assumption).
    destruct (Nat.eq_dec (g y) (g x)) as [Eq|N], (da y x) as [->|N']; try reflexivity.
    - exfalso. apply N', Hi; [left; reflexivity|exact Eq].
    - contradiction.
  Qed.
  Lemma incid_flat {A} (fo : A -> list nat) cs i : incidences Nat.eq_dec fo cs i = count_occ Nat.eq_dec (flat_map fo cs) i.
  Proof.
    unfold incidences. induction cs as [|c cs IH]; [reflexivity|]. cbn [map flat_map]. rewrite count_occ_app, <- IH. reflexivity.
  Qed.
  Lemma cell_count i e cs : Permutation cs (map cell_of (hm_polys hm)) -> nth_error E i = Some e ->
    incidences Nat.eq_dec gc_faces cs i = count_occ deqd (flat_map poly_edges (all_polys l)) e.
  Proof.
    intros P Hi. rewrite incid_flat. rewrite (proj1 (Permutation_count_occ Nat.eq_dec _ _) (flat_map_perm gc_faces _ _ P) i).
    assert (Eq : flat_map gc_faces (map cell_of (hm_polys hm)) = map eid (flat_map poly_edges (hm_polys hm))).
    { rewrite map_flat_map. rewrite flat_map_concat_map, map_map, <- flat_map_concat_map. apply flat_map_ext. intros p. cbn [cell_of gc_faces].
      rewrite poly_edges_und, map_map. reflexivity. }
    rewrite Eq, <- (eid_of i e Hi). rewrite (count_map_inj deqd).
    - apply (proj1 (Permutation_count_occ deqd _ _)). apply flat_map_perm. apply (ho_polys _ _ H).
    - intros y Hy Ey. assert (Hy' : In y E).
      { apply in_flat_map in Hy as (p & Hp & Hy). rewrite poly_edges_und in Hy. apply in_map_iff in Hy as (d & <- & Hd). eapply poly_in; eassumption. }
      destruct (eid_nth y Hy') as [Ny _]. rewrite Ey, (eid_of i e Hi), Hi in Ny. congruence.
  Qed.
End Mesh.

Lemma hex_mesh_ok level : exists hm g, make_hexmesh level = Ok hm /\ hex_ok level hm /\ hex_mesh level = Ok g /\
  g_points g = map (scale hm) (hm_points hm) /\ g_edges g = map mkg (keys hm) /\
  Permutation (g_surfs g) (map (cell_of hm) (hm_polys hm)) /\ length (g_binfo g) = length (hm_edges hm) /\
  (forall i e, nth_error (hm_edges hm) i = Some e ->
     (exists s, In (s, e) (hm_bedges hm) /\ nth_error (g_binfo g) i = Some (bd_make s true)) \/
     ((forall s, ~ In (s, e) (hm_bedges hm)) /\ nth_error (g_binfo g) i = Some bd_default)) /\ g_sub g = length (hm_polys hm).
Proof.
  destruct (make_hexmesh_ok level) as (hm & Eh & H). exists hm. unfold hex_mesh. rewrite Eh. cbn [bind].
  rewrite (collect_ok _ (fun e => mkg (ek hm e))) by (intros e He; apply (transform_ok level hm H); exact He). cbn [bind].
  assert (Es : std_sort gedge_ltb (map (fun e => mkg (ek hm e)) (hm_edges hm)) = map mkg (keys hm)).
  { rewrite <- (map_map (ek hm) mkg). rewrite (sort_map lex_ltb gedge_ltb mkg) by (intros; reflexivity). f_equal. apply std_sort_id; [apply lex_ltb_sto|].
    apply (keys_sorted level hm H). }
  rewrite Es. rewrite map_length. unfold keys at 2. rewrite map_length.
  destruct (set_boundaries level hm H (by_side (hm_bedges hm)) (repeat bd_default (length (hm_edges hm)))) as (bi & Eb & Lb & Pb).
  - apply repeat_length.
  - intros [s e] Hse. apply (by_side_in level hm H) in Hse. apply (bedge_in level hm H) in Hse. exact Hse.
  - rewrite Eb. cbn [bind].
    rewrite (collect_ok _ (cell_of hm)) by (intros p Hp; apply (surface_ok level hm H); exact Hp). cbn [bind].
    eexists. split; [reflexivity|]. split; [exact H|]. split; [reflexivity|]. cbn [g_points g_edges g_surfs g_binfo g_sub]. split; [reflexivity|]. split; [reflexivity|].
    split; [apply std_sort_perm|]. split; [exact Lb|]. split; [|apply map_length].
    intros i e Hi. destruct (Pb i e Hi) as [(s & Hs & N)|[A N]].
    + left. exists s. split; [apply (by_side_in level hm H); exact Hs|exact N].
    + right. split; [intros s Hs; apply (A s), (by_side_in level hm H); exact Hs|]. rewrite N.
      assert (Li : i < length (hm_edges hm)) by (apply nth_error_Some; rewrite Hi; discriminate).
      clear - Li. revert i Li. generalize (length (hm_edges hm)). induction n as [|n IH]; intros i Li; [lia|]. destruct i; [reflexivity|]. cbn. apply IH. lia.
Qed.
