(** Proofs about the loaders of plane polygonal meshes *)
From Coq Require Import List Arith Bool Permutation Sorted Lia.
From Verif Require Import Common Mesh_Model Mesh_Spec Mesh_Proofs Mesh2_Proofs Elem_Model Elem_Spec Elem_Proofs
  Load_Model Load_Spec Load2_Proofs Conn_Model Conn_Spec Conn_Proofs Conn2_Proofs Conn3_Proofs Plane_Model Plane_Spec.
Import ListNotations.
Local Open Scope nat_scope.

(** ** Sets of edges *)
Lemma eset_insert_in e x s : In x (eset_insert e s) <-> x = e \/ In x s.
Proof.
  induction s as [|y s IH]; cbn; [intuition|]. destruct (lex_ltb e y) eqn:A; [cbn; intuition|].
  destruct (lex_ltb y e) eqn:B; cbn; [rewrite IH; intuition|]. assert (e = y) by (apply (sto_total _ lex_ltb_sto); assumption). subst. intuition.
Qed.
Lemma eset_insert_sorted e s : sorted_unique lex_ltb s -> sorted_unique lex_ltb (eset_insert e s).
Proof.
  unfold sorted_unique. induction 1 as [|y s S' IH F]; cbn; [repeat constructor|]. destruct (lex_ltb e y) eqn:A.
  - constructor; [constructor; assumption|]. constructor; [exact A|]. eapply Forall_impl; [|exact F]. intros z Hz. eapply (sto_trans _ lex_ltb_sto); eauto.
  - destruct (lex_ltb y e) eqn:B; [|constructor; assumption]. constructor; [exact IH|]. apply Forall_forall. intros z Hz.
    apply eset_insert_in in Hz as [->|Hz]; [exact B|]. rewrite Forall_forall in F. auto.
Qed.

(** ** Positions *)
Fixpoint posl (l : list (list nat)) (e : list nat) : nat := match l with [] => 0 | x :: r => if leq x e then 0 else S (posl r e) end.
Lemma posl_nth l e : In e l -> nth_error l (posl l e) = Some e.
Proof. induction l as [|x l IH]; [intros []|]. cbn. destruct (leq x e) as [->|N]; [reflexivity|]. intros [H|H]; [contradiction|]. cbn. auto. Qed.
Lemma posl_stored l e i : sorted_unique lex_ltb l -> stored l i e -> posl l e = i.
Proof.
  intros HS H. apply (stored_unique lex_ltb lex_ltb_sto l e); [exact HS| |exact H]. apply posl_nth. eapply nth_error_In; exact H.
Qed.
Lemma posl_inj l a b : In a l -> In b l -> posl l a = posl l b -> a = b.
Proof. intros Ha Hb E. apply posl_nth in Ha, Hb. rewrite E in Ha. congruence. Qed.
Lemma posl_mono l a b : sorted_unique lex_ltb l -> In a l -> In b l -> lex_ltb a b = true -> posl l a < posl l b.
Proof.
  intros HS Ha Hb L. destruct (Nat.lt_trichotomy (posl l a) (posl l b)) as [H|[H|H]]; [exact H| |].
  - apply posl_inj in H; auto. subst. rewrite (sto_irrefl _ lex_ltb_sto) in L. discriminate.
  - pose proof (sorted_nth_lt lex_ltb l HS _ _ _ _ (posl_nth _ _ Hb) (posl_nth _ _ Ha) H) as C.
    pose proof (sto_trans _ lex_ltb_sto _ _ _ L C) as C'. rewrite (sto_irrefl _ lex_ltb_sto) in C'. discriminate.
Qed.

Section Surfaces.
  Variable edges : list (list nat).
  Hypothesis HS : sorted_unique lex_ltb edges.

  Lemma surf_edges_ok es : incl es edges -> surf_edges edges es = Ok (Some (map (posl edges) es)).
  Proof.
    induction es as [|e es IH]; intros H; [reflexivity|]. cbn [surf_edges].
    rewrite (find_stored lex_ltb lex_ltb_sto _ _ _ HS (posl_nth edges e (H e (or_introl eq_refl)))). cbn [bind].
    rewrite IH by (intros x Hx; apply H; right; exact Hx). reflexivity.
  Qed.
  Definition surf_of (p : ppoly) : gelem * nat := (mkG (map (posl edges) (pp_edges p)) (pp_nodes p), pp_dom p).
  Lemma make_surfs_ok ps : Forall (fun p => incl (pp_edges p) edges) ps -> make_surfs edges ps = Ok (Some (map surf_of ps)).
  Proof.
    induction 1 as [|p ps H _ IH]; [reflexivity|]. cbn [make_surfs]. rewrite (surf_edges_ok _ H). cbn [bind]. rewrite IH. reflexivity.
  Qed.
  Lemma sub_faces_pos es : incl es edges -> sub_faces edges (map (posl edges) es) = es.
  Proof.
    intros H. unfold sub_faces. rewrite map_map. rewrite <- (map_id es) at 2. apply map_ext_in. intros e He.
    apply nth_error_nth. apply posl_nth, H, He.
  Qed.
  Lemma pos_sorted es : incl es edges -> sorted_unique lex_ltb es -> StronglySorted lt (map (posl edges) es).
  Proof.
    intros H HE. induction HE as [|e es S' IH F]; cbn; constructor.
    - apply IH. intros x Hx. apply H. right; exact Hx.
    - apply Forall_map. apply Forall_forall. intros x Hx. rewrite Forall_forall in F. apply posl_mono; auto; apply H; [left; reflexivity|right; exact Hx].
  Qed.
  Lemma surf_cell p ns (is_edge : list nat -> Prop) : pp_nodes p = map (fun v => v - 1) ns -> sorted_unique lex_ltb (pp_edges p) ->
    incl (pp_edges p) edges -> (forall e, In e (pp_edges p) <-> is_edge e) -> cell_of edges ns is_edge (fst (surf_of p)).
  Proof.
    intros E HE I H. split; [exact E|]. split; [apply pos_sorted; assumption|]. intros j. cbn [g_sub surf_of fst]. rewrite in_map_iff. split.
    - intros (e & <- & He). exists e. split; [apply posl_nth, I, He|apply H, He].
    - intros (e & Hj & He). exists e. apply H in He. split; [apply (posl_stored _ _ _ HS Hj)|exact He].
  Qed.
End Surfaces.

(** ** Sorting *)
Lemma sort_placed {X} (l l' : list X) : Permutation l' l -> exists p, renumbering (length l) p /\
  forall i x, nth_error l i = Some x -> nth_error l' (p i) = Some x.
Proof.
  intros P. apply Permutation_nth_error in P as (L & f & I & H). exists f. split.
  - unfold renumbering. apply NoDup_Permutation_bis.
    + apply FinFun.Injective_map_NoDup; [exact I|apply seq_NoDup].
    + rewrite map_length. lia.
    + intros y Hy. apply in_map_iff in Hy as (i & <- & Hi). apply in_seq in Hi. apply in_seq. split; [lia|].
      assert (E : nth_error l' (f i) <> None) by (rewrite <- H; apply nth_error_Some; lia). apply nth_error_Some in E. lia.
  - intros i x E. rewrite <- H. exact E.
Qed.
Lemma strict_of_nodup {E} (ltb : E -> E -> bool) (l : list E) : strict_total_order ltb -> NoDup l -> sorted_unique ltb (std_sort ltb l).
Proof.
  intros O N. pose proof (std_sort_sorted ltb O l) as HS. assert (N' : NoDup (std_sort ltb l)) by (eapply Permutation_NoDup; [symmetry; apply std_sort_perm|exact N]).
  unfold sorted_unique. induction HS as [|x r S' IH F]; constructor; inversion N'; subst; [auto|].
  apply Forall_forall. intros y Hy. rewrite Forall_forall in F. specialize (F y Hy). unfold nlt in F.
  destruct (ltb x y) eqn:A; [reflexivity|]. exfalso. assert (x = y) by (apply (sto_total _ O); assumption). subst. contradiction.
Qed.
Lemma sort_key {X} (key : X -> list nat) l : map key (std_sort (fun a b => lex_ltb (key a) (key b)) l) = std_sort lex_ltb (map key l).
Proof.
  assert (I : forall x r, map key (sort_insert (fun a b => lex_ltb (key a) (key b)) x r) = sort_insert lex_ltb (key x) (map key r)).
  { intros x r. induction r as [|y r IH]; [reflexivity|]. cbn. destruct (lex_ltb (key y) (key x)); cbn; [rewrite IH; reflexivity|reflexivity]. }
  induction l as [|x l IH]; [reflexivity|]. cbn. rewrite I, IH. reflexivity.
Qed.

(** ** medit *)
Lemma make_edge_joins a b : 1 <= a -> 1 <= b -> joins (make_edge (a - 1, b - 1)) a b.
Proof. intros. unfold joins. rewrite make_edge_min. f_equal; [lia|]. f_equal. lia. Qed.
Lemma joins_unique e e' a b : joins e a b -> joins e' a b -> e = e'.
Proof. unfold joins. congruence. Qed.
Lemma joins_same e a b c d : same_ends a b c d -> joins e a b -> joins e c d.
Proof. unfold joins. intros [[-> ->]|[-> ->]]; [auto|]. rewrite Nat.min_comm, Nat.max_comm. auto. Qed.
Lemma joins_ends e a b c d : 1 <= a -> 1 <= b -> 1 <= c -> 1 <= d -> joins e a b -> joins e c d -> same_ends a b c d.
Proof. unfold joins, same_ends. intros ? ? ? ? -> E. injection E as E1 E2. lia. Qed.

Lemma combine_nth_error {A B} (l : list A) (l' : list B) i x y :
  nth_error (combine l l') i = Some (x, y) <-> nth_error l i = Some x /\ nth_error l' i = Some y.
Proof.
  revert l' i. induction l as [|a l IH]; intros l' i; [destruct i; cbn; (split; [discriminate|intros [? _]; discriminate])|].
  destruct l' as [|b l'].
  - cbn. destruct i; cbn; split; try discriminate; intros [_ ?]; discriminate.
  - destruct i; cbn; [|apply IH]. split; [intros [= <- <-]; auto|intros [[= <-] [= <-]]; reflexivity].
Qed.
Lemma next_nth (ns : list nat) i : i < length ns -> nth_error (tl ns ++ firstn 1 ns) i = nth_error ns (if S i =? length ns then 0 else S i).
Proof.
  destruct ns as [|a ns]; [cbn; lia|]. cbn [tl firstn length]. intros H. destruct (Nat.eqb_spec (S i) (S (length ns))) as [E|N].
  - assert (i = length ns) by lia. subst i. rewrite nth_error_app2, Nat.sub_diag by lia. reflexivity.
  - rewrite nth_error_app1 by lia. reflexivity.
Qed.
Lemma poly_sides_spec ns e : Forall (fun v => 1 <= v) ns -> (In e (poly_sides (map Nat.pred ns)) <-> m2_side ns e).
Proof.
  intros V. unfold poly_sides, m2_side, consecutive. rewrite in_map_iff. split.
  - intros ((a & b) & <- & H). apply In_nth_error in H as (i & H). apply combine_nth_error in H as [H1 H2].
    assert (L : i < length (map Nat.pred ns)) by (apply nth_error_Some; congruence). rewrite (next_nth _ _ L) in H2. rewrite map_length in L, H2.
    rewrite nth_error_map in H1, H2. destruct (nth_error ns i) as [a'|] eqn:E1; [|discriminate].
    destruct (nth_error ns (if S i =? length ns then 0 else S i)) as [b'|] eqn:E2; [|discriminate]. cbn in H1, H2. injection H1 as <-. injection H2 as <-.
    rewrite Forall_forall in V. pose proof (V _ (nth_error_In _ _ E1)). pose proof (V _ (nth_error_In _ _ E2)).
    exists a', b'. split; [exists i; auto|]. replace (Nat.pred a') with (a' - 1) by lia. replace (Nat.pred b') with (b' - 1) by lia. now apply make_edge_joins.
  - intros (a & b & (i & L & E1 & E2) & J). rewrite Forall_forall in V. pose proof (V _ (nth_error_In _ _ E1)). pose proof (V _ (nth_error_In _ _ E2)).
    exists (a - 1, b - 1). split; [apply (joins_unique _ _ a b); [now apply make_edge_joins|exact J]|].
    apply (nth_error_In _ i). apply combine_nth_error. split.
    + rewrite nth_error_map, E1. cbn. f_equal. lia.
    + rewrite next_nth by (rewrite map_length; exact L). rewrite map_length, nth_error_map, E2. cbn. f_equal. lia.
Qed.

Lemma attach_fold es : forall p, sorted_unique lex_ltb (pp_edges p) ->
  let q := fold_left (fun q e => attach e q) es p in
  pp_nodes q = pp_nodes p /\ pp_dom q = pp_dom p /\ sorted_unique lex_ltb (pp_edges q) /\ forall e, In e (pp_edges q) <-> In e es \/ In e (pp_edges p).
Proof.
  induction es as [|x es IH]; intros p HS; cbn [fold_left]; [cbn; intuition|].
  destruct (IH (attach x p)) as (A & B & C & D); [apply eset_insert_sorted, HS|].
  split; [rewrite A; reflexivity|]. split; [rewrite B; reflexivity|]. split; [exact C|]. intros e. rewrite D. cbn [attach pp_edges In]. rewrite eset_insert_in. intuition.
Qed.
Lemma medit2_poly_spec p : pp_nodes (medit2_poly p) = map Nat.pred (fst p) /\ pp_dom (medit2_poly p) = snd p /\
  sorted_unique lex_ltb (pp_edges (medit2_poly p)) /\ forall e, In e (pp_edges (medit2_poly p)) <-> In e (poly_sides (map Nat.pred (fst p))).
Proof.
  unfold medit2_poly. destruct (attach_fold (poly_sides (map Nat.pred (fst p))) (mkPP (map Nat.pred (fst p)) [] (snd p))) as (A & B & C & D); [constructor|].
  split; [exact A|]. split; [exact B|]. split; [exact C|]. intros e. rewrite D. cbn. intuition.
Qed.

Lemma existsb_arr e l : existsb (fun x => arr_eqb e x) l = true <-> In e l.
Proof.
  rewrite existsb_exists. split; [intros (x & H & E); apply arr_eqb_iff in E; subst; exact H|]. intros H. exists e. split; [exact H|now apply arr_eqb_iff].
Qed.
Lemma first_only_spec l : forall before, NoDup (first_only before l) /\ forall e, In e (first_only before l) <-> In e l /\ ~ In e before.
Proof.
  induction l as [|x l IH]; intros before; cbn [first_only]; [split; [constructor|cbn; intuition]|].
  destruct (IH (before ++ [x])) as (N & M). destruct (existsb (fun y => arr_eqb x y) before) eqn:E.
  - apply existsb_arr in E. split; [exact N|]. intros e. rewrite M, in_app_iff. cbn. split; [intuition|].
    intros [[->|H] Hn]; [contradiction|]. split; [exact H|]. intros [H'|[<-|[]]]; contradiction.
  - assert (E' : ~ In x before) by (intros H; apply existsb_arr in H; congruence). split.
    + constructor; [|exact N]. rewrite M, in_app_iff. cbn. intuition.
    + intros e. cbn. rewrite M, in_app_iff. cbn. split; [intros [<-|H]; intuition|]. intros [[->|H] Hn]; [now left|].
      destruct (leq x e) as [->|Nx]; [now left|]. right. split; [exact H|]. intuition.
Qed.

Definition m2_positive (f : medit2_file) : Prop :=
  Forall (fun p => Forall (fun v => 1 <= v) (fst p)) (m2_polys f) /\ Forall (fun b => 1 <= fst (snd b) /\ 1 <= snd (snd b)) (m2_bnd f).

Lemma pred_sub l : map Nat.pred l = map (fun v => v - 1) l.
Proof. apply map_ext. lia. Qed.

Section Medit.
  Variable f : medit2_file.
  Hypothesis V : m2_positive f.
  Let edges := std_sort lex_ltb (first_only [] (medit2_edges f)).

  Lemma m2_sorted : sorted_unique lex_ltb edges.
  Proof. apply strict_of_nodup; [apply lex_ltb_sto|apply first_only_spec]. Qed.
  Lemma m2_in_edges e : In e edges <-> In e (medit2_edges f).
  Proof.
    unfold edges. split; intros H.
    - apply (Permutation_in _ (std_sort_perm _ _)) in H. apply first_only_spec in H. apply H.
    - apply (Permutation_in _ (Permutation_sym (std_sort_perm _ _))). apply first_only_spec. auto.
  Qed.
  Lemma m2_edges_spec e : In e edges <-> exists ns id, In (ns, id) (m2_polys f) /\ m2_side ns e.
  Proof.
    rewrite m2_in_edges. unfold medit2_edges. rewrite in_flat_map. destruct V as [V1 _]. rewrite Forall_forall in V1. split.
    - intros ((ns & id) & H & He). exists ns, id. split; [exact H|]. apply poly_sides_spec; [apply (V1 _ H)|exact He].
    - intros (ns & id & H & He). exists (ns, id). split; [exact H|]. apply poly_sides_spec; [apply (V1 _ H)|exact He].
  Qed.
  Lemma m2_polys_in : Forall (fun p => incl (pp_edges p) edges) (map medit2_poly (m2_polys f)).
  Proof.
    apply Forall_map, Forall_forall. intros p Hp e He. apply (proj2 (proj2 (proj2 (medit2_poly_spec p)))) in He.
    apply m2_in_edges. unfold medit2_edges. apply in_flat_map. exists p. auto.
  Qed.
  Lemma m2_bnd_joins b : In b (m2_bnd f) -> joins (make_edge (Nat.pred (fst (snd b)), Nat.pred (snd (snd b)))) (fst (snd b)) (snd (snd b)).
  Proof.
    intros H. destruct V as [_ V2]. rewrite Forall_forall in V2. destruct (V2 _ H) as [A B].
    replace (Nat.pred (fst (snd b))) with (fst (snd b) - 1) by lia. replace (Nat.pred (snd (snd b))) with (snd (snd b) - 1) by lia. now apply make_edge_joins.
  Qed.

  Lemma medit2_ok : (forall b, In b (m2_bnd f) -> exists e, In e edges /\ joins e (fst (snd b)) (snd (snd b))) ->
    exists m pv, medit2_populate f = Ok (true, m) /\ pm_edges m = edges /\ pm_doms m = [] /\
      placed_as (length (m2_polys f)) pv (pm_cells m) (m2_item f edges) /\ length (pm_binfo m) = length edges /\
      forall i e, nth_error edges i = Some e ->
        (forall b, last_entry (fun b => joins e (fst (snd b)) (snd (snd b))) (m2_bnd f) b -> nth_error (pm_binfo m) i = Some (mkB (fst b) (fst b) true false)) /\
        ((forall b, In b (m2_bnd f) -> ~ joins e (fst (snd b)) (snd (snd b))) -> nth_error (pm_binfo m) i = Some (mkB 0 0 false false)).
  Proof.
    intros K. pose proof m2_sorted as HS.
    destruct (mark_listed_true edges HS (medit2_bnd f) (repeat bd_default (length edges))) as (bi & E & L & H).
    - apply repeat_length.
    - apply Forall_map, Forall_forall. intros b Hb. cbn [snd]. destruct (K b Hb) as (e & He & J). rewrite <- (joins_unique _ _ _ _ J (m2_bnd_joins b Hb)). exact He.
    - unfold medit2_populate. fold edges. rewrite E. cbn [bind fst snd]. rewrite (make_surfs_ok edges HS _ m2_polys_in). cbn [bind].
      destruct (sort_placed (map fst (map (surf_of edges) (map medit2_poly (m2_polys f))))
        (std_sort (fun a b => lex_ltb (g_sub a) (g_sub b)) (map fst (map (surf_of edges) (map medit2_poly (m2_polys f)))))) as (pv & R & Q); [apply std_sort_perm|].
      rewrite !map_length in R. eexists _, pv. split; [reflexivity|]. cbn [pm_edges pm_doms pm_cells pm_binfo].
      split; [reflexivity|]. split; [reflexivity|]. split; [|split; [exact L|]].
      + split; [exact R|rewrite (Permutation_length (std_sort_perm _ _)), !map_length; reflexivity|].
        intros i Hi. destruct (nth_error_some (m2_polys f) i Hi) as ((ns & id) & Ei).
        exists (fst (surf_of edges (medit2_poly (ns, id)))). split; [apply Q; rewrite !nth_error_map, Ei; reflexivity|].
        exists ns, id. split; [exact Ei|]. destruct (medit2_poly_spec (ns, id)) as (A & _ & B & C). apply surf_cell.
        * exact HS.
        * rewrite A. apply pred_sub.
        * exact B.
        * pose proof m2_polys_in as I. rewrite Forall_map, Forall_forall in I. apply I. eapply nth_error_In; eauto.
        * intros e. rewrite C. apply poly_sides_spec. destruct V as [V1 _]. rewrite Forall_forall in V1. apply (V1 (ns, id)). eapply nth_error_In; eauto.
      + intros i e Hi. pose proof (H i e bd_default Hi (repeat_nth _ _ _ (stored_lt _ _ _ Hi))) as D. rewrite D. clear D. split.
        * intros b (pre & post & Eb & J & F). f_equal. change (mkB (fst b) (fst b) true false) with (bd_make (fst b) true).
          unfold medit2_bnd. rewrite Eb, map_app. cbn [map]. rewrite redesc_app, redesc_cons. cbn [fst snd].
          destruct (leq (make_edge (Nat.pred (fst (snd b)), Nat.pred (snd (snd b)))) e) as [_|N].
          -- apply redesc_none. apply Forall_map, Forall_forall. intros b' Hb' C. cbn [snd] in C. rewrite Forall_forall in F. apply (F b' Hb').
             rewrite <- C. apply m2_bnd_joins. rewrite Eb. apply in_app_iff. right. right. exact Hb'.
          -- exfalso. apply N. apply (joins_unique _ _ (fst (snd b)) (snd (snd b))); [|exact J]. apply m2_bnd_joins. rewrite Eb. apply in_app_iff. right. left. reflexivity.
        * intros N. f_equal. apply redesc_none. apply Forall_map, Forall_forall. intros b Hb C. cbn [snd] in C. apply (N b Hb). rewrite <- C. now apply m2_bnd_joins.
  Qed.
  Lemma medit2_reject b : In b (m2_bnd f) -> (forall e, In e edges -> ~ joins e (fst (snd b)) (snd (snd b))) ->
    exists m, medit2_populate f = Ok (false, m).
  Proof.
    intros Hb N. destruct (mark_listed_false edges m2_sorted (medit2_bnd f) (repeat bd_default (length edges))) as (bi & E).
    - apply repeat_length.
    - exists (fst b, make_edge (Nat.pred (fst (snd b)), Nat.pred (snd (snd b)))). split.
      + unfold medit2_bnd. apply in_map_iff. exists b. auto.
      + cbn [snd]. intros C. apply (N _ C). now apply m2_bnd_joins.
    - unfold medit2_populate. fold edges. rewrite E. cbn [bind fst]. eauto.
  Qed.
End Medit.

(** ** fvca5: what is read *)
Definition edge_of (x : f5_edge) : list nat := make_edge (e5_a x - 1, e5_b x - 1).
Lemma edge_of_joins x : ends_ok (e5_a x) (e5_b x) -> joins (edge_of x) (e5_a x) (e5_b x).
Proof. intros (A & B & _). now apply make_edge_joins. Qed.

Record rd (P : list (list nat * nat)) (B : list (nat * nat)) (X : list f5_edge) (st : f5_state) : Prop := {
  rd_len : length (s5_polys st) = length P;
  rd_poly : forall k ns id, nth_error P k = Some (ns, id) -> exists p, nth_error (s5_polys st) k = Some p /\
    pp_nodes p = map (fun v => v - 1) ns /\ pp_dom p = id /\ sorted_unique lex_ltb (pp_edges p) /\
    forall e, In e (pp_edges p) <-> exists y, In y X /\ neighbour y k /\ e = edge_of y;
  rd_bnd : s5_bnd st = map (fun b => make_edge (fst b - 1, snd b - 1)) B;
  rd_edges : s5_edges st = map edge_of X;
  rd_refs : Forall (fun x => e5_l x <= length P /\ e5_r x <= length P) X
}.
Lemma rd_nil : rd [] [] [] (mkF5 [] [] []).
Proof. split; try reflexivity; [intros [|k] ? ?; discriminate|constructor]. Qed.

Lemma f5_attach_spec e k ps : k <= length ps -> exists ps', f5_attach e k ps = Ok ps' /\ length ps' = length ps /\
  forall j p, nth_error ps j = Some p -> nth_error ps' j = Some (if k =? S j then attach e p else p).
Proof.
  intros H. unfold f5_attach. destruct (Nat.ltb_spec 0 k) as [L|L].
  - destruct (nth_error_some ps (k - 1)) as (p & E); [lia|]. rewrite (vat_ok _ _ _ E). cbn [bind]. unfold vset_at.
    destruct (upd_some ps (k - 1) (attach e p)) as (ps' & U); [lia|]. rewrite U. exists ps'. split; [reflexivity|]. split; [apply (upd_length _ _ _ _ U)|].
    intros j q Hj. destruct (Nat.eqb_spec k (S j)) as [->|N].
    + replace (S j - 1) with j in * by lia. rewrite (upd_nth_same _ _ _ _ U). congruence.
    + rewrite (upd_nth_other _ _ _ _ _ U); [exact Hj|lia].
  - exists ps. split; [reflexivity|]. split; [reflexivity|]. intros j p Hj. destruct (Nat.eqb_spec k (S j)); [lia|exact Hj].
Qed.

Lemma rd_edge P B X st x : rd P B X st -> ends_ok (e5_a x) (e5_b x) -> e5_l x <= length P -> e5_r x <= length P -> forall r, exists st',
  f5_read_edges (x :: r) st = f5_read_edges r st' /\ rd P B (X ++ [x]) st'.
Proof.
  intros R (A1 & A2 & A3) L1 L2 r. cbn [f5_read_edges]. destruct (Nat.ltb_spec (e5_a x) 1); [lia|]. destruct (Nat.ltb_spec (e5_b x) 1); [lia|]. cbn [orb].
  destruct (Nat.eqb_spec (e5_a x - 1) (e5_b x - 1)); [lia|]. fold (edge_of x).
  destruct (f5_attach_spec (edge_of x) (e5_l x) (s5_polys st)) as (p1 & -> & E1 & F1); [rewrite (rd_len _ _ _ _ R); exact L1|]. cbn [bind].
  destruct (f5_attach_spec (edge_of x) (e5_r x) p1) as (p2 & -> & E2 & F2); [rewrite E1, (rd_len _ _ _ _ R); exact L2|]. cbn [bind].
  eexists. split; [reflexivity|]. split; cbn [s5_polys s5_bnd s5_edges].
  - rewrite E2, E1. apply R.
  - intros k ns id Hk. destruct (rd_poly _ _ _ _ R k ns id Hk) as (p & Hp & Q1 & Q2 & Q3 & Q4).
    eexists. split; [apply F2, F1, Hp|]. 
    assert (G : forall b q, pp_nodes (if b : bool then attach (edge_of x) q else q) = pp_nodes q /\ pp_dom (if b then attach (edge_of x) q else q) = pp_dom q /\
      (sorted_unique lex_ltb (pp_edges q) -> sorted_unique lex_ltb (pp_edges (if b then attach (edge_of x) q else q))) /\
      forall e, In e (pp_edges (if b then attach (edge_of x) q else q)) <-> (b = true /\ e = edge_of x) \/ In e (pp_edges q)).
    { intros [] q; cbn; (split; [reflexivity|]); (split; [reflexivity|]); (split; [try apply eset_insert_sorted; auto|]); intros e; rewrite ?eset_insert_in; intuition discriminate. }
    destruct (G (e5_l x =? S k) p) as (a1 & a2 & a3 & a4). destruct (G (e5_r x =? S k) (if e5_l x =? S k then attach (edge_of x) p else p)) as (b1 & b2 & b3 & b4).
    split; [rewrite b1, a1; exact Q1|]. split; [rewrite b2, a2; exact Q2|]. split; [auto|]. intros e. rewrite b4, a4, Q4, !Nat.eqb_eq. unfold neighbour. split.
    + intros [[N ->]|[[N ->]|(y & Hy & Ny & ->)]].
      * exists x. split; [apply in_app_iff; right; left; reflexivity|]. auto.
      * exists x. split; [apply in_app_iff; right; left; reflexivity|]. auto.
      * exists y. split; [apply in_app_iff; left; exact Hy|]. auto.
    + intros (y & Hy & Ny & ->). apply in_app_iff in Hy as [Hy|[<-|[]]]; [right; right; eauto|]. destruct Ny; auto.
  - apply R.
  - rewrite (rd_edges _ _ _ _ R), map_app. reflexivity.
  - apply Forall_app. split; [apply R|]. repeat constructor; assumption.
Qed.
Lemma rd_edges_ok P B l : forall X st, rd P B X st -> Forall (fun x => ends_ok (e5_a x) (e5_b x)) l ->
  Forall (fun x => e5_l x <= length P /\ e5_r x <= length P) l -> exists st', f5_read_edges l st = Ok (Some st') /\ rd P B (X ++ l) st'.
Proof.
  induction l as [|x l IH]; intros X st R H1 H2; [exists st; rewrite app_nil_r; auto|]. inversion H1; inversion H2; subst.
  destruct (rd_edge P B X st x R ltac:(assumption) ltac:(tauto) ltac:(tauto) l) as (st1 & -> & R1).
  destruct (IH _ _ R1) as (st2 & E & R2); [assumption..|]. exists st2. split; [exact E|]. rewrite <- app_assoc in R2. exact R2.
Qed.
Lemma read_bnd_ok l : Forall (fun b => ends_ok (fst b) (snd b)) l -> f5_read_bnd l = Some (map (fun b => make_edge (fst b - 1, snd b - 1)) l).
Proof.
  induction 1 as [|[a b] l (A & B & C) _ IH]; [reflexivity|]. cbn [fst snd] in *. cbn [f5_read_bnd]. destruct (Nat.ltb_spec a 1); [lia|]. destruct (Nat.ltb_spec b 1); [lia|].
  cbn [orb]. destruct (Nat.eqb_spec (a - 1) (b - 1)); [lia|]. rewrite IH. reflexivity.
Qed.
Lemma rd_polys P B X st l : rd P B X st -> rd (P ++ l) B X (mkF5 (s5_polys st ++ map f5_poly l) (s5_bnd st) (s5_edges st)).
Proof.
  intros R. split; cbn [s5_polys s5_bnd s5_edges]; try apply R.
  - rewrite !app_length, map_length, (rd_len _ _ _ _ R). reflexivity.
  - intros k ns id Hk. destruct (Nat.lt_ge_cases k (length P)) as [L|L].
    + rewrite nth_error_app1 in Hk by exact L. destruct (rd_poly _ _ _ _ R k ns id Hk) as (p & Hp & Q). exists p. split; [|exact Q].
      rewrite nth_error_app1; [exact Hp|]. rewrite (rd_len _ _ _ _ R). exact L.
    + rewrite nth_error_app2 in Hk by exact L. exists (f5_poly (ns, id)). split.
      * rewrite nth_error_app2 by (rewrite (rd_len _ _ _ _ R); exact L). rewrite (rd_len _ _ _ _ R). apply map_nth_error, Hk.
      * cbn. split; [apply pred_sub|]. split; [reflexivity|]. split; [constructor|]. intros e. split; [intros []|]. intros (y & Hy & N & _).
        pose proof (rd_refs _ _ _ _ R) as F. rewrite Forall_forall in F. destruct (F y Hy). destruct N; lia.
  - eapply Forall_impl; [|apply R]. intros x. rewrite app_length. cbn. lia.
Qed.

Lemma f5_parse_ok bs : forall pre P B X st, P = f5_polys pre -> rd P B X st -> f5_readable (pre ++ bs) ->
  exists st', f5_parse bs st = Ok (Some st') /\ rd (P ++ f5_polys bs) (B ++ f5_bnds bs) (X ++ f5_edges bs) st'.
Proof.
  induction bs as [|b bs IH]; intros pre P B X st EP R V.
  - exists st. split; [reflexivity|]. cbn. rewrite !app_nil_r. exact R.
  - cbn [f5_parse]. assert (V' : f5_readable ((pre ++ [b]) ++ bs)) by (rewrite <- app_assoc; exact V). destruct b as [l|l|l].
    + cbn [bind]. destruct (IH (pre ++ [FPolys l]) (P ++ l) B X _ ltac:(unfold f5_polys; rewrite flat_map_app; cbn; rewrite app_nil_r, EP; reflexivity) (rd_polys _ _ _ _ l R) V') as (st' & E & R').
      exists st'. split; [exact E|]. cbn. rewrite app_assoc. exact R'.
    + assert (Fl : Forall (fun b => ends_ok (fst b) (snd b)) l).
      { pose proof (v5_bnds _ V) as H. unfold f5_bnds in H. rewrite flat_map_app in H. apply Forall_app in H as [_ H]. cbn in H. apply Forall_app in H as [H _]. exact H. }
      rewrite (read_bnd_ok l Fl). cbn [bind].
      destruct (IH (pre ++ [FBoundary l]) P (B ++ l) X (mkF5 (s5_polys st) (s5_bnd st ++ map (fun b => make_edge (fst b - 1, snd b - 1)) l) (s5_edges st))) as (st' & E & R').
      * unfold f5_polys. rewrite flat_map_app. cbn. rewrite app_nil_r. exact EP.
      * destruct R. split; cbn [s5_polys s5_bnd s5_edges]; auto. rewrite map_app. congruence.
      * exact V'.
      * exists st'. split; [exact E|]. cbn. rewrite app_assoc. exact R'.
    + assert (Fl : Forall (fun x => ends_ok (e5_a x) (e5_b x)) l).
      { pose proof (v5_edges _ V) as H. unfold f5_edges in H. rewrite flat_map_app in H. apply Forall_app in H as [_ H]. cbn in H. apply Forall_app in H as [H _]. exact H. }
      pose proof (v5_order _ V pre l bs eq_refl) as Ol. rewrite <- EP in Ol.
      destruct (rd_edges_ok P B l X st R Fl Ol) as (st1 & -> & R1). cbn [bind].
      destruct (IH (pre ++ [FEdges l]) P B (X ++ l) st1) as (st' & E & R').
      * unfold f5_polys. rewrite flat_map_app. cbn. rewrite app_nil_r. exact EP.
      * exact R1.
      * exact V'.
      * exists st'. split; [exact E|]. cbn. rewrite app_assoc. exact R'.
Qed.
Lemma f5_read_ok bs : f5_readable bs -> exists st, f5_parse bs (mkF5 [] [] []) = Ok (Some st) /\ rd (f5_polys bs) (f5_bnds bs) (f5_edges bs) st.
Proof. intros V. apply (f5_parse_ok bs [] [] [] [] _ eq_refl rd_nil V). Qed.

(** ** fvca5: the mesh *)
Section F5.
  Variable bs : list f5_block.
  Hypothesis V : f5_valid bs.
  Variable st : f5_state.
  Hypothesis R : rd (f5_polys bs) (f5_bnds bs) (f5_edges bs) st.
  Variable bnum : list nat -> list nat -> option nat.
  Let X := f5_edges bs.
  Let nP := length (f5_polys bs).
  Definition f5E := std_sort lex_ltb (map edge_of (f5_edges bs)).

  Lemma x_ends x : In x X -> ends_ok (e5_a x) (e5_b x).
  Proof. intros H. pose proof (v5_edges _ (v5_readable _ V)) as F. rewrite Forall_forall in F. apply F, H. Qed.
  Lemma edge_of_same x y : In x X -> In y X -> edge_of x = edge_of y -> same_ends (e5_a x) (e5_b x) (e5_a y) (e5_b y).
  Proof.
    intros Hx Hy E. pose proof (x_ends _ Hx) as Ex. pose proof (x_ends _ Hy) as Ey. destruct Ex as (? & ? & ?), Ey as (? & ? & ?).
    apply (joins_ends (edge_of x)); auto; [now apply edge_of_joins; repeat split|rewrite E; now apply edge_of_joins; repeat split].
  Qed.
  Lemma edge_of_inj x y : In x X -> In y X -> edge_of x = edge_of y -> x = y.
  Proof.
    intros Hx Hy E. apply In_nth_error in Hx as Ix, Hy as Iy. destruct Ix as (i & Ix), Iy as (j & Iy).
    assert (i = j) by (apply (v5_once _ V i j x y Ix Iy), edge_of_same; assumption). subst. congruence.
  Qed.
  Lemma edges_nodup : NoDup (map edge_of X).
  Proof.
    apply NoDup_nth_error. intros i j Hi E. rewrite map_length in Hi. destruct (nth_error_some X i Hi) as (x & Ex). rewrite (map_nth_error edge_of _ _ Ex) in E.
    rewrite nth_error_map in E. destruct (nth_error X j) as [y|] eqn:Ey; [|discriminate]. cbn in E. injection E as E.
    apply (v5_once _ V i j x y Ex Ey). apply edge_of_same; auto; eapply nth_error_In; eauto.
  Qed.
  Lemma f5E_sorted : sorted_unique lex_ltb f5E.
  Proof. apply strict_of_nodup; [apply lex_ltb_sto|apply edges_nodup]. Qed.
  Lemma f5E_in e : In e f5E <-> exists x, In x X /\ e = edge_of x.
  Proof.
    unfold f5E. split.
    - intros H. apply (Permutation_in _ (std_sort_perm _ _)) in H. apply in_map_iff in H as (x & <- & H). eauto.
    - intros (x & H & ->). apply (Permutation_in _ (Permutation_sym (std_sort_perm _ _))), in_map, H.
  Qed.
  Lemma polys_in : Forall (fun p => incl (pp_edges p) f5E) (s5_polys st).
  Proof.
    apply Forall_forall. intros p Hp e He. apply In_nth_error in Hp as (k & Hk). assert (L : k < nP) by (unfold nP; rewrite <- (rd_len _ _ _ _ R); apply nth_error_Some; congruence).
    destruct (nth_error_some _ _ L) as ((ns & id) & Ek). destruct (rd_poly _ _ _ _ R k ns id Ek) as (p' & Hk' & _ & _ & _ & Q). rewrite Hk in Hk'. injection Hk' as <-.
    apply Q in He as (y & Hy & _ & ->). apply f5E_in. eauto.
  Qed.

  Definition f5S := std_sort surf_ltb (map (surf_of f5E) (s5_polys st)).
  Definition f5C := map g_sub (map fst f5S).
  Definition keyk (p : ppoly) := map (posl f5E) (pp_edges p).
  Definition efaces := sub_faces f5E.

  Lemma f5C_perm : Permutation f5C (map keyk (s5_polys st)).
  Proof.
    unfold f5C, f5S. rewrite map_map. rewrite (Permutation_map _ (std_sort_perm surf_ltb _)). rewrite map_map. reflexivity.
  Qed.
  Lemma keyk_faces p : In p (s5_polys st) -> efaces (keyk p) = pp_edges p.
  Proof. intros H. apply sub_faces_pos. pose proof polys_in as F. rewrite Forall_forall in F. auto. Qed.
  Lemma poly_at k : k < nP -> exists p ns id, nth_error (f5_polys bs) k = Some (ns, id) /\ nth_error (s5_polys st) k = Some p /\ In p (s5_polys st) /\
    pp_nodes p = map (fun v => v - 1) ns /\ pp_dom p = id /\ sorted_unique lex_ltb (pp_edges p) /\
    forall x, In x X -> (In (edge_of x) (pp_edges p) <-> neighbour x k).
  Proof.
    intros L. destruct (nth_error_some _ _ L) as ((ns & id) & Ek). destruct (rd_poly _ _ _ _ R k ns id Ek) as (p & Hk & A & B & C & D).
    exists p, ns, id. split; [exact Ek|]. split; [exact Hk|]. split; [eapply nth_error_In; eauto|]. split; [exact A|]. split; [exact B|]. split; [exact C|].
    intros x Hx. rewrite D. split; [intros (y & Hy & N & E); apply edge_of_inj in E; [subst; exact N|assumption..]|eauto].
  Qed.
  Lemma keyk_nodup : NoDup (map keyk (s5_polys st)).
  Proof.
    apply NoDup_nth_error. intros i j Hi E. rewrite map_length, (rd_len _ _ _ _ R) in Hi.
    destruct (poly_at i Hi) as (p & ns & id & _ & Hp & Ip & _ & _ & _ & Qp). rewrite (map_nth_error keyk _ _ Hp) in E. rewrite nth_error_map in E.
    destruct (nth_error (s5_polys st) j) as [q|] eqn:Hq; [|discriminate]. cbn in E. injection E as E.
    assert (Hj : j < nP) by (unfold nP; rewrite <- (rd_len _ _ _ _ R); apply nth_error_Some; congruence).
    destruct (poly_at j Hj) as (q' & ns' & id' & _ & Hq' & Iq & _ & _ & _ & Qq). rewrite Hq in Hq'. injection Hq' as <-.
    apply (v5_cells _ V i j Hi Hj). intros x Hx. rewrite <- (Qp x Hx), <- (Qq x Hx). rewrite <- (keyk_faces _ Ip), <- (keyk_faces _ Iq), E. reflexivity.
  Qed.
  Lemma f5C_sorted : sorted_unique lex_ltb f5C.
  Proof.
    unfold f5C, f5S. rewrite map_map. unfold surf_ltb. rewrite (sort_key (fun a : gelem * nat => g_sub (fst a))). apply strict_of_nodup; [apply lex_ltb_sto|].
    rewrite map_map. apply keyk_nodup.
  Qed.
  Lemma f5C_in c : In c f5C -> exists p, In p (s5_polys st) /\ c = keyk p.
  Proof. intros H. apply (Permutation_in _ f5C_perm) in H. apply in_map_iff in H as (p & <- & H). eauto. Qed.
  Lemma f5_wf bi : length bi = length f5E -> wf_mesh lex_ltb lex_ltb efaces (mkMesh f5C f5E bi).
  Proof.
    intros L. split; cbn [m_faces m_cells m_binfo].
    - apply f5E_sorted.
    - apply f5C_sorted.
    - exact L.
    - intros c Hc. apply f5C_in in Hc as (p & Hp & ->). rewrite (keyk_faces p Hp). pose proof polys_in as F. rewrite Forall_forall in F. auto.
    - intros c Hc. apply f5C_in in Hc as (p & Hp & ->). rewrite (keyk_faces p Hp). apply In_nth_error in Hp as (k & Hk).
      assert (Lk : k < nP) by (unfold nP; rewrite <- (rd_len _ _ _ _ R); apply nth_error_Some; congruence).
      destruct (poly_at k Lk) as (q & ns & id & _ & Hq & _ & _ & _ & Sq & _). rewrite Hk in Hq. injection Hq as <-. apply (su_nodup lex_ltb _ lex_ltb_sto Sq).
  Qed.

  Definition nbr (x : f5_edge) (k : nat) : bool := (e5_l x =? S k) || (e5_r x =? S k).
  Lemma nbr_iff x k : nbr x k = true <-> neighbour x k.
  Proof. unfold nbr, neighbour. rewrite orb_true_iff, !Nat.eqb_eq. reflexivity. Qed.
  Lemma list_sum_perm l l' : Permutation l l' -> list_sum l = list_sum l'.
  Proof. unfold list_sum. induction 1; cbn [fold_right]; lia. Qed.
  Lemma inc_count x : In x X -> incidences leq efaces f5C (edge_of x) = length (filter (nbr x) (seq 0 nP)).
  Proof.
    intros Hx. unfold incidences. rewrite (list_sum_perm _ _ (Permutation_map _ f5C_perm)). rewrite map_map.
    assert (G : forall l s, (forall j p, nth_error l j = Some p -> nth_error (s5_polys st) (s + j) = Some p) ->
      list_sum (map (fun p => count_occ leq (efaces (keyk p)) (edge_of x)) l) = length (filter (nbr x) (seq s (length l)))).
    { induction l as [|p l IH]; intros s H; [reflexivity|]. cbn [map length seq filter]. pose proof (H 0 p eq_refl) as Hp. rewrite Nat.add_0_r in Hp.
      assert (Lk : s < nP) by (unfold nP; rewrite <- (rd_len _ _ _ _ R); apply nth_error_Some; congruence).
      destruct (poly_at s Lk) as (q & ns & id & _ & Hq & Iq & _ & _ & Sq & Qq). rewrite Hp in Hq. injection Hq as <-.
      assert (E : count_occ leq (efaces (keyk p)) (edge_of x) = if nbr x s then 1 else 0).
      { rewrite (keyk_faces p Iq). destruct (nbr x s) eqn:N.
        - apply nbr_iff in N. apply (Qq x Hx) in N. pose proof (proj1 (NoDup_count_occ leq _) (su_nodup lex_ltb _ lex_ltb_sto Sq) (edge_of x)). apply (count_occ_In leq) in N. lia.
        - apply count_occ_not_In. intros C. apply (Qq x Hx) in C. apply nbr_iff in C. congruence. }
      change (list_sum (?a :: ?b)) with (a + list_sum b). rewrite E, (IH (S s)). 
      - destruct (nbr x s); reflexivity.
      - intros j q Hj. rewrite Nat.add_succ_comm. apply H. exact Hj. }
    rewrite (G (s5_polys st) 0) by auto. rewrite (rd_len _ _ _ _ R). reflexivity.
  Qed.
  Lemma nbr_range x k : In x X -> neighbour x k -> k < nP.
  Proof. intros Hx H. pose proof (rd_refs _ _ _ _ R) as F. rewrite Forall_forall in F. destruct (F x Hx). unfold nP. destruct H; lia. Qed.
  Lemma filt_in x k : In x X -> (In k (filter (nbr x) (seq 0 nP)) <-> neighbour x k).
  Proof.
    intros Hx. rewrite filter_In, in_seq, nbr_iff. split; [tauto|]. intros H. split; [|exact H]. pose proof (nbr_range x k Hx H). lia.
  Qed.
  Lemma filt_nodup x : NoDup (filter (nbr x) (seq 0 nP)).
  Proof. apply NoDup_filter, seq_NoDup. Qed.
  Lemma inc_le x : In x X -> incidences leq efaces f5C (edge_of x) <= 2.
  Proof.
    intros Hx. rewrite (inc_count x Hx). transitivity (length [e5_l x - 1; e5_r x - 1]); [|reflexivity]. apply NoDup_incl_length; [apply filt_nodup|].
    intros k Hk. apply (filt_in x k Hx) in Hk. destruct Hk as [H|H]; rewrite H; cbn; [left|right; left]; lia.
  Qed.
  Lemma inc_two x k k' : In x X -> neighbour x k -> neighbour x k' -> k <> k' -> incidences leq efaces f5C (edge_of x) = 2.
  Proof.
    intros Hx H H' N. apply Nat.le_antisymm; [apply (inc_le x Hx)|]. rewrite (inc_count x Hx). change 2 with (length [k; k']). apply NoDup_incl_length.
    - repeat constructor; cbn; intuition.
    - intros j [<-|[<-|[]]]; apply (filt_in x _ Hx); assumption.
  Qed.
  Lemma inc_one x k : In x X -> only_neighbour x k -> incidences leq efaces f5C (edge_of x) <= 1.
  Proof.
    intros Hx (_ & U). rewrite (inc_count x Hx). change 1 with (length [k]). apply NoDup_incl_length; [apply filt_nodup|]. intros j Hj. apply (filt_in x _ Hx) in Hj. left. symmetry. auto.
  Qed.
  Lemma inc_none x : In x X -> (forall k, ~ neighbour x k) -> incidences leq efaces f5C (edge_of x) = 0.
  Proof.
    intros Hx N. rewrite (inc_count x Hx). destruct (filter (nbr x) (seq 0 nP)) as [|k l] eqn:E; [reflexivity|]. exfalso. apply (N k). apply (filt_in x k Hx). rewrite E. left. reflexivity.
  Qed.

  Lemma only_external x c : In x X -> (external efaces f5C c (edge_of x) <-> exists k p, only_neighbour x k /\ nth_error (s5_polys st) k = Some p /\ c = keyk p).
  Proof.
    intros Hx.
    assert (ND : NoDup f5C) by (apply (Permutation_NoDup (Permutation_sym f5C_perm)), keyk_nodup).
    assert (OW : forall j c', nth_error f5C j = Some c' -> exists k p, nth_error (s5_polys st) k = Some p /\ c' = keyk p /\ (In (edge_of x) (efaces c') <-> neighbour x k)).
    { intros j c' Hj. apply nth_error_In in Hj. apply f5C_in in Hj as (p & Hp & ->). pose proof (keyk_faces p Hp) as EF. apply In_nth_error in Hp as (k & Hk). exists k, p. split; [exact Hk|]. split; [reflexivity|].
      assert (Lk : k < nP) by (unfold nP; rewrite <- (rd_len _ _ _ _ R); apply nth_error_Some; congruence).
      destruct (poly_at k Lk) as (q & ns & id & _ & Hq & _ & _ & _ & _ & Qq). rewrite Hk in Hq. injection Hq as <-. rewrite EF. apply (Qq x Hx). }
    assert (AT : forall k p, nth_error (s5_polys st) k = Some p -> exists j, nth_error f5C j = Some (keyk p)).
    { intros k p Hk. apply In_nth_error. apply (Permutation_in _ (Permutation_sym f5C_perm)), in_map. eapply nth_error_In; eauto. }
    assert (KI : forall k k' p p', nth_error (s5_polys st) k = Some p -> nth_error (s5_polys st) k' = Some p' -> keyk p = keyk p' -> k = k').
    { intros k k' p p' Hk Hk' E. apply (proj1 (NoDup_nth_error _) keyk_nodup); [rewrite map_length; apply nth_error_Some; congruence|].
      rewrite (map_nth_error keyk _ _ Hk), (map_nth_error keyk _ _ Hk'), E. reflexivity. }
    split.
    - intros (I & i & Hi & U). destruct (OW i c Hi) as (k & p & Hk & -> & Q). exists k, p. split; [|auto]. split; [apply Q, I|].
      intros k' N'. destruct (poly_at k' (nbr_range x k' Hx N')) as (p' & ns & id & _ & Hk' & Ip' & _ & _ & _ & Q'). apply (Q' x Hx) in N' as Ie.
      destruct (AT k' p' Hk') as (j & Hj). assert (j = i) by (apply U; exists (keyk p'); split; [exact Hj|rewrite (keyk_faces p' Ip'); exact Ie]). subst j.
      rewrite Hi in Hj. injection Hj as Hj. symmetry. apply (KI k k' p p'); auto.
    - intros (k & p & (N & U) & Hk & ->). destruct (AT k p Hk) as (i & Hi). destruct (OW i _ Hi) as (k1 & p1 & Hk1 & E1 & Q1).
      assert (k1 = k) by (symmetry; apply (KI k k1 p p1); auto). subst k1. split; [apply Q1, N|]. exists i. split; [exact Hi|].
      intros j (c' & Hj & Ij). destruct (OW j c' Hj) as (k2 & p2 & Hk2 & -> & Q2). assert (k2 = k) by (apply U, Q2, Ij). subst k2.
      apply (proj1 (NoDup_nth_error _) ND); [apply nth_error_Some; congruence|]. rewrite Hj, Hi. congruence.
  Qed.

  Definition bedge (b : nat * nat) : list nat := make_edge (fst b - 1, snd b - 1).
  Lemma bedge_listed x : In x X -> (listed bs x <-> In (edge_of x) (map bedge (f5_bnds bs))).
  Proof.
    intros Hx. pose proof (v5_bnds _ (v5_readable _ V)) as F. rewrite Forall_forall in F. pose proof (x_ends x Hx) as Ex. rewrite in_map_iff. split.
    - intros (a & b & Hb & S'). exists (a, b). split; [|exact Hb]. destruct (F _ Hb) as (A & B & _). cbn [fst snd] in *.
      apply (joins_unique _ _ (e5_a x) (e5_b x)); [|now apply edge_of_joins]. apply (joins_same _ a b); [exact S'|]. now apply make_edge_joins.
    - intros ([a b] & E & Hb). exists a, b. split; [exact Hb|]. destruct (F _ Hb) as (A & B & _). cbn [fst snd] in *. destruct Ex as (C & D & N).
      apply (joins_ends (edge_of x)); auto; [rewrite <- E; now apply make_edge_joins|apply edge_of_joins; repeat split; assumption].
  Qed.
  Lemma bnds_in : Forall (fun b => In (snd b) f5E) (map (fun e => (0, e)) (map bedge (f5_bnds bs))).
  Proof.
    rewrite map_map. apply Forall_map, Forall_forall. intros b Hb. cbn [snd]. pose proof (v5_known _ V) as K. rewrite Forall_forall in K. destruct (K b Hb) as (x & Hx & S').
    apply f5E_in. exists x. split; [exact Hx|]. pose proof (v5_bnds _ (v5_readable _ V)) as F. rewrite Forall_forall in F. destruct (F _ Hb) as (A & B & _).
    apply (joins_unique _ _ (e5_a x) (e5_b x)); [|apply edge_of_joins, x_ends, Hx]. apply (joins_same _ (fst b) (snd b)); [exact S'|]. now apply make_edge_joins.
  Qed.
  Lemma redesc0 e l d : (In e l -> redesc e (map (fun e => (0, e)) l) d = mkB 0 0 true false) /\ (~ In e l -> redesc e (map (fun e => (0, e)) l) d = d).
  Proof.
    revert d. induction l as [|y l IH]; intros d; [split; [intros []|reflexivity]|]. cbn [map]. rewrite redesc_cons. cbn [fst snd]. destruct (leq y e) as [->|N].
    - split; [|intros H; exfalso; apply H; left; reflexivity]. intros _. destruct (in_dec leq e l) as [I|I]; [apply (proj1 (IH _) I)|]. apply (proj2 (IH _) I).
    - split; [intros [->|H]; [contradiction|]; apply (proj1 (IH _) H)|]. intros H. apply (proj2 (IH _)). intros C. apply H. right. exact C.
  Qed.

  Lemma f5_main : exists m pe pv, f5_populate bnum st = Ok (true, m) /\ pm_edges m = f5E /\ sorted_unique lex_ltb (map g_sub (pm_cells m)) /\
    placed_as (length X) pe (pm_edges m) (f5_edge_item bs) /\ length (pm_doms m) = length (pm_cells m) /\
    placed_as nP pv (combine (pm_cells m) (pm_doms m)) (f5_cell_item bs (pm_edges m)) /\
    f5_described bs (pm_cells m) pe pv bnum (pm_binfo m).
  Proof.
    pose proof f5E_sorted as HS. assert (LE : length f5E = length X) by (unfold f5E; rewrite (Permutation_length (std_sort_perm _ _)), map_length; reflexivity).
    unfold f5_populate. rewrite (rd_edges _ _ _ _ R), (rd_bnd _ _ _ _ R). change (std_sort lex_ltb (map edge_of (f5_edges bs))) with f5E.
    change (map (fun b : nat * nat => make_edge (fst b - 1, snd b - 1)) (f5_bnds bs)) with (map bedge (f5_bnds bs)). rewrite map_length. fold X. replace (repeat bd_default (length X)) with (repeat bd_default (length f5E)) by (rewrite LE; reflexivity).
    destruct (mark_listed_true f5E HS _ (repeat bd_default (length f5E)) (repeat_length _ _) bnds_in) as (bi & -> & Lb & Hb). cbn [bind fst snd].
    rewrite (make_surfs_ok f5E HS _ polys_in). cbn [bind].
    change (std_sort surf_ltb (map (surf_of f5E) (s5_polys st))) with f5S. change (map g_sub (map fst f5S)) with f5C.
    destruct (mark_internal_spec lex_ltb efaces leq lex_ltb_sto (mkMesh f5C f5E bi)) as (m1 & E1 & C1 & F1 & L1 & H1).
    { apply (f5_wf bi Lb). } 
    { apply (wf_stored _ _ _ _ (f5_wf bi Lb)). }
    { exact Lb. }
    change (sub_faces f5E) with efaces. rewrite E1. cbn [bind].
    cbn [m_cells m_faces m_binfo] in C1, F1, L1, H1.
    assert (W1 : wf_mesh lex_ltb lex_ltb efaces m1).
    { destruct (f5_wf bi Lb) as [w1 w2 w3 w4 w5]. cbn [m_cells m_faces m_binfo] in *. split; rewrite ?C1, ?F1, ?L1; assumption. }
    destruct (renumber_spec _ _ lex_ltb lex_ltb efaces leq bnum m1 lex_ltb_sto lex_ltb_sto W1) as (b & br & ER & LR & B1 & B2 & B3).
    { intros f Hf. rewrite F1 in Hf. rewrite C1. apply f5E_in in Hf as (x & Hx & ->). apply (inc_le x Hx). }
    rewrite ER. cbn [bind fst snd]. rewrite C1 in B1, B2, B3. rewrite F1 in LR, B2, B3.
    destruct (sort_placed (map edge_of X) f5E (std_sort_perm _ _)) as (pe & Re & Qe). rewrite map_length in Re.
    destruct (sort_placed (map (surf_of f5E) (s5_polys st)) f5S (std_sort_perm _ _)) as (pv & Rv & Qv). rewrite map_length, (rd_len _ _ _ _ R) in Rv.
    assert (CB : forall (A B : Type) (l : list (A * B)), combine (map fst l) (map snd l) = l) by (induction l as [|[? ?] l IHl]; cbn; congruence).
    eexists _, pe, pv. split; [reflexivity|]. cbn [pm_edges pm_cells pm_doms pm_binfo]. split; [reflexivity|]. split; [apply f5C_sorted|].
    assert (PE : forall i x, nth_error X i = Some x -> stored f5E (pe i) (edge_of x)) by (intros i x Hi; apply Qe, map_nth_error, Hi).
    split; [|split; [rewrite !map_length; reflexivity|split]].
    - split; [exact Re|exact LE|]. intros i Hi. destruct (nth_error_some X i Hi) as (x & Ex). exists (edge_of x). split; [apply (PE i x Ex)|].
      exists x. split; [exact Ex|]. apply edge_of_joins, x_ends. eapply nth_error_In; eauto.
    - rewrite CB. split; [exact Rv|unfold f5S; rewrite (Permutation_length (std_sort_perm _ _)), map_length; apply R|].
      intros k Hk. destruct (poly_at k Hk) as (p & ns & id & Ek & Hp & Ip & A & B & C & D). exists (surf_of f5E p). split; [apply Qv, map_nth_error, Hp|].
      exists ns. split; [cbn; rewrite B; exact Ek|]. apply surf_cell; auto.
      + pose proof polys_in as F. rewrite Forall_forall in F. auto.
      + intros e. destruct (rd_poly _ _ _ _ R k ns id Ek) as (p' & Hp' & _ & _ & _ & Q). rewrite Hp in Hp'. injection Hp' as <-. rewrite Q. split.
        * intros (y & Hy & N & ->). exists y. split; [exact Hy|]. split; [exact N|]. apply edge_of_joins, x_ends, Hy.
        * intros (y & Hy & N & J). exists y. split; [exact Hy|]. split; [exact N|]. apply (joins_unique _ _ _ _ J), edge_of_joins, x_ends, Hy.
    - assert (OK : b = true <-> outer_known bs (map fst f5S) pv bnum).
      { rewrite B1. split.
        - intros H x k e c Hx N J Hc. rewrite (joins_unique _ _ _ _ J (edge_of_joins x (x_ends x Hx))). apply H. apply (only_external x _ Hx).
          destruct (poly_at k (nbr_range x k Hx (proj1 N))) as (p & ns & id & Ek & Hp & _). exists k, p. split; [exact N|]. split; [exact Hp|].
          pose proof (Qv k _ (map_nth_error (surf_of f5E) _ _ Hp)) as Q. rewrite (map_nth_error fst _ _ Q) in Hc. injection Hc as <-. reflexivity.
        - intros H c f Hf. destruct Hf as (I & Hf'). assert (Ic : In c f5C) by (destruct Hf' as (i & Hi & _); eapply nth_error_In; eauto).
          apply (wf_stored _ _ _ _ (f5_wf bi Lb) c Ic) in I as If. cbn [m_faces] in If. apply f5E_in in If as (x & Hx & ->).
          assert (Hf : external efaces f5C c (edge_of x)) by (split; assumption). apply (only_external x c Hx) in Hf as (k & p & N & Hp & ->).
          apply (H x k (edge_of x) (fst (surf_of f5E p)) Hx N); [apply edge_of_joins, x_ends, Hx|].
          apply map_nth_error, Qv, map_nth_error, Hp. }
      split; [destruct b; [rewrite LR|rewrite L1, Lb]; exact LE|]. intros i x Hi. assert (Hx : In x X) by (eapply nth_error_In; eauto). pose proof (PE i x Hi) as Si.
      pose proof (Hb _ _ bd_default Si (repeat_nth _ _ _ (stored_lt _ _ _ Si))) as D0.
      assert (D1 : forall n, incidences leq efaces f5C (edge_of x) = n ->
        (listed bs x -> nth_error (m_binfo m1) (pe i) = Some (mkB 0 0 true (n =? 2))) /\ (~ listed bs x -> nth_error (m_binfo m1) (pe i) = Some (mkB 0 0 false false))).
      { intros n En. rewrite (H1 _ _ _ Si D0), En. rewrite (bedge_listed x Hx). split; intros L.
        - rewrite (proj1 (redesc0 (edge_of x) _ bd_default) L). reflexivity.
        - rewrite (proj2 (redesc0 (edge_of x) _ bd_default) L). reflexivity. }
      assert (D2 : (forall c, ~ external efaces f5C c (edge_of x)) -> nth_error (if b then br else m_binfo m1) (pe i) = nth_error (m_binfo m1) (pe i)).
      { intros N. destruct b; [apply (B2 _ _ Si N)|reflexivity]. }
      split; [|split].
      + intros k k' N N' NE. rewrite D2.
        * apply (D1 2 (inc_two x k k' Hx N N' NE)).
        * intros c Hc. apply (only_external x c Hx) in Hc as (k0 & _ & (_ & U) & _). apply NE. rewrite (U k N), (U k' N'). reflexivity.
      + intros k N. split.
        * intros HK c e s Hc J Bs. apply OK in HK as BT. rewrite BT. apply (B3 BT (pe i) (edge_of x) (g_sub c) s Si).
          -- apply (only_external x _ Hx). destruct (poly_at k (nbr_range x k Hx (proj1 N))) as (p & ns & id & Ek & Hp & _). exists k, p. split; [exact N|]. split; [exact Hp|].
             pose proof (Qv k _ (map_nth_error (surf_of f5E) _ _ Hp)) as Q. rewrite (map_nth_error fst _ _ Q) in Hc. injection Hc as <-. reflexivity.
          -- rewrite <- (joins_unique _ _ _ _ J (edge_of_joins x (x_ends x Hx))). exact Bs.
        * intros HK. destruct b; [exfalso; apply HK, OK; reflexivity|]. pose proof (inc_one x k Hx N) as I1.
          destruct (D1 _ eq_refl) as [DA DB]. split; [|exact DB]. intros L. rewrite (DA L). destruct (Nat.eqb_spec (incidences leq efaces f5C (edge_of x)) 2); [lia|reflexivity].
      + intros N. rewrite D2.
        * destruct (D1 0 (inc_none x Hx N)) as [DA DB]. split; [exact DA|exact DB].
        * intros c Hc. apply (only_external x c Hx) in Hc as (k0 & _ & (N0 & _) & _). apply (N k0 N0).
  Qed.
End F5.

Lemma f5_load_ok bs bnum : f5_valid bs -> exists m pe pv, f5_load bnum bs = Ok (true, m) /\ sorted_unique lex_ltb (pm_edges m) /\ sorted_unique lex_ltb (map g_sub (pm_cells m)) /\
    placed_as (length (f5_edges bs)) pe (pm_edges m) (f5_edge_item bs) /\ length (pm_doms m) = length (pm_cells m) /\
    placed_as (length (f5_polys bs)) pv (combine (pm_cells m) (pm_doms m)) (f5_cell_item bs (pm_edges m)) /\
    f5_described bs (pm_cells m) pe pv bnum (pm_binfo m).
Proof.
  intros V. destruct (f5_read_ok bs (v5_readable _ V)) as (st & E & R). unfold f5_load. rewrite E. cbn [bind].
  destruct (f5_main bs V st R bnum) as (m & pe & pv & A & B & C & D & F & G & H). exists m, pe, pv. split; [exact A|]. split; [rewrite B; apply f5E_sorted, V|]. auto.
Qed.

(** *** Files that are refused *)
Lemma f5_edges_split l1 x l2 : forall st, f5_read_edges (l1 ++ x :: l2) st =
  bind (f5_read_edges l1 st) (fun s => match s with None => Ok None | Some st' => f5_read_edges (x :: l2) st' end).
Proof.
  induction l1 as [|y l1 IH]; intros st; [reflexivity|]. cbn [app]. cbn [f5_read_edges]. destruct ((e5_a y <? 1) || (e5_b y <? 1)); [reflexivity|].
  destruct (e5_a y - 1 =? e5_b y - 1); [reflexivity|]. destruct (f5_attach _ (e5_l y) (s5_polys st)); [|reflexivity..]. cbn [bind].
  destruct (f5_attach _ (e5_r y) a); [|reflexivity..]. cbn [bind]. apply IH.
Qed.
Lemma f5_parse_split pre b post : forall st, f5_parse (pre ++ b :: post) st =
  bind (f5_parse pre st) (fun s => match s with None => Ok None | Some st' => f5_parse (b :: post) st' end).
Proof.
  induction pre as [|y pre IH]; intros st; [reflexivity|]. cbn [app]. cbn [f5_parse].
  destruct y as [l|l|l]; cbn [bind]; [apply IH|destruct (f5_read_bnd l); [apply IH|reflexivity]|].
  destruct (f5_read_edges l st) as [[s|]| | ]; cbn [bind]; [apply IH|reflexivity..].
Qed.

Lemma readable_prefix pre b : f5_readable (pre ++ [b]) -> f5_readable pre.
Proof.
  intros V. split.
  - pose proof (v5_edges _ V) as H. unfold f5_edges in *. rewrite flat_map_app in H. apply Forall_app in H. apply H.
  - pose proof (v5_bnds _ V) as H. unfold f5_bnds in *. rewrite flat_map_app in H. apply Forall_app in H. apply H.
  - intros a l c E. apply (v5_order _ V a l (c ++ [b])). rewrite E, <- app_assoc. reflexivity.
Qed.
Lemma f5_upto pre l1 x l2 post : f5_readable (pre ++ [FEdges l1]) -> exists st, rd (f5_polys pre) (f5_bnds pre) (f5_edges pre ++ l1) st /\
  f5_parse (pre ++ FEdges (l1 ++ x :: l2) :: post) (mkF5 [] [] []) = bind (f5_read_edges (x :: l2) st) (fun s => match s with None => Ok None | Some st' => f5_parse post st' end).
Proof.
  intros V. destruct (f5_read_ok pre (readable_prefix _ _ V)) as (s0 & E0 & R0). rewrite f5_parse_split, E0. cbn [bind]. cbn [f5_parse].
  pose proof (v5_edges _ V) as H. unfold f5_edges in H. rewrite flat_map_app in H. apply Forall_app in H as [_ H]. cbn in H. rewrite app_nil_r in H.
  destruct (rd_edges_ok _ _ l1 _ s0 R0 H (v5_order _ V pre l1 [] eq_refl)) as (s1 & E1 & R1). exists s1. split; [exact R1|].
  rewrite f5_edges_split, E1. reflexivity.
Qed.
Lemma f5_dangling_throws bs bnum : f5_dangling bs -> f5_load bnum bs = Throw OutOfRange.
Proof.
  intros (pre & l & post & l1 & x & l2 & -> & -> & (A & B & N) & D & V). destruct (f5_upto pre l1 x l2 post V) as (st & R & E). unfold f5_load. rewrite E. clear E.
  cbn [f5_read_edges]. destruct (Nat.ltb_spec (e5_a x) 1); [lia|]. destruct (Nat.ltb_spec (e5_b x) 1); [lia|]. cbn [orb].
  destruct (Nat.eqb_spec (e5_a x - 1) (e5_b x - 1)); [lia|]. fold (edge_of x). pose proof (rd_len _ _ _ _ R) as L.
  assert (T : forall e k (ps : list ppoly), length ps < k -> f5_attach e k ps = Throw OutOfRange).
  { intros e k ps H'. unfold f5_attach. destruct (Nat.ltb_spec 0 k); [|lia]. unfold vat. rewrite (proj2 (nth_error_None ps (k - 1))) by lia. reflexivity. }
  destruct (Nat.lt_ge_cases (length (f5_polys pre)) (e5_l x)) as [Hl|Hl].
  - rewrite T by lia. reflexivity.
  - destruct (f5_attach_spec (edge_of x) (e5_l x) (s5_polys st)) as (p1 & -> & E1 & _); [lia|]. cbn [bind]. rewrite T by lia. reflexivity.
Qed.
Lemma f5_bad_edge bs bnum pre l1 x l2 post : bs = pre ++ FEdges (l1 ++ x :: l2) :: post -> f5_readable (pre ++ [FEdges l1]) -> ~ ends_ok (e5_a x) (e5_b x) ->
  exists m, f5_load bnum bs = Ok (false, m).
Proof.
  intros -> V N. destruct (f5_upto pre l1 x l2 post V) as (st & R & E). unfold f5_load. rewrite E. cbn [f5_read_edges].
  destruct (Nat.ltb_spec (e5_a x) 1); [eexists; reflexivity|]. destruct (Nat.ltb_spec (e5_b x) 1); [eexists; reflexivity|]. cbn [orb].
  destruct (Nat.eqb_spec (e5_a x - 1) (e5_b x - 1)); [eexists; reflexivity|]. exfalso. apply N. split; [lia|]. split; lia.
Qed.
Lemma f5_bad_bnd bs bnum pre l post : bs = pre ++ FBoundary l :: post -> f5_readable pre -> Exists (fun b => ~ ends_ok (fst b) (snd b)) l ->
  exists m, f5_load bnum bs = Ok (false, m).
Proof.
  intros -> V N. destruct (f5_read_ok pre V) as (st & E & _). unfold f5_load. rewrite f5_parse_split, E. cbn [bind]. cbn [f5_parse].
  assert (H : f5_read_bnd l = None).
  { induction N as [[a b] l H|[a b] l _ IH]; cbn [f5_read_bnd].
    - destruct (Nat.ltb_spec a 1); [reflexivity|]. destruct (Nat.ltb_spec b 1); [reflexivity|]. cbn [orb]. destruct (Nat.eqb_spec (a - 1) (b - 1)); [reflexivity|].
      exfalso. apply H. cbn [fst snd]. split; [lia|]. split; lia.
    - destruct ((a <? 1) || (b <? 1)); [reflexivity|]. destruct (a - 1 =? b - 1); [reflexivity|]. rewrite IH. reflexivity. }
  rewrite H. cbn [bind]. eexists. reflexivity.
Qed.
Lemma f5_unknown_bnd bs bnum a b : f5_readable bs ->
  (forall i j x y, nth_error (f5_edges bs) i = Some x -> nth_error (f5_edges bs) j = Some y -> same_ends (e5_a x) (e5_b x) (e5_a y) (e5_b y) -> i = j) ->
  In (a, b) (f5_bnds bs) -> (forall x, In x (f5_edges bs) -> ~ same_ends a b (e5_a x) (e5_b x)) -> exists m, f5_load bnum bs = Ok (false, m).
Proof.
  intros V O Hb N. destruct (f5_read_ok bs V) as (st & E & R). unfold f5_load. rewrite E. cbn [bind]. unfold f5_populate. rewrite (rd_edges _ _ _ _ R), (rd_bnd _ _ _ _ R).
  assert (ND : NoDup (map edge_of (f5_edges bs))).
  { apply NoDup_nth_error. intros i j Hi Q. rewrite map_length in Hi. destruct (nth_error_some _ i Hi) as (x & Ex). rewrite (map_nth_error edge_of _ _ Ex) in Q.
    rewrite nth_error_map in Q. destruct (nth_error (f5_edges bs) j) as [y|] eqn:Ey; [|discriminate]. cbn in Q. injection Q as Q.
    apply (O i j x y Ex Ey). pose proof (v5_edges _ V) as F. rewrite Forall_forall in F. pose proof (F x (nth_error_In _ _ Ex)) as Fx. pose proof (F y (nth_error_In _ _ Ey)) as Fy.
    destruct Fx as (? & ? & ?), Fy as (? & ? & ?). apply (joins_ends (edge_of x)); auto; [|rewrite Q]; apply edge_of_joins; repeat split; assumption. }
  pose proof (v5_bnds _ V) as F. rewrite Forall_forall in F. destruct (F _ Hb) as (A & B & _). cbn [fst snd] in *.
  destruct (mark_listed_false (std_sort lex_ltb (map edge_of (f5_edges bs))) (strict_of_nodup _ _ lex_ltb_sto ND)
    (map (fun e => (0, e)) (map (fun b => make_edge (fst b - 1, snd b - 1)) (f5_bnds bs))) (repeat bd_default (length (map edge_of (f5_edges bs))))) as (bi & ->).
  - rewrite repeat_length, (Permutation_length (std_sort_perm _ _)). reflexivity.
  - exists (0, make_edge (a - 1, b - 1)). split; [rewrite map_map; apply in_map_iff; exists (a, b); auto|]. cbn [snd]. intros C.
    apply (Permutation_in _ (std_sort_perm _ _)) in C. apply in_map_iff in C as (x & Q & Hx). apply (N x Hx).
    pose proof (v5_edges _ V) as G. rewrite Forall_forall in G. destruct (G x Hx) as (? & ? & ?).
    apply (joins_ends (edge_of x)); auto; [rewrite Q; now apply make_edge_joins|apply edge_of_joins; repeat split; assumption].
  - cbn [bind fst]. eexists. reflexivity.
Qed.

(** *** Closed polygons *)
Lemma f5_closed_sides bs edges k ns c : f5_valid bs -> f5_closed bs -> f5_cell_item bs edges k c -> nth_error (f5_polys bs) k = Some (ns, snd c) ->
  cell_of edges ns (m2_side ns) (fst c).
Proof.
  intros V K (ns' & E' & A & B & C) E. rewrite E in E'. injection E' as <-. split; [exact A|]. split; [exact B|]. intros j. rewrite C.
  destruct (K k ns (snd c) E) as [P Q]. rewrite Forall_forall in P. pose proof (v5_edges _ (v5_readable _ V)) as F. rewrite Forall_forall in F. split.
  - intros (e & He & y & Hy & N & J). exists e. split; [exact He|]. destruct (proj2 (Q (e5_a y) (e5_b y))) as (a' & b' & Hc & S').
    + exists y. split; [exact Hy|]. split; [exact N|]. left; auto.
    + exists a', b'. split; [exact Hc|]. apply (joins_same _ (e5_a y) (e5_b y)); [|exact J]. destruct S' as [[-> ->]|[-> ->]]; [left|right]; auto.
  - intros (e & He & a' & b' & Hc & J). exists e. split; [exact He|]. destruct (proj1 (Q a' b')) as (y & Hy & N & S').
    + exists a', b'. split; [exact Hc|]. left; auto.
    + exists y. split; [exact Hy|]. split; [exact N|]. apply (joins_same _ a' b'); [|exact J]. destruct S' as [[-> ->]|[-> ->]]; [left|right]; auto.
Qed.
