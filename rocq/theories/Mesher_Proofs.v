From Coq Require Import List Arith Bool Sorted Permutation Lia Reals.
From Verif Require Import Common Mesh_Model Mesh_Spec Mesh_Proofs Elem_Model Elem_Spec Elem_Proofs
  Elem_Properties Refine_Proofs Mesher_Model.
Import ListNotations.
Local Open Scope nat_scope.

(** ** Searching *)
Fixpoint index_of (e : list nat) (l : list (list nat)) : nat :=
  match l with [] => 0 | x :: r => if arr_eqb e x then 0 else S (index_of e r) end.

Lemma index_of_nth e l : In e l -> nth_error l (index_of e l) = Some e.
Proof.
  induction l as [|x l IH]; [intros []|]. cbn [index_of]. intros H. destruct (arr_eqb e x) eqn:E.
  - apply arr_eqb_iff in E. subst. reflexivity.
  - cbn. apply IH. destruct H as [->|H]; [|exact H]. rewrite (proj2 (arr_eqb_iff e e) eq_refl) in E. discriminate.
Qed.

Lemma index_of_lt e l : In e l -> index_of e l < length l.
Proof. intros H. apply nth_error_Some. rewrite (index_of_nth e l H). discriminate. Qed.

Lemma index_of_inj e e' l : In e l -> In e' l -> index_of e l = index_of e' l -> e = e'.
Proof. intros H H' E. apply index_of_nth in H, H'. rewrite E in H. congruence. Qed.

Lemma index_of_eq l i e : NoDup l -> nth_error l i = Some e -> index_of e l = i.
Proof.
  intros ND H. assert (He : In e l) by (eapply nth_error_In; eauto).
  apply (proj1 (NoDup_nth_error l) ND); [apply index_of_lt, He|]. rewrite (index_of_nth e l He). symmetry. exact H.
Qed.

Lemma position_ok l e : sorted_unique lex_ltb l -> In e l -> position l e = Ok (index_of e l).
Proof.
  intros S H. pose proof (index_of_nth e l H) as Hn. unfold position.
  rewrite (lower_bound_correct lex_ltb l e (index_of e l)); [|apply stored_partition; [exact lex_ltb_sto|exact S|exact Hn]].
  cbn [bind]. pose proof (index_of_lt e l H). destruct (Nat.eqb_spec (index_of e l) (length l)); [lia|].
  rewrite (vget_ok _ _ _ Hn). cbn [bind]. rewrite (proj2 (arr_eqb_iff e e) eq_refl). reflexivity.
Qed.

Lemma each_app {A St} (f : A -> St -> outcome St) a b s :
  each f (a ++ b) s = do s' <- each f a s; each f b s'.
Proof. revert s. induction a as [|x a IH]; intros s; [reflexivity|]. cbn. destruct (f x s); cbn; auto. Qed.

Lemma map_flat_map {A B D} (g : B -> D) (f : A -> list B) l : map g (flat_map f l) = flat_map (fun x => map g (f x)) l.
Proof. induction l as [|x l IH]; [reflexivity|]. cbn [flat_map]. rewrite map_app, IH. reflexivity. Qed.

Lemma nth_error_pair {A B} (l : list (A * B)) i a b :
  nth_error (map fst l) i = Some a -> nth_error (map snd l) i = Some b -> In (a, b) l.
Proof.
  intros Ha Hb. apply nth_error_In with i. rewrite nth_error_map in Ha, Hb.
  destruct (nth_error l i) as [[a' b']|]; [|discriminate Ha]. cbn in Ha, Hb. congruence.
Qed.

(** ** Sorting pairs by key *)
Lemma map_fst_sort (L : list nes) : map fst (std_sort nes_ltb L) = std_sort lex_ltb (map fst L).
Proof.
  assert (G : forall x l, map fst (sort_insert nes_ltb x l) = sort_insert lex_ltb (fst x) (map fst l)).
  { intros x. induction l as [|y l IH]; [reflexivity|]. cbn [sort_insert map]. unfold nes_ltb at 1.
    destruct (lex_ltb (fst y) (fst x)); cbn [map]; [rewrite IH|]; reflexivity. }
  induction L as [|x L IH]; [reflexivity|]. cbn [std_sort map]. rewrite G, IH. reflexivity.
Qed.

(** ** The loop over the edges *)
Definition P0 : pt := fun _ => 0%R.
Definition ptat (pts : list pt) (i : nat) : pt := nth i pts P0.
Definition edge_mid (pts : list pt) (e : list nat) : pt := mid2 (ptat pts (nth 0 e 0)) (ptat pts (nth 1 e 0)).

Definition good_edge (n : nat) (e : list nat) : Prop := exists a b, e = [a; b] /\ a < b /\ b < n.

Lemma vget_pts pts ex i : i < length pts -> vget (pts ++ ex) i = Ok (ptat pts i).
Proof.
  intros H. apply vget_ok. rewrite nth_error_app1 by exact H. apply nth_error_nth'. exact H.
Qed.

(** what one edge appends to new_edges *)
Definition edge_out (mk : list nat -> list nat) (binfo : list bdesc) (edges : list (list nat)) (noff : nat) (e : list nat) : list nes :=
  [(mk [nth 0 e 0; index_of e edges + noff], nth (index_of e edges) binfo bd_default);
   (mk [nth 1 e 0; index_of e edges + noff], nth (index_of e edges) binfo bd_default)].

Lemma edge_loop mk binfo edges pts nodes :
  length pts = length nodes -> (forall e, In e edges -> good_edge (length pts) e) ->
  length binfo = length edges -> NoDup edges ->
  each (edge_step mk binfo) edges (mkE pts nodes [] 0) =
  Ok (mkE (pts ++ map (edge_mid pts) edges) (nodes ++ seq (length nodes) (length edges))
      (flat_map (edge_out mk binfo edges (length nodes)) edges) (length edges)).
Proof.
  intros Lp G Lb ND.
  assert (Gen : forall done rest, edges = done ++ rest ->
    each (edge_step mk binfo) rest (mkE (pts ++ map (edge_mid pts) done) (nodes ++ seq (length nodes) (length done))
       (flat_map (edge_out mk binfo edges (length nodes)) done) (length done)) =
    Ok (mkE (pts ++ map (edge_mid pts) edges) (nodes ++ seq (length nodes) (length edges))
       (flat_map (edge_out mk binfo edges (length nodes)) edges) (length edges))).
  { intros done rest. revert done. induction rest as [|e rest IH]; intros done E.
    - rewrite app_nil_r in E. subst done. reflexivity.
    - assert (He : In e edges) by (rewrite E; apply in_or_app; right; left; reflexivity).
      destruct (G e He) as (a & b & Ee & Hab & Hb).
      assert (Ix : index_of e edges = length done).
      { apply index_of_eq; [exact ND|]. rewrite E. rewrite nth_error_app2 by lia. rewrite Nat.sub_diag. reflexivity. }
      assert (Ld : length done < length binfo). { rewrite Lb, E, app_length. cbn. lia. }
      cbn [each]. rewrite Ee at 1. cbn [edge_step e_pts e_nodes e_new e_off].
      rewrite !vget_pts by lia. cbn [bind].
      rewrite (vget_ok binfo (length done) (nth (length done) binfo bd_default)) by (apply nth_error_nth'; exact Ld).
      cbn [bind]. rewrite <- (IH (done ++ [e])); [|rewrite <- app_assoc; exact E].
      assert (Eo : edge_out mk binfo edges (length nodes) e =
        [(mk [a; length done + length nodes], nth (length done) binfo bd_default);
         (mk [b; length done + length nodes], nth (length done) binfo bd_default)]).
      { unfold edge_out. rewrite Ix, Ee. reflexivity. }
      assert (Em : edge_mid pts e = mid2 (ptat pts a) (ptat pts b)) by (rewrite Ee; reflexivity).
      rewrite map_app, flat_map_app, !app_length, seq_length, seq_app. cbn [map flat_map length app seq].
      rewrite Eo, Em, <- !app_assoc, (Nat.add_comm (length nodes) (length done)), (Nat.add_comm (length done) 1). reflexivity. }
  pose proof (Gen [] edges eq_refl) as G0. cbn [map seq length flat_map] in G0. rewrite !app_nil_r in G0. exact G0.
Qed.

(** ** Labels *)
Definition lid (n : nat) (E : list (list nat)) (l : list nat) : nat :=
  match l with [v] => v | _ => index_of l E + n end.
Definition Lab2 (n : nat) (E : list (list nat)) (l : list nat) : Prop :=
  (exists v, l = [v] /\ v < n) \/ (In l E /\ exists a b, l = [a; b]).

Lemma lid_inj n E l l' : Lab2 n E l -> Lab2 n E l' -> lid n E l = lid n E l' -> l = l'.
Proof.
  intros [(v & -> & Hv)|(Hl & a & b & ->)] [(v' & -> & Hv')|(Hl' & a' & b' & ->)]; cbn [lid]; intros H; try lia.
  - congruence.
  - apply (index_of_inj _ _ E); auto. lia.
Qed.

Lemma lid_lt n E l : Lab2 n E l -> lid n E l < n + length E.
Proof.
  intros [(v & -> & Hv)|(Hl & a & b & ->)]; cbn [lid]; [lia|]. pose proof (index_of_lt _ _ Hl). lia.
Qed.

(** ** Triangles *)
Definition triFL := [[0;1]; [1;2]; [0;2]].
Definition triCH := [[[0]; [0;1]; [0;2]]; [[1]; [0;1]; [1;2]]; [[2]; [0;2]; [1;2]]; [[0;1]; [0;2]; [1;2]]].
Definition edgSUB := [[[0]; [0;1]]; [[1]; [0;1]]].
Definition triINN := [[[0;1]; [1;2]]; [[0;2]; [1;2]]; [[0;1]; [0;2]]].

Lemma tri_pattern : pattern_okb 3 triFL triCH edgSUB triINN = true.
Proof. vm_compute. reflexivity. Qed.

Lemma sorted2 a b : a < b -> sorted_unique Nat.ltb [a; b].
Proof. intros H. repeat constructor. apply Nat.ltb_lt. exact H. Qed.
Lemma sorted3 a b c : a < b -> b < c -> sorted_unique Nat.ltb [a; b; c].
Proof. intros H H'. repeat constructor; apply Nat.ltb_lt; lia. Qed.
Lemma sord2 a b : a < b -> sord [a; b] = [a; b].
Proof. intros H. apply std_sort_id; [apply nat_ltb_sto|apply sorted2; exact H]. Qed.
Lemma sord3 a b c : a < b -> b < c -> sord [a; b; c] = [a; b; c].
Proof. intros H H'. apply std_sort_id; [apply nat_ltb_sto|apply sorted3; assumption]. Qed.
Lemma sord_perm a b : Permutation a b -> sord a = sord b.
Proof. intros H. apply std_sort_perm_iff; [apply nat_ltb_sto|exact H]. Qed.

Lemma sorted_list3 l : length l = 3 -> sorted_unique Nat.ltb l -> exists a b c, l = [a; b; c] /\ a < b /\ b < c.
Proof.
  destruct l as [|a [|b [|c [|]]]]; try discriminate. intros _ H. exists a, b, c.
  inversion H as [|? ? H1 H2]; subst. inversion H1 as [|? ? H3 H4]; subst.
  inversion H2; inversion H4; subst. repeat split; auto; apply Nat.ltb_lt; assumption.
Qed.
Lemma sorted_list2 l : length l = 2 -> sorted_unique Nat.ltb l -> exists a b, l = [a; b] /\ a < b.
Proof.
  destruct l as [|a [|b [|]]]; try discriminate. intros _ H. exists a, b.
  inversion H as [|? ? H1 H2]; subst. inversion H2; subst. split; auto; apply Nat.ltb_lt; assumption.
Qed.

(** faces of a simplex do not depend on the order of its vertices *)
Lemma remove_perm p (l l' : list nat) : Permutation l l' -> Permutation (remove Nat.eq_dec p l) (remove Nat.eq_dec p l').
Proof.
  induction 1; cbn; auto.
  - destruct (Nat.eq_dec p x); auto.
  - destruct (Nat.eq_dec p x), (Nat.eq_dec p y); auto using perm_swap.
  - etransitivity; eauto.
Qed.

Lemma simplex_faces_perm n faces : (n = 2 /\ faces = tri_faces) \/ (n = 3 /\ faces = tet_faces) ->
  forall l l', Permutation l l' -> length l = S n -> NoDup l -> Permutation (faces l) (faces l').
Proof.
  intros Hn l l' Pm L ND. assert (L' := Permutation_length Pm). assert (ND' := Permutation_NoDup Pm ND).
  destruct (C61_faces_of_simplices n faces Hn l L ND) as (_ & N1 & H1).
  destruct (C61_faces_of_simplices n faces Hn l' ltac:(congruence) ND') as (_ & N2 & H2).
  apply NoDup_Permutation; auto. intros f. rewrite H1, H2.
  assert (G : forall a b : list nat, Permutation a b -> forall p, In p a ->
     simplicial_make n (remove Nat.eq_dec p a) = Ok f -> simplicial_make n (remove Nat.eq_dec p b) = Ok f).
  { intros a b Q p Hp. unfold simplicial_make, copy_to_array.
    pose proof (remove_perm p a b Q) as Q'. rewrite (Permutation_length Q').
    destruct (length (remove Nat.eq_dec p b) =? n); [|discriminate]. cbn [bind].
    rewrite (proj2 (std_sort_perm_iff Nat.ltb nat_ltb_sto _ _) Q'). auto. }
  split; intros (p & Hp & E); exists p.
  - split; [eapply Permutation_in; eauto|]. eapply G; eauto.
  - split; [eapply Permutation_in; [apply Permutation_sym|]; eauto|]. eapply G; [apply Permutation_sym|..]; eauto.
Qed.

Lemma tri_faces_sorted c : length c = 3 -> sorted_unique Nat.ltb c -> tri_faces c = map (lab c) triFL.
Proof.
  intros L S. destruct (sorted_list3 c L S) as (x & y & z & -> & H1 & H2). cbn [tri_faces].
  unfold triFL, lab. cbn [map nth]. pose proof (sord2 x y H1) as E1. pose proof (sord2 y z H2) as E2.
  pose proof (sord2 x z ltac:(lia)) as E3. unfold sord in *. rewrite E1, E2, E3. reflexivity.
Qed.

(** What every triangular mesh built by the mesher satisfies. *)
Record tri_ok (s : store) : Prop := {
  to_len : length (s_points s) = length (s_nodes s);
  to_nodes : s_nodes s = seq 0 (length (s_nodes s));
  to_edge : forall e, In e (s_edges s) -> good_edge (length (s_nodes s)) e;
  to_cell : forall c, In c (s_surfs s) -> sorted_unique Nat.ltb c;
  to_conf : conf 3 triFL tri_faces (length (s_nodes s)) (s_edges s) (s_binfo s) (s_surfs s);
  to_sub : s_sub s = length (s_surfs s)
}.

Section TriStep.
  Variable s : store.
  Hypothesis H : tri_ok s.
  Let n := length (s_nodes s).
  Let E := s_edges s.
  Let id := lid n E.
  Let C := s_surfs s.

  Lemma tri_cell c : In c C -> exists x y z, c = [x; y; z] /\ x < y /\ y < z /\ z < n.
  Proof.
    intros Hc. destruct (cf_C _ _ _ _ _ _ _ (to_conf s H) c Hc) as (L & _ & B).
    destruct (sorted_list3 c L (to_cell s H c Hc)) as (x & y & z & -> & H1 & H2). exists x, y, z.
    repeat split; auto. apply B. cbn. auto.
  Qed.

  Lemma tri_lab c loc : In c C -> In loc (concat triCH) -> Lab2 n E (lab c loc).
  Proof.
    intros Hc Hl. destruct (tri_cell c Hc) as (x & y & z & Ec & Hxy & Hyz & Hz).
    assert (F : forall phi, In phi triFL -> In (lab c phi) E).
    { intros phi Hphi. apply (cf_in _ _ _ _ _ _ _ (to_conf s H) c Hc).
      rewrite (cf_faces _ _ _ _ _ _ _ (to_conf s H) c Hc). apply in_map. exact Hphi. }
    assert (V : forall v, v < 3 -> Lab2 n E (lab c [v])).
    { intros v Hv. left. exists (nth v c 0). split; [reflexivity|]. subst c.
      destruct v as [|[|[|]]]; cbn; lia. }
    assert (W : forall a b, In [a; b] triFL -> Lab2 n E (lab c [a; b])).
    { intros a b Hab. right. split; [apply F; exact Hab|]. exists (nth a c 0), (nth b c 0). reflexivity. }
    cbn in Hl. repeat (destruct Hl as [<-|Hl]; [first [apply V; lia|apply W; cbn; tauto]|]). destruct Hl.
  Qed.

  Lemma tri_R1 c P : In c C -> In P triCH ->
    Permutation (tri_faces (child id sord c P)) (map (gk id c) (pfaces triFL P)).
  Proof.
    intros Hc HP. destruct (pattern_check _ _ _ _ _ tri_pattern) as (PO & _ & _).
    assert (HC0 : forall c, In c C -> length c = 3 /\ NoDup c).
    { intros c' Hc'. destruct (cf_C _ _ _ _ _ _ _ (to_conf s H) c' Hc') as (? & ? & _). auto. }
    destruct (child_nodup 3 triFL triCH edgSUB triINN PO id sord C (Lab2 n E) HC0 tri_lab (lid_inj n E)
       (std_sort_perm Nat.ltb) c P Hc HP) as [ND L].
    rewrite (simplex_faces_perm 2 tri_faces ltac:(auto) (child id sord c P) (gids id c P)); auto.
    - cbn in HP. repeat (destruct HP as [<-|HP]; [reflexivity|]). destruct HP.
    - apply std_sort_perm.
  Qed.

  Lemma tri_child_sorted c P : In c C -> In P triCH -> sorted_unique Nat.ltb (child id sord c P) /\ length (child id sord c P) = 3.
  Proof.
    intros Hc HP. destruct (pattern_check _ _ _ _ _ tri_pattern) as (PO & _ & _).
    assert (HC0 : forall c, In c C -> length c = 3 /\ NoDup c).
    { intros c' Hc'. destruct (cf_C _ _ _ _ _ _ _ (to_conf s H) c' Hc') as (? & ? & _). auto. }
    destruct (child_nodup 3 triFL triCH edgSUB triINN PO id sord C (Lab2 n E) HC0 tri_lab (lid_inj n E)
       (std_sort_perm Nat.ltb) c P Hc HP) as [ND L].
    split; [|exact L]. apply sort_nodup_sorted; [apply nat_ltb_sto|].
    eapply Permutation_NoDup; [apply std_sort_perm|exact ND].
  Qed.

  Definition tri_pairs : list nes :=
    flat_map (fun e => map (fun SP => (gk id e SP, nth (index_of e E) (s_binfo s) bd_default)) edgSUB) E ++
    flat_map (fun c => map (fun I => (gk id c I, bd_default)) triINN) C.

  Lemma tri_pairs_fst : map fst tri_pairs = new_faces edgSUB triINN id E C.
  Proof.
    unfold tri_pairs, new_faces. rewrite map_app, !map_flat_map. f_equal; apply flat_map_ext; intros e; rewrite map_map; reflexivity.
  Qed.

  Lemma tri_loop : each (tri_step E n) C (flat_map (fun e => map (fun SP => (gk id e SP, nth (index_of e E) (s_binfo s) bd_default)) edgSUB) E, []) =
    Ok (tri_pairs, children triCH id sord C).
  Proof.
    unfold tri_pairs, children.
    set (init := flat_map (fun e => map _ edgSUB) E). clearbody init.
    assert (G : forall rest L0 S0, incl rest C -> each (tri_step E n) rest (L0, S0) =
       Ok (L0 ++ flat_map (fun c => map (fun I => (gk id c I, bd_default)) triINN) rest,
           S0 ++ flat_map (fun c => map (child id sord c) triCH) rest)).
    { induction rest as [|c rest IH]; intros L0 S0 Hi; [cbn; rewrite !app_nil_r; reflexivity|].
      assert (Hc : In c C) by (apply Hi; left; reflexivity).
      destruct (tri_cell c Hc) as (x & y & z & Ec & Hxy & Hyz & Hz).
      assert (F : forall phi, In phi triFL -> In (lab c phi) E).
      { intros phi Hphi. apply (cf_in _ _ _ _ _ _ _ (to_conf s H) c Hc).
        rewrite (cf_faces _ _ _ _ _ _ _ (to_conf s H) c Hc). apply in_map. exact Hphi. }
      pose proof (F [0;1] ltac:(cbn; tauto)) as F1. pose proof (F [1;2] ltac:(cbn; tauto)) as F2.
      pose proof (F [0;2] ltac:(cbn; tauto)) as F3. subst c. unfold lab in F1, F2, F3. cbn [map nth] in F1, F2, F3.
      cbn [each tri_step]. rewrite !sord2 by lia.
      rewrite !position_ok by (try assumption; exact (cf_Fs _ _ _ _ _ _ _ (to_conf s H))).
      cbn [bind fst snd]. rewrite IH by (intros w Hw; apply Hi; right; assumption).
      cbn [flat_map]. rewrite !app_assoc. reflexivity. }
    rewrite G; [reflexivity|intros w; auto].
  Qed.

  Definition tri_next : store :=
    mkS (s_points s ++ map (edge_mid (s_points s)) E) (s_nodes s ++ seq n (length E))
      (map fst (std_sort nes_ltb tri_pairs)) (std_sort lex_ltb (children triCH id sord C)) (s_vols s)
      (map snd (std_sort nes_ltb tri_pairs)) (length (std_sort lex_ltb (children triCH id sord C))).

  Lemma tri_refine_eq : tri_refine s = Ok tri_next.
  Proof.
    assert (EQ : flat_map (edge_out sord (s_binfo s) E n) E =
      flat_map (fun e => map (fun SP => (gk id e SP, nth (index_of e E) (s_binfo s) bd_default)) edgSUB) E).
    { rewrite !flat_map_concat_map. apply f_equal. apply map_ext_in. intros e He.
      destruct (to_edge s H e He) as (a & b & -> & _). reflexivity. }
    unfold tri_refine. rewrite edge_loop.
    - cbn [bind e_new e_pts e_nodes]. fold n E C. rewrite EQ.
      match goal with |- bind ?x _ = _ => replace x with (Ok (tri_pairs, children triCH id sord C)) by (symmetry; exact tri_loop) end.
      reflexivity.
    - apply (to_len s H).
    - intros e He. rewrite (to_len s H). apply (to_edge s H e He).
    - apply (cf_len _ _ _ _ _ _ _ (to_conf s H)).
    - apply lex_nodup. apply (cf_Fs _ _ _ _ _ _ _ (to_conf s H)).
  Qed.

  Lemma Hown2 : forall f, In f E -> exists c, In c C /\ In f (tri_faces c).
  Proof.
    intros f Hf. apply In_nth_error in Hf as (i & Hi). pose proof (to_conf s H) as K.
    assert (i < length (s_binfo s)). { rewrite (cf_len _ _ _ _ _ _ _ K). apply nth_error_Some. unfold E in Hi. congruence. }
    destruct (nth_error (s_binfo s) i) as [d|] eqn:Ed; [|apply nth_error_None in Ed; lia].
    pose proof (cf_own _ _ _ _ _ _ _ K i f d Hi Ed) as H'. apply incid_pos. destruct (bd_is_b d); fold C in H'; lia.
  Qed.

  Lemma tri_keys_nodup : NoDup (map fst tri_pairs).
  Proof.
    rewrite tri_pairs_fst. pose proof (to_conf s H) as K.
    destruct (pattern_check _ _ _ _ _ tri_pattern) as (PO & _ & _).
    apply (new_faces_nodup 3 triFL triCH edgSUB triINN PO tri_faces id E C (Lab2 n E)).
    - intros c' Hc'. destruct (cf_C _ _ _ _ _ _ _ K c' Hc') as (? & ? & _). auto.
    - apply (cf_faces _ _ _ _ _ _ _ K).
    - apply (cf_in _ _ _ _ _ _ _ K).
    - apply lex_nodup, (cf_Fs _ _ _ _ _ _ _ K).
    - apply (cf_sorted _ _ _ _ _ _ _ K).
    - apply lex_nodup, (cf_Cs _ _ _ _ _ _ _ K).
    - apply (cf_set _ _ _ _ _ _ _ K).
    - apply Hown2.
    - apply tri_lab.
    - apply lid_inj.
  Qed.

  Lemma tri_children_nodup : NoDup (children triCH id sord C).
  Proof.
    pose proof (to_conf s H) as K. destruct (pattern_check _ _ _ _ _ tri_pattern) as (PO & _ & _).
    apply (children_nodup 3 triFL triCH edgSUB triINN PO id sord C (Lab2 n E)).
    - intros c' Hc'. destruct (cf_C _ _ _ _ _ _ _ K c' Hc') as (? & ? & _). auto.
    - apply lex_nodup, (cf_Cs _ _ _ _ _ _ _ K).
    - apply (cf_set _ _ _ _ _ _ _ K).
    - apply tri_lab.
    - apply lid_inj.
    - apply std_sort_perm.
  Qed.

  (** every new edge comes from an old edge, with its descriptor, or from a triangle *)
  Lemma tri_next_edge i f d : nth_error (s_edges tri_next) i = Some f -> nth_error (s_binfo tri_next) i = Some d ->
    (exists e SP, In e E /\ In SP edgSUB /\ f = gk id e SP /\ nth_error (s_binfo s) (index_of e E) = Some d) \/
    (exists c I, In c C /\ In I triINN /\ f = gk id c I /\ d = bd_default).
  Proof.
    cbn [tri_next s_edges s_binfo]. intros Hf Hd.
    assert (Hp : In (f, d) (std_sort nes_ltb tri_pairs)).
    { exact (nth_error_pair _ i f d Hf Hd). }
    apply (Permutation_in _ (std_sort_perm nes_ltb _)) in Hp. unfold tri_pairs in Hp.
    apply in_app_iff in Hp as [Hp|Hp]; apply in_flat_map in Hp as (e & He & Hp); apply in_map_iff in Hp as (SP & Eq & HS);
      injection Eq as <- <-.
    - left. exists e, SP. repeat split; auto. apply nth_error_nth'.
      rewrite (cf_len _ _ _ _ _ _ _ (to_conf s H)). apply index_of_lt. exact He.
    - right. exists e, SP. auto.
  Qed.

  Lemma new_edge_good f : In f (new_faces edgSUB triINN id E C) -> good_edge (n + length E) f.
  Proof.
    assert (G : forall l l', Lab2 n E l -> Lab2 n E l' -> l <> l' -> good_edge (n + length E) (sord [id l; id l'])).
    { intros l l' Hl Hl' N. pose proof (lid_lt _ _ _ Hl) as B. pose proof (lid_lt _ _ _ Hl') as B'.
      assert (D : id l <> id l') by (intros X; apply N; exact (lid_inj n E l l' Hl Hl' X)). fold id in B, B'.
      destruct (Nat.lt_trichotomy (id l) (id l')) as [X|[X|X]]; [|contradiction|].
      - rewrite sord2 by exact X. exists (id l), (id l'). auto.
      - rewrite (sord_perm _ [id l'; id l]) by apply perm_swap. rewrite sord2 by exact X. exists (id l'), (id l). auto. }
    intros Hf. unfold new_faces in Hf. apply in_app_iff in Hf as [Hf|Hf].
    - apply in_flat_map in Hf as (e & He & Hf). destruct (to_edge s H e He) as (a & b & -> & Hab & Hb).
      assert (L1 : Lab2 n E [a; b]) by (right; split; [exact He|eauto]).
      cbn [map edgSUB In] in Hf. destruct Hf as [<-|[<-|[]]]; unfold gk, gids, lab; cbn [map nth]; apply G; auto; try discriminate.
      + left. exists a. split; [reflexivity|]. unfold n. lia.
      + left. exists b. split; [reflexivity|]. unfold n. lia.
    - apply in_flat_map in Hf as (c & Hc & Hf). pose proof (tri_lab c) as TL.
      destruct (tri_cell c Hc) as (x & y & z & Ec & Hxy & Hyz & Hz).
      cbn [map triINN In] in Hf.
      destruct Hf as [<-|[<-|[<-|[]]]]; unfold gk, gids; cbn [map]; apply G; try (apply TL; [exact Hc|cbn; tauto]);
        subst c; unfold lab; cbn [map nth]; intros X; injection X; lia.
  Qed.

  Lemma tri_next_ok : tri_ok tri_next.
  Proof.
    pose proof (to_conf s H) as K. destruct (pattern_check _ _ _ _ _ tri_pattern) as (PO & NI & NU).
    assert (Ln : length (s_nodes tri_next) = n + length E).
    { cbn. rewrite app_length, seq_length. reflexivity. }
    assert (FS : same_set (s_edges tri_next) (new_faces edgSUB triINN id E C)).
    { cbn [tri_next s_edges]. rewrite map_fst_sort, tri_pairs_fst. intros x.
      split; apply Permutation_in; [|apply Permutation_sym]; apply std_sort_perm. }
    constructor.
    - cbn. rewrite !app_length, map_length, seq_length. rewrite (to_len s H). reflexivity.
    - rewrite Ln. cbn. rewrite seq_app. rewrite (to_nodes s H) at 1. reflexivity.
    - intros e He. rewrite Ln. apply FS in He. apply new_edge_good. exact He.
    - cbn [tri_next s_surfs]. intros c Hc. apply (Permutation_in _ (std_sort_perm lex_ltb _)) in Hc.
      unfold children in Hc. apply in_flat_map in Hc as (c0 & Hc0 & Hc). apply in_map_iff in Hc as (P & <- & HP).
      apply tri_child_sorted; assumption.
    - rewrite Ln. eapply (conf_step 3 triFL triCH edgSUB triINN PO tri_faces id sord n (n + length E) E (s_binfo s) C K
        (Lab2 n E) tri_lab (lid_inj n E) (lid_lt n E) (std_sort_perm Nat.ltb) tri_R1).
      + intros c P Hc HP. apply tri_faces_sorted; apply tri_child_sorted; assumption.
      + exact NI.
      + exact NU.
      + cbn [tri_next s_edges]. rewrite map_fst_sort. apply sort_nodup_sorted; [apply lex_ltb_sto|]. apply tri_keys_nodup.
      + exact FS.
      + cbn [tri_next s_edges s_binfo]. rewrite !map_length. reflexivity.
      + cbn [tri_next s_surfs]. apply sort_nodup_sorted; [apply lex_ltb_sto|]. apply tri_children_nodup.
      + cbn [tri_next s_surfs]. apply std_sort_perm.
      + intros i f d Hf Hd. destruct (tri_next_edge i f d Hf Hd) as [(e & SP & He & HS & -> & Hb)|(c & I & Hc & HI & -> & ->)].
        * left. exists (index_of e E), e, SP, d. repeat split; auto. apply index_of_nth. exact He.
        * right. exists c, I. auto.
    - reflexivity.
  Qed.
End TriStep.
