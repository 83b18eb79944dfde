(** The tetrahedral mesher. *)
From Coq Require Import List Arith Bool Sorted Permutation Lia Reals Lra.
From Verif Require Import Common Mesh_Model Mesh_Spec Mesh_Proofs Elem_Model Elem_Spec Elem_Proofs
  Elem_Properties Refine_Proofs Mesher_Model Mesher_Spec Mesher_Proofs Mesher2_Proofs Mesher3_Proofs Mesher4_Proofs.
Import ListNotations.
Local Open Scope nat_scope.

(** ** Sorting pairs by key and removing duplicates of keys *)
Section Keys.
  Variable D : list nat -> bdesc.
  Let g (k : list nat) : nes := (k, D k).
  Lemma sort_map_key l : std_sort nes_ltb (map g l) = map g (std_sort lex_ltb l).
  Proof.
    assert (G : forall x l, sort_insert nes_ltb (g x) (map g l) = map g (sort_insert lex_ltb x l)).
    { intros x. induction l0 as [|y l0 IH]; [reflexivity|]. cbn [sort_insert map]. unfold nes_ltb at 1. cbn [fst g].
      destruct (lex_ltb y x); cbn [map]; [rewrite IH|]; reflexivity. }
    unfold std_sort. induction l as [|x l IH]; [reflexivity|]. cbn [map fold_right]. rewrite IH. apply G.
  Qed.
  Lemma unique_map_key l : std_unique nes_eqb (map g l) = bind (std_unique (fun a b => Ok (arr_eqb a b)) l) (fun r => Ok (map g r)).
  Proof.
    destruct l as [|x l]; [reflexivity|]. cbn [map std_unique]. revert x.
    induction l as [|y l IH]; intros x; [reflexivity|]. cbn [map unique_from]. unfold nes_eqb at 1. cbn [fst g bind].
    destruct (arr_eqb x y); [apply IH|]. fold (g y). rewrite IH. destruct (unique_from _ y l); reflexivity.
  Qed.
End Keys.

Lemma sort_uniq_keys (l pairs : list nes) : NoDup (map fst pairs) -> same_set l pairs ->
  sort_uniq nes_ltb nes_eqb l = Ok (std_sort nes_ltb pairs).
Proof.
  intros ND HS.
  set (D := fun k => nth (index_of k (map fst pairs)) (map snd pairs) bd_default).
  assert (HD : forall p, In p pairs -> p = (fst p, D (fst p))).
  { intros p Hp. apply In_nth_error in Hp as (i & Hi). unfold D. rewrite (index_of_eq _ i); [|exact ND|apply (map_nth_error fst), Hi].
    rewrite (nth_error_nth _ _ _ (map_nth_error snd _ _ Hi)). destruct p; reflexivity. }
  assert (El : l = map (fun k => (k, D k)) (map fst l)).
  { rewrite map_map. rewrite <- (map_id l) at 1. apply map_ext_in. intros p Hp. apply HD, HS, Hp. }
  assert (Ep : pairs = map (fun k => (k, D k)) (map fst pairs)).
  { rewrite map_map. rewrite <- (map_id pairs) at 1. apply map_ext_in. exact HD. }
  unfold sort_uniq. rewrite El at 1. rewrite sort_map_key, unique_map_key.
  destruct (sort_uniq_spec lex_ltb lex_ltb_sto _ arr_decides (map fst l)) as (r & R1 & R2 & R3).
  unfold sort_uniq in R1. rewrite R1. cbn [bind]. rewrite Ep at 1. rewrite sort_map_key. do 2 f_equal.
  apply (sorted_unique_ext lex_ltb lex_ltb_sto); [exact R2|apply sort_nodup_sorted; [apply lex_ltb_sto|exact ND]|].
  intros k. rewrite (R3 k). rewrite !in_map_iff. split.
  - intros Hk. apply (Permutation_in _ (Permutation_sym (std_sort_perm lex_ltb _))). apply in_map_iff. destruct Hk as (p & <- & Hp). exists p. split; [reflexivity|apply HS, Hp].
  - intros Hk. apply (Permutation_in _ (std_sort_perm lex_ltb _)) in Hk. apply in_map_iff in Hk as (p & <- & Hp). exists p. split; [reflexivity|apply HS, Hp].
Qed.

(** ** Pattern *)
Definition tetFL := [[1;2;3]; [0;2;3]; [0;1;3]; [0;1;2]].
Definition tetCH := [[[0]; [0;1]; [0;2]; [0;3]]; [[0;1]; [1]; [1;2]; [1;3]]; [[0;2]; [1;2]; [2]; [2;3]]; [[0;3]; [1;3]; [2;3]; [3]];
                     [[0;1]; [0;2]; [0;3]; [1;3]]; [[0;1]; [1;3]; [1;2]; [0;2]]; [[0;2]; [0;3]; [1;3]; [2;3]]; [[0;2]; [2;3]; [1;3]; [1;2]]].
Definition triSUB := [[[0]; [0;1]; [0;2]]; [[1]; [0;1]; [1;2]]; [[2]; [0;2]; [1;2]]; [[0;1]; [1;2]; [0;2]]].
Definition tetINN := [[[0;1]; [0;2]; [0;3]]; [[0;1]; [1;2]; [1;3]]; [[0;2]; [1;2]; [2;3]]; [[0;3]; [1;3]; [2;3]];
                      [[0;1]; [0;2]; [1;3]]; [[0;2]; [0;3]; [1;3]]; [[0;2]; [1;2]; [1;3]]; [[0;2]; [1;3]; [2;3]]].
Lemma tet_pattern : pattern_okb 4 tetFL tetCH triSUB tetINN = true.
Proof. vm_compute. reflexivity. Qed.

(** the order in which make_tetra lists the faces and edges, and the face of the parent whose descriptor it passes on *)
Definition mkF := [[0;1;2]; [0;1;3]; [0;2;3]; [1;2;3]].
Definition mkEd := [[0;1]; [0;2]; [0;3]; [1;2]; [1;3]; [2;3]].
Definition tetB : list (list (option (list nat))) :=
  let b0 := Some [0;1;2] in let b1 := Some [0;1;3] in let b2 := Some [0;2;3] in let b3 := Some [1;2;3] in let bn := None in
  [[b0; b1; b2; bn]; [b0; b1; bn; b3]; [b0; bn; b2; b3]; [bn; b1; b2; b3];
   [bn; bn; b1; bn]; [bn; bn; b0; bn]; [bn; b2; bn; bn]; [bn; bn; bn; b3]].
(** (local face, origin) for all the children *)
Definition tet_slots : list (list (list nat) * option (list nat)) :=
  flat_map (fun PB => combine (pfaces mkF (fst PB)) (snd PB)) (combine tetCH tetB).

Definition slots_okb : bool :=
  forallb (fun so => match snd so with
     | Some phi => inlb phi tetFL && existsb (fun SP => dec (feq2 (canon (fst so)) (canon (up phi SP)))) triSUB
     | None => existsb (fun I => dec (feq2 (canon (fst so)) (canon I))) tetINN end) tet_slots &&
  forallb (fun phi => forallb (fun SP => existsb (fun so => dec (feq2 (canon (fst so)) (canon (up phi SP))) &&
      match snd so with Some psi => dec (feq phi psi) | None => false end) tet_slots) triSUB) tetFL &&
  forallb (fun I => existsb (fun so => dec (feq2 (canon (fst so)) (canon I)) && match snd so with Some _ => false | None => true end) tet_slots) tetINN.
Lemma slots_checked : slots_okb = true.
Proof. vm_compute. reflexivity. Qed.
Lemma slot_origin LF o : In (LF, o) tet_slots ->
  match o with Some phi => In phi tetFL /\ exists SP, In SP triSUB /\ canon LF = canon (up phi SP)
             | None => exists I, In I tetINN /\ canon LF = canon I end.
Proof.
  intros Hs. pose proof slots_checked as Hc. unfold slots_okb in Hc. apply andb_prop in Hc as [Hc _]. apply andb_prop in Hc as [Hc _].
  rewrite forallb_forall in Hc. specialize (Hc _ Hs). cbn [fst snd] in Hc. destruct o as [phi|].
  - apply andb_prop in Hc as [H1 H2]. split; [exact (dec_true _ H1)|]. apply existsb_exists in H2 as (SP & H3 & H4). exists SP. split; [exact H3|exact (dec_true _ H4)].
  - apply existsb_exists in Hc as (I & H3 & H4). exists I. split; [exact H3|exact (dec_true _ H4)].
Qed.
Lemma slot_sub phi SP : In phi tetFL -> In SP triSUB -> exists LF, In (LF, Some phi) tet_slots /\ canon LF = canon (up phi SP).
Proof.
  intros Hp Hs. pose proof slots_checked as Hc. unfold slots_okb in Hc. apply andb_prop in Hc as [Hc _]. apply andb_prop in Hc as [_ Hc].
  rewrite forallb_forall in Hc. specialize (Hc _ Hp). rewrite forallb_forall in Hc. specialize (Hc _ Hs).
  apply existsb_exists in Hc as ([LF [psi|]] & H1 & H2); apply andb_prop in H2 as [H2 H3]; [|discriminate].
  apply dec_true in H2, H3. cbn in H2, H3. subst psi. exists LF. auto.
Qed.
Lemma slot_inn I : In I tetINN -> exists LF, In (LF, None) tet_slots /\ canon LF = canon I.
Proof.
  intros Hi. pose proof slots_checked as Hc. unfold slots_okb in Hc. apply andb_prop in Hc as [_ Hc].
  rewrite forallb_forall in Hc. specialize (Hc _ Hi).
  apply existsb_exists in Hc as ([LF [psi|]] & H1 & H2); apply andb_prop in H2 as [H2 H3]; [discriminate|].
  apply dec_true in H2. exists LF. auto.
Qed.

Lemma sorted4 a b c d : a < b -> b < c -> c < d -> sorted_unique Nat.ltb [a; b; c; d].
Proof. intros H H' H''. repeat constructor; apply Nat.ltb_lt; lia. Qed.
Lemma sorted_list4 l : length l = 4 -> sorted_unique Nat.ltb l -> exists a b c d, l = [a; b; c; d] /\ a < b /\ b < c /\ c < d.
Proof.
  destruct l as [|a l]; [discriminate|]. intros L HS. inversion HS as [|? ? H1 H2]; subst.
  destruct (sorted_list3 l) as (b & c & d & -> & Hbc & Hcd); [cbn in L; lia|exact H1|]. exists a, b, c, d. inversion H2; subst.
  repeat split; auto. apply Nat.ltb_lt. assumption.
Qed.

Lemma tet_faces_sorted c : length c = 4 -> sorted_unique Nat.ltb c -> tet_faces c = map (lab c) tetFL.
Proof.
  intros L S. destruct (sorted_list4 c L S) as (x & y & z & w & -> & H1 & H2 & H3). cbn [tet_faces].
  unfold tetFL, lab. cbn [map nth]. pose proof (sord3 x y z) as E1. pose proof (sord3 x y w) as E2.
  pose proof (sord3 x z w) as E3. pose proof (sord3 y z w) as E4. unfold sord in *. rewrite E1, E2, E3, E4 by lia. reflexivity.
Qed.

Record tet_ok (s : store) : Prop := {
  te_len : length (s_points s) = length (s_nodes s);
  te_nodes : s_nodes s = seq 0 (length (s_nodes s));
  te_edge : forall e, In e (s_edges s) -> good_edge (length (s_nodes s)) e;
  te_Es : sorted_unique lex_ltb (s_edges s);
  te_Ein : forall c ab, In c (s_vols s) -> In ab mkEd -> In (lab c ab) (s_edges s);
  te_cell : forall c, In c (s_vols s) -> sorted_unique Nat.ltb c;
  te_conf : conf 4 tetFL tet_faces (length (s_nodes s)) (s_surfs s) (s_binfo s) (s_vols s);
  te_sub : s_sub s = length (s_vols s)
}.

Section TetStep.
  Variable s : store.
  Hypothesis H : tet_ok s.
  Let n := length (s_nodes s).
  Let E := s_edges s.
  Let id := lid n E.
  Let F := s_surfs s.
  Let C := s_vols s.

  Lemma tet_cell c : In c C -> exists x y z w, c = [x; y; z; w] /\ x < y /\ y < z /\ z < w /\ w < n.
  Proof.
    intros Hc. destruct (cf_C _ _ _ _ _ _ _ (te_conf s H) c Hc) as (L & _ & B).
    destruct (sorted_list4 c L (te_cell s H c Hc)) as (x & y & z & w & -> & H1 & H2 & H3). exists x, y, z, w.
    repeat split; auto. apply B. cbn. auto.
  Qed.

  Lemma tet_face_in c phi : In c C -> In phi tetFL -> In (lab c phi) F.
  Proof.
    intros Hc Hphi. apply (cf_in _ _ _ _ _ _ _ (te_conf s H) c Hc).
    rewrite (cf_faces _ _ _ _ _ _ _ (te_conf s H) c Hc). apply in_map. exact Hphi.
  Qed.

  Lemma tet_lab c loc : In c C -> In loc (concat tetCH) -> Lab2 n E (lab c loc).
  Proof.
    intros Hc Hl. destruct (tet_cell c Hc) as (x & y & z & w & Ec & Hxy & Hyz & Hz & Hw).
    assert (V : forall v, v < 4 -> Lab2 n E (lab c [v])).
    { intros v Hv. left. exists (nth v c 0). split; [reflexivity|]. subst c. destruct v as [|[|[|[|]]]]; cbn; lia. }
    assert (W : forall a b, In [a; b] mkEd -> Lab2 n E (lab c [a; b])).
    { intros a b Hab. right. split; [apply (te_Ein s H); assumption|]. exists (nth a c 0), (nth b c 0). reflexivity. }
    cbn in Hl. repeat (destruct Hl as [<-|Hl]; [first [apply V; lia|apply W; cbn; tauto]|]). destruct Hl.
  Qed.

  Let HC0 : forall c, In c C -> length c = 4 /\ NoDup c.
  Proof. intros c' Hc'. destruct (cf_C _ _ _ _ _ _ _ (te_conf s H) c' Hc') as (? & ? & _). auto. Qed.

  Lemma tet_R1 c P : In c C -> In P tetCH ->
    Permutation (tet_faces (child id sord c P)) (map (gk id c) (pfaces tetFL P)).
  Proof.
    intros Hc HP. destruct (pattern_check _ _ _ _ _ tet_pattern) as (PO & _ & _).
    destruct (child_nodup 4 tetFL tetCH triSUB tetINN PO id sord C (Lab2 n E) HC0 tet_lab (lid_inj n E)
       (std_sort_perm Nat.ltb) c P Hc HP) as [ND L].
    rewrite (simplex_faces_perm 3 tet_faces ltac:(auto) (child id sord c P) (gids id c P)); auto.
    - cbn in HP. repeat (destruct HP as [<-|HP]; [reflexivity|]). destruct HP.
    - apply std_sort_perm.
  Qed.

  Lemma tet_child_sorted c P : In c C -> In P tetCH -> sorted_unique Nat.ltb (child id sord c P) /\ length (child id sord c P) = 4.
  Proof.
    intros Hc HP. destruct (pattern_check _ _ _ _ _ tet_pattern) as (PO & _ & _).
    destruct (child_nodup 4 tetFL tetCH triSUB tetINN PO id sord C (Lab2 n E) HC0 tet_lab (lid_inj n E)
       (std_sort_perm Nat.ltb) c P Hc HP) as [ND L].
    split; [|exact L]. apply sort_nodup_sorted; [apply nat_ltb_sto|].
    eapply Permutation_NoDup; [apply std_sort_perm|exact ND].
  Qed.

  Definition tet_pairs : list nes :=
    flat_map (fun f => map (fun SP => (gk id f SP, nth (index_of f F) (s_binfo s) bd_default)) triSUB) F ++
    flat_map (fun c => map (fun I => (gk id c I, bd_default)) tetINN) C.
  Lemma tet_pairs_fst : map fst tet_pairs = new_faces triSUB tetINN id F C.
  Proof.
    unfold tet_pairs, new_faces. rewrite map_app, !map_flat_map. f_equal; apply flat_map_ext; intros e; rewrite map_map; reflexivity.
  Qed.

  Definition desc (c : list nat) (o : option (list nat)) : bdesc :=
    match o with Some phi => nth (index_of (lab c phi) F) (s_binfo s) bd_default | None => bd_default end.
  Definition surf_out (c : list nat) : list nes := map (fun so => (gk id c (fst so), desc c (snd so))) tet_slots.
  Definition edge_outs (c : list nat) : list (list nat) := flat_map (fun P => map (gk id c) (pfaces mkEd P)) tetCH.

  Lemma tet_loop : each (tet_step F (s_binfo s) (length E) n) C (mkT E [] []) =
    Ok (mkT (E ++ flat_map edge_outs C) (flat_map surf_out C) (children tetCH id sord C)).
  Proof.
    unfold children.
    assert (G : forall rest X Y Z, incl rest C -> each (tet_step F (s_binfo s) (length E) n) rest (mkT (E ++ X) Y Z) =
       Ok (mkT (E ++ X ++ flat_map edge_outs rest) (Y ++ flat_map surf_out rest)
           (Z ++ flat_map (fun c => map (child id sord c) tetCH) rest))).
    { induction rest as [|c rest IH]; intros X Y Z Hi; [cbn; rewrite !app_nil_r; reflexivity|].
      assert (Hc : In c C) by (apply Hi; left; reflexivity).
      destruct (tet_cell c Hc) as (x & y & z & w & Ec & Hxy & Hyz & Hz & Hw).
      pose proof (tet_face_in c [0;1;2] Hc ltac:(cbn; tauto)) as F0. pose proof (tet_face_in c [0;1;3] Hc ltac:(cbn; tauto)) as F1.
      pose proof (tet_face_in c [0;2;3] Hc ltac:(cbn; tauto)) as F2. pose proof (tet_face_in c [1;2;3] Hc ltac:(cbn; tauto)) as F3.
      pose proof (te_Ein s H c [0;1] Hc ltac:(cbn; tauto)) as E0. pose proof (te_Ein s H c [0;2] Hc ltac:(cbn; tauto)) as E1.
      pose proof (te_Ein s H c [0;3] Hc ltac:(cbn; tauto)) as E2. pose proof (te_Ein s H c [1;2] Hc ltac:(cbn; tauto)) as E3.
      pose proof (te_Ein s H c [1;3] Hc ltac:(cbn; tauto)) as E4. pose proof (te_Ein s H c [2;3] Hc ltac:(cbn; tauto)) as E5.
      assert (BF : forall f, In f F -> vget (s_binfo s) (index_of f F) = Ok (nth (index_of f F) (s_binfo s) bd_default)).
      { intros f Hf. apply vget_ok. apply nth_error_nth'. rewrite (cf_len _ _ _ _ _ _ _ (te_conf s H)). apply index_of_lt. exact Hf. }
      subst c. unfold lab in F0, F1, F2, F3, E0, E1, E2, E3, E4, E5. cbn [map nth] in F0, F1, F2, F3, E0, E1, E2, E3, E4, E5.
      fold E in E0, E1, E2, E3, E4, E5.
      pose proof (cf_Fs _ _ _ _ _ _ _ (te_conf s H)) as FS. fold F in FS. pose proof (te_Es s H) as ES. fold E in ES.
      cbn [each]. unfold tet_step at 1. cbn [t_edges].
      rewrite !sord2 by lia. rewrite !sord3 by lia.
      replace (firstn (length E) (E ++ X)) with E by (rewrite firstn_app, Nat.sub_diag, firstn_all, app_nil_r; reflexivity).
      rewrite !(position_ok F) by assumption. cbn [bind]. rewrite !BF by assumption. cbn [bind].
      rewrite !(position_ok E) by assumption. cbn [bind].
      unfold make_tetra. cbn [t_edges t_surf t_vol]. rewrite <- !app_assoc.
      rewrite IH by (intros v Hv; apply Hi; right; assumption).
      cbn [flat_map]. rewrite <- !app_assoc. reflexivity. }
    pose proof (G C [] [] [] (fun v Hv => Hv)) as G0. cbn [app] in G0. rewrite app_nil_r in G0. exact G0.
  Qed.

  Lemma tet_own : forall f, In f F -> exists c, In c C /\ In f (tet_faces c).
  Proof.
    intros f Hf. apply In_nth_error in Hf as (i & Hi). pose proof (te_conf s H) as K.
    assert (i < length (s_binfo s)). { rewrite (cf_len _ _ _ _ _ _ _ K). apply nth_error_Some. unfold F in Hi. congruence. }
    destruct (nth_error (s_binfo s) i) as [d|] eqn:Ed; [|apply nth_error_None in Ed; lia].
    pose proof (cf_own _ _ _ _ _ _ _ K i f d Hi Ed) as H'. apply incid_pos. destruct (bd_is_b d); fold C in H'; lia.
  Qed.

  Lemma tet_keys_nodup : NoDup (map fst tet_pairs).
  Proof.
    rewrite tet_pairs_fst. pose proof (te_conf s H) as K.
    destruct (pattern_check _ _ _ _ _ tet_pattern) as (PO & _ & _).
    apply (new_faces_nodup 4 tetFL tetCH triSUB tetINN PO tet_faces id F C (Lab2 n E)).
    - exact HC0.
    - apply (cf_faces _ _ _ _ _ _ _ K).
    - apply (cf_in _ _ _ _ _ _ _ K).
    - apply lex_nodup, (cf_Fs _ _ _ _ _ _ _ K).
    - apply (cf_sorted _ _ _ _ _ _ _ K).
    - apply lex_nodup, (cf_Cs _ _ _ _ _ _ _ K).
    - apply (cf_set _ _ _ _ _ _ _ K).
    - apply tet_own.
    - apply tet_lab.
    - apply lid_inj.
  Qed.
  Lemma tet_children_nodup : NoDup (children tetCH id sord C).
  Proof.
    pose proof (te_conf s H) as K. destruct (pattern_check _ _ _ _ _ tet_pattern) as (PO & _ & _).
    apply (children_nodup 4 tetFL tetCH triSUB tetINN PO id sord C (Lab2 n E)).
    - exact HC0.
    - apply lex_nodup, (cf_Cs _ _ _ _ _ _ _ K).
    - apply (cf_set _ _ _ _ _ _ _ K).
    - apply tet_lab.
    - apply lid_inj.
    - apply (std_sort_perm Nat.ltb).
  Qed.

  Lemma surf_out_pairs : same_set (flat_map surf_out C) tet_pairs.
  Proof.
    destruct (pattern_check _ _ _ _ _ tet_pattern) as (PO & _ & _).
    intros p. unfold tet_pairs. rewrite in_app_iff, !in_flat_map. split.
    - intros (c & Hc & Hp). unfold surf_out in Hp. apply in_map_iff in Hp as ([LF o] & <- & Hs). cbn [fst snd].
      pose proof (slot_origin LF o Hs) as Or. destruct o as [phi|].
      + destruct Or as (Hphi & SP & HSP & Ec). left. exists (lab c phi). split; [apply tet_face_in; assumption|].
        apply in_map_iff. exists SP. split; [|exact HSP]. cbn [desc].
        rewrite (gk_face 4 tetFL tetCH triSUB tetINN PO id c phi SP Hphi HSP), (gk_canon id c _ _ Ec). reflexivity.
      + destruct Or as (I & HI & Ec). right. exists c. split; [exact Hc|]. apply in_map_iff. exists I. split; [|exact HI].
        cbn [desc]. rewrite (gk_canon id c _ _ Ec). reflexivity.
    - intros [(f & Hf & Hp)|(c & Hc & Hp)]; apply in_map_iff in Hp as (SP & <- & HS).
      + destruct (tet_own f Hf) as (c & Hc & Hfc). rewrite (cf_faces _ _ _ _ _ _ _ (te_conf s H) c Hc) in Hfc.
        apply in_map_iff in Hfc as (phi & <- & Hphi). destruct (slot_sub phi SP Hphi HS) as (LF & Hs & Ec).
        exists c. split; [exact Hc|]. unfold surf_out. apply in_map_iff. exists (LF, Some phi). split; [|exact Hs]. cbn [fst snd desc].
        rewrite (gk_face 4 tetFL tetCH triSUB tetINN PO id c phi SP Hphi HS), (gk_canon id c _ _ Ec). reflexivity.
      + destruct (slot_inn SP HS) as (LF & Hs & Ec). exists c. split; [exact Hc|]. unfold surf_out. apply in_map_iff.
        exists (LF, None). split; [|exact Hs]. cbn [fst snd desc]. rewrite (gk_canon id c _ _ Ec). reflexivity.
  Qed.

  Lemma tet_points_loop : each tet_edge_step E (s_points s, s_nodes s) =
    Ok (s_points s ++ map (edge_mid (s_points s)) E, s_nodes s ++ seq n (length E)).
  Proof.
    assert (Gen : forall rest done, E = done ++ rest ->
      each tet_edge_step rest (s_points s ++ map (edge_mid (s_points s)) done, s_nodes s ++ seq n (length done)) =
      Ok (s_points s ++ map (edge_mid (s_points s)) E, s_nodes s ++ seq n (length E))).
    { induction rest as [|e rest IH]; intros done Ed.
      - rewrite app_nil_r in Ed. rewrite <- Ed. reflexivity.
      - assert (He : In e E) by (rewrite Ed; apply in_or_app; right; left; reflexivity).
        destruct (te_edge s H e He) as (a & b & Ee & Hab & Hb). rewrite <- (te_len s H) in Hb.
        cbn [each]. rewrite Ee at 1. cbn [tet_edge_step fst snd]. rewrite !vget_pts by lia. cbn [bind].
        rewrite <- (IH (done ++ [e])); [|rewrite <- app_assoc; exact Ed].
        assert (Em : edge_mid (s_points s) e = mid2 (ptat (s_points s) a) (ptat (s_points s) b)) by (rewrite Ee; reflexivity).
        rewrite map_app, !app_length, seq_app. cbn [map length seq]. rewrite Em, seq_length, <- !app_assoc. reflexivity. }
    pose proof (Gen E [] eq_refl) as G0. cbn [map seq length] in G0. rewrite !app_nil_r in G0. exact G0.
  Qed.

  Definition tet_next (ed : list (list nat)) : store :=
    mkS (s_points s ++ map (edge_mid (s_points s)) E) (s_nodes s ++ seq n (length E)) ed
      (map fst (std_sort nes_ltb tet_pairs)) (std_sort lex_ltb (children tetCH id sord C))
      (map snd (std_sort nes_ltb tet_pairs)) (length (std_sort lex_ltb (children tetCH id sord C))).

  Lemma tet_refine_eq : exists ed, tet_refine s = Ok (tet_next ed) /\ sorted_unique lex_ltb ed /\ same_set ed (flat_map edge_outs C).
  Proof.
    destruct (sort_uniq_spec lex_ltb lex_ltb_sto _ arr_decides (flat_map edge_outs C)) as (ed & R1 & R2 & R3).
    exists ed. split; [|split; assumption].
    unfold tet_refine. fold E F C n. rewrite tet_points_loop. cbn [bind]. rewrite tet_loop. cbn [bind t_edges t_surf t_vol].
    rewrite skipn_app, Nat.sub_diag, skipn_all. cbn [app skipn].
    rewrite R1. cbn [bind]. rewrite (sort_uniq_keys _ tet_pairs tet_keys_nodup surf_out_pairs). cbn [bind fst snd]. reflexivity.
  Qed.

  Lemma tet_next_face ed i f d : nth_error (s_surfs (tet_next ed)) i = Some f -> nth_error (s_binfo (tet_next ed)) i = Some d ->
    (exists e SP, In e F /\ In SP triSUB /\ f = gk id e SP /\ nth_error (s_binfo s) (index_of e F) = Some d) \/
    (exists c I, In c C /\ In I tetINN /\ f = gk id c I /\ d = bd_default).
  Proof.
    cbn [tet_next s_surfs s_binfo]. intros Hf Hd.
    assert (Hp : In (f, d) (std_sort nes_ltb tet_pairs)) by exact (nth_error_pair _ i f d Hf Hd).
    apply (Permutation_in _ (std_sort_perm nes_ltb _)) in Hp. unfold tet_pairs in Hp.
    apply in_app_iff in Hp as [Hp|Hp]; apply in_flat_map in Hp as (e & He & Hp); apply in_map_iff in Hp as (SP & Eq & HS);
      injection Eq as <- <-.
    - left. exists e, SP. repeat split; auto. apply nth_error_nth'.
      rewrite (cf_len _ _ _ _ _ _ _ (te_conf s H)). apply index_of_lt. exact He.
    - right. exists e, SP. auto.
  Qed.

  (** the edges of a child are among those appended by make_tetra *)
  Lemma child_edge c P ab : In c C -> In P tetCH -> In ab mkEd -> exists ab', In ab' mkEd /\ lab (child id sord c P) ab = gk id c (sel ab' P).
  Proof.
    intros Hc HP Hab. destruct (tet_child_sorted c P Hc HP) as [HS HL].
    destruct (sorted_list4 _ HL HS) as (x & y & z & w & Ech & H1 & H2 & H3).
    assert (Pm : Permutation (gids id c P) [x; y; z; w]) by (rewrite <- Ech; apply Permutation_sym, std_sort_perm).
    assert (LP : length P = 4) by (cbn in HP; repeat (destruct HP as [<-|HP]; [reflexivity|]); destruct HP).
    destruct P as [|P0 [|P1 [|P2 [|P3 [|]]]]]; try discriminate LP. unfold gids in Pm. cbn [map] in Pm. rewrite Ech.
    set (a := id (lab c P0)) in *. set (b := id (lab c P1)) in *. set (d := id (lab c P2)) in *. set (e := id (lab c P3)) in *.
    assert (ND : NoDup [a; b; d; e]).
    { eapply Permutation_NoDup; [apply Permutation_sym, Pm|]. repeat constructor; cbn; lia. }
    assert (K : forall u v, In u [x; y; z; w] -> In v [x; y; z; w] -> u < v -> exists ab', In ab' mkEd /\ [u; v] = gk id c (sel ab' [P0; P1; P2; P3])).
    { intros u v Hu Hv Huv. apply (Permutation_in _ (Permutation_sym Pm)) in Hu, Hv.
      assert (S2 : forall p q, (p = u /\ q = v) \/ (p = v /\ q = u) -> [u; v] = std_sort Nat.ltb [p; q]).
      { intros p q [[-> ->]|[-> ->]]; [symmetry; apply sord2; exact Huv|].
        symmetry. etransitivity; [apply (sord_perm [v; u] [u; v] (perm_swap _ _ _))|]. apply sord2. exact Huv. }
      destruct Hu as [<-|[<-|[<-|[<-|[]]]]], Hv as [<-|[<-|[<-|[<-|[]]]]]; try lia;
      first [exists [0;1]; split; [cbn; tauto|]; unfold gk, gids, sel; cbn [map nth]; apply S2; tauto
            |exists [0;2]; split; [cbn; tauto|]; unfold gk, gids, sel; cbn [map nth]; apply S2; tauto
            |exists [0;3]; split; [cbn; tauto|]; unfold gk, gids, sel; cbn [map nth]; apply S2; tauto
            |exists [1;2]; split; [cbn; tauto|]; unfold gk, gids, sel; cbn [map nth]; apply S2; tauto
            |exists [1;3]; split; [cbn; tauto|]; unfold gk, gids, sel; cbn [map nth]; apply S2; tauto
            |exists [2;3]; split; [cbn; tauto|]; unfold gk, gids, sel; cbn [map nth]; apply S2; tauto]. }
    cbn in Hab. destruct Hab as [<-|[<-|[<-|[<-|[<-|[<-|[]]]]]]]; unfold lab; cbn [map nth]; apply K; cbn; try tauto; lia.
  Qed.

  Lemma tet_next_ok ed : sorted_unique lex_ltb ed -> same_set ed (flat_map edge_outs C) -> tet_ok (tet_next ed).
  Proof.
    intros HE1 HE2. pose proof (te_conf s H) as K. destruct (pattern_check _ _ _ _ _ tet_pattern) as (PO & NI & NU).
    assert (Ln : length (s_nodes (tet_next ed)) = n + length E).
    { cbn. rewrite app_length, seq_length. reflexivity. }
    assert (FS : same_set (s_surfs (tet_next ed)) (new_faces triSUB tetINN id F C)).
    { cbn [tet_next s_surfs]. rewrite map_fst_sort, tet_pairs_fst. intros x.
      split; apply Permutation_in; [|apply Permutation_sym]; apply std_sort_perm. }
    assert (Ch : forall c', In c' (s_vols (tet_next ed)) -> exists c P, In c C /\ In P tetCH /\ c' = child id sord c P).
    { cbn [tet_next s_vols]. intros c' Hc'. apply (Permutation_in _ (std_sort_perm lex_ltb _)) in Hc'.
      unfold children in Hc'. apply in_flat_map in Hc' as (c0 & Hc0 & Hc). apply in_map_iff in Hc as (P & <- & HP). eauto. }
    constructor.
    - cbn. rewrite !app_length, map_length, seq_length. rewrite (te_len s H). reflexivity.
    - rewrite Ln. cbn. rewrite seq_app. rewrite (te_nodes s H) at 1. reflexivity.
    - rewrite Ln. cbn [tet_next s_edges]. intros e He. apply HE2 in He. apply in_flat_map in He as (c & Hc & He).
      unfold edge_outs in He. apply in_flat_map in He as (P & HP & He). apply in_map_iff in He as (LF & <- & HL).
      unfold pfaces in HL. apply in_map_iff in HL as (ab & <- & Hab).
      assert (LP : length P = 4 /\ NoDup P).
      { cbn in HP; repeat (destruct HP as [<-|HP]; [split; [reflexivity|repeat constructor; cbn; intuition discriminate]|]); destruct HP. }
      destruct LP as [LP NP]. destruct P as [|P0 [|P1 [|P2 [|P3 [|]]]]]; try discriminate LP.
      assert (G : forall p q, In p [P0;P1;P2;P3] -> In q [P0;P1;P2;P3] -> p <> q -> good_edge (n + length E) (gk id c [p; q])).
      { intros p q Hp Hq Npq.
        assert (Lp : Lab2 n E (lab c p)) by (apply tet_lab; [exact Hc|apply in_concat; eauto]).
        assert (Lq : Lab2 n E (lab c q)) by (apply tet_lab; [exact Hc|apply in_concat; eauto]).
        assert (Nid : id (lab c p) <> id (lab c q)).
        { intros X. apply lid_inj in X; auto. apply Npq. eapply (lab_inj 4 tetFL tetCH triSUB tetINN PO C HC0 c); eauto; apply in_concat; eauto. }
        pose proof (lid_lt _ _ _ Lp) as B1. pose proof (lid_lt _ _ _ Lq) as B2. fold id in B1, B2.
        unfold gk, gids. cbn [map].
        destruct (lt_dec (id (lab c p)) (id (lab c q))) as [Lt|Ge].
        - exists (id (lab c p)), (id (lab c q)). split; [apply sord2; exact Lt|lia].
        - exists (id (lab c q)), (id (lab c p)). split; [|lia].
          etransitivity; [apply (sord_perm [id (lab c p); id (lab c q)] [id (lab c q); id (lab c p)]), perm_swap|]. apply sord2. lia. }
      inversion NP as [|? ? N0 NP1]; subst. inversion NP1 as [|? ? N1 NP2]; subst. inversion NP2 as [|? ? N2 NP3]; subst. cbn in N0, N1, N2.
      cbn in Hab. destruct Hab as [<-|[<-|[<-|[<-|[<-|[<-|[]]]]]]]; unfold sel; cbn [map nth]; apply G; try (cbn; tauto); intros ->; tauto.
    - exact HE1.
    - intros c ab Hc Hab. destruct (Ch c Hc) as (c0 & P & Hc0 & HP & ->). cbn [tet_next s_edges]. apply HE2.
      destruct (child_edge c0 P ab Hc0 HP Hab) as (ab' & Hab' & ->).
      apply in_flat_map. exists c0. split; [exact Hc0|]. unfold edge_outs. apply in_flat_map. exists P. split; [exact HP|].
      apply in_map. unfold pfaces. apply (in_map (fun phi => sel phi P)). exact Hab'.
    - intros c Hc. destruct (Ch c Hc) as (c0 & P & Hc0 & HP & ->). apply tet_child_sorted; assumption.
    - rewrite Ln. eapply (conf_step 4 tetFL tetCH triSUB tetINN PO tet_faces id sord n (n + length E) F (s_binfo s) C K
        (Lab2 n E) tet_lab (lid_inj n E) (lid_lt n E) (std_sort_perm Nat.ltb)).
      + apply tet_R1.
      + intros c P Hc HP. destruct (tet_child_sorted c P Hc HP). apply tet_faces_sorted; assumption.
      + exact NI.
      + exact NU.
      + cbn [tet_next s_surfs]. rewrite map_fst_sort. apply sort_nodup_sorted; [apply lex_ltb_sto|]. apply tet_keys_nodup.
      + exact FS.
      + cbn [tet_next s_surfs s_binfo]. rewrite !map_length. reflexivity.
      + cbn [tet_next s_vols]. apply sort_nodup_sorted; [apply lex_ltb_sto|]. apply tet_children_nodup.
      + cbn [tet_next s_vols]. apply std_sort_perm.
      + intros i f d Hf Hd. destruct (tet_next_face ed i f d Hf Hd) as [(e & SP & He & HS & -> & Hb)|(c & I & Hc & HI & -> & ->)].
        * left. exists (index_of e F), e, SP, d. repeat split; auto. apply index_of_nth. exact He.
        * right. exists c, I. auto.
    - reflexivity.
  Qed.
End TetStep.
