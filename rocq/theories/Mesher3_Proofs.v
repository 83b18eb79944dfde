(** The cartesian mesher. *)
From Coq Require Import List Arith Bool Sorted Permutation Lia Reals Lra.
From Verif Require Import Common Mesh_Model Mesh_Spec Mesh_Proofs Elem_Model Elem_Spec Elem_Proofs
  Elem_Properties Refine_Proofs Mesher_Model Mesher_Spec Mesher_Proofs Mesher2_Proofs.
Import ListNotations.
Local Open Scope nat_scope.

Definition quadFL := [[0;1]; [0;2]; [1;3]; [2;3]].
Definition quadCH := [[[0]; [0;1]; [0;2]; [0;1;2;3]]; [[1]; [1;3]; [0;1]; [0;1;2;3]];
                      [[2]; [0;2]; [2;3]; [0;1;2;3]]; [[3]; [2;3]; [1;3]; [0;1;2;3]]].
Definition quadINN := [[[0;1]; [0;1;2;3]]; [[0;2]; [0;1;2;3]]; [[1;3]; [0;1;2;3]]; [[2;3]; [0;1;2;3]]].
Lemma quad_pattern : pattern_okb 4 quadFL quadCH edgSUB quadINN = true.
Proof. vm_compute. reflexivity. Qed.

Definition cid (n : nat) (E C : list (list nat)) (l : list nat) : nat :=
  match l with [v] => v | [_; _] => index_of l E + n | _ => index_of l C + (n + length E) end.
Definition Lab4 (n : nat) (E C : list (list nat)) (l : list nat) : Prop :=
  (exists v, l = [v] /\ v < n) \/ (In l E /\ exists a b, l = [a; b]) \/ (In l C /\ exists a b c d, l = [a; b; c; d]).

Lemma cid_bounds n E C l : Lab4 n E C l ->
  match l with [v] => cid n E C l < n | [_; _] => n <= cid n E C l < n + length E
  | _ => n + length E <= cid n E C l < n + length E + length C end.
Proof.
  intros [(v & -> & Hv)|[(Hl & a & b & ->)|(Hl & a & b & c & d & ->)]]; cbn [cid]; [exact Hv| |];
  pose proof (index_of_lt _ _ Hl); lia.
Qed.

Lemma cid_inj n E C l l' : Lab4 n E C l -> Lab4 n E C l' -> cid n E C l = cid n E C l' -> l = l'.
Proof.
  intros H H'. pose proof (cid_bounds _ _ _ _ H) as B. pose proof (cid_bounds _ _ _ _ H') as B'.
  destruct H as [(v & -> & Hv)|[(Hl & a & b & ->)|(Hl & a & b & c & d & ->)]],
           H' as [(v' & -> & Hv')|[(Hl' & a' & b' & ->)|(Hl' & a' & b' & c' & d' & ->)]]; intros X; try lia; cbn [cid] in X.
  - congruence.
  - apply (index_of_inj _ _ E); auto. lia.
  - apply (index_of_inj _ _ C); auto. lia.
Qed.
Lemma cid_lt n E C l : Lab4 n E C l -> cid n E C l < n + length E + length C.
Proof.
  intros H. pose proof (cid_bounds _ _ _ _ H) as B.
  destruct H as [(v & -> & Hv)|[(Hl & a & b & ->)|(Hl & a & b & c & d & ->)]]; lia.
Qed.

Definition good_quad (n : nat) (c : list nat) : Prop :=
  exists x y z w, c = [x; y; z; w] /\ x < y /\ x < z /\ y < w /\ z < w /\ w < n /\ y <> z.

Record cart_ok (s : store) : Prop := {
  co_len : length (s_points s) = length (s_nodes s);
  co_nodes : s_nodes s = seq 0 (length (s_nodes s));
  co_edge : forall e, In e (s_edges s) -> good_edge (length (s_nodes s)) e;
  co_cell : forall c, In c (s_surfs s) -> good_quad (length (s_nodes s)) c;
  co_conf : conf 4 quadFL quad_faces (length (s_nodes s)) (s_edges s) (s_binfo s) (s_surfs s);
  co_sub : s_sub s = length (s_surfs s)
}.

Lemma cart_init_ok : cart_ok cart_init.
Proof.
  constructor; try reflexivity.
  - intros e He. cbn in He. repeat (destruct He as [<-|He]; [eexists _, _; split; [reflexivity|cbn; lia]|]). destruct He.
  - intros c Hc. cbn in Hc. repeat (destruct Hc as [<-|Hc]; [eexists _, _, _, _; split; [reflexivity|cbn; lia]|]). destruct Hc.
  - apply conf_check. vm_compute. reflexivity.
Qed.

Definition quad_mid (pts : list pt) (c : list nat) : pt :=
  mid4 (ptat pts (nth 0 c 0)) (ptat pts (nth 1 c 0)) (ptat pts (nth 2 c 0)) (ptat pts (nth 3 c 0)).

Section CartStep.
  Variable s : store.
  Hypothesis H : cart_ok s.
  Let n := length (s_nodes s).
  Let E := s_edges s.
  Let C := s_surfs s.
  Let id := cid n E C.
  Let mk := fun l : list nat => l.

  Lemma cart_faces_in c phi : In c C -> In phi quadFL -> In (lab c phi) E.
  Proof.
    intros Hc Hphi. apply (cf_in _ _ _ _ _ _ _ (co_conf s H) c Hc).
    rewrite (cf_faces _ _ _ _ _ _ _ (co_conf s H) c Hc). apply in_map. exact Hphi.
  Qed.

  Lemma cart_lab c loc : In c C -> In loc (concat quadCH) -> Lab4 n E C (lab c loc).
  Proof.
    intros Hc Hl. destruct (co_cell s H c Hc) as (x & y & z & w & Ec & Hb).
    assert (V : forall v, v < 4 -> Lab4 n E C (lab c [v])).
    { intros v Hv. left. exists (nth v c 0). split; [reflexivity|]. subst c. unfold n.
      destruct v as [|[|[|[|]]]]; cbn; lia. }
    assert (W : forall a b, In [a; b] quadFL -> Lab4 n E C (lab c [a; b])).
    { intros a b Hab. right. left. split; [apply cart_faces_in; assumption|]. exists (nth a c 0), (nth b c 0). reflexivity. }
    assert (Z : Lab4 n E C (lab c [0;1;2;3])).
    { right. right. subst c. split; [exact Hc|]. exists x, y, z, w. reflexivity. }
    cbn in Hl. repeat (destruct Hl as [<-|Hl]; [first [apply V; lia|apply W; cbn; tauto|exact Z]|]). destruct Hl.
  Qed.

  Lemma gk_inc c l l' : Lab4 n E C (lab c l) -> Lab4 n E C (lab c l') -> length l < length l' -> gk id c [l; l'] = [id (lab c l); id (lab c l')].
  Proof.
    intros H1 H2 L. unfold gk, gids. cbn [map]. apply std_sort_id; [apply nat_ltb_sto|]. apply sorted2.
    pose proof (cid_bounds _ _ _ _ H1) as B1. pose proof (cid_bounds _ _ _ _ H2) as B2. fold id in B1, B2.
    assert (LL : forall loc, length (lab c loc) = length loc) by (intros; apply map_length).
    assert (length (lab c l) < length (lab c l')) by (rewrite !LL; exact L).
    destruct H1 as [(v & X & Hv)|[(Hl & a & b & X)|(Hl & a & b & cc & d & X)]],
             H2 as [(v' & X' & Hv')|[(Hl' & a' & b' & X')|(Hl' & a' & b' & c' & d' & X')]];
      rewrite X, X' in *; cbn in *; try lia.
  Qed.

  Lemma cart_R1_eq c P : In c C -> In P quadCH -> quad_faces (child id mk c P) = map (gk id c) (pfaces quadFL P).
  Proof.
    intros Hc HP.
    assert (G : forall l l', In l (concat quadCH) -> In l' (concat quadCH) -> length l < length l' ->
       gk id c [l; l'] = [id (lab c l); id (lab c l')]).
    { intros. apply gk_inc; auto; apply cart_lab; auto. }
    cbn in HP. repeat (destruct HP as [<-|HP];
      [unfold child, mk, gids, pfaces, quadFL, sel; cbn [map nth quad_faces];
       rewrite !G by (cbn; (tauto || lia)); reflexivity|]). destruct HP.
  Qed.

  Lemma cart_child_quad c P : In c C -> In P quadCH -> good_quad (n + length E + length C) (child id mk c P).
  Proof.
    intros Hc HP.
    assert (B : forall l, In l (concat quadCH) -> match lab c l with [v] => id (lab c l) < n | [_; _] => n <= id (lab c l) < n + length E
  | _ => n + length E <= id (lab c l) < n + length E + length C end).
    { intros l Hl. apply cid_bounds. apply cart_lab; assumption. }
    assert (I : forall l l', In l (concat quadCH) -> In l' (concat quadCH) -> lab c l <> lab c l' -> id (lab c l) <> id (lab c l')).
    { intros l l' Hl Hl' N X. apply N. apply (cid_inj n E C); auto; apply cart_lab; assumption. }
    pose proof (cart_lab c) as TL. destruct (co_cell s H c Hc) as (x & y & z & w & Ec & Hb).
    cbn in HP. repeat (destruct HP as [<-|HP]; [unfold child, mk, gids; cbn [map];
      match goal with |- good_quad _ [id (lab c ?a); id (lab c ?b); id (lab c ?d); id (lab c ?e)] =>
        pose proof (B a ltac:(cbn; tauto)) as B1; pose proof (B b ltac:(cbn; tauto)) as B2;
        pose proof (B d ltac:(cbn; tauto)) as B3; pose proof (B e ltac:(cbn; tauto)) as B4;
        pose proof (I b d ltac:(cbn; tauto) ltac:(cbn; tauto)) as B5 end;
      subst c; unfold lab in *; cbn [map nth] in *; eexists _, _, _, _; split; [reflexivity|];
      repeat split; try lia; apply B5; intros X; injection X; lia|]). destruct HP.
  Qed.

  Lemma quad_faces_lab c : (exists x y z w, c = [x; y; z; w]) -> quad_faces c = map (lab c) quadFL.
  Proof. intros (x & y & z & w & ->). reflexivity. Qed.

  Definition cart_pairs : list nes :=
    flat_map (fun e => map (fun SP => (gk id e SP, nth (index_of e E) (s_binfo s) bd_default)) edgSUB) E ++
    flat_map (fun c => map (fun I => (gk id c I, bd_default)) quadINN) C.

  Lemma cart_pairs_fst : map fst cart_pairs = new_faces edgSUB quadINN id E C.
  Proof.
    unfold cart_pairs, new_faces. rewrite map_app, !map_flat_map. f_equal; apply flat_map_ext; intros e; rewrite map_map; reflexivity.
  Qed.

  Lemma cart_loop init : each (cart_step E n) C (mkQ (s_points s ++ map (edge_mid (s_points s)) E) (s_nodes s ++ seq n (length E)) init []) =
    Ok (mkQ (s_points s ++ map (edge_mid (s_points s)) E ++ map (quad_mid (s_points s)) C) (s_nodes s ++ seq n (length E + length C))
        (init ++ flat_map (fun c => map (fun I => (gk id c I, bd_default)) quadINN) C)
        (children quadCH id mk C)).
  Proof.
    unfold children.
    assert (ND : NoDup C) by (apply lex_nodup, (cf_Cs _ _ _ _ _ _ _ (co_conf s H))).
    assert (G : forall rest done, C = done ++ rest ->
       each (cart_step E n) rest (mkQ (s_points s ++ map (edge_mid (s_points s)) E ++ map (quad_mid (s_points s)) done)
         (s_nodes s ++ seq n (length E + length done))
         (init ++ flat_map (fun c => map (fun I => (gk id c I, bd_default)) quadINN) done)
         (flat_map (fun c => map (child id mk c) quadCH) done)) =
       Ok (mkQ (s_points s ++ map (edge_mid (s_points s)) E ++ map (quad_mid (s_points s)) C)
         (s_nodes s ++ seq n (length E + length C))
         (init ++ flat_map (fun c => map (fun I => (gk id c I, bd_default)) quadINN) C)
         (flat_map (fun c => map (child id mk c) quadCH) C))).
    { induction rest as [|c rest IH]; intros done Ed.
      - rewrite app_nil_r in Ed. rewrite Ed. reflexivity.
      - assert (Hc : In c C) by (rewrite Ed; apply in_or_app; right; left; reflexivity).
        destruct (co_cell s H c Hc) as (x & y & z & w & Ec & Hb). rewrite <- (co_len s H) in Hb.
        assert (Ix : index_of c C = length done).
        { apply index_of_eq; [exact ND|]. rewrite Ed. rewrite nth_error_app2 by lia. rewrite Nat.sub_diag. reflexivity. }
        pose proof (cart_faces_in c [0;1] Hc ltac:(cbn; tauto)) as F1. pose proof (cart_faces_in c [0;2] Hc ltac:(cbn; tauto)) as F2.
        pose proof (cart_faces_in c [1;3] Hc ltac:(cbn; tauto)) as F3. pose proof (cart_faces_in c [2;3] Hc ltac:(cbn; tauto)) as F4.
        rewrite Ec in F1, F2, F3, F4. unfold lab in F1, F2, F3, F4. cbn [map nth] in F1, F2, F3, F4.
        rewrite <- (IH (done ++ [c])) by (rewrite <- app_assoc; exact Ed). clear IH.
        cbn [each]. rewrite Ec at 1. cbn [cart_step q_pts q_nodes q_new q_surf].
        rewrite !vget_pts by lia. cbn [bind].
        rewrite !position_ok by (try assumption; exact (cf_Fs _ _ _ _ _ _ _ (co_conf s H))). cbn [bind].
        assert (Ln : length (s_nodes s ++ seq n (length E + length done)) = length done + (n + length E)).
        { rewrite app_length, seq_length. unfold n. lia. }
        rewrite !Ln.
        assert (Ei : map (fun I => (gk id c I, bd_default)) quadINN =
          [([index_of [x; y] E + n; length done + (n + length E)], bd_default); ([index_of [x; z] E + n; length done + (n + length E)], bd_default);
           ([index_of [y; w] E + n; length done + (n + length E)], bd_default); ([index_of [z; w] E + n; length done + (n + length E)], bd_default)]).
        { unfold quadINN. cbn [map]. rewrite !gk_inc by (first [apply cart_lab; [exact Hc|cbn; tauto]|cbn; lia]).
          rewrite Ec in *. unfold lab. cbn [map nth]. unfold id, cid. rewrite Ix. reflexivity. }
        assert (Ech : map (child id mk c) quadCH =
          [[x; index_of [x; y] E + n; index_of [x; z] E + n; length done + (n + length E)];
           [y; index_of [y; w] E + n; index_of [x; y] E + n; length done + (n + length E)];
           [z; index_of [x; z] E + n; index_of [z; w] E + n; length done + (n + length E)];
           [w; index_of [z; w] E + n; index_of [y; w] E + n; length done + (n + length E)]]).
        { rewrite Ec in *. unfold quadCH, child, mk, gids, lab. cbn [map nth]. unfold id, cid. rewrite Ix. reflexivity. }
        assert (Em : map (quad_mid (s_points s)) (done ++ [c]) = map (quad_mid (s_points s)) done ++
           [mid4 (ptat (s_points s) x) (ptat (s_points s) y) (ptat (s_points s) z) (ptat (s_points s) w)]).
        { rewrite map_app, Ec. reflexivity. }
        rewrite Em, !flat_map_app. cbn [flat_map]. rewrite !app_nil_r, Ei, Ech, !app_length. cbn [length].
        rewrite (Nat.add_assoc (length E)), (seq_app _ 1). cbn [seq]. rewrite (Nat.add_comm n (length E + length done)).
        rewrite <- !app_assoc. replace (length E + length done + n) with (length done + (n + length E)) by lia. reflexivity. }
    pose proof (G C [] eq_refl) as G0. cbn [map flat_map length] in G0. rewrite !app_nil_r, Nat.add_0_r in G0. exact G0.
  Qed.

  Definition cart_next : store :=
    mkS (s_points s ++ map (edge_mid (s_points s)) E ++ map (quad_mid (s_points s)) C) (s_nodes s ++ seq n (length E + length C))
      (map fst (std_sort nes_ltb cart_pairs)) (std_sort lex_ltb (children quadCH id mk C)) (s_vols s)
      (map snd (std_sort nes_ltb cart_pairs)) (length (std_sort lex_ltb (children quadCH id mk C))).

  Lemma gk_edge_sub e SP : In e E -> In SP edgSUB -> gk id e SP = match SP with [[v]; _] => [nth v e 0; index_of e E + n] | _ => [] end.
  Proof.
    intros He HS. destruct (co_edge s H e He) as (a & b & -> & Hab & Hb). unfold n.
    cbn in HS. destruct HS as [<-|[<-|[]]]; unfold gk, gids, lab; cbn [map nth]; unfold id, cid;
      (apply std_sort_id; [apply nat_ltb_sto|]); apply sorted2; fold n; fold n in Hb; lia.
  Qed.

  Lemma cart_refine_eq : cart_refine s = Ok cart_next.
  Proof.
    assert (EQ : flat_map (edge_out (fun l => l) (s_binfo s) E n) E =
      flat_map (fun e => map (fun SP => (gk id e SP, nth (index_of e E) (s_binfo s) bd_default)) edgSUB) E).
    { rewrite !flat_map_concat_map. apply f_equal. apply map_ext_in. intros e He.
      unfold edgSUB. cbn [map]. rewrite !(gk_edge_sub e) by (try exact He; cbn; tauto). reflexivity. }
    unfold cart_refine. rewrite edge_loop.
    - cbn [bind e_new e_pts e_nodes]. fold n E C.
      match goal with |- bind ?x _ = _ => replace x with (each (cart_step E n) C (mkQ (s_points s ++ map (edge_mid (s_points s)) E) (s_nodes s ++ seq n (length E))
        (flat_map (edge_out (fun l => l) (s_binfo s) E n) E) [])) by reflexivity end.
      rewrite cart_loop, EQ. reflexivity.
    - apply (co_len s H).
    - intros e He. rewrite (co_len s H). apply (co_edge s H e He).
    - apply (cf_len _ _ _ _ _ _ _ (co_conf s H)).
    - apply lex_nodup. apply (cf_Fs _ _ _ _ _ _ _ (co_conf s H)).
  Qed.

  Lemma cart_own : forall f, In f E -> exists c, In c C /\ In f (quad_faces c).
  Proof.
    intros f Hf. apply In_nth_error in Hf as (i & Hi). pose proof (co_conf s H) as K.
    assert (i < length (s_binfo s)). { rewrite (cf_len _ _ _ _ _ _ _ K). apply nth_error_Some. unfold E in Hi. congruence. }
    destruct (nth_error (s_binfo s) i) as [d|] eqn:Ed; [|apply nth_error_None in Ed; lia].
    pose proof (cf_own _ _ _ _ _ _ _ K i f d Hi Ed) as H'. apply incid_pos. destruct (bd_is_b d); fold C in H'; lia.
  Qed.

  Lemma cart_keys_nodup : NoDup (map fst cart_pairs).
  Proof.
    rewrite cart_pairs_fst. pose proof (co_conf s H) as K.
    destruct (pattern_check _ _ _ _ _ quad_pattern) as (PO & _ & _).
    apply (new_faces_nodup 4 quadFL quadCH edgSUB quadINN PO quad_faces id E C (Lab4 n E C)).
    - intros c' Hc'. destruct (cf_C _ _ _ _ _ _ _ K c' Hc') as (? & ? & _). auto.
    - apply (cf_faces _ _ _ _ _ _ _ K).
    - apply (cf_in _ _ _ _ _ _ _ K).
    - apply lex_nodup, (cf_Fs _ _ _ _ _ _ _ K).
    - apply (cf_sorted _ _ _ _ _ _ _ K).
    - apply lex_nodup, (cf_Cs _ _ _ _ _ _ _ K).
    - apply (cf_set _ _ _ _ _ _ _ K).
    - apply cart_own.
    - apply cart_lab.
    - apply cid_inj.
  Qed.

  Lemma cart_children_nodup : NoDup (children quadCH id mk C).
  Proof.
    pose proof (co_conf s H) as K. destruct (pattern_check _ _ _ _ _ quad_pattern) as (PO & _ & _).
    apply (children_nodup 4 quadFL quadCH edgSUB quadINN PO id mk C (Lab4 n E C)).
    - intros c' Hc'. destruct (cf_C _ _ _ _ _ _ _ K c' Hc') as (? & ? & _). auto.
    - apply lex_nodup, (cf_Cs _ _ _ _ _ _ _ K).
    - apply (cf_set _ _ _ _ _ _ _ K).
    - apply cart_lab.
    - apply cid_inj.
    - intros l. reflexivity.
  Qed.

  Lemma cart_next_edge i f d : nth_error (s_edges cart_next) i = Some f -> nth_error (s_binfo cart_next) i = Some d ->
    (exists e SP, In e E /\ In SP edgSUB /\ f = gk id e SP /\ nth_error (s_binfo s) (index_of e E) = Some d) \/
    (exists c I, In c C /\ In I quadINN /\ f = gk id c I /\ d = bd_default).
  Proof.
    cbn [cart_next s_edges s_binfo]. intros Hf Hd.
    assert (Hp : In (f, d) (std_sort nes_ltb cart_pairs)) by exact (nth_error_pair _ i f d Hf Hd).
    apply (Permutation_in _ (std_sort_perm nes_ltb _)) in Hp. unfold cart_pairs in Hp.
    apply in_app_iff in Hp as [Hp|Hp]; apply in_flat_map in Hp as (e & He & Hp); apply in_map_iff in Hp as (SP & Eq & HS);
      injection Eq as <- <-.
    - left. exists e, SP. repeat split; auto. apply nth_error_nth'.
      rewrite (cf_len _ _ _ _ _ _ _ (co_conf s H)). apply index_of_lt. exact He.
    - right. exists e, SP. auto.
  Qed.

  Lemma cart_next_ok : cart_ok cart_next.
  Proof.
    pose proof (co_conf s H) as K. destruct (pattern_check _ _ _ _ _ quad_pattern) as (PO & NI & NU).
    assert (Ln : length (s_nodes cart_next) = n + length E + length C).
    { cbn. rewrite app_length, seq_length. fold n. lia. }
    assert (FS : same_set (s_edges cart_next) (new_faces edgSUB quadINN id E C)).
    { cbn [cart_next s_edges]. rewrite map_fst_sort, cart_pairs_fst. intros x.
      split; apply Permutation_in; [|apply Permutation_sym]; apply std_sort_perm. }
    constructor.
    - cbn. rewrite !app_length, !map_length, seq_length. rewrite (co_len s H). lia.
    - rewrite Ln. cbn. rewrite <- Nat.add_assoc, (seq_app n (length E + length C) 0). rewrite (co_nodes s H) at 1. reflexivity.
    - intros e He. rewrite Ln. apply FS in He. unfold new_faces in He. apply in_app_iff in He as [He|He].
      + apply in_flat_map in He as (g & Hg & Hk). apply in_map_iff in Hk as (SP & <- & HS).
        rewrite gk_edge_sub by assumption. pose proof (index_of_lt _ _ Hg). destruct (co_edge s H g Hg) as (a & b & Eg & Hab & Hb).
        fold n in Hb. cbn in HS. destruct HS as [<-|[<-|[]]]; eexists _, _; (split; [reflexivity|]); rewrite Eg in *; cbn [nth]; lia.
      + apply in_flat_map in He as (c & Hc & Hk). apply in_map_iff in Hk as (I & <- & HI).
        assert (TL := cart_lab c).
        assert (forall l, In l quadFL -> In [l; [0;1;2;3]] quadINN -> good_edge (n + length E + length C) (gk id c [l; [0;1;2;3]])).
        { intros l Hl HI'. rewrite gk_inc.
          - assert (B1 : Lab4 n E C (lab c l)) by (apply TL; [exact Hc|]; cbn in Hl |- *; intuition (subst; tauto)).
            assert (B2 : Lab4 n E C (lab c [0;1;2;3])) by (apply TL; [exact Hc|]; cbn; tauto).
            apply cid_bounds in B1, B2. exists (id (lab c l)), (id (lab c [0;1;2;3])). split; [reflexivity|].
            unfold lab in *. cbn [map] in *. cbn in Hl. destruct Hl as [<-|[<-|[<-|[<-|[]]]]]; cbn [map] in *; fold id in B1, B2; lia.
          - apply TL; [exact Hc|]; cbn in Hl |- *; intuition (subst; tauto).
          - apply TL; [exact Hc|]; cbn; tauto.
          - cbn in Hl. destruct Hl as [<-|[<-|[<-|[<-|[]]]]]; cbn; lia. }
        cbn in HI. destruct HI as [<-|[<-|[<-|[<-|[]]]]]; apply H0; cbn; tauto.
    - rewrite Ln. cbn [cart_next s_surfs]. intros c Hc. apply (Permutation_in _ (std_sort_perm lex_ltb _)) in Hc.
      unfold children in Hc. apply in_flat_map in Hc as (c0 & Hc0 & Hc). apply in_map_iff in Hc as (P & <- & HP).
      apply cart_child_quad; assumption.
    - rewrite Ln. eapply (conf_step 4 quadFL quadCH edgSUB quadINN PO quad_faces id mk n (n + length E + length C) E (s_binfo s) C K
        (Lab4 n E C) cart_lab (cid_inj n E C) (cid_lt n E C) (fun l => Permutation_refl l)).
      + intros c P Hc HP. rewrite cart_R1_eq by assumption. reflexivity.
      + intros c P Hc HP. apply quad_faces_lab. destruct (cart_child_quad c P Hc HP) as (x & y & z & w & E0 & _). eauto.
      + exact NI.
      + exact NU.
      + cbn [cart_next s_edges]. rewrite map_fst_sort. apply sort_nodup_sorted; [apply lex_ltb_sto|]. apply cart_keys_nodup.
      + exact FS.
      + cbn [cart_next s_edges s_binfo]. rewrite !map_length. reflexivity.
      + cbn [cart_next s_surfs]. apply sort_nodup_sorted; [apply lex_ltb_sto|]. apply cart_children_nodup.
      + cbn [cart_next s_surfs]. apply std_sort_perm.
      + intros i f d Hf Hd. destruct (cart_next_edge i f d Hf Hd) as [(e & SP & He & HS & -> & Hb)|(c & I & Hc & HI & -> & ->)].
        * left. exists (index_of e E), e, SP, d. repeat split; auto. apply index_of_nth. exact He.
        * right. exists c, I. auto.
    - reflexivity.
  Qed.
End CartStep.
