(** The hexagonal mesh: make_hexmesh as a whole. *)
From Coq Require Import List Arith Bool Sorted Permutation Lia ZArith.
From Verif Require Import Common Mesh_Model Mesh_Spec Mesh_Proofs Elem_Model Elem_Spec Elem_Proofs Refine_Proofs Mesher_Model Mesher_Proofs
  Single_Model Hex_Model Hex_Spec Hex_Proofs Hex2_Proofs Hex3_Proofs.
Import ListNotations.
Local Open Scope nat_scope.

Lemma NoDup_app_remove_l {A} (a b : list A) : NoDup (a ++ b) -> NoDup b.
Proof. induction a as [|x a IH]; cbn; intros H; [exact H|]. inversion H; auto. Qed.
Lemma NoDup_app_remove_r {A} (a b : list A) : NoDup (a ++ b) -> NoDup a.
Proof. induction a as [|x a IH]; cbn; intros H; [constructor|]. inversion H; subst. constructor; [|auto]. intros K. apply H2, in_or_app. left. exact K. Qed.

Definition inner_und_edges (l : nat) : list hedge := map und (inner_edges (2 ^ l)).
Definition outer_und_edges (l : nat) : list hedge := map und (map snd (outer_edges (2 ^ l))).

Lemma inner_proper l d : In d (inner_edges (2 ^ l)) -> fst d <> snd d.
Proof.
  intros H. assert (K : In d (flat_map ring (all_polys l))).
  { apply (Permutation_in _ (Permutation_sym (directed l))). apply in_or_app. left. exact H. }
  apply in_flat_map in K as (p & Hp & Hd). apply poly_facts in Hp as (_ & _ & _ & P & _). apply P. exact Hd.
Qed.

Lemma all_edges_perm l : Permutation (flat_map poly_edges (all_polys l)) (inner_und_edges l ++ inner_und_edges l ++ outer_und_edges l).
Proof.
  assert (E : flat_map poly_edges (all_polys l) = map und (flat_map ring (all_polys l))) by (rewrite map_flat_map; reflexivity).
  rewrite E. etransitivity; [apply Permutation_map, directed|]. rewrite !map_app. unfold inner_und_edges, outer_und_edges.
  rewrite (map_map drev und). rewrite (map_ext_in (fun x => und (drev x)) und); [reflexivity|].
  intros d Hd. apply und_rev. eapply inner_proper; eassumption.
Qed.

Lemma count_nodup (L : list hedge) e : NoDup L -> count_occ deqd L e = if in_dec deqd e L then 1 else 0.
Proof.
  intros ND. destruct (in_dec deqd e L) as [H|H].
  - apply (NoDup_count_occ' deqd); assumption.
  - apply count_occ_not_In. exact H.
Qed.
Lemma edge_count l e : count_occ deqd (flat_map poly_edges (all_polys l)) e =
  if in_dec deqd e (inner_und_edges l) then 2 else if in_dec deqd e (outer_und_edges l) then 1 else 0.
Proof.
  rewrite (proj1 (Permutation_count_occ deqd _ _) (all_edges_perm l) e), !count_occ_app.
  pose proof (und_nodup (2 ^ l)) as ND. fold (inner_und_edges l) in ND. fold (outer_und_edges l) in ND.
  assert (NI : NoDup (inner_und_edges l)) by (eapply NoDup_app_remove_r; exact ND).
  assert (NO : NoDup (outer_und_edges l)) by (eapply NoDup_app_remove_l; exact ND).
  pose proof (count_nodup _ e NI) as C1. pose proof (count_nodup _ e NO) as C2. unfold hedge in *. rewrite C1, C2.
  destruct (in_dec deqd e (inner_und_edges l)) as [I|I], (in_dec deqd e (outer_und_edges l)) as [O|O]; try reflexivity.
  exfalso. revert ND I O. generalize (inner_und_edges l) as a, (outer_und_edges l) as b. clear. induction a as [|x a IH]; intros b ND I O; [destruct I|].
  inversion ND; subst. destruct I as [->|I]; [apply H1, in_or_app; right; exact O|]. eapply IH; eauto.
Qed.

Record hex_ok (l : nat) (hm : hexmesh) : Prop := {
  ho_max : hm_max hm = 4 * 2 ^ l;
  ho_points : sorted_unique hpt_ltb (hm_points hm);
  ho_points_set : same_set (hm_points hm) (concat (all_polys l));
  ho_edges : sorted_unique hedge_ltb (hm_edges hm);
  ho_edges_set : same_set (hm_edges hm) (flat_map poly_edges (all_polys l));
  ho_polys : Permutation (hm_polys hm) (all_polys l);
  ho_bedges : hm_bedges hm = all_bedges l;
  ho_owners : forall e, hm_owners hm e = own_of (occ (pairs (hm_polys hm) 0) e)
}.

Lemma hpt_decides : decides_eq (fun a b => Ok (hpt_eqb a b)).
Proof. intros a b. exists (hpt_eqb a b). split; [reflexivity|]. apply hpt_eqb_iff. Qed.
Lemma hedge_decides : decides_eq (fun a b => Ok (hedge_eqb a b)).
Proof. intros a b. exists (hedge_eqb a b). split; [reflexivity|]. apply hedge_eqb_iff. Qed.

Lemma flat_map_perm {A B} (g : A -> list B) a b : Permutation a b -> Permutation (flat_map g a) (flat_map g b).
Proof. apply Permutation_flat_map. Qed.

Lemma make_hexmesh_ok l : exists hm, make_hexmesh l = Ok hm /\ hex_ok l hm.
Proof.
  unfold make_hexmesh. rewrite ipow_pow. replace (2 ^ (l + 2)) with (4 * 2 ^ l) by (rewrite Nat.pow_add_r; cbn; lia).
  set (h0 := mkHM (4 * 2 ^ l) [] [] [] [] (fun _ => (None, None))).
  pose proof (work_tiles l h0 0 0 (S l) (Nat.lt_succ_diag_r l)) as W. change (4 * 0) with 0 in W. change (0 + 2 ^ l) with (2 ^ l) in W.
  rewrite W. cbn [bind]. clear W.
  destruct (add_tiles_polys (4 * 2 ^ l) (tiles l 0 0) h0 eq_refl) as (A & B & C & D & E).
  cbn [h0 hm_polys hm_points hm_edges hm_bedges hm_owners app] in A, B, C, D, E. fold (all_polys l) in A, B, C. fold (all_bedges l) in D.
  rewrite A, B, C, D, E.
  destruct (sort_uniq_spec hpt_ltb hpt_sto _ hpt_decides (concat (all_polys l))) as (ps & Eps & Sps & Ips). rewrite Eps. cbn [bind].
  destruct (sort_uniq_spec hedge_ltb hedge_sto _ hedge_decides (flat_map poly_edges (all_polys l))) as (es & Ees & Ses & Ies).
  unfold hedge, poly in *. rewrite Ees. cbn [bind].
  set (polys := std_sort poly_ltb (all_polys l)).
  assert (P : Permutation polys (all_polys l)) by apply std_sort_perm.
  rewrite add_owners_pairs.
  destruct (owners_run (pairs polys 0) [] (fun _ => (None, None))) as (own & Eo & Ho).
  - intros e. reflexivity.
  - intros e. cbn [app]. rewrite occ_count. rewrite (proj1 (Permutation_count_occ deqd _ _) (flat_map_perm poly_edges _ _ P) e), edge_count.
    destruct (in_dec deqd e (inner_und_edges l)); [lia|]. destruct (in_dec deqd e (outer_und_edges l)); lia.
  - match goal with |- context [each ?f ?x ?o] => replace (each f x o) with (Ok own) by (symmetry; exact Eo) end. cbn [bind]. eexists. split; [reflexivity|]. constructor; cbn [hm_max hm_points hm_edges hm_polys hm_bedges hm_owners]; auto.
Qed.

(** ** What the parts of the mesh are *)
Lemma und_ends d : (fst (und d) = fst d /\ snd (und d) = snd d) \/ (fst (und d) = snd d /\ snd (und d) = fst d).
Proof. unfold und, hedge_make. destruct (hpt_ltb (snd d) (fst d)); cbn [fst snd]; auto. Qed.

Lemma und_sorted d : fst d <> snd d -> hpt_ltb (fst (und d)) (snd (und d)) = true.
Proof.
  destruct d as [a b]. unfold und, hedge_make. cbn [fst snd]. intros N. destruct (hpt_ltb b a) eqn:E; cbn [fst snd]; [exact E|].
  destruct (hpt_ltb a b) eqn:E'; [reflexivity|]. exfalso. apply N. apply (sto_total _ hpt_sto); assumption.
Qed.
Lemma und_id e : hpt_ltb (fst e) (snd e) = true -> und e = e.
Proof. destruct e as [a b]. unfold und, hedge_make. cbn [fst snd]. intros E. rewrite (ltb_asym _ hpt_sto _ _ E). reflexivity. Qed.

Lemma side_und p e : hpt_ltb (fst e) (snd e) = true -> (In e (poly_edges p) <-> has_side p (fst e) (snd e)).
Proof.
  intros S0. rewrite poly_edges_und, in_map_iff. unfold has_side. rewrite !goes_ring. split.
  - intros (d & <- & Hd). destruct (und_ends d) as [[-> ->]|[-> ->]]; destruct d; auto.
  - intros [H|H].
    + exists e. split; [apply und_id; exact S0|]. destruct e. exact H.
    + exists (drev e). split; [|exact H]. rewrite und_rev; [apply und_id; exact S0|]. intros Eq. rewrite Eq in S0.
      rewrite (sto_irrefl _ hpt_sto) in S0. discriminate.
Qed.

Lemma outer_side N s d : In (s, d) (outer_edges N) -> on_side (4 * N) s (fst d) /\ on_side (4 * N) s (snd d).
Proof.
  unfold outer_edges. intros H. apply in_flat_map in H as (i & _ & H). cbn [In] in H.
  repeat (destruct H as [H|H]; [injection H as <- <-; unfold dat, hedge_abs, hpt_abs, on_side, BOTTOM, TOP, LEFT, RIGHT; cbn [fst snd]; lia|]). destruct H.
Qed.

Lemma edge_cases l e : In e (flat_map poly_edges (all_polys l)) -> In e (inner_und_edges l) \/ In e (outer_und_edges l).
Proof. intros H. apply (Permutation_in _ (all_edges_perm l)) in H. rewrite !in_app_iff in H. tauto. Qed.

Lemma bedges_in l s e : In (s, e) (all_bedges l) <-> exists d, In (s, d) (outer_edges (2 ^ l)) /\ und d = e.
Proof.
  split.
  - intros H. apply (Permutation_in _ (bedges_perm l)) in H. apply in_map_iff in H as ([s' d] & E & H). unfold und2 in E. cbn [fst snd] in E.
    apply pair_equal_spec in E as [-> E]. exists d. auto.
  - intros (d & H & <-). apply (Permutation_in _ (Permutation_sym (bedges_perm l))). apply in_map_iff. exists (s, d). auto.
Qed.

Lemma nodup_map_fst {A B C} (f : A * B -> C) (L : list (A * B)) a a' b b' : NoDup (map f L) -> In (a, b) L -> In (a', b') L -> f (a, b) = f (a', b') -> (a, b) = (a', b').
Proof.
  induction L as [|x L IH]; intros ND H H' E; [destruct H|]. cbn [map] in ND. inversion ND; subst. destruct H as [->|H], H' as [H'|H'].
  - exact H'.
  - exfalso. apply H2. rewrite E. apply in_map. exact H'.
  - exfalso. apply H2. subst x. rewrite <- E. apply in_map. exact H.
  - auto.
Qed.

Lemma side_unique l s s' e : In (s, e) (all_bedges l) -> In (s', e) (all_bedges l) -> s = s'.
Proof.
  rewrite !bedges_in. intros (d & H & E) (d' & H' & E').
  assert (ND : NoDup (map (fun x : nat * (hpt * hpt) => und (snd x)) (outer_edges (2 ^ l)))).
  { rewrite <- (map_map snd und). pose proof (und_nodup (2 ^ l)) as ND. eapply NoDup_app_remove_l. exact ND. }
  pose proof (nodup_map_fst _ _ _ _ _ _ ND H H') as K. cbv beta in K. cbn [snd] in K. specialize (K (eq_trans E (eq_sym E'))). congruence.
Qed.

Lemma edge_sorted l e : In e (flat_map poly_edges (all_polys l)) -> hpt_ltb (fst e) (snd e) = true.
Proof.
  intros H. apply in_flat_map in H as (p & Hp & He). rewrite poly_edges_und in He. apply in_map_iff in He as (d & <- & Hd).
  apply und_sorted. apply poly_facts in Hp as (_ & _ & _ & P & _). apply P. exact Hd.
Qed.

Lemma polys_facts l hm : hex_ok l hm -> forall p, In p (hm_polys hm) -> In p (all_polys l).
Proof. intros H p. apply Permutation_in. apply (ho_polys _ _ H). Qed.

Lemma own_of_2 (L : list nat) : NoDup L -> length L = 2 -> exists p q, L = [p; q] /\ p <> q.
Proof.
  intros ND HL. destruct L as [|p [|q [|? ?]]]; cbn in HL; try discriminate. exists p, q. split; [reflexivity|].
  inversion ND; subst. intros ->. apply H1. left. reflexivity.
Qed.

Lemma owner_iff l hm e k : hex_ok l hm -> In e (hm_edges hm) ->
  (In k (occ (pairs (hm_polys hm) 0) e) <-> exists p, nth_error (hm_polys hm) k = Some p /\ has_side p (fst e) (snd e)).
Proof.
  intros H He. rewrite occ_in. rewrite Nat.sub_0_r.
  assert (S0 : hpt_ltb (fst e) (snd e) = true) by (eapply edge_sorted; apply (ho_edges_set _ _ H); exact He).
  split; intros (p & Hp).
  - destruct Hp as (_ & Hp & Q). exists p. split; [exact Hp|]. apply side_und; assumption.
  - destruct Hp as (Hp & Q). exists p. split; [lia|]. split; [exact Hp|]. apply side_und; assumption.
Qed.

Theorem owners_two_or_one l hm e : hex_ok l hm -> In e (hm_edges hm) ->
  (exists p q, hm_owners hm e = (Some p, Some q) /\ p <> q /\
     (forall k, (exists P, nth_error (hm_polys hm) k = Some P /\ has_side P (fst e) (snd e)) <-> k = p \/ k = q) /\
     In e (inner_und_edges l) /\ forall s, ~ In (s, e) (hm_bedges hm)) \/
  (exists p s, hm_owners hm e = (Some p, None) /\
     (forall k, (exists P, nth_error (hm_polys hm) k = Some P /\ has_side P (fst e) (snd e)) <-> k = p) /\
     In (s, e) (hm_bedges hm) /\ (forall s', In (s', e) (hm_bedges hm) -> s' = s) /\
     on_side (hm_max hm) s (fst e) /\ on_side (hm_max hm) s (snd e)).
Proof.
  intros H He. pose proof (proj1 (ho_edges_set _ _ H e) He) as He'.
  pose proof (ho_owners _ _ H e) as Ow. pose proof (fun k => owner_iff l hm e k H He) as OI.
  assert (ND : NoDup (occ (pairs (hm_polys hm) 0) e)).
  { apply occ_nodup. intros p Hp. eapply poly_facts. eapply polys_facts; eassumption. }
  assert (Len : length (occ (pairs (hm_polys hm) 0) e) = if in_dec deqd e (inner_und_edges l) then 2 else if in_dec deqd e (outer_und_edges l) then 1 else 0).
  { rewrite occ_count. rewrite (proj1 (Permutation_count_occ deqd _ _) (flat_map_perm poly_edges _ _ (ho_polys _ _ H)) e). apply edge_count. }
  rewrite (ho_bedges _ _ H), (ho_max _ _ H).
  pose proof (und_nodup (2 ^ l)) as UN. fold (inner_und_edges l) in UN. fold (outer_und_edges l) in UN.
  destruct (in_dec deqd e (inner_und_edges l)) as [I|I].
  - left. apply own_of_2 in Len as (p & q & El & N); [|exact ND]. exists p, q. rewrite Ow, El. split; [reflexivity|]. split; [exact N|].
    split; [|split; [exact I|]].
    + intros k. rewrite <- OI, El. cbn [In]. intuition.
    + intros s Hs. apply bedges_in in Hs as (d & Hd & E). assert (O : In e (outer_und_edges l)).
      { unfold outer_und_edges. rewrite <- E. apply in_map. change d with (snd (s, d)). apply in_map. exact Hd. }
      clear - UN I O. induction (inner_und_edges l) as [|x a IH]; [destruct I|]. inversion UN; subst.
      destruct I as [->|I]; [apply H1, in_or_app; right; exact O|]. auto.
  - right. destruct (edge_cases l e He') as [K|O]; [contradiction|].
    destruct (in_dec deqd e (outer_und_edges l)) as [_|N]; [|contradiction].
    destruct (occ (pairs (hm_polys hm) 0) e) as [|p [|? ?]] eqn:El; try discriminate.
    pose proof O as O'. unfold outer_und_edges in O'. rewrite map_map in O'. apply in_map_iff in O' as ([s d] & E & Hd). cbn [snd] in E.
    exists p, s. rewrite Ow. split; [reflexivity|].
    assert (Hs : In (s, e) (all_bedges l)) by (apply bedges_in; exists d; auto).
    split; [|split; [exact Hs|split]].
    + intros k. rewrite <- OI. cbn [In]. intuition.
    + intros s' Hs'. eapply side_unique; eassumption.
    + destruct (outer_side _ _ _ Hd) as [A B]. rewrite <- E. destruct (und_ends d) as [[-> ->]|[-> ->]]; auto.
Qed.

(** a directed edge is traversed by one polygon only *)
Lemma directed_once l hm k k' P P' a b : hex_ok l hm -> nth_error (hm_polys hm) k = Some P -> nth_error (hm_polys hm) k' = Some P' ->
  goes P a b -> goes P' a b -> k = k'.
Proof.
  intros H E E' G G'. apply goes_ring in G, G'.
  assert (NU : NoDup (flat_map ring (hm_polys hm))).
  { eapply Permutation_NoDup; [apply Permutation_sym, flat_map_perm, (ho_polys _ _ H)|].
    eapply Permutation_NoDup; [apply Permutation_sym, directed|].
    pose proof (und_nodup (2 ^ l)) as UN. set (I := inner_edges (2 ^ l)) in *. set (O := map snd (outer_edges (2 ^ l))) in *.
    assert (NIO : NoDup (I ++ O)) by (apply (NoDup_map_inv und); rewrite map_app; exact UN).
    assert (Dis : forall x y, In x I -> In y O -> und x <> und y).
    { intros x y Hx Hy Eq. clear - UN Hx Hy Eq. induction I as [|z I IH]; [destruct Hx|]. cbn [map app] in UN. inversion UN; subst.
      destruct Hx as [->|Hx]; [apply H1, in_or_app; right; rewrite Eq; apply in_map; exact Hy|]. auto. }
    assert (NI : NoDup (map und I)) by (eapply NoDup_app_remove_r; exact UN).
    assert (Pr : forall x, In x I -> fst x <> snd x) by (intros; eapply inner_proper; eassumption).
    apply nodup_app.
    - eapply NoDup_app_remove_r; exact NIO.
    - apply nodup_app.
      + apply map_nodup_on; [|eapply NoDup_app_remove_r; exact NIO]. intros [x y] [z w] _ _ Eq. unfold drev in Eq. cbn [fst snd] in Eq. congruence.
      + eapply NoDup_app_remove_l; exact NIO.
      + intros z Hz Hz'. apply in_map_iff in Hz as (x & <- & Hx). apply (Dis x (drev x) Hx Hz'). symmetry. apply und_rev. auto.
    - intros z Hz Hz'. apply in_app_or in Hz' as [Hz'|Hz'].
      + apply in_map_iff in Hz' as (x & Ex & Hx). assert (Eu : und x = und z) by (rewrite <- Ex; symmetry; apply und_rev; auto).
        assert (x = z). { clear - NI Hx Hz Eu. induction I as [|y I IH]; [destruct Hx|]. cbn [map] in NI. inversion NI; subst.
          destruct Hx as [->|Hx], Hz as [->|Hz]; auto; exfalso; apply H1; [rewrite Eu|rewrite <- Eu]; apply in_map; assumption. }
        subst x. apply (Pr z Hz). rewrite <- Ex at 1. reflexivity.
      + exact (Dis z z Hz Hz' eq_refl). }
  clear - NU E E' G G'. revert k k' E E' NU. induction (hm_polys hm) as [|p ps IH]; intros k k' E E' NU; [destruct k; discriminate|].
  cbn [flat_map] in NU.
  assert (DJ : forall x, In x (ring p) -> ~ In x (flat_map ring ps)).
  { clear - NU. induction (ring p) as [|y r IHr]; intros x Hx Hx'; [destruct Hx|]. cbn [app] in NU. inversion NU; subst.
    destruct Hx as [->|Hx]; [apply H1, in_or_app; right; exact Hx'|]. eapply IHr; eauto. }
  apply NoDup_app_remove_l in NU.
  destruct k as [|k], k' as [|k']; cbn [nth_error] in E, E'; auto.
  - injection E as ->. exfalso. apply (DJ _ G). apply in_flat_map. exists P'. split; [eapply nth_error_In; eassumption|exact G'].
  - injection E' as ->. exfalso. apply (DJ _ G'). apply in_flat_map. exists P. split; [eapply nth_error_In; eassumption|exact G].
Qed.
