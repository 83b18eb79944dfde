From Coq Require Import List Arith Lia QArith.
From Verif Require Import Common Time_Model Time_Spec Time_Proofs Newton_Model Newton_Spec.
Import ListNotations.
Local Open Scope nat_scope.

Section P.
  Context {A : arith} {X I B St : Type}.
  Variable o_init : time_step A -> X -> I.
  Variable o_assemble : I -> world B St -> (B * St) * outcome I.
  Variable o_conv : I -> nat -> outcome bool.
  Variable o_update : I -> outcome I.
  Variable o_save : I -> X.
  Variables sublevel iter_max : nat.

  Notation loop := (time_loop A X I B St o_init o_assemble o_conv o_update o_save sublevel iter_max).
  Notation newton := (newton_compute A X I B St o_init o_assemble o_conv o_update o_save iter_max).
  Notation nloop := (newton_loop X I B St o_assemble o_conv o_update o_save).

  Definition weight (s : time_step A) : nat := 2 ^ (sublevel + 1 - ts_level s) - 1.
  Definition total (l : list (time_step A)) : nat := list_sum (map weight l).

  Lemma pow_pos n : 0 < 2 ^ n.
  Proof. induction n; cbn; lia. Qed.

  Lemma loop_terminates fuel : forall d,
    (forall s, In s (steps (d_tl d)) -> ts_level s <= sublevel) ->
    total (steps (d_tl d)) < fuel ->
    loop fuel d <> Ok None /\
    forall d', loop fuel d = Ok (Some d') -> d_calls d' <= d_calls d + total (steps (d_tl d)).
  Proof.
    induction fuel as [|f IH]; intros d Hl Hf; [lia|].
    cbn [time_loop]. unfold tl_is_empty, get_current.
    destruct (steps (d_tl d)) as [|s l] eqn:Es.
    { split; [discriminate|]. intros d' [= <-]. lia. }
    cbn [bind].
    assert (Hs : ts_level s <= sublevel) by (apply Hl; left; reflexivity).
    assert (W : 1 <= weight s).
    { unfold weight. replace (sublevel + 1 - ts_level s) with (S (sublevel - ts_level s)) by lia.
      cbn. pose proof (pow_pos (sublevel - ts_level s)). lia. }
    unfold total in *. cbn [map list_sum fold_right] in *.
    destruct (newton s (d_x d) (d_w d)) as [[[x'|] w']|e|] eqn:En; cbn [bind];
      try (split; [discriminate|]; intros; discriminate).
    - unfold remove_current. rewrite Es. cbn [bind].
      match goal with |- loop f ?dd <> _ /\ _ => specialize (IH dd) end.
      cbn [d_tl steps d_calls] in IH. destruct IH as [I1 I2].
      + intros q Hq. apply Hl. right; exact Hq.
      + unfold total, list_sum in *. lia.
      + split; [exact I1|]. intros d' Hd'. apply I2 in Hd'. unfold total, list_sum in *. lia.
    - destruct (Nat.ltb_spec sublevel (ts_level s + 1)) as [Hlt|Hge].
      + split; [discriminate|]. intros d' [= <-]. cbn [d_calls]. lia.
      + unfold split_current, get_current. rewrite Es. cbn [bind].
        match goal with |- loop f ?dd <> _ /\ _ => specialize (IH dd) end.
        cbn [d_tl steps d_calls] in IH.
        assert (E : weight s = S (2 * (2 ^ (sublevel + 1 - S (ts_level s)) - 1))).
        { unfold weight. replace (sublevel + 1 - ts_level s) with (S (sublevel + 1 - S (ts_level s))) by lia.
          cbn. pose proof (pow_pos (sublevel + 1 - S (ts_level s))). lia. }
        destruct IH as [I1 I2].
        * intros q [<-|[<-|Hq]]; cbn [ts_level]; try lia. apply Hl. right; exact Hq.
        * unfold total. cbn [map list_sum fold_right]. unfold weight at 1 2; cbn [ts_level]. unfold list_sum in *. lia.
        * split; [exact I1|]. intros d' Hd'. apply I2 in Hd'. unfold total in Hd'.
          cbn [map list_sum fold_right] in Hd'. unfold weight at 1 2 in Hd'; cbn [ts_level] in Hd'.
          unfold list_sum in *. lia.
  Qed.

  Lemma total_level0 l : (forall s, In s l -> ts_level s = 0) -> total l = length l * tree_nodes sublevel.
  Proof.
    induction l as [|s l IH]; intros H; [reflexivity|].
    unfold total in *. cbn [map list_sum fold_right length Nat.mul].
    unfold list_sum in IH. rewrite IH by (intros; apply H; right; assumption).
    f_equal. unfold weight, tree_nodes. rewrite H by (left; reflexivity). rewrite Nat.sub_0_r. reflexivity.
  Qed.

  Lemma loop_accepted x0 b0 s0 fuel : forall d d',
    accepted o_init o_assemble o_conv o_update o_save iter_max x0 b0 s0 (d_log d) (d_x d) (b_prev (d_w d)) (s_prev (d_w d)) ->
    loop fuel d = Ok (Some d') ->
    accepted o_init o_assemble o_conv o_update o_save iter_max x0 b0 s0 (d_log d') (d_x d') (b_prev (d_w d')) (s_prev (d_w d')).
  Proof.
    assert (NP : forall k i it w r w', nloop k i it w = Ok (r, w') -> b_prev w' = b_prev w /\ s_prev w' = s_prev w).
    { induction k as [|k IHk]; intros i it w r w' E; cbn [newton_loop] in E.
      - injection E as <- <-. auto.
      - destruct (o_assemble it w) as [p [it1|[]|]]; try discriminate.
        + destruct (o_conv it1 i) as [[|]|[]|]; try discriminate.
          * injection E as <- <-. cbn. auto.
          * destruct (o_update it1) as [it2|e|]; cbn [bind] in E; try discriminate.
            apply IHk in E. exact E.
          * injection E as <- <-. cbn. auto.
        + injection E as <- <-. cbn. auto. }
    induction fuel as [|f IH]; intros d d' HA E; cbn [time_loop] in E; [discriminate|].
    unfold tl_is_empty, get_current in E. destruct (steps (d_tl d)) as [|s l] eqn:Es.
    { injection E as <-. exact HA. }
    cbn [bind] in E.
    destruct (newton s (d_x d) (d_w d)) as [[[x'|] w']|e|] eqn:En; cbn [bind] in E; try discriminate.
    - unfold remove_current in E. rewrite Es in E. cbn [bind] in E.
      eapply IH; [|exact E]. cbn [d_log d_x d_w world_update b_prev s_prev].
      eapply acc_snoc; [exact HA|reflexivity|reflexivity|exact En].
    - apply NP in En. destruct En as [E1 E2].
      destruct (sublevel <? ts_level s + 1).
      + injection E as <-. cbn [d_log d_x d_w]. rewrite E1, E2. exact HA.
      + unfold split_current, get_current in E. rewrite Es in E. cbn [bind] in E.
        eapply IH; [|exact E]. cbn [d_log d_x d_w]. rewrite E1, E2. exact HA.
  Qed.

  Lemma loop_status fuel : forall d d',
    loop fuel d = Ok (Some d') -> steps (d_tl d') = [] \/ (d_conv d' = false /\
      exists s l, steps (d_tl d') = s :: l /\ sublevel < ts_level s + 1).
  Proof.
    induction fuel as [|f IH]; intros d d' E; cbn [time_loop] in E; [discriminate|].
    unfold tl_is_empty, get_current in E. destruct (steps (d_tl d)) as [|s l] eqn:Es.
    { injection E as <-. left; exact Es. }
    cbn [bind] in E.
    destruct (newton s (d_x d) (d_w d)) as [[[x'|] w']|e|] eqn:En; cbn [bind] in E; try discriminate.
    - unfold remove_current in E. rewrite Es in E. cbn [bind] in E. eapply IH; exact E.
    - destruct (Nat.ltb_spec sublevel (ts_level s + 1)) as [L|L].
      + injection E as <-. right. cbn [d_conv d_tl]. split; [reflexivity|]. eauto.
      + unfold split_current, get_current in E. rewrite Es in E. cbn [bind] in E. eapply IH; exact E.
  Qed.

  Lemma loop_conv fuel : forall d d',
    loop fuel d = Ok (Some d') -> steps (d_tl d) <> [] \/ d_conv d = true -> steps (d_tl d') = [] -> d_conv d' = true.
  Proof.
    induction fuel as [|f IH]; intros d d' E H K; cbn [time_loop] in E; [discriminate|].
    unfold tl_is_empty, get_current in E. destruct (steps (d_tl d)) as [|s l] eqn:Es.
    { injection E as <-. destruct H; [contradiction|assumption]. }
    cbn [bind] in E.
    destruct (newton s (d_x d) (d_w d)) as [[[x'|] w']|e|] eqn:En; cbn [bind] in E; try discriminate.
    - unfold remove_current in E. rewrite Es in E. cbn [bind] in E. eapply IH; [exact E| |exact K].
      right; reflexivity.
    - destruct (sublevel <? ts_level s + 1).
      + injection E as <-. cbn [d_tl] in K. congruence.
      + unfold split_current, get_current in E. rewrite Es in E. cbn [bind] in E. eapply IH; [exact E| |exact K].
        left. discriminate.
  Qed.

  Lemma newton_iterate st x w x' w' : newton st x w = Ok (Some x', w') ->
    exists i it, i < iter_max /\ iterate o_init o_assemble o_conv o_update st x w i it w' /\
      o_conv it i = Ok true /\ x' = o_save it.
  Proof.
    unfold newton_compute.
    assert (G : forall k i it0 w0 x' w', nloop k i it0 w0 = Ok (Some x', w') ->
      i + k = iter_max ->
      (forall p it1, o_assemble it0 w0 = (p, Ok it1) ->
         iterate o_init o_assemble o_conv o_update st x w i it1 (after_assembly B St w0 p)) ->
      exists j it, j < iter_max /\ iterate o_init o_assemble o_conv o_update st x w j it w' /\
        o_conv it j = Ok true /\ x' = o_save it).
    { clear x' w'. induction k as [|k IH]; intros i it0 w0 x' w' E Hk Hit; cbn [newton_loop] in E; [discriminate|].
      destruct (o_assemble it0 w0) as [p [it1|[]|]] eqn:Ea; try discriminate.
      specialize (Hit _ _ eq_refl).
      destruct (o_conv it1 i) as [[|]|[]|] eqn:Ec; try discriminate.
      - injection E as <- <-. exists i, it1. repeat split; auto. lia.
      - destruct (o_update it1) as [it2|e|] eqn:Eu; cbn [bind] in E; try discriminate.
        apply IH in E; [exact E|lia|]. intros p' it3 E3. eapply it_next; eauto. }
    intros E. apply (G _ _ _ _ _ _ E); [lia|]. intros p it1 E1. apply it_first. exact E1.
  Qed.
End P.

Section Tiling.
  Context {X I B St : Type}.
  Variable o_init : time_step arith_Q -> X -> I.
  Variable o_assemble : I -> world B St -> (B * St) * outcome I.
  Variable o_conv : I -> nat -> outcome bool.
  Variable o_update : I -> outcome I.
  Variable o_save : I -> X.
  Variables sublevel iter_max : nat.
  Notation loop := (time_loop arith_Q X I B St o_init o_assemble o_conv o_update o_save sublevel iter_max).

  Lemma loop_tiles a b fuel : forall d d',
    tiles a b (map fst (d_log d) ++ steps (d_tl d)) -> n_comp (d_tl d) = length (d_log d) ->
    loop fuel d = Ok (Some d') ->
    tiles a b (map fst (d_log d') ++ steps (d_tl d')) /\ n_comp (d_tl d') = length (d_log d').
  Proof.
    induction fuel as [|f IH]; intros d d' HT HN E; cbn [time_loop] in E; [discriminate|].
    unfold tl_is_empty, get_current in E. destruct (steps (d_tl d)) as [|s l] eqn:Es.
    { injection E as <-. rewrite Es. auto. }
    cbn [bind] in E.
    destruct (newton_compute _ _ _ _ _ _ _ _ _ _ _ s (d_x d) (d_w d)) as [[[x'|] w']|e|] eqn:En; cbn [bind] in E; try discriminate.
    - unfold remove_current in E. rewrite Es in E. cbn [bind] in E.
      eapply IH; [| |exact E]; cbn [d_log d_tl steps n_comp].
      + rewrite map_app. cbn [map fst]. rewrite <- app_assoc. exact HT.
      + rewrite app_length, HN. cbn. lia.
    - destruct (sublevel <? ts_level s + 1).
      + injection E as <-. cbn [d_log d_tl]. rewrite Es. auto.
      + unfold split_current, get_current in E. rewrite Es in E. cbn [bind] in E.
        eapply IH; [| |exact E]; cbn [d_log d_tl steps n_comp]; [|exact HN].
        apply tiles_app_inv in HT. destruct HT as (c & C1 & C2).
        eapply tiles_app; [exact C1|]. apply (split_tiles _ _ _ _ C2).
  Qed.
End Tiling.
