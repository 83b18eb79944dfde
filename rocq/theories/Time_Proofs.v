From Coq Require Import ZArith QArith Qfield List Lia Lqa Morphisms.
From Verif Require Import Common Time_Model Time_Spec.
Import ListNotations.
Local Open Scope Q_scope.

Notation qn n := (inject_Z (Z.of_nat n)).

Lemma qn_S n : qn (S n) == qn n + 1.
Proof. rewrite Nat2Z.inj_succ. unfold Z.succ. rewrite inject_Z_plus. reflexivity. Qed.

Lemma qn_add n m : qn (n + m) == qn n + qn m.
Proof. rewrite Nat2Z.inj_add, inject_Z_plus. reflexivity. Qed.

Lemma qn_nonneg n : 0 <= qn n.
Proof. change 0 with (inject_Z 0). rewrite <- Zle_Qle. lia. Qed.

Lemma qn_pos n : (0 < n)%nat -> 0 < qn n.
Proof. intros. change 0 with (inject_Z 0). rewrite <- Zlt_Qlt. lia. Qed.

Lemma tiles_eq a b a' b' l : a == a' -> b == b' -> tiles a b l -> tiles a' b' l.
Proof.
  revert a a'; induction l as [|s l IH]; intros a a' Ha Hb H; cbn in *.
  - rewrite <- Ha, <- Hb. exact H.
  - destruct H as (H1 & H2 & H3). repeat split; auto.
    + rewrite H1; exact Ha.
    + eapply IH; eauto. reflexivity.
Qed.

Lemma tiles_app a b c l m : tiles a b l -> tiles b c m -> tiles a c (l ++ m).
Proof.
  revert a; induction l as [|s l IH]; intros a H K; cbn in *.
  - eapply tiles_eq; [symmetry; exact H|reflexivity|exact K].
  - destruct H as (H1 & H2 & H3). repeat split; auto.
Qed.

Lemma tiles_app_inv a c l m : tiles a c (l ++ m) -> exists b, tiles a b l /\ tiles b c m.
Proof.
  revert a; induction l as [|s l IH]; intros a H; cbn in *.
  - exists a. split; [reflexivity|exact H].
  - destruct H as (H1 & H2 & H3). destruct (IH _ H3) as (b & B1 & B2). exists b. repeat split; auto.
Qed.

Lemma tiles_le a b l : tiles a b l -> a <= b.
Proof.
  revert a; induction l as [|s l IH]; intros a H; cbn in *.
  - rewrite H. lra.
  - destruct H as (H1 & H2 & H3). apply IH in H3. lra.
Qed.

Lemma next_start_app (l : list (time_step arith_Q)) s : next_start arith_Q (l ++ [s]) = ts_end s.
Proof. unfold next_start. rewrite rev_app_distr. reflexivity. Qed.

Lemma tiles_last b l : tiles 0 b l -> next_start arith_Q l == b.
Proof.
  destruct l as [|s l] using rev_ind; intros H.
  - exact H.
  - clear IHl. rewrite next_start_app. apply tiles_app_inv in H. destruct H as (c & _ & H). cbn in H.
    destruct H as (_ & _ & H). exact H.
Qed.

Lemma add_loop_none ue start delta lvl k : forall i, 0 < delta ->
  ue < start + qn (S i) * delta -> add_loop arith_Q ue start delta lvl i k = [].
Proof.
  induction k as [|k IH]; intros i Hd H; cbn [add_loop]; [reflexivity|].
  cbn [tle arith_Q tadd tmul tof_nat].
  destruct (Qle_bool (start + qn (S i) * delta) ue) eqn:E.
  - apply Qle_bool_iff in E. lra.
  - apply IH; auto. rewrite (qn_S (S i)). lra.
Qed.

Lemma add_loop_spec ue start delta lvl k : forall i, 0 < delta ->
  exists e, tiles (start + qn i * delta) e (add_loop arith_Q ue start delta lvl i k) /\
    e <= start + qn (i + k) * delta /\
    (start + qn (i + k) * delta <= ue -> e == start + qn (i + k) * delta) /\
    (e <= ue \/ e == start + qn i * delta) /\
    (e == start + qn (i + k) * delta \/ ue < e + delta).
Proof.
  induction k as [|k IH]; intros i Hd; cbn [add_loop].
  - exists (start + qn i * delta). rewrite Nat.add_0_r. cbn. repeat split; try lra; try reflexivity.
  - cbn [tle arith_Q tadd tmul tof_nat].
    destruct (Qle_bool (start + qn (S i) * delta) ue) eqn:E.
    + apply Qle_bool_iff in E. destruct (IH (S i) Hd) as (e & H1 & H2 & H3 & H4 & H5).
      replace (i + S k)%nat with (S i + k)%nat by lia.
      exists e. split; [|repeat split; auto].
      * cbn [tiles ts_start ts_end]. split; [reflexivity|]. split; [rewrite qn_S; lra|exact H1].
      * left. destruct H4 as [H4|H4]; [exact H4|rewrite H4; exact E].
    + assert (L : ue < start + qn (S i) * delta).
      { apply Qnot_le_lt. intros C. apply Qle_bool_iff in C. congruence. }
      rewrite add_loop_none; auto.
      2:{ rewrite (qn_S (S i)). lra. }
      exists (start + qn i * delta). cbn [tiles]. rewrite qn_add, qn_S in *.
      pose proof (qn_nonneg k). assert (P : 0 <= qn k * delta) by nra.
      repeat split; try lra; right; lra.
Qed.

Lemma add_loop_all ue start delta lvl k : forall i, 0 < delta ->
  start + qn (i + k) * delta <= ue ->
  length (add_loop arith_Q ue start delta lvl i k) = k.
Proof.
  induction k as [|k IH]; intros i Hd H; cbn [add_loop]; [reflexivity|].
  cbn [tle arith_Q tadd tmul tof_nat].
  assert (E : start + qn (S i) * delta <= ue).
  { replace (i + S k)%nat with (S i + k)%nat in H by lia. rewrite qn_add in H.
    pose proof (qn_nonneg k). assert (0 <= qn k * delta) by nra. lra. }
  apply Qle_bool_iff in E. rewrite E. cbn [length]. rewrite IH; auto.
  replace (S i + k)%nat with (i + S k)%nat by lia. exact H.
Qed.

Lemma add_loop_cut ue start a t delta n k : forall i, 0 < delta -> start == a ->
  delta == (t - a) / qn n ->
  start + qn (i + k) * delta <= ue ->
  Forall2 same_step (add_loop arith_Q ue start delta 0 i k) (cut a t n i k).
Proof.
  induction k as [|k IH]; intros i Hd Ha Hdl H; cbn [add_loop cut]; [constructor|].
  cbn [tle arith_Q tadd tmul tof_nat].
  assert (E : start + qn (S i) * delta <= ue).
  { replace (i + S k)%nat with (S i + k)%nat in H by lia. rewrite qn_add in H.
    pose proof (qn_nonneg k). assert (0 <= qn k * delta) by nra. lra. }
  apply Qle_bool_iff in E. rewrite E. constructor.
  - unfold same_step; cbn [ts_start ts_end ts_level fst snd]. rewrite Ha, Hdl. repeat split; reflexivity.
  - apply IH; auto. replace (S i + k)%nat with (i + S k)%nat by lia. exact H.
Qed.

Definition mk (tl : time_list arith_Q) (p : Q * nat) := add_time_stepping arith_Q tl (fst p) (snd p) 0.

Lemma delta_facts (a t : Q) n : a < t -> (0 < n)%nat ->
  0 < (t - a) / qn n /\ qn n * ((t - a) / qn n) == t - a.
Proof.
  intros H N. pose proof (qn_pos n N) as P. split.
  - apply Qlt_shift_div_l; lra.
  - field. lra.
Qed.

Lemma fold_make ue sched : forall a l, increasing_from a sched -> sched_end a sched <= ue -> tiles 0 a l ->
  exists l', fold_left mk sched (mkTL l 0 ue) = mkTL (l ++ l') 0 ue /\
    tiles a (sched_end a sched) l' /\ length l' = sched_steps sched /\
    Forall2 same_step l' (grid a sched).
Proof.
  induction sched as [|[t n] sched IH]; intros a l Hi He Hl.
  - exists []. rewrite app_nil_r. cbn. repeat split; try reflexivity. constructor.
  - cbn [increasing_from] in Hi. destruct Hi as (Hat & Hn & Hi). cbn [sched_end] in He.
    cbn [fold_left]. unfold mk at 2. cbn [fst snd]. unfold add_time_stepping; cbn [steps n_comp user_end].
    set (st := next_start arith_Q l). pose proof (tiles_last _ _ Hl) as Hst. fold st in Hst.
    cbn [tdiv tsub tof_nat arith_Q].
    destruct (delta_facts st t n) as [D1 D2]; [rewrite Hst; exact Hat|exact Hn|].
    set (dl := (t - st) / qn n) in *.
    assert (Hu : t <= ue).
    { clear - Hi He. revert t Hi He. induction sched as [|[u m] s IH]; cbn in *; intros; auto.
      destruct Hi as (H1 & _ & H2). specialize (IH _ H2 He). lra. }
    assert (Hend : st + qn (0 + n) * dl == t) by (cbn [Nat.add]; rewrite D2; lra).
    destruct (add_loop_spec ue st dl 0 n 0 D1) as (e & T1 & _ & T2 & _ & _).
    assert (Ee : e == t) by (rewrite T2; [exact Hend|rewrite Hend; exact Hu]).
    destruct (IH t (l ++ add_loop arith_Q ue st dl 0 0 n) Hi He) as (l' & F1 & F2 & F3 & F4).
    { eapply tiles_app; [exact Hl|]. eapply tiles_eq; [| exact Ee | exact T1]. cbn. rewrite Hst. field. }
    exists (add_loop arith_Q ue st dl 0 0 n ++ l').
    split; [rewrite F1; rewrite app_assoc; reflexivity|].
    split; [|split].
    + cbn [sched_end]. eapply tiles_app; [|exact F2]. eapply tiles_eq; [|exact Ee|exact T1]. cbn. rewrite Hst. field.
    + rewrite app_length, F3. cbn [sched_steps fold_right snd]. f_equal.
      apply add_loop_all; auto. rewrite Hend. exact Hu.
    + cbn [grid]. apply Forall2_app; [|exact F4].
      apply add_loop_cut; auto. unfold dl. rewrite Hst. reflexivity. rewrite Hend. exact Hu.
Qed.

Lemma fold_make_final ue sched : forall a l b, 0 <= ue -> increasing_from a sched -> tiles 0 b l -> b <= a -> b <= ue ->
  exists l' e, fold_left mk sched (mkTL l 0 ue) = mkTL (l ++ l') 0 ue /\ tiles 0 e (l ++ l') /\ e <= ue.
Proof.
  induction sched as [|[t n] sched IH]; intros a l b Hu Hi Hl Hb Hbu.
  - exists [], b. rewrite app_nil_r. auto.
  - cbn [increasing_from] in Hi. destruct Hi as (Hat & Hn & Hi).
    cbn [fold_left]. unfold mk at 2. cbn [fst snd]. unfold add_time_stepping; cbn [steps n_comp user_end].
    set (st := next_start arith_Q l). pose proof (tiles_last _ _ Hl) as Hst. fold st in Hst.
    cbn [tdiv tsub tof_nat arith_Q].
    destruct (delta_facts st t n) as [D1 D2]; [rewrite Hst; lra|exact Hn|].
    set (dl := (t - st) / qn n) in *.
    destruct (add_loop_spec ue st dl 0 n 0 D1) as (e & T1 & T2 & _ & T4 & _).
    assert (Hend : st + qn (0 + n) * dl == t) by (cbn [Nat.add]; rewrite D2; lra).
    assert (S0 : st + qn 0 * dl == b) by (cbn; rewrite Hst; field).
    destruct (IH t (l ++ add_loop arith_Q ue st dl 0 0 n) e Hu Hi) as (l' & e' & F1 & F2 & F3).
    + eapply tiles_app; [exact Hl|]. eapply tiles_eq; [exact S0|reflexivity|exact T1].
    + rewrite Hend in T2. exact T2.
    + destruct T4 as [T4|T4]; [exact T4|]. rewrite T4, S0. exact Hbu.
    + exists (add_loop arith_Q ue st dl 0 0 n ++ l'), e'. rewrite app_assoc. auto.
Qed.

Lemma sched_end_rev a sched t n r : rev sched = (t, n) :: r -> sched_end a sched = t.
Proof.
  intros E. assert (sched = rev r ++ [(t, n)]) as ->.
  { rewrite <- (rev_involutive sched), E. reflexivity. }
  generalize (rev r) as l. intros l. revert a.
  induction l as [|[u m] l IH]; intros a; cbn; auto.
Qed.

Lemma tl_make_correct sched : sched <> [] -> increasing_from 0 sched ->
  exists tl, tl_make arith_Q sched = Ok tl /\ n_comp tl = 0%nat /\
    tiles 0 (sched_end 0 sched) (steps tl) /\ Forall2 same_step (steps tl) (grid 0 sched) /\
    length (steps tl) = sched_steps sched.
Proof.
  intros Hne Hi. unfold tl_make. change (@rev (T arith_Q * nat) sched) with (@rev (Q * nat) sched). destruct (rev sched) as [|[t n] r] eqn:E.
  - destruct sched; [contradiction|]. apply (f_equal (@rev _)) in E. rewrite rev_involutive in E. discriminate.
  - pose proof (sched_end_rev 0 sched t n r E) as He.
    destruct (fold_make t sched 0 [] Hi) as (l' & F1 & F2 & F3 & F4).
    + rewrite He. apply Qle_refl.
    + reflexivity.
    + exists (mkTL l' 0 t). split; [|cbn; auto].
      exact (f_equal Ok F1).
Qed.

Lemma tl_make1_correct (e : Q) n : 0 < e -> (0 < n)%nat ->
  exists l, tl_make1 arith_Q e n = mkTL (A := arith_Q) l 0 e /\ tiles 0 e l /\ length l = n /\
            Forall2 same_step l (cut 0 e n 0 n).
Proof.
  intros He Hn. destruct (fold_make e [(e, n)] 0 []) as (l & F1 & F2 & F3 & F4).
  - cbn; auto.
  - cbn. apply Qle_refl.
  - reflexivity.
  - exists l. split; [exact F1|]. split; [exact F2|]. cbn in F3, F4. rewrite app_nil_r in F4.
    split; [lia|exact F4].
Qed.

Lemma tl_make_final_correct sched (final : Q) : 0 <= final -> increasing_from 0 sched ->
  exists l e, tl_make_final arith_Q sched final = mkTL (A := arith_Q) l 0 final /\ tiles 0 e l /\ e <= final.
Proof.
  intros Hf Hi. destruct (fold_make_final final sched 0 [] 0 Hf Hi) as (l' & e & F1 & F2 & F3);
    try reflexivity; try lra.
  exists l', e. split; [exact F1|]. auto.
Qed.

(** ** Histories of remove / split *)
Lemma split_tiles (a b : Q) s l : tiles a b (s :: l) ->
  let mid := (ts_start s : Q) + ((ts_end s : Q) - ts_start s) / qn 2 in
  tiles a b (mkStep (A := arith_Q) (ts_start s) mid (S (ts_level s)) ::
             mkStep (A := arith_Q) mid (ts_end s) (S (ts_level s)) :: l).
Proof.
  intros (H1 & H2 & H3) mid. cbn [tiles ts_start ts_end].
  assert (M : mid == ((ts_start s : Q) + ts_end s) * (1 # 2)).
  { unfold mid. cbn. field. }
  repeat split; auto; try reflexivity; lra.
Qed.

Lemma tl_run_correct ops : forall done tl done' tl' a b,
  tiles a b (done ++ steps tl) -> n_comp tl = length done ->
  tl_run arith_Q ops done tl = Ok (done', tl') ->
  tiles a b (done' ++ steps tl') /\ n_comp tl' = length done' /\
  length done' = (length done + count_removes ops)%nat /\
  number_of_time_step arith_Q tl' = (number_of_time_step arith_Q tl + count_splits ops)%nat /\
  user_end tl' = user_end tl.
Proof.
  induction ops as [|[|] ops IH]; intros done tl done' tl' a b Ht Hn E; cbn [tl_run] in E.
  - injection E as <- <-. unfold count_removes, count_splits, number_of_time_step; cbn. repeat split; auto; lia.
  - unfold get_current, remove_current in E. destruct (steps tl) as [|s l] eqn:S; [discriminate|].
    cbn [bind] in E. apply IH with (a := a) (b := b) in E.
    + destruct E as (E1 & E2 & E3 & E4 & E5). rewrite app_length in E3. cbn [length] in E3.
      unfold count_removes, count_splits, number_of_time_step in *; cbn [filter length steps n_comp user_end] in *.
      rewrite S. cbn [length]. repeat split; auto; lia.
    + cbn [steps]. rewrite <- app_assoc. exact Ht.
    + cbn [n_comp]. rewrite app_length; cbn. lia.
  - unfold split_current, get_current in E. destruct (steps tl) as [|s l] eqn:S; [discriminate|].
    cbn [bind] in E. apply IH with (a := a) (b := b) in E.
    + destruct E as (E1 & E2 & E3 & E4 & E5).
      unfold count_removes, count_splits, number_of_time_step in *; cbn [filter length steps n_comp user_end] in *.
      rewrite S. cbn [length]. repeat split; auto; lia.
    + cbn [steps]. apply tiles_app_inv in Ht. destruct Ht as (c & C1 & C2).
      eapply tiles_app; [exact C1|]. apply (split_tiles _ _ _ _ C2).
    + exact Hn.
Qed.

Lemma tl_run_app o1 o2 : forall done tl,
  tl_run arith_Q (o1 ++ o2) done tl =
  bind (tl_run arith_Q o1 done tl) (fun p => tl_run arith_Q o2 (fst p) (snd p)).
Proof.
  induction o1 as [|[|] o1 IH]; intros done tl; cbn [app tl_run].
  - reflexivity.
  - destruct (get_current arith_Q tl); cbn [bind]; auto.
    destruct (remove_current arith_Q tl); cbn [bind]; auto.
  - destruct (split_current arith_Q tl); cbn [bind]; auto.
Qed.

Lemma tl_run_progress ops tl done' tl' op :
  tl_run arith_Q ops [] tl = Ok (done', tl') ->
  ((exists r, tl_run arith_Q (ops ++ [op]) [] tl = Ok r) <-> steps tl' <> []).
Proof.
  intros E. rewrite tl_run_app, E. cbn [bind fst snd].
  destruct op; cbn [tl_run]; unfold remove_current, split_current, get_current;
    destruct (steps tl') as [|s l]; cbn [bind]; split; intros H; try discriminate;
    try (destruct H as [r H]; discriminate); try contradiction; eexists; reflexivity.
Qed.

Lemma split_halves (tl tl' : time_list arith_Q) : split_current arith_Q tl = Ok tl' ->
  exists s s1 s2 l, steps tl = s :: l /\ steps tl' = s1 :: s2 :: l /\
    (increment_time arith_Q s1 : Q) == (increment_time arith_Q s : Q) / 2 /\
    (increment_time arith_Q s2 : Q) == (increment_time arith_Q s : Q) / 2 /\
    ts_level s1 = S (ts_level s) /\ ts_level s2 = S (ts_level s).
Proof.
  unfold split_current, get_current. destruct (steps tl) as [|s l]; [discriminate|].
  cbn [bind]. intros [= <-]. eexists s, _, _, l. split; [reflexivity|]. split; [reflexivity|].
  unfold increment_time; cbn. repeat split; try reflexivity; field.
Qed.
