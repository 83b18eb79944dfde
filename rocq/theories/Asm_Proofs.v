From Coq Require Import List Arith Bool Lia Ring.
From Verif Require Import Common LinAlg Mesh_Model Asm_Model Asm_Spec.
Import ListNotations.

(** ** ranks *)
Lemma rank_le dir i j : i <= j -> rank dir i <= rank dir j.
Proof. intros H. induction H; cbn; lia. Qed.
Lemma rank_lt dir i j : i < j -> dir i = false -> rank dir i < rank dir j.
Proof. intros H D. apply Nat.lt_le_trans with (rank dir (S i)); [cbn; rewrite D; lia|apply rank_le; lia]. Qed.
Lemma rank_inj dir i j : dir i = false -> dir j = false -> rank dir i = rank dir j -> i = j.
Proof.
  intros Di Dj E. destruct (Nat.lt_trichotomy i j) as [H|[H|H]]; [|exact H|].
  - pose proof (rank_lt dir i j H Di). lia.
  - pose proof (rank_lt dir j i H Dj). lia.
Qed.
Lemma rank_surj dir n k : k < rank dir n -> exists i, i < n /\ dir i = false /\ rank dir i = k.
Proof.
  induction n as [|n IH]; cbn; [lia|]. intros H. destruct (dir n) eqn:D.
  - destruct IH as (i & ?); [lia|]. exists i. split; [lia|tauto].
  - destruct (Nat.eq_dec k (rank dir n)) as [->|N]; [exists n; auto|].
    destruct IH as (i & ?); [lia|]. exists i. split; [lia|tauto].
Qed.
Lemma rank_bound dir n : rank dir n <= n.
Proof. induction n; cbn; [lia|]. destruct (dir n); lia. Qed.

(** ** number_faces *)
Lemma vset_at_ok' {A} (l : list A) i x : i < length l -> exists l', vset_at l i x = Ok l' /\ length l' = length l /\
  nth_error l' i = Some x /\ forall j, j <> i -> nth_error l' j = nth_error l j.
Proof.
  intros H. destruct (upd_some l i x H) as [l' U]. exists l'. unfold vset_at. rewrite U.
  split; [reflexivity|]. split; [eapply upd_length; eauto|]. split; [eapply upd_nth_same; eauto|].
  intros j N. eapply upd_nth_other; eauto.
Qed.

Section Tables.
  Context {F : Type} (faces : list F) (isdir : F -> outcome bool) (dir : nat -> bool).
  Context (HD : forall i f, nth_error faces i = Some f -> isdir f = Ok (dir i)).
  Let n := length faces.

  Lemma count_if_spec : forall l k, (forall i f, nth_error l i = Some f -> isdir f = Ok (dir (k + i))) ->
    exists c, count_if isdir l = Ok c /\ c + (rank dir (k + length l) - rank dir k) = length l.
  Proof.
    induction l as [|f l IH]; intros k H; cbn [count_if].
    - exists 0. split; [reflexivity|]. cbn. rewrite Nat.add_0_r. lia.
    - rewrite (H 0 f eq_refl). cbn [bind]. destruct (IH (S k)) as (c & -> & E).
      { intros i g Hg. replace (S k + i) with (k + S i) by lia. apply (H (S i)). exact Hg. }
      cbn [bind]. rewrite Nat.add_0_r. cbn [length]. replace (k + S (length l)) with (S k + length l) by lia.
      pose proof (rank_le dir (S k) (S k + length l) ltac:(lia)) as RL. cbn [rank] in E, RL.
      destruct (dir k); (eexists; split; [reflexivity|]); lia.
  Qed.

  Definition tab_ok (i : nat) (t : tables) : Prop :=
    length (compress_table t) = n /\ length (expand_table t) = rank dir n /\
    (forall j, j < i -> nth_error (compress_table t) j = Some (if dir j then 0 else rank dir j)) /\
    (forall j, i <= j -> j < n -> nth_error (compress_table t) j = Some 0) /\
    (forall j, j < i -> dir j = false -> nth_error (expand_table t) (rank dir j) = Some j).

  Lemma number_faces_spec : forall fs i t, i + length fs = n -> (forall j f, nth_error fs j = Some f -> nth_error faces (i + j) = Some f) ->
    tab_ok i t -> exists t', number_faces isdir fs i (rank dir i) t = Ok t' /\ tab_ok n t'.
  Proof.
    induction fs as [|f fs IH]; intros i t L H T; cbn [number_faces].
    - exists t. split; [reflexivity|]. cbn in L. rewrite Nat.add_0_r in L. rewrite <- L at 1. exact T.
    - cbn in L. rewrite (HD i f) by (rewrite <- (Nat.add_0_r i); apply (H 0); reflexivity). cbn [bind].
      assert (N : forall j g, nth_error fs j = Some g -> nth_error faces (i + 1 + j) = Some g).
      { intros j g Hg. rewrite <- Nat.add_assoc. apply (H (S j)). exact Hg. }
      assert (RK : rank dir (i + 1) = rank dir i + (if dir i then 0 else 1)) by (rewrite Nat.add_1_r; reflexivity).
      destruct T as (T1 & T2 & T3 & T4 & T5). destruct (dir i) eqn:D; cbn [negb].
      + destruct (IH (i + 1) t) as (t' & E & T'); [lia|exact N| |].
        * repeat split; auto; intros j Hj.
          -- destruct (Nat.eq_dec j i) as [->|]; [rewrite D; apply T4; lia|apply T3; lia].
          -- intros Hj2. apply T4; lia.
          -- intros Dj. destruct (Nat.eq_dec j i) as [->|]; [congruence|apply T5; [lia|exact Dj]].
        * exists t'. split; [|exact T']. rewrite RK in E. rewrite ?Nat.add_0_r in E. exact E.
      + destruct (vset_at_ok' (compress_table t) i (rank dir i)) as (c & -> & Lc & Nc & Oc); [lia|]. cbn [bind].
        destruct (vset_at_ok' (expand_table t) (rank dir i) i) as (e & -> & Le & Ne & Oe).
        { rewrite T2. apply rank_lt; [lia|exact D]. }
        cbn [bind]. destruct (IH (i + 1) (mkTab c e)) as (t' & E & T'); [lia|exact N| |].
        * repeat split; cbn [compress_table expand_table]; try congruence; intros j Hj.
          -- destruct (Nat.eq_dec j i) as [->|]; [rewrite D; exact Nc|rewrite Oc by lia; apply T3; lia].
          -- intros Hj2. rewrite Oc by lia. apply T4; lia.
          -- intros Dj. destruct (Nat.eq_dec j i) as [->|]; [exact Ne|]. rewrite Oe; [apply T5; [lia|exact Dj]|].
             intros E. apply rank_inj in E; auto; lia.
        * exists t'. split; [|exact T']. rewrite RK in E. rewrite ?Nat.add_0_r in E. exact E.
  Qed.

  Lemma asm_make_spec (K : cring) ub fbs : exists a, asm_make (K:=K) isdir ub faces fbs = Ok a /\
    tab_ok n (tab a) /\ use_bnd a = ub /\ num_all_faces a = n /\ num_other_faces a = rank dir n /\ num_dirichlet_faces a = n - rank dir n /\
    Asm_Model.fbs a = fbs /\ system_size a = fbs * rank dir n /\ triplets a = [] /\
    vsize (RHS a) = system_size a /\ (forall i, vent (RHS a) i = c0) /\ mrows (LHS a) = system_size a /\ mcols (LHS a) = system_size a.
  Proof.
    unfold asm_make. destruct (count_if_spec faces 0) as (c & -> & E); [exact HD|]. cbn [bind]. cbn in E. fold n in E. fold n.
    pose proof (rank_bound dir n) as RB. replace (n - c) with (rank dir n) by lia.
    destruct (number_faces_spec faces 0 (mkTab (repeat 0 n) (repeat 0 (rank dir n)))) as (t & H & T).
    - reflexivity.
    - intros j f H. exact H.
    - repeat split; cbn; try (rewrite repeat_length; reflexivity); intros j; try lia. intros _ Hj.
      clear -Hj. revert j Hj. generalize n. induction n0 as [|m IH]; intros [|j] Hj; cbn; try lia; auto. apply IH; lia.
    - cbn [rank] in H. rewrite H. cbn [bind]. eexists. split; [reflexivity|]. cbn.
      repeat (split; [first [exact T|reflexivity|lia]|]). reflexivity.
  Qed.
End Tables.

(** ** the local assembly *)
Section Local.
  Context {K : cring}.
  Add Ring Kring : (cth K).
  Local Open Scope k_scope.

  Definition tsum (ts : list (triplet K)) r c : K :=
    suml (map t_val (filter (fun t => (t_row t =? r) && (t_col t =? c))%nat ts)).
  Lemma tsum_app a b r c : tsum (a ++ b) r c = tsum a r c + tsum b r c.
  Proof. unfold tsum. now rewrite filter_app, map_app, suml_app. Qed.
  Lemma tsum_one t r c : tsum [t] r c = only ((t_row t =? r) && (t_col t =? c)) (t_val t).
  Proof. unfold tsum, only. cbn [filter]. destruct ((t_row t =? r) && (t_col t =? c)); cbn; ring. Qed.
  Definition in_range n (ts : list (triplet K)) := forall t, In t ts -> (t_row t < n /\ t_col t < n)%nat.

  Lemma only_false (x : K) : only false x = 0. Proof. reflexivity. Qed.

  Context (lhs : mat K) (rhs : vec K) (m : list (assembly_index * K)).
  Let A (p : nat) := match nth_error m p with Some (x, _) => assem x | None => false end.
  Let G (p : nat) := match nth_error m p with Some (x, _) => idx x | None => 0%nat end.
  Let D (p : nat) := match nth_error m p with Some (_, d) => d | None => 0 end.

  Lemma col_spec sz i : (G i < sz)%nat -> (forall p, (p < length m)%nat -> A p = true -> (G p < sz)%nat) ->
    forall js ts R, (forall j, In j js -> (j < length m)%nat) -> vsize R = sz ->
    exists ts' R', floop (asm_col lhs m i (G i)) js (ts, R) = Ok (ts ++ ts', R') /\ in_range sz ts' /\
      (forall r c, tsum ts' r c = suml (map (fun j => only (A j && (G i =? r) && (G j =? c)) (ment lhs i j)) js)) /\
      vsize R' = sz /\
      forall k, vent R' k = vent R k - only (k =? G i) (suml (map (fun j => only (negb (A j)) (ment lhs i j * D j)) js)).
  Proof.
    intros Hi HG. induction js as [|j js IH]; intros ts R Hj HR; cbn [floop].
    - exists [], R. rewrite app_nil_r. split; [reflexivity|]. split; [intros t []|]. split; [reflexivity|]. split; [exact HR|].
      intros k. cbn. unfold only. destruct (k =? G i)%nat; ring.
    - assert (Lj : (j < length m)%nat) by (apply Hj; left; reflexivity).
      unfold asm_col at 1. unfold vget. destruct (nth_error m j) as [[x d]|] eqn:E; [|apply nth_error_None in E; lia].
      cbn [bind fst snd]. assert (AJ : A j = assem x) by (unfold A; rewrite E; reflexivity).
      assert (GJ : G j = idx x) by (unfold G; rewrite E; reflexivity). assert (DJ : D j = d) by (unfold D; rewrite E; reflexivity).
      destruct (assem x) eqn:AX.
      + unfold as_size_t. rewrite AX. cbn [negb bind].
        destruct (IH (ts ++ [mkTr (G i) (idx x) (ment lhs i j)]) R) as (ts' & R' & -> & Q1 & Q2 & Q3 & Q4); [intros; apply Hj; right; assumption|exact HR|].
        exists (mkTr (G i) (idx x) (ment lhs i j) :: ts'), R'. split; [rewrite <- app_assoc; reflexivity|]. split.
        { intros t [<-|Ht]; [cbn; split; [exact Hi|rewrite <- GJ; apply HG; [exact Lj|rewrite AJ; reflexivity]]|apply Q1; exact Ht]. }
        split; [|split; [exact Q3|]].
        * intros r c. change (mkTr (G i) (idx x) (ment lhs i j) :: ts') with ([mkTr (G i) (idx x) (ment lhs i j)] ++ ts').
          rewrite tsum_app, tsum_one, Q2. cbn [map suml t_row t_col t_val]. rewrite AJ, GJ. reflexivity.
        * intros k. rewrite Q4. cbn [map suml]. rewrite AJ. cbn [negb]. unfold only at 5. unfold only. destruct (k =? G i)%nat; ring.
      + unfold vec_add. rewrite HR, (proj2 (Nat.ltb_lt _ _)) by exact Hi. cbn [bind].
        destruct (IH ts (mkVec sz (fun k => if (k =? G i)%nat then vent R k + - (ment lhs i j * d) else vent R k))) as (ts' & R' & -> & Q1 & Q2 & Q3 & Q4);
          [intros; apply Hj; right; assumption|reflexivity|].
        exists ts', R'. split; [reflexivity|]. split; [exact Q1|]. split; [|split; [exact Q3|]].
        * intros r c. rewrite Q2. cbn [map suml]. rewrite AJ. cbn [andb only]. ring.
        * intros k. rewrite Q4. cbn [vent map suml]. rewrite AJ, DJ. cbn [negb]. unfold only. destruct (k =? G i)%nat; ring.
  Qed.

  Lemma row_spec sz : (forall p, (p < length m)%nat -> A p = true -> (G p < sz)%nat) -> mcols lhs = length m -> vsize rhs = length m ->
    forall is ts R, (forall i, In i is -> (i < length m)%nat) -> vsize R = sz ->
    exists ts' R', floop (asm_row lhs rhs m) is (ts, R) = Ok (ts ++ ts', R') /\ in_range sz ts' /\
      (forall r c, tsum ts' r c = suml (map (fun i => sumn (length m) (fun j => only ((A i && (G i =? r)) && (A j && (G j =? c))) (ment lhs i j))) is)) /\
      vsize R' = sz /\
      forall k, vent R' k = vent R k + suml (map (fun i => only (A i && (G i =? k))
         (vent rhs i - sumn (length m) (fun j => only (negb (A j)) (ment lhs i j * D j)))) is).
  Proof.
    intros HG HC HRs. induction is as [|i is IH]; intros ts R Hi HR; cbn [floop].
    - exists [], R. rewrite app_nil_r. split; [reflexivity|]. split; [intros t []|]. split; [reflexivity|]. split; [exact HR|].
      intros k. cbn. ring.
    - assert (Li : (i < length m)%nat) by (apply Hi; left; reflexivity).
      unfold asm_row at 1. unfold vget. destruct (nth_error m i) as [[x d]|] eqn:E; [|apply nth_error_None in E; lia].
      cbn [bind fst snd]. assert (AI : A i = assem x) by (unfold A; rewrite E; reflexivity).
      assert (GI : G i = idx x) by (unfold G; rewrite E; reflexivity).
      destruct (assem x) eqn:AX; cbn [negb].
      + unfold as_size_t. rewrite AX. cbn [negb bind]. rewrite <- GI.
        assert (LG : (G i < sz)%nat) by (apply HG; [exact Li|rewrite AI; reflexivity]).
        destruct (col_spec sz i LG HG (seq 0 (mcols lhs)) ts R) as (ts1 & R1 & -> & Q1 & Q2 & Q3 & Q4).
        { intros j Hj. apply in_seq in Hj. lia. }
        { exact HR. }
        cbn [bind snd fst]. unfold vec_get. rewrite HRs, (proj2 (Nat.ltb_lt _ _)) by exact Li. cbn [bind].
        unfold vec_add. rewrite Q3, (proj2 (Nat.ltb_lt _ _)) by exact LG. cbn [bind].
        destruct (IH (ts ++ ts1) (mkVec sz (fun k => if (k =? G i)%nat then vent R1 k + vent rhs i else vent R1 k))) as (ts' & R' & -> & P1 & P2 & P3 & P4);
          [intros; apply Hi; right; assumption|reflexivity|].
        exists (ts1 ++ ts'), R'. split; [rewrite app_assoc; reflexivity|]. split.
        { intros t Ht. apply in_app_or in Ht. destruct Ht; [apply Q1|apply P1]; assumption. }
        split; [|split; [exact P3|]].
        * intros r c. rewrite tsum_app, Q2, P2. cbn [map suml]. f_equal. rewrite suml_map_seq, HC. apply sumn_ext. intros j Hj.
          rewrite AI. f_equal. destruct (A j), (G i =? r)%nat; reflexivity.
        * intros k. rewrite P4. cbn [vent map suml]. rewrite Q4, suml_map_seq, HC, AI. cbn [andb]. rewrite (Nat.eqb_sym k (G i)).
          unfold only. destruct (G i =? k)%nat; ring.
      + cbn [bind]. destruct (IH ts R) as (ts' & R' & -> & P1 & P2 & P3 & P4); [intros; apply Hi; right; assumption|exact HR|].
        exists ts', R'. split; [reflexivity|]. split; [exact P1|]. split; [|split; [exact P3|]].
        * intros r c. rewrite P2. cbn [map suml]. rewrite sumn_zero; [ring|]. intros j Hj. rewrite AI. reflexivity.
        * intros k. rewrite P4. cbn [map suml]. rewrite AI. cbn [andb only]. ring.
  Qed.
End Local.
