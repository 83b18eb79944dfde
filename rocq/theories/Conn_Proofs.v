From Coq Require Import List Arith Bool Permutation Sorted Lia.
From Verif Require Import Common Mesh_Model Mesh_Spec Mesh_Proofs Elem_Model Elem_Spec Elem_Proofs
  Refine_Proofs Hier_Proofs Conn_Model Conn_Spec.
Import ListNotations.
Local Open Scope nat_scope.

(** ** The conversion table *)
Definition total_set (set : list nat -> nat -> nat -> outcome (list nat)) : Prop :=
  forall t i x t', upd t i x = Some t' -> set t i x = Ok t'.
Lemma vset_total : total_set vset.
Proof. intros t i x t' E. unfold vset. rewrite E. reflexivity. Qed.
Lemma vset_at_total : total_set vset_at.
Proof. intros t i x t' E. unfold vset_at. rewrite E. reflexivity. Qed.

Lemma build_table_ok set (HS : total_set set) items : forall k t,
  NoDup (map fst items) -> Forall (fun id => id < length t) (map fst items) ->
  exists t', build_table set k items t = Ok t' /\ length t' = length t /\
    (forall i it, nth_error items i = Some it -> nth_error t' (fst it) = Some (k + i)) /\
    (forall j, ~ In j (map fst items) -> nth_error t' j = nth_error t j).
Proof.
  induction items as [|it items IH]; intros k t ND B.
  - exists t. cbn. repeat split; auto. intros [|i] it H; discriminate.
  - cbn [map] in ND, B. apply NoDup_cons_iff in ND as [N1 ND]. apply Forall_cons_iff in B as [B1 B].
    destruct (upd_some t (fst it) k B1) as (t1 & E1). cbn [build_table]. rewrite (HS _ _ _ _ E1). cbn [bind].
    pose proof (upd_length _ _ _ _ E1) as L1.
    destruct (IH (S k) t1 ND) as (t' & E & L & P & Q).
    { rewrite L1. exact B. }
    exists t'. split; [exact E|]. split; [congruence|]. split.
    + intros [|i] x H; cbn in H.
      * injection H as H. subst x. rewrite (Q (fst it) N1). rewrite (upd_nth_same _ _ _ _ E1). f_equal. lia.
      * rewrite (P i x H). f_equal. lia.
    + intros j Hj. cbn [map] in Hj. rewrite Q by (intros H; apply Hj; right; exact H).
      apply (upd_nth_other _ _ _ _ _ E1). intros Ej. apply Hj. left. exact Ej.
Qed.

(** [p] tells where the sorted items went *)
Record placed (items : list (nat * list nat)) (t : list nat) (p : nat -> nat) : Prop := {
  pl_table : forall i, i < length items -> nth_error t i = Some (p i);
  pl_perm : renumbering (length items) p;
  pl_pos : forall id x, In (id, x) items -> nth_error (std_sort snd_ltb items) (p id) = Some (id, x)
}.

Lemma numbered_nodup {A} (l : list (nat * A)) : numbered l -> NoDup (map fst l).
Proof. intros N. apply (Permutation_NoDup (Permutation_sym N)). apply seq_NoDup. Qed.
Lemma numbered_lt {A} (l : list (nat * A)) i x : numbered l -> In (i, x) l -> i < length l.
Proof.
  intros N H. apply (in_map fst) in H. apply (Permutation_in _ N) in H. apply in_seq in H. cbn in H. lia.
Qed.
Lemma numbered_ex {A} (l : list (nat * A)) i : numbered l -> i < length l -> exists x, In (i, x) l.
Proof.
  intros N H. assert (I : In i (seq 0 (length l))) by (apply in_seq; lia).
  apply (Permutation_in _ (Permutation_sym N)) in I. apply in_map_iff in I as ([j x] & <- & I). eauto.
Qed.
Lemma numbered_fun {A} (l : list (nat * A)) i x y : numbered l -> In (i, x) l -> In (i, y) l -> x = y.
Proof.
  intros N. apply numbered_nodup in N. induction l as [|[j z] l IH]; cbn; [intros []|].
  cbn in N. apply NoDup_cons_iff in N as [N1 N]. intros [E1|H1] [E2|H2].
  - congruence.
  - injection E1 as -> ->. exfalso. apply N1. apply (in_map fst) in H2. exact H2.
  - injection E2 as -> ->. exfalso. apply N1. apply (in_map fst) in H1. exact H1.
  - auto.
Qed.

Lemma numbered_sort l : numbered l -> numbered (std_sort snd_ltb l).
Proof.
  intros N. unfold numbered. pose proof (std_sort_perm snd_ltb l) as P. rewrite (Permutation_length P).
  rewrite (Permutation_map fst P). exact N.
Qed.

Lemma table_placed set (HS : total_set set) items t0 : numbered items -> length t0 = length items ->
  exists t p, build_table set 0 (std_sort snd_ltb items) t0 = Ok t /\ length t = length items /\ placed items t p.
Proof.
  intros N L. pose proof (numbered_sort _ N) as NS. pose proof (std_sort_perm snd_ltb items) as P.
  pose proof (Permutation_length P) as PL.
  destruct (build_table_ok set HS (std_sort snd_ltb items) 0 t0) as (t & E & Lt & H & _).
  { apply numbered_nodup, NS. }
  { apply Forall_forall. intros i Hi. apply in_map_iff in Hi as ([j x] & <- & Hi). cbn.
    apply (numbered_lt _ _ _ NS) in Hi. lia. }
  exists t, (fun i => nth i t 0). split; [exact E|]. split; [congruence|].
  assert (POS : forall id x, In (id, x) items ->
    nth_error t id = Some (nth id t 0) /\ nth_error (std_sort snd_ltb items) (nth id t 0) = Some (id, x)).
  { intros id x Hx. apply (Permutation_in _ (Permutation_sym P)) in Hx. apply In_nth_error in Hx as (i & Hi).
    pose proof (H i (id, x) Hi) as Ht. cbn in Ht. rewrite (nth_error_nth _ _ 0 Ht). split; [exact Ht|exact Hi]. }
  split.
  - intros i Hi. destruct (numbered_ex _ _ N Hi) as (x & Hx). apply (POS i x Hx).
  - apply NoDup_Permutation_bis.
    + apply NoDup_nth_error. intros i j Hi Eq. rewrite map_length, seq_length in Hi.
      rewrite (map_nth_error (fun i => nth i t 0) i (seq 0 (length items)) (d := i)) in Eq
        by (rewrite nth_error_nth' with (d := 0) by (rewrite seq_length; exact Hi); rewrite seq_nth by exact Hi; reflexivity).
      assert (Hj : j < length items).
      { destruct (lt_dec j (length items)); [assumption|]. rewrite (proj2 (nth_error_None _ _)) in Eq; [discriminate|].
        rewrite map_length, seq_length. lia. }
      rewrite (map_nth_error (fun i => nth i t 0) j (seq 0 (length items)) (d := j)) in Eq
        by (rewrite nth_error_nth' with (d := 0) by (rewrite seq_length; exact Hj); rewrite seq_nth by exact Hj; reflexivity).
      injection Eq as Eq. destruct (numbered_ex _ _ N Hi) as (x & Hx). destruct (numbered_ex _ _ N Hj) as (y & Hy).
      destruct (POS i x Hx) as (_ & A). destruct (POS j y Hy) as (_ & B). rewrite Eq in A. rewrite A in B. congruence.
    + rewrite map_length. reflexivity.
    + intros q Hq. apply in_map_iff in Hq as (i & <- & Hi). apply in_seq in Hi. cbn in Hi.
      destruct (numbered_ex _ _ N (proj2 Hi)) as (x & Hx). destruct (POS i x Hx) as (_ & A).
      apply in_seq. cbn. split; [lia|]. rewrite <- PL. apply nth_error_Some. congruence.
  - intros id x Hx. apply (POS id x Hx).
Qed.

Lemma resize_length n t : length (resize n t) = n.
Proof. unfold resize. rewrite app_length, firstn_length, repeat_length. lia. Qed.

Lemma conv_list_ok t p n l : (forall i, i < n -> nth_error t i = Some (p i)) -> Forall (fun e => e < n) l ->
  conv_list t l = Ok (map p l).
Proof.
  intros T. induction 1 as [|e l H _ IH]; [reflexivity|]. cbn [conv_list map]. rewrite (vget_ok _ _ _ (T e H)). cbn [bind].
  rewrite IH. reflexivity.
Qed.
Lemma conv_all_ok t p n l : (forall i, i < n -> nth_error t i = Some (p i)) ->
  (forall id x, In (id, x) l -> Forall (fun e => e < n) x) ->
  conv_all t l = Ok (map (fun q => (fst q, map p (snd q))) l).
Proof.
  intros T. induction l as [|[i x] l IH]; intros H; [reflexivity|]. cbn [conv_all map fst snd].
  rewrite (conv_list_ok t p n) by (auto; apply (H i); left; reflexivity). cbn [bind].
  rewrite IH by (intros; eapply H; right; eauto). reflexivity.
Qed.
Lemma numbered_conv (p : nat -> nat) (l : list (nat * list nat)) : numbered l -> numbered (map (fun q => (fst q, map p (snd q))) l).
Proof. unfold numbered. rewrite map_map, map_length. cbn. auto. Qed.

Lemma make_elems_ok pts l : Forall (fun q => fst q < length pts) l ->
  make_elems pts l = Ok (map (fun q => mkG (snd q) (nth (fst q) pts [])) l).
Proof.
  induction 1 as [|q l H _ IH]; [reflexivity|]. cbn [make_elems map]. unfold vat.
  rewrite (nth_error_nth' pts [] H). cbn [bind]. rewrite IH. reflexivity.
Qed.

(** ** The groups *)
Section Groups.
  Variables (t : list nat) (n : nat) (p : nat -> nat).
  Hypothesis T : forall i, i < n -> nth_error t i = Some (p i).
  Hypothesis P : renumbering n p.
  Variable get : list nat -> nat -> outcome nat.
  Variable set : list bdesc -> nat -> bdesc -> outcome (list bdesc).
  Hypothesis G : forall i x, nth_error t i = Some x -> get t i = Ok x.
  Hypothesis U : forall b i x b', upd b i x = Some b' -> set b i x = Ok b'.

  Lemma p_lt i : i < n -> p i < n.
  Proof.
    intros H. assert (I : In (p i) (map p (seq 0 n))) by (apply in_map, in_seq; lia).
    apply (Permutation_in _ P) in I. apply in_seq in I. lia.
  Qed.
  Lemma p_inj i j : i < n -> j < n -> p i = p j -> i = j.
  Proof.
    intros Hi Hj E. assert (ND : NoDup (map p (seq 0 n))) by (apply (Permutation_NoDup (Permutation_sym P)), seq_NoDup).
    rewrite NoDup_nth_error in ND. apply ND; [rewrite map_length, seq_length; exact Hi|].
    assert (K : forall k, k < n -> nth_error (map p (seq 0 n)) k = Some (p k)).
    { intros k Hk. apply map_nth_error. rewrite nth_error_nth' with (d := 0) by (rewrite seq_length; exact Hk).
      rewrite seq_nth by exact Hk. reflexivity. }
    rewrite !K by assumption. congruence.
  Qed.

  Lemma mark_members_ok id ms : forall bi, length bi = n -> Forall (fun m => m < n) ms ->
    exists bi', mark_members get set t id ms bi = Ok bi' /\ length bi' = n /\
      forall m, m < n -> (In m ms -> nth_error bi' (p m) = Some (bd_make id true)) /\
        (~ In m ms -> nth_error bi' (p m) = nth_error bi (p m)).
  Proof.
    induction ms as [|m ms IH]; intros bi L H.
    - exists bi. cbn. split; [reflexivity|]. split; [exact L|]. intros k Hk. split; [intros []|reflexivity].
    - apply Forall_cons_iff in H as [Hm H]. cbn [mark_members]. rewrite (G _ _ (T m Hm)). cbn [bind].
      destruct (upd_some bi (p m) (bd_make id true)) as (b1 & E1); [rewrite L; apply p_lt, Hm|].
      rewrite (U _ _ _ _ E1). cbn [bind].
      destruct (IH b1) as (bi' & E & L' & K); [rewrite (upd_length _ _ _ _ E1); exact L|exact H|].
      exists bi'. split; [exact E|]. split; [exact L'|]. intros k Hk. destruct (K k Hk) as (K1 & K2). split.
      + intros [->|I]; [|auto]. destruct (in_dec Nat.eq_dec k ms) as [I|I]; [auto|]. rewrite (K2 I).
        apply (upd_nth_same _ _ _ _ E1).
      + intros I. rewrite K2 by (intros J; apply I; right; exact J). apply (upd_nth_other _ _ _ _ _ E1).
        intros E'. apply I. left. apply p_inj; auto.
  Qed.

  Lemma mark_groups_ok gs : forall bi, length bi = n -> Forall (fun g => Forall (fun m => m < n) (snd g)) gs ->
    exists bi', mark_groups get set t gs bi = Ok bi' /\ length bi' = n /\
      forall m, m < n -> (forall id, in_last_group gs m id -> nth_error bi' (p m) = Some (bd_make id true)) /\
        (in_no_group gs m -> nth_error bi' (p m) = nth_error bi (p m)).
  Proof.
    induction gs as [|[id ms] gs IH]; intros bi L H.
    - exists bi. cbn. split; [reflexivity|]. split; [exact L|]. intros m Hm. split; [|reflexivity].
      intros id (pre & ms & post & E & _). destruct pre; discriminate.
    - apply Forall_cons_iff in H as [Hm H]. cbn [mark_groups fst snd].
      destruct (mark_members_ok id ms bi L Hm) as (b1 & -> & L1 & K1). cbn [bind].
      destruct (IH b1 L1 H) as (bi' & E & L' & K). exists bi'. split; [exact E|]. split; [exact L'|].
      intros m Hm'. destruct (K m Hm') as (A & B). destruct (K1 m Hm') as (A1 & B1). split.
      + intros k (pre & ms' & post & E' & I & F). destruct pre as [|g pre].
        * cbn in E'. injection E' as -> -> ->. rewrite (B F). apply A1, I.
        * cbn in E'. injection E' as <- ->. apply A. exists pre, ms', post. auto.
      + intros F. apply Forall_cons_iff in F as [F1 F]. rewrite (B F). apply B1, F1.
  Qed.
End Groups.

Lemma make_edge_min a b : make_edge (a, b) = [Nat.min a b; Nat.max a b].
Proof. unfold make_edge. cbn [fst snd]. destruct (Nat.ltb_spec b a).
  - rewrite Nat.min_r, Nat.max_l by lia. reflexivity.
  - rewrite Nat.min_l, Nat.max_r by lia. reflexivity.
Qed.

Lemma numbered_seen d : numbered (cf_edges d) -> numbered (cn_edges (seen d)).
Proof. unfold numbered, seen. cbn [cn_edges]. rewrite map_map, map_length. cbn. auto. Qed.

Lemma edges_placed d te pe : numbered (cf_edges d) -> placed (cn_edges (seen d)) te pe ->
  placed_as (length (cf_edges d)) pe (map snd (std_sort snd_ltb (cn_edges (seen d)))) (edge_item d).
Proof.
  intros N [A B C]. assert (L : length (cn_edges (seen d)) = length (cf_edges d)) by (cbn; apply map_length).
  rewrite L in B. split; [exact B| |].
  - rewrite map_length, (Permutation_length (std_sort_perm snd_ltb _)). exact L.
  - intros i Hi. destruct (numbered_ex _ _ N Hi) as ([a b] & H). exists (make_edge (a, b)). split.
    + apply (map_nth_error snd (pe i) (std_sort snd_ltb (cn_edges (seen d))) (d := (i, make_edge (a, b)))). apply C.
      cbn [cn_edges seen]. apply (in_map (fun e => (fst e, make_edge (snd e)))) in H. exact H.
    + exists a, b. split; [exact H|apply make_edge_min].
Qed.

Section Level.
  (** one level: items that refer to the level below *)
  Variables (items : list (nat * list nat)) (below : nat -> nat) (pts : list (list nat)).
  Hypothesis N : numbered items.
  Hypothesis LP : length pts = length items.
  Let conv := map (fun q => (fst q, map below (snd q))) items.

  Lemma level_elems : make_elems pts (std_sort snd_ltb conv) =
    Ok (map (fun q => mkG (snd q) (nth (fst q) pts [])) (std_sort snd_ltb conv)).
  Proof.
    apply make_elems_ok. apply Forall_forall. intros [i x] H. cbn [fst].
    apply (Permutation_in _ (std_sort_perm _ _)) in H. apply (numbered_lt _ _ _ (numbered_conv below _ N)) in H.
    unfold conv in H. rewrite map_length in H. lia.
  Qed.
  Lemma level_placed t p : placed conv t p ->
    placed_as (length items) p (map (fun q => mkG (snd q) (nth (fst q) pts [])) (std_sort snd_ltb conv))
      (fun i x => exists es, In (i, es) items /\ g_sub x = map below es /\ nth_error pts i = Some (g_pts x)).
  Proof.
    intros [A B C]. assert (L : length conv = length items) by apply map_length. rewrite L in B. split; [exact B| |].
    - rewrite map_length, (Permutation_length (std_sort_perm snd_ltb _)). exact L.
    - intros i Hi. destruct (numbered_ex _ _ N Hi) as (x & H). exists (mkG (map below x) (nth i pts [])). split.
      + apply (map_nth_error (fun q => mkG (snd q) (nth (fst q) pts [])) (p i) (std_sort snd_ltb conv) (d := (i, map below x))).
        apply C. apply (in_map (fun q => (fst q, map below (snd q)))) in H. exact H.
      + exists x. split; [exact H|]. split; [reflexivity|]. cbn [g_pts]. apply nth_error_nth'. lia.
  Qed.
  Lemma level_subs : map g_sub (map (fun q => mkG (snd q) (nth (fst q) pts [])) (std_sort snd_ltb conv)) =
    std_sort lex_ltb (map snd conv).
  Proof. rewrite map_map. cbn. symmetry. apply sort_map. reflexivity. Qed.
  Lemma level_sorted : NoDup (map snd conv) -> sorted_unique lex_ltb (std_sort lex_ltb (map snd conv)).
  Proof. apply sort_nodup_sorted, lex_ltb_sto. Qed.
End Level.

Lemma map_inj_on (p : nat -> nat) n : (forall i j, i < n -> j < n -> p i = p j -> i = j) ->
  forall a b, Forall (fun e => e < n) a -> Forall (fun e => e < n) b -> map p a = map p b -> a = b.
Proof.
  intros PI. induction a as [|x a IH]; intros [|y b] Ha Hb E; try discriminate; [reflexivity|].
  cbn in E. injection E as E1 E2. inversion Ha; inversion Hb; subst. f_equal; [apply PI; auto|apply IH; auto].
Qed.

Lemma conv_nodup (items : list (nat * list nat)) (p : nat -> nat) n : renumbering n p ->
  (forall id x, In (id, x) items -> Forall (fun e => e < n) x) -> NoDup (map snd items) ->
  NoDup (map snd (map (fun q => (fst q, map p (snd q))) items)).
Proof.
  intros R H. rewrite map_map. cbn. induction items as [|[i x] items IH]; intros ND; [constructor|].
  cbn in *. apply NoDup_cons_iff in ND as [N1 ND]. constructor.
  - intros I. apply in_map_iff in I as ([j y] & E & I). cbn in E. apply N1.
    assert (y = x).
    { eapply (map_inj_on p n); eauto. intros a b Ha Hb. apply (p_inj n p R); auto. }
    subst y. apply (in_map snd) in I. exact I.
  - apply IH; [intros; eapply H; right; eauto|exact ND].
Qed.

Lemma edges_sorted d : numbered (cf_edges d) -> no_repeats d ->
  sorted_unique lex_ltb (map snd (std_sort snd_ltb (cn_edges (seen d)))).
Proof.
  intros N [R _ _]. rewrite <- (sort_map snd_ltb lex_ltb snd) by reflexivity. cbn [cn_edges seen]. rewrite map_map. cbn [snd].
  apply sort_nodup_sorted; [apply lex_ltb_sto|].
  assert (K : forall l, NoDup (map fst l) -> (forall i j a b a' b', In (i, (a, b)) l -> In (j, (a', b')) l ->
    (a = a' /\ b = b') \/ (a = b' /\ b = a') -> i = j) -> NoDup (map (fun x : nat * (nat * nat) => make_edge (snd x)) l)).
  { clear. induction l as [|[i [a b]] l IH]; intros ND R; [constructor|]. cbn in ND. apply NoDup_cons_iff in ND as [N1 ND].
    cbn [map snd]. constructor.
    - intros I. apply in_map_iff in I as ([j [a' b']] & E & I). cbn [snd] in E. rewrite !make_edge_min in E.
      injection E as E1 E2. apply N1. assert (i = j).
      { apply (R i j a b a' b'); [left; reflexivity|right; exact I|]. lia. }
      subst j. apply (in_map fst) in I. exact I.
    - apply IH; [exact ND|]. intros. eapply R; [right; eassumption|right; eassumption|assumption]. }
  apply K; [apply numbered_nodup, N|exact R].
Qed.
