From Coq Require Import List Arith Bool Sorted QArith Lia.
From Verif Require Import Common Mesh_Model Mesh_Spec.
Import ListNotations.
Local Open Scope nat_scope.

Lemma vget_ok {A} (l : list A) i x : nth_error l i = Some x -> vget l i = Ok x.
Proof. unfold vget. intros ->. reflexivity. Qed.
Lemma vat_ok {A} (l : list A) i x : nth_error l i = Some x -> vat l i = Ok x.
Proof. unfold vat. intros ->. reflexivity. Qed.

Lemma nth_error_some {A} (l : list A) i : i < length l -> exists x, nth_error l i = Some x.
Proof.
  intros H. destruct (nth_error l i) as [x|] eqn:E; [eauto|].
  apply nth_error_None in E. lia.
Qed.

Section Search.
  Context {E : Type} (ltb : E -> E -> bool).

  (** [p] splits [l]: smaller than [e] before, not smaller after. *)
  Definition partition_point (l : list E) (e : E) (p : nat) : Prop :=
    p <= length l /\
    (forall i x, nth_error l i = Some x -> i < p -> ltb x e = true) /\
    (forall i x, nth_error l i = Some x -> p <= i -> ltb x e = false).

  Lemma lb_loop_correct l e p : partition_point l e p -> forall fuel first len,
    len <= fuel -> first <= p <= first + len -> first + len <= length l ->
    lb_loop E ltb l e fuel first len = Ok p.
  Proof.
    intros (P0 & P1 & P2). induction fuel as [|f IH]; intros first len Hf Hp Hl.
    - assert (len = 0) by lia. subst. cbn. f_equal. lia.
    - cbn [lb_loop]. destruct (Nat.eqb_spec len 0) as [->|Hn].
      + f_equal. lia.
      + assert (Hh : len / 2 < len) by (apply Nat.div_lt; lia).
        set (half := len / 2) in *.
        destruct (nth_error_some l (first + half)) as [x Hx]; [lia|].
        rewrite (vget_ok _ _ _ Hx). cbn [bind].
        destruct (ltb x e) eqn:Ex.
        * apply IH; try lia. destruct (le_lt_dec p (first + half)) as [C|C]; [|lia].
          rewrite (P2 _ _ Hx C) in Ex. discriminate.
        * apply IH; try lia. destruct (le_lt_dec p (first + half)) as [C|C]; [lia|].
          rewrite (P1 _ _ Hx C) in Ex. discriminate.
  Qed.

  Lemma lower_bound_correct l e p : partition_point l e p -> lower_bound E ltb l e = Ok p.
  Proof. intros H. pose proof H as (H0 & _). apply lb_loop_correct; auto; lia. Qed.

  Hypothesis O : strict_total_order ltb.

  Lemma sorted_partition l e : sorted_unique ltb l -> exists p, partition_point l e p.
  Proof.
    induction l as [|a l IH]; intros HS.
    - exists 0. repeat split; auto; intros [|i] x H; discriminate.
    - inversion HS as [|? ? HS' HF]; subst. destruct (IH HS') as (p & P0 & P1 & P2).
      destruct (ltb a e) eqn:Ea.
      + exists (S p). split; [cbn; lia|]. split; intros [|i] x H L; cbn in H.
        * injection H as <-. exact Ea.
        * eapply P1; [exact H|lia].
        * lia.
        * eapply P2; [exact H|lia].
      + exists 0. split; [lia|]. split; intros i x H L; [lia|].
        destruct i as [|i]; cbn in H.
        * injection H as <-. exact Ea.
        * destruct (ltb x e) eqn:Ex; [|reflexivity]. exfalso.
          rewrite Forall_forall in HF. specialize (HF x (nth_error_In _ _ H)).
          rewrite (sto_trans _ O _ _ _ HF Ex) in Ea. discriminate.
  Qed.

  Lemma sorted_nth_lt l : sorted_unique ltb l -> forall i j x y,
    nth_error l i = Some x -> nth_error l j = Some y -> i < j -> ltb x y = true.
  Proof.
    induction 1 as [|a l S IH HF]; intros [|i] [|j] x y Hx Hy L; cbn in *; try discriminate; try lia.
    - injection Hx as <-. rewrite Forall_forall in HF. apply HF. eapply nth_error_In; eauto.
    - eapply IH; eauto. lia.
  Qed.

  Lemma ltb_asym a b : ltb a b = true -> ltb b a = false.
  Proof.
    intros H. destruct (ltb b a) eqn:E'; [|reflexivity].
    pose proof (sto_trans _ O _ _ _ H E') as C. rewrite (sto_irrefl _ O) in C. discriminate.
  Qed.

  Lemma stored_partition l e i : sorted_unique ltb l -> stored l i e -> partition_point l e i.
  Proof.
    intros S H. unfold stored in H. split; [|split].
    - assert (i < length l) by (apply nth_error_Some; congruence). lia.
    - intros j x Hx L. eapply sorted_nth_lt; eauto.
    - intros j x Hx L. destruct (Nat.eq_dec i j) as [<-|N].
      + rewrite H in Hx. injection Hx as <-. apply (sto_irrefl _ O).
      + apply ltb_asym. eapply sorted_nth_lt; eauto. lia.
  Qed.

  Lemma stored_unique l e i j : sorted_unique ltb l -> stored l i e -> stored l j e -> i = j.
  Proof.
    intros S Hi Hj. unfold stored in *.
    destruct (Nat.lt_trichotomy i j) as [L|[L|L]]; auto.
    - pose proof (sorted_nth_lt _ S _ _ _ _ Hi Hj L) as C. rewrite (sto_irrefl _ O) in C. discriminate.
    - pose proof (sorted_nth_lt _ S _ _ _ _ Hj Hi L) as C. rewrite (sto_irrefl _ O) in C. discriminate.
  Qed.

  Lemma stored_lt l i (e : E) : stored l i e -> i < length l.
  Proof. unfold stored. intros H. apply nth_error_Some. congruence. Qed.

  Lemma find_stored l e i : sorted_unique ltb l -> stored l i e ->
    find_element_id E ltb l e = Ok (Some i).
  Proof.
    intros S H. unfold find_element_id.
    rewrite (lower_bound_correct _ _ _ (stored_partition _ _ _ S H)). cbn [bind].
    pose proof (stored_lt _ _ _ H). destruct (Nat.eqb_spec i (length l)); [lia|].
    rewrite (vget_ok _ _ _ H). cbn [bind]. rewrite (sto_irrefl _ O). reflexivity.
  Qed.

  Lemma find_absent l e : sorted_unique ltb l -> ~ In e l -> find_element_id E ltb l e = Ok None.
  Proof.
    intros S H. unfold find_element_id. destruct (sorted_partition l e S) as (p & P).
    rewrite (lower_bound_correct _ _ _ P). destruct P as (P0 & P1 & P2). cbn [bind].
    destruct (Nat.eqb_spec p (length l)); [reflexivity|].
    destruct (nth_error_some l p) as [x Hx]; [lia|]. rewrite (vget_ok _ _ _ Hx). cbn [bind].
    destruct (ltb e x) eqn:Ex; [reflexivity|]. exfalso. apply H.
    rewrite (sto_total _ O e x Ex (P2 _ _ Hx (le_n _))). eapply nth_error_In; eauto.
  Qed.

  Lemma lookup_stored l e i : sorted_unique ltb l -> stored l i e -> lookup E ltb l e = Ok i.
  Proof. intros S H. unfold lookup. rewrite (find_stored _ _ _ S H). reflexivity. Qed.

  Lemma lookup_absent l e : sorted_unique ltb l -> ~ In e l -> lookup E ltb l e = Throw InvalidArgument.
  Proof. intros S H. unfold lookup. rewrite (find_absent _ _ S H). reflexivity. Qed.

  Lemma in_stored (l : list E) e : In e l -> exists i, stored l i e.
  Proof. apply In_nth_error. Qed.

  Lemma sto_dec (a b : E) : {a = b} + {a <> b}.
  Proof.
    destruct (ltb a b) eqn:E1.
    - right. intros ->. rewrite (sto_irrefl _ O) in E1. discriminate.
    - destruct (ltb b a) eqn:E2.
      + right. intros ->. rewrite (sto_irrefl _ O) in E2. discriminate.
      + left. apply (sto_total _ O); assumption.
  Qed.

  Lemma lookup_iff l e i : sorted_unique ltb l -> (lookup E ltb l e = Ok i <-> stored l i e).
  Proof.
    intros S. split; [|apply lookup_stored; exact S]. intros H.
    destruct (find_element_id E ltb l e) as [[j|]|?|] eqn:F; unfold lookup in H; rewrite F in H;
      cbn in H; try discriminate. injection H as ->.
    destruct (in_dec sto_dec e l) as [I|I].
    - destruct (in_stored _ _ I) as [j Hj]. rewrite (find_stored _ _ _ S Hj) in F. injection F as ->. exact Hj.
    - rewrite (find_absent _ _ S I) in F. discriminate.
  Qed.

  Lemma offset_stored l e i : sorted_unique ltb l -> stored l i e -> offset E ltb l e = Ok i.
  Proof.
    intros S H. unfold offset. rewrite (lower_bound_correct _ _ _ (stored_partition _ _ _ S H)). cbn [bind].
    pose proof (stored_lt _ _ _ H). destruct (Nat.eqb_spec i (length l)); [lia|reflexivity].
  Qed.
End Search.

(** ** Iterators *)
Section Iter.
  Context {E : Type} (pred : E -> outcome bool) (l : list E).
  Variable keep : nat -> bool.
  Hypothesis Hpred : forall i x, nth_error l i = Some x -> pred x = Ok (keep i).

  (** elements at positions >= pos that satisfy the predicate *)
  Fixpoint sel (n pos : nat) : list E :=
    match n with
    | O => []
    | S n' => match nth_error l pos with
              | Some x => if keep pos then x :: sel n' (S pos) else sel n' (S pos)
              | None => []
              end
    end.

  Lemma find_next_correct n : forall pos, pos + n = length l ->
    exists q, find_next E pred l n pos = Ok q /\ pos <= q <= length l /\
      sel n pos = sel (length l - q) q /\ (q < length l -> keep q = true).
  Proof.
    induction n as [|n IH]; intros pos H; cbn [find_next sel].
    - exists pos. replace (length l - pos) with 0 by lia. split; [reflexivity|]. split; [lia|]. split; [reflexivity|lia].
    - destruct (nth_error_some l pos) as [x Hx]; [lia|]. rewrite (vget_ok _ _ _ Hx). cbn [bind].
      rewrite (Hpred _ _ Hx). cbn [bind]. destruct (keep pos) eqn:K.
      + exists pos. split; [reflexivity|]. split; [lia|]. split; [|auto].
        rewrite Hx. replace (length l - pos) with (S n) by lia. cbn [sel]. rewrite Hx, K. reflexivity.
      + rewrite Hx. destruct (IH (S pos)) as (q & Q1 & Q2 & Q3 & Q4); [lia|].
        exists q. split; [exact Q1|]. split; [lia|]. split; auto.
  Qed.

  Lemma visit_from_correct n : forall pos, length l - pos <= n -> pos <= length l ->
    (pos < length l -> keep pos = true) ->
    visit_from E pred l n pos = Ok (sel (length l - pos) pos).
  Proof.
    induction n as [|n IH]; intros pos H H0 K.
    - assert (pos = length l) by lia. subst. cbn [visit_from]. unfold fi_end. rewrite Nat.eqb_refl.
      rewrite Nat.sub_diag. reflexivity.
    - cbn [visit_from]. unfold fi_end. destruct (Nat.eqb_spec pos (length l)) as [->|N].
      + rewrite Nat.sub_diag. reflexivity.
      + destruct (nth_error_some l pos) as [x Hx]; [lia|]. rewrite (vget_ok _ _ _ Hx). cbn [bind].
        unfold fi_next. destruct (Nat.eqb_spec pos (length l)) as [?|_]; [lia|].
        destruct (find_next_correct (length l - S pos) (S pos)) as (q & Q1 & Q2 & Q3 & Q4); [lia|].
        rewrite Q1. cbn [bind]. rewrite (IH q) by (auto; lia). cbn [bind].
        replace (length l - pos) with (S (length l - S pos)) by lia. cbn [sel]. rewrite Hx, (K ltac:(lia)), Q3.
        reflexivity.
  Qed.

  Lemma visit_all_correct : visit_all E pred l = Ok (sel (length l) 0).
  Proof.
    unfold visit_all, fi_begin. destruct (Nat.eqb_spec 0 (length l)) as [Z|N].
    - cbn [bind]. rewrite <- Z. cbn. unfold fi_end. rewrite <- Z. reflexivity.
    - destruct (find_next_correct (length l) 0) as (q & Q1 & Q2 & Q3 & Q4); [lia|].
      rewrite Q1. cbn [bind]. rewrite (visit_from_correct (length l) q) by (auto; lia). rewrite Q3. reflexivity.
  Qed.
End Iter.

Lemma sel_shift {E} (a : E) l keep n pos :
  sel (a :: l) keep n (S pos) = sel l (fun i => keep (S i)) n pos.
Proof.
  revert pos; induction n as [|n IH]; intros pos; cbn; [reflexivity|].
  destruct (nth_error l pos); [|reflexivity]. rewrite IH. reflexivity.
Qed.

Lemma sel_select {F} (fs : list F) : forall ds keep, length ds = length fs ->
  sel fs (fun i => match nth_error ds i with Some d => keep d | None => false end) (length fs) 0
  = select keep fs ds.
Proof.
  unfold select. induction fs as [|f fs IH]; intros [|d ds] keep H; try discriminate; [reflexivity|].
  cbn in H. cbn [length sel nth_error combine filter snd map]. rewrite sel_shift. cbn [nth_error].
  rewrite (IH ds keep) by lia. destruct (keep d); reflexivity.
Qed.

Section MeshProofs.
  Context {C F : Type} (cltb : C -> C -> bool) (fltb : F -> F -> bool) (faces_of : C -> list F).
  Hypothesis OF : strict_total_order fltb.
  Hypothesis OC : strict_total_order cltb.

  Section OneMesh.
    Variable m : mesh C F.
    Hypothesis Hs : sorted_unique fltb (m_faces m).
    Hypothesis Hb : length (m_binfo m) = length (m_faces m).

    Lemma binfo_nth i : i < length (m_faces m) -> exists d, nth_error (m_binfo m) i = Some d.
    Proof. intros. apply nth_error_some. lia. Qed.

    Lemma is_boundary_stored i f d : stored (m_faces m) i f -> nth_error (m_binfo m) i = Some d ->
      is_boundary C F fltb m f = Ok (bd_is_b d).
    Proof.
      intros H D. unfold is_boundary. rewrite (lookup_stored fltb OF _ _ _ Hs H). cbn [bind].
      unfold is_boundary_id. rewrite (vat_ok _ _ _ D). reflexivity.
    Qed.

    Lemma boundary_id_stored i f d : stored (m_faces m) i f -> nth_error (m_binfo m) i = Some d ->
      boundary_id_face C F fltb m f = if bd_is_b d then Ok (bd_id d) else Throw InvalidArgument.
    Proof.
      intros H D. unfold boundary_id_face. rewrite (lookup_stored fltb OF _ _ _ Hs H). cbn [bind].
      unfold boundary_id, is_boundary_id. rewrite (vat_ok _ _ _ D). cbn [bind].
      destruct (bd_is_b d); reflexivity.
    Qed.

    Lemma boundary_faces_correct : boundary_faces C F fltb m = Ok (select bd_is_b (m_faces m) (m_binfo m)).
    Proof.
      unfold boundary_faces.
      rewrite (visit_all_correct (is_boundary_pred C F fltb m) (m_faces m)
        (fun i => match nth_error (m_binfo m) i with Some d => bd_is_b d | None => false end)).
      - f_equal. apply sel_select. exact Hb.
      - intros i x Hx. destruct (binfo_nth i) as [d D]; [apply nth_error_Some; congruence|].
        rewrite D. apply (is_boundary_stored i); auto.
    Qed.

    Lemma internal_faces_correct :
      internal_faces C F fltb m = Ok (select (fun d => negb (bd_is_b d)) (m_faces m) (m_binfo m)).
    Proof.
      unfold internal_faces.
      rewrite (visit_all_correct (is_internal_pred C F fltb m) (m_faces m)
        (fun i => match nth_error (m_binfo m) i with Some d => negb (bd_is_b d) | None => false end)).
      - f_equal. apply (sel_select _ _ (fun d => negb (bd_is_b d))). exact Hb.
      - intros i x Hx. destruct (binfo_nth i) as [d D]; [apply nth_error_Some; congruence|].
        rewrite D. unfold is_internal_pred. rewrite (is_boundary_stored i x d); auto.
    Qed.

    Lemma boundary_faces_with_id_correct id :
      boundary_faces_with_id C F fltb m id =
      Ok (select (fun d => bd_is_b d && (bd_id d =? id)) (m_faces m) (m_binfo m)).
    Proof.
      unfold boundary_faces_with_id.
      rewrite (visit_all_correct (is_boundary_pred_with_id C F fltb m id) (m_faces m)
        (fun i => match nth_error (m_binfo m) i with Some d => bd_is_b d && (bd_id d =? id) | None => false end)).
      - f_equal. apply (sel_select _ _ (fun d => bd_is_b d && (bd_id d =? id))). exact Hb.
      - intros i x Hx. destruct (binfo_nth i) as [d D]; [apply nth_error_Some; congruence|].
        rewrite D. unfold is_boundary_pred_with_id. rewrite (lookup_stored fltb OF _ _ _ Hs Hx). cbn [bind].
        unfold boundary_id, is_boundary_id. rewrite (vat_ok _ _ _ D). cbn [bind].
        destruct (bd_is_b d); reflexivity.
    Qed.
  End OneMesh.

  Lemma select_length (keep : bdesc -> bool) (fs : list F) : forall ds, length ds = length fs ->
    length (select keep fs ds) = length (filter keep ds).
  Proof.
    unfold select. induction fs as [|f fs IH]; intros [|d ds] H; try discriminate; [reflexivity|].
    cbn [combine filter snd map length]. injection H as H. specialize (IH _ H).
    destruct (keep d); cbn [map length]; rewrite IH; reflexivity.
  Qed.

  Lemma filter_split_length {A} (p : A -> bool) l :
    length (filter p l) + length (filter (fun x => negb (p x)) l) = length l.
  Proof. induction l as [|a l IH]; cbn; [reflexivity|]. destruct (p a); cbn; lia. Qed.
End MeshProofs.

(** ** boundary_id_list *)
Lemma set_insert_in x y l : In y (set_insert x l) <-> y = x \/ In y l.
Proof.
  induction l as [|a l IH]. { cbn. intuition. }
  cbn [set_insert].
  destruct (Nat.ltb_spec x a). { cbn. intuition. }
  destruct (Nat.ltb_spec a x). { cbn [In]. rewrite IH. cbn. intuition. }
  assert (x = a) by lia. subst. cbn. intuition.
Qed.

Lemma set_insert_sorted x l : StronglySorted lt l -> StronglySorted lt (set_insert x l).
Proof.
  induction 1 as [|a l S IH HF]; cbn [set_insert]; [repeat constructor|].
  destruct (Nat.ltb_spec x a).
  - constructor; [constructor; assumption|]. constructor; [assumption|].
    eapply Forall_impl; [|exact HF]. intros; lia.
  - destruct (Nat.ltb_spec a x); [|constructor; assumption].
    constructor; [exact IH|]. apply Forall_forall. intros y Hy. apply set_insert_in in Hy.
    rewrite Forall_forall in HF. destruct Hy as [->|Hy]; auto.
Qed.

Lemma boundary_id_list_correct {C F} (m : mesh C F) :
  StronglySorted lt (boundary_id_list C F m) /\
  forall id, In id (boundary_id_list C F m) <-> exists d, In d (m_binfo m) /\ bd_is_b d = true /\ bd_id d = id.
Proof.
  unfold boundary_id_list.
  assert (G : forall ds s, StronglySorted lt s ->
    let r := fold_left (fun s d => if bd_is_b d then set_insert (bd_id d) s else s) ds s in
    StronglySorted lt r /\ forall id, In id r <-> In id s \/ exists d, In d ds /\ bd_is_b d = true /\ bd_id d = id).
  { induction ds as [|d ds IH]; intros s S; cbn [fold_left].
    - split; [exact S|]. intros id. split; [auto|]. intros [H|(d & [] & _)]; exact H.
    - destruct (bd_is_b d) eqn:B.
      + destruct (IH (set_insert (bd_id d) s)) as [I1 I2]; [apply set_insert_sorted; exact S|].
        split; [exact I1|]. intros id. rewrite I2, set_insert_in. split.
        * intros [[->|H]|(d' & H & H')]; [right; exists d; cbn; auto|auto|right; exists d'; cbn; intuition].
        * intros [H|(d' & [<-|H] & H1 & H2)]; [auto|auto|right; exists d'; auto].
      + destruct (IH s S) as [I1 I2]. split; [exact I1|]. intros id. rewrite I2. split.
        * intros [H|(d' & H & H')]; [auto|right; exists d'; cbn; intuition].
        * intros [H|(d' & [<-|H] & H1 & H2)]; [auto|congruence|right; exists d'; auto]. }
  destruct (G (m_binfo m) [] ltac:(constructor)) as [G1 G2]. split; [exact G1|].
  intros id. rewrite G2. split; [intros [[]|H]; exact H|auto].
Qed.
