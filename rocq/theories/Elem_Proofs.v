From Coq Require Import List Arith Bool Sorted Permutation Lia.
From Verif Require Import Common Mesh_Spec Mesh_Proofs Elem_Model Elem_Spec.
Import ListNotations.

(** ** std::sort *)
Section Sort.
  Context {E : Type} (ltb : E -> E -> bool).
  Hypothesis O : strict_total_order ltb.

  Lemma sort_insert_perm x l : Permutation (sort_insert ltb x l) (x :: l).
  Proof.
    induction l as [|y r IH]; cbn; [reflexivity|]. destruct (ltb y x); [|reflexivity].
    rewrite IH. apply perm_swap.
  Qed.
  Lemma std_sort_perm l : Permutation (std_sort ltb l) l.
  Proof. induction l as [|x r IH]; cbn; [reflexivity|]. rewrite sort_insert_perm, IH. reflexivity. Qed.

  Definition nlt (a b : E) : Prop := ltb b a = false.

  Lemma nlt_trans a b c : nlt a b -> nlt b c -> nlt a c.
  Proof.
    unfold nlt. intros H1 H2. destruct (ltb c a) eqn:H; [|reflexivity].
    destruct (ltb a b) eqn:Hab.
    - rewrite (sto_trans _ O c a b H Hab) in H2. discriminate.
    - rewrite (sto_total _ O a b Hab H1) in H. congruence.
  Qed.

  Lemma sort_insert_sorted x l : StronglySorted nlt l -> StronglySorted nlt (sort_insert ltb x l).
  Proof.
    induction 1 as [|y r S IH HF]; cbn; [repeat constructor|]. destruct (ltb y x) eqn:L.
    - constructor; [exact IH|]. apply Forall_forall. intros z Hz.
      apply (Permutation_in _ (sort_insert_perm x r)) in Hz. rewrite Forall_forall in HF.
      destruct Hz as [<-|Hz]; [|auto]. unfold nlt. apply (ltb_asym ltb O). exact L.
    - constructor; [constructor; assumption|]. constructor; [exact L|].
      eapply Forall_impl; [|exact HF]. intros z Hz. eapply nlt_trans; [|exact Hz]. exact L.
  Qed.
  Lemma std_sort_sorted l : StronglySorted nlt (std_sort ltb l).
  Proof. induction l; cbn; [constructor|]. apply sort_insert_sorted. assumption. Qed.

  Lemma sorted_perm_eq a : forall b, StronglySorted nlt a -> StronglySorted nlt b -> Permutation a b -> a = b.
  Proof.
    induction a as [|x a IH]; intros b Sa Sb P.
    - apply Permutation_nil in P. auto.
    - destruct b as [|y b]; [apply Permutation_sym, Permutation_nil in P; discriminate|].
      inversion Sa as [|? ? Sa' Fa]; inversion Sb as [|? ? Sb' Fb]; subst.
      assert (x = y).
      { rewrite Forall_forall in Fa, Fb.
        assert (Hx : In x (y :: b)) by (eapply Permutation_in; [exact P|left; reflexivity]).
        assert (Hy : In y (x :: a)) by (eapply Permutation_in; [apply Permutation_sym; exact P|left; reflexivity]).
        destruct Hx as [->|Hx]; [reflexivity|]. destruct Hy as [->|Hy]; [reflexivity|].
        apply (sto_total _ O); [apply (Fb _ Hx)|apply (Fa _ Hy)]. }
      subst y. f_equal. apply IH; auto. eapply Permutation_cons_inv; eauto.
  Qed.

  Lemma std_sort_perm_iff a b : std_sort ltb a = std_sort ltb b <-> Permutation a b.
  Proof.
    split; intros H.
    - rewrite <- (std_sort_perm a), <- (std_sort_perm b), H. reflexivity.
    - apply sorted_perm_eq; try apply std_sort_sorted. rewrite !std_sort_perm. exact H.
  Qed.

  Lemma std_sort_id l : sorted_unique ltb l -> std_sort ltb l = l.
  Proof.
    intros H. apply sorted_perm_eq; [apply std_sort_sorted| |apply std_sort_perm].
    induction H as [|x r S IH HF]; constructor; auto.
    eapply Forall_impl; [|exact HF]. intros y Hy. apply (ltb_asym ltb O). exact Hy.
  Qed.

  (** ** std::unique on a sorted range *)
  Variable eqb : E -> E -> outcome bool.
  Hypothesis D : decides_eq eqb.

  Lemma unique_from_spec l : forall x, StronglySorted nlt (x :: l) ->
    exists r, unique_from eqb x l = Ok r /\ sorted_unique ltb r /\ (forall y, In y r <-> In y (x :: l)) /\
      length r <= S (length l) /\ hd_error r = Some x.
  Proof.
    induction l as [|y l IH]; intros x HS; cbn [unique_from].
    - exists [x]. split; [reflexivity|]. split; [repeat constructor|]. split; [reflexivity|]. split; [cbn; lia|reflexivity].
    - inversion HS as [|? ? HS' HF]; subst. inversion HS' as [|? ? HS2 HF2]; subst.
      inversion HF as [|? ? Hxy HF']; subst.
      destruct (D x y) as (b & Eb & Hb). rewrite Eb. cbn [bind]. destruct b.
      + assert (x = y) by (apply Hb; reflexivity). subst y.
        destruct (IH x) as (r & R1 & R2 & R3 & R4 & R5); [exact HS'|].
        exists r. split; [exact R1|]. split; [exact R2|]. split; [|split; [cbn in *; lia|exact R5]].
        intros z. rewrite R3. cbn. intuition.
      + destruct (IH y HS') as (r & R1 & R2 & R3 & R4 & R5). rewrite R1. cbn [bind].
        exists (x :: r). split; [reflexivity|]. split; [|split; [|split; [cbn in *; lia|reflexivity]]].
        * constructor; [exact R2|]. apply Forall_forall. intros z Hz. apply R3 in Hz.
          assert (Lxy : ltb x y = true).
          { destruct (ltb x y) eqn:L; [reflexivity|]. assert (x = y) by (apply (sto_total _ O); assumption).
            apply Hb in H. discriminate. }
          destruct Hz as [<-|Hz]; [exact Lxy|].
          rewrite Forall_forall in HF2. pose proof (HF2 _ Hz) as Hyz. unfold nlt in Hyz.
          destruct (ltb y z) eqn:L; [eapply (sto_trans _ O); eauto|].
          rewrite <- (sto_total _ O y z L Hyz). exact Lxy.
        * intros z. cbn [In]. rewrite R3. reflexivity.
  Qed.

  Lemma sort_uniq_spec v : exists r, sort_uniq ltb eqb v = Ok r /\ sorted_unique ltb r /\ same_set r v.
  Proof.
    unfold sort_uniq, same_set. pose proof (std_sort_perm v) as P. pose proof (std_sort_sorted v) as HS.
    assert (Q : forall y, In y (std_sort ltb v) <-> In y v).
    { intros y. split; apply Permutation_in; [exact P|apply Permutation_sym; exact P]. }
    destruct (std_sort ltb v) as [|x l]; cbn [std_unique].
    - exists []. split; [reflexivity|]. split; [constructor|exact Q].
    - destruct (unique_from_spec l x HS) as (r & R1 & R2 & R3 & _). exists r.
      split; [exact R1|]. split; [exact R2|]. intros y. rewrite R3. apply Q.
  Qed.

  (** A container is determined by its set of elements. *)
  Lemma sorted_unique_ext (a : list E) : forall b, sorted_unique ltb a -> sorted_unique ltb b -> same_set a b -> a = b.
  Proof.
    intros b Sa Sb H. apply sorted_perm_eq.
    1,2: clear H; match goal with H : sorted_unique ltb ?l |- StronglySorted nlt ?l =>
        induction H as [|? ? S IH HF]; constructor; auto;
        eapply Forall_impl; [|exact HF]; intros ? ?; apply (ltb_asym ltb O); assumption end.
    assert (ND : forall l, sorted_unique ltb l -> NoDup l).
    { intros l Sl. induction Sl as [|x r S IH HF]; constructor; auto. intros Hx.
      rewrite Forall_forall in HF. pose proof (HF _ Hx) as C. rewrite (sto_irrefl _ O) in C. discriminate. }
    apply NoDup_Permutation; auto.
  Qed.
End Sort.

(** ** operators *)
Lemma lex_ltb_sto : strict_total_order lex_ltb.
Proof.
  split.
  - induction a as [|x a IH]; cbn [lex_ltb]; [reflexivity|]. rewrite Nat.ltb_irrefl. exact IH.
  - induction a as [|x a IH]; intros [|y b] [|z c]; cbn [lex_ltb]; try discriminate; auto.
    destruct (Nat.ltb_spec x y), (Nat.ltb_spec y x), (Nat.ltb_spec y z), (Nat.ltb_spec z y),
             (Nat.ltb_spec x z), (Nat.ltb_spec z x); try discriminate; try lia; auto.
    apply IH.
  - induction a as [|x a IH]; intros [|y b]; cbn [lex_ltb]; try discriminate; auto.
    destruct (Nat.ltb_spec x y), (Nat.ltb_spec y x); try discriminate; try lia.
    intros H1 H2. f_equal; [lia|]. apply IH; assumption.
Qed.

Lemma nat_ltb_sto : strict_total_order Nat.ltb.
Proof.
  split.
  - apply Nat.ltb_irrefl.
  - intros a b c H1 H2. apply Nat.ltb_lt in H1, H2. apply Nat.ltb_lt. lia.
  - intros a b H1 H2. apply Nat.ltb_ge in H1, H2. lia.
Qed.

Lemma arr_eqb_iff a : forall b, arr_eqb a b = true <-> a = b.
Proof.
  induction a as [|x a IH]; intros [|y b]; cbn [arr_eqb]; split; try discriminate; auto.
  - intros H. apply andb_true_iff in H. destruct H as [H1 H2]. apply Nat.eqb_eq in H1. apply IH in H2. congruence.
  - intros [= -> ->]. rewrite Nat.eqb_refl. apply IH. reflexivity.
Qed.

Lemma arr_decides : decides_eq (fun a b => Ok (arr_eqb a b)).
Proof. intros a b. exists (arr_eqb a b). split; [reflexivity|apply arr_eqb_iff]. Qed.

Lemma generic_eqb_same_length a : forall b, length a = length b ->
  exists r, generic_eqb a b = Ok r /\ (r = true <-> a = b).
Proof.
  induction a as [|x a IH]; intros [|y b] H; cbn [generic_eqb]; try discriminate.
  - exists true. tauto.
  - destruct (Nat.eqb_spec x y) as [->|N].
    + injection H as H. destruct (IH b H) as (r & R1 & R2). exists r. split; [exact R1|]. rewrite R2.
      split; congruence.
    + exists false. split; [reflexivity|]. split; [discriminate|congruence].
Qed.

Lemma gedge_eq_iff a b c d : gedge_eqb (gedge_make a b) (gedge_make c d) =
  Ok (((a =? c) && (b =? d)) || ((a =? d) && (b =? c))).
Proof.
  unfold gedge_eqb, gedge_make. cbn [ge_sub].
  destruct (Nat.ltb_spec a b), (Nat.ltb_spec c d); cbn [generic_eqb];
  repeat match goal with |- context [?x =? ?y] => destruct (Nat.eqb_spec x y); subst; cbn [andb orb] end; try reflexivity; lia.
Qed.

Lemma simplicial_make_eq n l l' e e' : simplicial_make n l = Ok e -> simplicial_make n l' = Ok e' ->
  (arr_eqb e e' = true <-> Permutation l l').
Proof.
  unfold simplicial_make, copy_to_array. destruct (length l =? n), (length l' =? n); cbn [bind]; try discriminate.
  intros [= <-] [= <-]. rewrite arr_eqb_iff. apply std_sort_perm_iff. exact nat_ltb_sto.
Qed.
