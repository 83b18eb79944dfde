(** C43 and C48: mesh elements and sorted containers. *)
From Coq Require Import List Arith Bool Sorted Permutation Lia.
From Verif Require Import Common Mesh_Spec Elem_Model Elem_Spec Elem_Proofs.
Import ListNotations.

(** C43: operator< of all element classes is a strict total order, and operator== of simplicial
    and cartesian elements holds exactly for equal elements, i.e. when neither is smaller. *)
Theorem C43_order_and_equality :
  strict_total_order lex_ltb /\
  (forall a b, arr_eqb a b = true <-> a = b) /\
  (forall a b, arr_eqb a b = true <-> lex_ltb a b = false /\ lex_ltb b a = false).
Proof.
  split; [exact lex_ltb_sto|]. split; [exact (fun a b => arr_eqb_iff a b)|]. intros a b. rewrite arr_eqb_iff. split.
  - intros ->. split; apply (sto_irrefl _ lex_ltb_sto).
  - intros [H1 H2]. apply (sto_total _ lex_ltb_sto); assumption.
Qed.
Print Assumptions C43_order_and_equality.

(** C43: two simplicial elements are equal iff the constructor got the same vertices, in any
    order; for distinct vertices this is equality of vertex sets.  The constructor is defined
    exactly when the number of vertices is that of the element. *)
Theorem C43_simplicial_constructor_defined :
  forall n l,
  (exists e, simplicial_make n l = Ok e) <-> length l = n.
Proof.
  intros n l. unfold simplicial_make, copy_to_array. destruct (Nat.eqb_spec (length l) n); cbn [bind].
  - split; eauto.
  - split; [intros [e H]; discriminate|congruence].
Qed.
Print Assumptions C43_simplicial_constructor_defined.

Theorem C43_simplicial_equality :
  forall n l l' e e', simplicial_make n l = Ok e -> simplicial_make n l' = Ok e' ->
  (arr_eqb e e' = true <-> Permutation l l') /\
  (NoDup l -> NoDup l' -> (arr_eqb e e' = true <-> same_set l l')).
Proof.
  intros n l l' e e' H H'. pose proof (simplicial_make_eq n l l' e e' H H') as P. split; [exact P|].
  intros N N'. rewrite P. split.
  - intros Q x. split; apply Permutation_in; [exact Q|apply Permutation_sym; exact Q].
  - intros S. apply NoDup_Permutation; assumption.
Qed.
Print Assumptions C43_simplicial_equality.

(** C43: edges of generic meshes compare equal iff they join the same two nodes. *)
Theorem C43_generic_edge_equality :
  forall a b c d, gedge_eqb (gedge_make a b) (gedge_make c d) = Ok true <-> (a = c /\ b = d) \/ (a = d /\ b = c).
Proof.
  intros a b c d. rewrite gedge_eq_iff.
  destruct (Nat.eqb_spec a c), (Nat.eqb_spec b d), (Nat.eqb_spec a d), (Nat.eqb_spec b c); cbn;
    split; try tauto; try discriminate; intros [[]|[]]; contradiction.
Qed.
Print Assumptions C43_generic_edge_equality.

(** C51: generic polygons/polyhedra with the same number of faces compare correctly ... *)
Theorem C51_generic_equality_same_size_partial :
  forall a b, length a = length b -> exists r, generic_eqb a b = Ok r /\ (r = true <-> a = b).
Proof. exact generic_eqb_same_length. Qed.
Print Assumptions C51_generic_equality_same_size_partial.

(** ... but with different numbers of faces operator== may call distinct elements equal, is not
    symmetric, and may read out of range. *)
Theorem C51_generic_equality_refuted :
  exists a b, a <> b /\ generic_eqb a b = Ok true /\ generic_eqb b a = UB.
Proof. exists [1;2;3], [1;2;3;4]. repeat split; congruence. Qed.
Print Assumptions C51_generic_equality_refuted.

Example C43_hypotheses_met :
  simplicial_make 3 [7;2;5] = Ok [2;5;7] /\ simplicial_make 3 [5;7;2] = Ok [2;5;7] /\ NoDup [7;2;5].
Proof. repeat split; try reflexivity. repeat constructor; cbn; intuition congruence. Qed.

(** C48: with a strict total order and a matching equality, sort_uniq returns the strictly
    increasing container with exactly the same elements (there is only one such container). *)
Theorem C48_sort_uniq :
  forall (E : Type) (ltb : E -> E -> bool) (eqb : E -> E -> outcome bool) (v : list E),
  strict_total_order ltb -> decides_eq eqb ->
  exists r, sort_uniq ltb eqb v = Ok r /\ sorted_unique ltb r /\ same_set r v /\
    forall r', sorted_unique ltb r' -> same_set r' v -> r' = r.
Proof.
  intros E ltb eqb v HO HD. destruct (sort_uniq_spec ltb HO eqb HD v) as (r & R1 & R2 & R3).
  exists r. repeat (split; [assumption|]). intros r' S' H. apply (sorted_unique_ext ltb HO); auto.
  intros x. rewrite (H x), (R3 x). reflexivity.
Qed.
Print Assumptions C48_sort_uniq.

(** C48 on simplicial and cartesian elements: the hypotheses hold. *)
Theorem C48_sort_uniq_elements :
  forall v, exists r, sort_uniq lex_ltb (fun a b => Ok (arr_eqb a b)) v = Ok r /\ sorted_unique lex_ltb r /\ same_set r v.
Proof. intros v. exact (sort_uniq_spec lex_ltb lex_ltb_sto _ arr_decides v). Qed.
Print Assumptions C48_sort_uniq_elements.

(** C51, sort_uniq on generic elements with unequal numbers of faces: an element can be lost. *)
Theorem C51_sort_uniq_loses_element_refuted :
  exists v x, In x v /\ exists r, sort_uniq lex_ltb generic_eqb v = Ok r /\ ~ In x r.
Proof.
  exists [[1;2;3;4]; [1;2;3]], [1;2;3;4]. split; [cbn; auto|]. exists [[1;2;3]].
  split; [vm_compute; reflexivity|]. cbn. intuition congruence.
Qed.
Print Assumptions C51_sort_uniq_loses_element_refuted.

Example C48_hypotheses_met :
  sort_uniq lex_ltb (fun a b => Ok (arr_eqb a b)) [[2;3];[0;1];[2;3];[1;2];[0;1]] = Ok [[0;1];[1;2];[2;3]].
Proof. vm_compute; reflexivity. Qed.

(** C61: the faces of a triangle or tetrahedron are exactly the elements made of its vertices but
    one, each once, whatever the order the vertices are listed in. *)
Theorem C61_faces_of_simplices :
  forall n faces, (n = 2 /\ faces = tri_faces) \/ (n = 3 /\ faces = tet_faces) ->
  forall t, length t = S n -> NoDup t ->
  length (faces t) = S n /\ NoDup (faces t) /\
  forall f, In f (faces t) <-> exists p, In p t /\ simplicial_make n (remove Nat.eq_dec p t) = Ok f.
Proof.
  assert (SM : forall n l, length l = n -> simplicial_make n l = Ok (std_sort Nat.ltb l)).
  { intros n l <-. unfold simplicial_make, copy_to_array. rewrite Nat.eqb_refl. reflexivity. }
  assert (PI : forall a b, std_sort Nat.ltb a = std_sort Nat.ltb b -> forall x, In x a -> In x b).
  { intros a b H x. apply Permutation_in. apply (std_sort_perm_iff Nat.ltb nat_ltb_sto). exact H. }
  assert (D : forall l l' w, In w l -> ~ In w l' -> std_sort Nat.ltb l <> std_sort Nat.ltb l').
  { intros l l' w H1 H2 E. apply H2. exact (PI _ _ E w H1). }
  intros n faces [[-> ->]|[-> ->]] t L N.
  - destruct t as [|a [|b [|c [|]]]]; try discriminate. clear L.
    assert (a <> b /\ a <> c /\ b <> c) as (Nab & Nac & Nbc)
      by (inversion N as [|? ? N1 N']; inversion N' as [|? ? N2 N2']; subst; cbn in *; intuition congruence).
    split; [reflexivity|]. cbn [tri_faces]. split.
    + constructor; [|constructor; [|constructor; [|constructor]]]; cbn [In]; try tauto.
      * intros [H|[H|[]]]; symmetry in H; revert H; [apply (D _ _ a)|apply (D _ _ b)]; cbn; intuition congruence.
      * intros [H|[]]; symmetry in H; revert H; apply (D _ _ b); cbn; intuition congruence.
    + intros f.
      assert (R : remove Nat.eq_dec a [a; b; c] = [b; c] /\ remove Nat.eq_dec b [a; b; c] = [a; c] /\ remove Nat.eq_dec c [a; b; c] = [a; b]).
      { cbn. repeat match goal with |- context [Nat.eq_dec ?x ?y] => destruct (Nat.eq_dec x y); try congruence end. auto. }
      destruct R as (Ra & Rb & Rc). split.
      * intros [<-|[<-|[<-|[]]]]; [exists c; rewrite Rc|exists a; rewrite Ra|exists b; rewrite Rb]; (split; [cbn; auto|apply SM; reflexivity]).
      * intros (p & [<-|[<-|[<-|[]]]] & H); [rewrite Ra in H|rewrite Rb in H|rewrite Rc in H]; rewrite SM in H by reflexivity; injection H as <-; cbn [In]; auto.
  - destruct t as [|a [|b [|c [|d [|]]]]]; try discriminate. clear L.
    assert (a <> b /\ a <> c /\ a <> d /\ b <> c /\ b <> d /\ c <> d) as (Nab & Nac & Nad & Nbc & Nbd & Ncd)
      by (inversion N as [|? ? N1 N']; inversion N' as [|? ? N2 N2']; inversion N2' as [|? ? N3 N3']; subst; cbn in *; intuition congruence).
    split; [reflexivity|]. cbn [tet_faces].
    split.
    + constructor; [|constructor; [|constructor; [|constructor; [|constructor]]]]; cbn [In]; try tauto.
      * intros [H|[H|[H|[]]]]; symmetry in H; revert H; [apply (D _ _ b)|apply (D _ _ c)|apply (D _ _ d)]; cbn; intuition congruence.
      * intros [H|[H|[]]]; symmetry in H; revert H; [apply (D _ _ c)|apply (D _ _ d)]; cbn; intuition congruence.
      * intros [H|[]]; symmetry in H; revert H; apply (D _ _ d); cbn; intuition congruence.
    + intros f.
      assert (R : remove Nat.eq_dec a [a; b; c; d] = [b; c; d] /\ remove Nat.eq_dec b [a; b; c; d] = [a; c; d] /\ remove Nat.eq_dec c [a; b; c; d] = [a; b; d] /\ remove Nat.eq_dec d [a; b; c; d] = [a; b; c]).
      { cbn. repeat match goal with |- context [Nat.eq_dec ?x ?y] => destruct (Nat.eq_dec x y); try congruence end. auto. }
      destruct R as (Ra & Rb & Rc & Rd). split.
      * intros [<-|[<-|[<-|[<-|[]]]]]; [exists a; rewrite Ra|exists b; rewrite Rb|exists c; rewrite Rc|exists d; rewrite Rd]; (split; [cbn; auto|apply SM; reflexivity]).
      * intros (p & [<-|[<-|[<-|[<-|[]]]]] & H); [rewrite Ra in H|rewrite Rb in H|rewrite Rc in H|rewrite Rd in H]; rewrite SM in H by reflexivity; injection H as <-; cbn [In]; auto.
Qed.
Print Assumptions C61_faces_of_simplices.
Example C61_hypotheses_met : NoDup [7;2;5;3] /\ tet_faces [7;2;5;3] = [[2;3;5];[3;5;7];[2;3;7];[2;5;7]].
Proof. split; [repeat constructor; cbn; intuition congruence|reflexivity]. Qed.
