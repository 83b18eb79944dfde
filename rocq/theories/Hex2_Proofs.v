(** The hexagonal mesh: uniqueness of the edges, owners, areas. *)
From Coq Require Import List Arith Bool Sorted Permutation Lia ZArith.
From Verif Require Import Common Mesh_Model Mesh_Spec Mesh_Proofs Elem_Model Elem_Spec Elem_Proofs Refine_Proofs Mesher_Model Mesher_Proofs
  Single_Model Hex_Model Hex_Spec Hex_Proofs.
Import ListNotations.
Local Open Scope nat_scope.

Definition heqd (a b : hpt) : {a = b} + {a <> b}.
Proof. decide equality; apply Nat.eq_dec. Defined.
Definition deqd (a b : hpt * hpt) : {a = b} + {a <> b}.
Proof. decide equality; apply heqd. Defined.
Definition beqd (a b : bedge) : {a = b} + {a <> b}.
Proof. decide equality; [apply deqd|apply Nat.eq_dec]. Defined.

Definition und (d : hpt * hpt) : hedge := hedge_make (fst d) (snd d).

(** ** Orders *)
Lemma hpt_eqb_iff p q : hpt_eqb p q = true <-> p = q.
Proof.
  destruct p as [a b], q as [c d]. unfold hpt_eqb. cbn [fst snd]. rewrite andb_true_iff, !Nat.eqb_eq. split; [intros [-> ->]; reflexivity|]. intros [= -> ->]. auto.
Qed.
Lemma hedge_eqb_iff p q : hedge_eqb p q = true <-> p = q.
Proof.
  destruct p as [a b], q as [c d]. unfold hedge_eqb. cbn [fst snd]. rewrite andb_true_iff, !hpt_eqb_iff. split; [intros [-> ->]; reflexivity|]. intros [= -> ->]. auto.
Qed.
Lemma hpt_ltb_iff p q : hpt_ltb p q = true <-> fst p < fst q \/ (fst p = fst q /\ snd p < snd q).
Proof. unfold hpt_ltb. rewrite orb_true_iff, andb_true_iff, !Nat.ltb_lt, Nat.eqb_eq. tauto. Qed.
Lemma hpt_sto : strict_total_order hpt_ltb.
Proof.
  constructor.
  - intros [a b]. unfold hpt_ltb. cbn [fst snd]. rewrite !Nat.ltb_irrefl, andb_false_r. reflexivity.
  - intros x y z. rewrite !hpt_ltb_iff. lia.
  - intros [a b] [c d]. rewrite <- !not_true_iff_false, !hpt_ltb_iff. cbn [fst snd]. intros H1 H2. f_equal; lia.
Qed.
Lemma hedge_ltb_iff e f : hedge_ltb e f = true <-> hpt_ltb (fst e) (fst f) = true \/ (fst e = fst f /\ hpt_ltb (snd e) (snd f) = true).
Proof. unfold hedge_ltb. rewrite orb_true_iff, andb_true_iff, hpt_eqb_iff. tauto. Qed.
Lemma hedge_sto : strict_total_order hedge_ltb.
Proof.
  destruct hpt_sto as [Ir Tr To]. constructor.
  - intros e. apply not_true_iff_false. rewrite hedge_ltb_iff, !Ir. intros [H|[_ H]]; discriminate.
  - intros x y z. rewrite !hedge_ltb_iff. intros [H|[E H]] [K|[E' K]].
    + left. eapply Tr; eauto.
    + left. rewrite <- E'. exact H.
    + left. rewrite E. exact K.
    + right. split; [congruence|]. eapply Tr; eauto.
  - intros [a b] [c d]. rewrite <- !not_true_iff_false, !hedge_ltb_iff. cbn [fst snd]. intros H1 H2.
    assert (a = c). { apply To; apply not_true_iff_false; tauto. } subst c. f_equal. apply To; apply not_true_iff_false; tauto.
Qed.

(** ** The grid of tiles of level l *)
Section Level.
  Variable l : nat.
  Let N := 2 ^ l.
  Let M := N - 1.
  Lemma N_pos : N = S M.
  Proof. unfold M. assert (N <> 0) by (unfold N; apply Nat.pow_nonzero; lia). lia. Qed.

  Definition all_polys : list poly := flat_map (fun t => fst (tile_of (4 * 2 ^ l) t)) (tiles l 0 0).
  Definition all_bedges : list bedge := flat_map (fun t => snd (tile_of (4 * 2 ^ l) t)) (tiles l 0 0).

  Lemma tiles_grid g : lsum g (tiles l 0 0) = sum N (fun i => sum N (fun j => g (i, j))).
  Proof. rewrite tiles_sum. reflexivity. Qed.

  Lemma directed : Permutation (flat_map ring all_polys) (inner_edges N ++ map drev (inner_edges N) ++ map snd (outer_edges N)).
  Proof.
    apply (perm_of_sums deqd). intros f. rewrite !lsum_app, lsum_map. unfold all_polys. fold N.
    pose proof (total_sum M f (tiles l 0 0)) as T. rewrite <- N_pos in T. rewrite T by (intros g; apply tiles_grid). lia.
  Qed.

  (** the boundary edges are those of the four sides *)
  Definition und2 (x : nat * (hpt * hpt)) : bedge := (fst x, und (snd x)).
  Lemma bedges_perm : Permutation all_bedges (map und2 (outer_edges N)).
  Proof.
    apply (perm_of_sums beqd). intros f. unfold all_bedges. rewrite lsum_flat, tiles_grid. fold N.
    set (F := fun s loc i j => f (s, hedge_abs (4 * i) (4 * j) loc)).
    assert (T : forall i j, i < N -> j < N -> lsum f (snd (tile_of (4 * N) (i, j))) =
      0 + (0 + 0) + (if j =? 0 then F BOTTOM ((0,0),(3,0)) i j + F BOTTOM ((3,0),(4,0)) i j else 0) + (if j =? 0 then 0 else 0)
      + (if j =? M then F TOP ((0,0),(3,0)) i (S j) + F TOP ((3,0),(4,0)) i (S j) else 0) + (if j =? M then 0 else 0)
      + (if i =? 0 then F LEFT ((0,0),(0,2)) i j + F LEFT ((0,2),(0,4)) i j else 0) + (if i =? 0 then 0 else 0)
      + (if i =? M then F RIGHT ((0,0),(0,2)) (S i) j + F RIGHT ((0,2),(0,4)) (S i) j else 0) + (if i =? M then 0 else 0)).
    { intros i j Hi Hj. unfold tile_of, hex_tile. cbn [fst snd].
      replace (4 * j =? 0) with (j =? 0) by (destruct (Nat.eqb_spec j 0), (Nat.eqb_spec (4 * j) 0); try reflexivity; lia).
      replace (4 * i =? 0) with (i =? 0) by (destruct (Nat.eqb_spec i 0), (Nat.eqb_spec (4 * i) 0); try reflexivity; lia).
      pose proof N_pos.
      replace (4 * j + 4 =? 4 * N) with (j =? M) by (destruct (Nat.eqb_spec j M), (Nat.eqb_spec (4 * j + 4) (4 * N)); try reflexivity; lia).
      replace (4 * i + 4 =? 4 * N) with (i =? M) by (destruct (Nat.eqb_spec i M), (Nat.eqb_spec (4 * i + 4) (4 * N)); try reflexivity; lia).
      rewrite !map_app, !lsum_app.
      assert (U : forall a b c d, hedge_abs (4 * i) (4 * S j) ((a, b), (c, d)) = hedge_abs (4 * i) (4 * j) ((a, 4 + b), (c, 4 + d))).
      { intros. symmetry. apply dat_up. }
      assert (R : forall a b c d, hedge_abs (4 * S i) (4 * j) ((a, b), (c, d)) = hedge_abs (4 * i) (4 * j) ((4 + a, b), (4 + c, d))).
      { intros. symmetry. apply dat_right. }
      unfold F. rewrite !U, !R. generalize (4 * i), (4 * j). intros x y. clear.
      destruct (j =? 0), (j =? M), (i =? 0), (i =? M); unfold lsum; cbn; unfold hpt; lia. }
    rewrite (sum_ext N _ _ (fun i Hi => sum_ext N _ _ (fun j Hj => T i j Hi Hj))). clear T. rewrite N_pos.
    pose proof (row_sum M (S M) (fun i j => 0 + (0 + 0) + (if j =? 0 then F BOTTOM ((0,0),(3,0)) i j + F BOTTOM ((3,0),(4,0)) i j else 0) + (if j =? 0 then 0 else 0)
      + (if j =? M then F TOP ((0,0),(3,0)) i (S j) + F TOP ((3,0),(4,0)) i (S j) else 0) + (if j =? M then 0 else 0))
      (fun i j => F LEFT ((0,0),(0,2)) i j + F LEFT ((0,2),(0,4)) i j) (fun _ _ => 0) (fun i j => F RIGHT ((0,0),(0,2)) i j + F RIGHT ((0,2),(0,4)) i j)) as R.
    cbv beta in R. rewrite R. clear R.
    rewrite (sum_ext (S M) _ _ (fun i Hi => column_sum M (fun _ => 0) (fun _ => 0) (fun _ => 0) (fun j => F BOTTOM ((0,0),(3,0)) i j + F BOTTOM ((3,0),(4,0)) i j)
      (fun _ => 0) (fun j => F TOP ((0,0),(3,0)) i j + F TOP ((3,0),(4,0)) i j))). cbv beta.
    change (fun _ : nat => 0 + 0) with (fun _ : nat => 0). rewrite !sum_0.
    rewrite Nat.add_0_r, <- !sum_add. unfold outer_edges. rewrite lsum_map, lsum_flat, lsum_seq. apply sum_ext. intros i _.
    unfold lsum, F, und2, und, dat. cbn [map list_sum fold_right fst snd plus].
    assert (UA : forall x y a b c d, hedge_make (fst (hedge_abs x y ((a, b), (c, d)))) (snd (hedge_abs x y ((a, b), (c, d)))) = hedge_abs x y (hedge_make (a, b) (c, d))).
    { intros. unfold hedge_make, hedge_abs, hpt_abs. cbn [fst snd].
      assert (E : hpt_ltb (c + x, d + y) (a + x, b + y) = hpt_ltb (c, d) (a, b)).
      { apply eq_true_iff_eq. rewrite !hpt_ltb_iff. cbn [fst snd]. lia. }
      rewrite E. destruct (hpt_ltb (c, d) (a, b)); reflexivity. }
    rewrite !UA. generalize (4 * i), (4 * 0), (4 * S M). intros. cbn. unfold hpt. lia.
  Qed.
End Level.

(** ** No edge is listed twice *)
Lemma und_abs x y d : und (hedge_abs x y d) = hedge_abs x y (und d).
Proof.
  destruct d as [[a b] [c d]]. unfold und, hedge_make, hedge_abs, hpt_abs. cbn [fst snd].
  assert (E : hpt_ltb (c + x, d + y) (a + x, b + y) = hpt_ltb (c, d) (a, b)).
  { apply eq_true_iff_eq. rewrite !hpt_ltb_iff. cbn [fst snd]. lia. }
  rewrite E. destruct (hpt_ltb (c, d) (a, b)); reflexivity.
Qed.
Lemma und_rev d : fst d <> snd d -> und (drev d) = und d.
Proof.
  destruct d as [a b]. unfold und, drev, hedge_make. cbn [fst snd]. intros N.
  destruct (hpt_ltb a b) eqn:E1, (hpt_ltb b a) eqn:E2; try reflexivity.
  - rewrite (ltb_asym _ hpt_sto _ _ E1) in E2. discriminate.
  - exfalso. apply N. apply (sto_total _ hpt_sto); assumption.
Qed.

(** local names of the edges *)
Definition k9 : hedge := ((3,0),(4,0)).
Definition k12 : hedge := ((0,0),(3,0)).
Definition k14 : hedge := ((0,0),(0,2)).
Definition k15 : hedge := ((0,2),(0,4)).
Definition ukinds : list hedge := map und inner_kinds.
Definition akinds : list hedge := k9 :: k12 :: k14 :: k15 :: ukinds.
Definition uat (t : hedge * (nat * nat)) : hedge := hedge_abs (4 * fst (snd t)) (4 * snd (snd t)) (fst t).

Lemma uat_inj t t' : In (fst t) akinds -> In (fst t') akinds -> uat t = uat t' -> t = t'.
Proof.
  destruct t as [u [i j]], t' as [u' [i' j']]. unfold uat, hedge_abs, hpt_abs. cbn [fst snd]. intros Hu Hu' E.
  assert (K : u = u' /\ i = i' /\ j = j'); [|destruct K as (-> & -> & ->); reflexivity].
  unfold akinds, ukinds, inner_kinds, und, hedge_make, k9, k12, k14, k15 in Hu, Hu'. cbn in Hu, Hu'.
  repeat (destruct Hu as [<-|Hu]; [repeat (destruct Hu' as [<-|Hu']; [cbn [fst snd] in E; injection E; clear E; intros; split; [first [reflexivity|exfalso; lia]|lia]|]); destruct Hu'|]).
  destruct Hu.
Qed.

Definition inner_trip (N : nat) : list (hedge * (nat * nat)) :=
  flat_map (fun i => flat_map (fun j => map (fun k => (k, (i, j))) ukinds) (seq 0 N) ++ map (fun j => (k9, (i, S j))) (seq 0 (N - 1))) (seq 0 N).
Definition outer_trip (N : nat) : list (hedge * (nat * nat)) :=
  flat_map (fun i => [(k12, (i, 0)); (k9, (i, 0)); (k12, (i, N)); (k9, (i, N)); (k14, (N, i)); (k15, (N, i)); (k14, (0, i)); (k15, (0, i))]) (seq 0 N).

Lemma inner_und N : map und (inner_edges N) = map uat (inner_trip N).
Proof.
  unfold inner_edges, inner_trip. rewrite !map_flat_map. apply flat_map_ext. intros i. rewrite !map_app, !map_flat_map, !map_map. f_equal.
  - apply flat_map_ext. intros j. unfold ukinds. rewrite !map_map. apply map_ext. intros k. unfold dat. rewrite und_abs. reflexivity.
  - apply map_ext. intros j. unfold dat. rewrite und_abs. reflexivity.
Qed.
Lemma outer_und N : map und (map snd (outer_edges N)) = map uat (outer_trip N).
Proof.
  unfold outer_edges, outer_trip. rewrite !map_flat_map. apply flat_map_ext. intros i. cbn [map snd]. unfold dat. rewrite !und_abs. reflexivity.
Qed.

Lemma k9_not : ~ In k9 ukinds.
Proof. unfold ukinds, inner_kinds, k9. cbn. intuition discriminate. Qed.
Lemma ukinds_nodup : NoDup akinds.
Proof. apply (nodupb_ok deqd). vm_compute. reflexivity. Qed.

Lemma inner_trip_in N t : In t (inner_trip N) ->
  fst (snd t) < N /\ snd (snd t) < N /\ (In (fst t) ukinds \/ (fst t = k9 /\ 0 < snd (snd t))).
Proof.
  unfold inner_trip. intros H. apply in_flat_map in H as (i & Hi & H). apply in_seq in Hi. apply in_app_or in H as [H|H].
  - apply in_flat_map in H as (j & Hj & H). apply in_seq in Hj. apply in_map_iff in H as (k & <- & Hk). cbn [fst snd]. repeat split; try lia. left. exact Hk.
  - apply in_map_iff in H as (j & <- & Hj). apply in_seq in Hj. cbn [fst snd]. repeat split; try lia. right. split; [reflexivity|lia].
Qed.

Lemma trip_nodup N : NoDup (inner_trip N ++ outer_trip N).
Proof.
  assert (ND : NoDup ukinds). { pose proof ukinds_nodup as H. unfold akinds in H. inversion H; subst. inversion H3; subst. inversion H5; subst. inversion H7; subst. assumption. }
  apply nodup_app.
  - apply nodup_flat_map; [apply seq_NoDup| |].
    + intros i _. apply nodup_app.
      * apply nodup_flat_map; [apply seq_NoDup| |].
        { intros j _. apply map_nodup_on; [|exact ND]. intros x y _ _ E. congruence. }
        { intros j j' z _ _ H H'. apply in_map_iff in H as (k & <- & _), H' as (k' & E & _). congruence. }
      * apply map_nodup_on; [|apply seq_NoDup]. intros x y _ _ E. congruence.
      * intros z Hz Hz'. apply in_flat_map in Hz as (j & _ & H). apply in_map_iff in H as (k & <- & Hk), Hz' as (j' & E & _).
        apply k9_not. congruence.
    + intros i i' z _ _ H H'.
      assert (G : forall i, In z (flat_map (fun j => map (fun k => (k, (i, j))) ukinds) (seq 0 N) ++ map (fun j => (k9, (i, S j))) (seq 0 (N - 1))) -> fst (snd z) = i).
      { clear. intros i H. apply in_app_or in H as [H|H]; [apply in_flat_map in H as (j & _ & H)|]; apply in_map_iff in H as (k & <- & _); reflexivity. }
      apply G in H, H'. congruence.
  - apply nodup_flat_map; [apply seq_NoDup| |].
    + intros i Hi. apply in_seq in Hi. unfold k12, k9, k14, k15.
      repeat constructor; cbn [In]; intros H; repeat (destruct H as [H|H]; [injection H; intros; try lia; discriminate|]); destruct H.
    + intros i i' z Hi Hi'. apply in_seq in Hi, Hi'. unfold k12, k9, k14, k15. cbn [In]. intros H H'.
      repeat (destruct H as [<-|H]; [repeat (destruct H' as [H'|H']; [injection H'; intros; lia|]); destruct H'|]). destruct H.
  - intros t Ht Ht'. apply inner_trip_in in Ht as (A & B & C). unfold outer_trip in Ht'. apply in_flat_map in Ht' as (i & Hi & H). apply in_seq in Hi.
    assert (NU : forall k, In k [k9; k12; k14; k15] -> ~ In k ukinds).
    { intros k Hk Hu. pose proof ukinds_nodup as U. change akinds with ([k9; k12; k14; k15] ++ ukinds) in U.
      revert Hk Hu U. generalize [k9; k12; k14; k15] as a, ukinds as b. clear. induction a as [|x a IH]; intros b Hk Hu U; [destruct Hk|].
      inversion U; subst. destruct Hk as [->|Hk]; [apply H1; apply in_or_app; right; exact Hu|]. eapply IH; eauto. }
    cbn [In] in H.
    repeat (destruct H as [<-|H]; [cbn [fst snd] in *; destruct C as [C|[C1 C2]]; [revert C; apply NU; cbn; auto|first [lia|discriminate]]|]). destruct H.
Qed.

Lemma trip_kinds N t : In t (inner_trip N ++ outer_trip N) -> In (fst t) akinds.
Proof.
  intros H. apply in_app_or in H as [H|H].
  - apply inner_trip_in in H as (_ & _ & [H|[-> _]]); [do 4 right; exact H|left; reflexivity].
  - unfold outer_trip in H. apply in_flat_map in H as (i & _ & H). cbn [In] in H. unfold akinds.
    repeat (destruct H as [<-|H]; [cbn; tauto|]). destruct H.
Qed.

Lemma und_nodup N : NoDup (map und (inner_edges N) ++ map und (map snd (outer_edges N))).
Proof.
  rewrite inner_und, outer_und, <- map_app. apply map_nodup_on; [|apply trip_nodup].
  intros x y Hx Hy. apply uat_inj; apply (trip_kinds N); assumption.
Qed.
