(** The hexagonal mesh: owners of the edges, areas, the whole of make_hexmesh. *)
From Coq Require Import List Arith Bool Sorted Permutation Lia ZArith.
From Verif Require Import Common Mesh_Model Mesh_Spec Mesh_Proofs Elem_Model Elem_Spec Elem_Proofs Refine_Proofs Mesher_Model Mesher_Proofs
  Single_Model Hex_Model Hex_Spec Hex_Proofs Hex2_Proofs.
Import ListNotations.
Local Open Scope nat_scope.

(** ** Rings *)
Lemma goes_ring p a b : goes p a b <-> In (a, b) (ring p).
Proof.
  unfold goes, ring. unfold poly, hpt in *. rewrite in_map_iff. split.
  - intros (i & Hi & A & B). exists i. split; [|apply in_seq; split; [apply Nat.le_0_l|exact Hi]].
    rewrite (nth_error_nth _ _ (0, 0) A), (nth_error_nth _ _ (0, 0) B). reflexivity.
  - intros (i & E & Hi). apply in_seq in Hi. exists i. assert (L : (i + 1) mod length p < length p) by (apply Nat.mod_upper_bound; lia).
    injection E as E1 E2. split; [lia|]. rewrite <- E1, <- E2. split; apply nth_error_nth'; lia.
Qed.

Lemma ring_combine p : ring p = combine p (skipn 1 p ++ firstn 1 p).
Proof.
  destruct p as [|a p]; [reflexivity|]. cbn [skipn firstn]. unfold ring. unfold poly, hpt in *.
  apply (nth_ext _ _ ((0,0),(0,0)) ((0,0),(0,0))).
  { rewrite map_length, seq_length, combine_length, app_length. cbn [length]. lia. }
  intros i Hi. rewrite map_length, seq_length in Hi. rewrite combine_nth by (rewrite app_length; cbn [length]; lia).
  set (g := fun i => (nth i (a :: p) (0, 0), nth ((i + 1) mod length (a :: p)) (a :: p) (0, 0))).
  rewrite (nth_indep _ _ (g 0)) by (rewrite map_length, seq_length; exact Hi). rewrite (map_nth g), seq_nth by exact Hi. unfold g. cbn [plus]. f_equal. cbn [length] in *.
  destruct (Nat.eq_dec i (length p)) as [->|N].
  - replace (length p + 1) with (S (length p)) by lia. rewrite Nat.mod_same by lia. rewrite app_nth2, Nat.sub_diag by lia. reflexivity.
  - rewrite Nat.mod_small by lia. rewrite app_nth1 by lia. replace (i + 1) with (S i) by lia. reflexivity.
Qed.

Definition zsum {A} (f : A -> Z) (l : list A) : Z := fold_right (fun x s => (f x + s)%Z) 0%Z l.
Lemma zsum_app {A} (f : A -> Z) a b : zsum f (a ++ b) = (zsum f a + zsum f b)%Z.
Proof. induction a as [|x a IH]; [reflexivity|]. cbn [app zsum fold_right] in *. unfold zsum in *. cbn [fold_right] in *. rewrite IH. lia. Qed.
Lemma zsum_perm {A} (f : A -> Z) a b : Permutation a b -> zsum f a = zsum f b.
Proof. induction 1; cbn [zsum fold_right] in *; unfold zsum in *; cbn [fold_right] in *; lia. Qed.
Lemma zsum_flat {A B} (f : B -> Z) (g : A -> list B) l : zsum f (flat_map g l) = zsum (fun x => zsum f (g x)) l.
Proof. induction l as [|x l IH]; [reflexivity|]. cbn [flat_map]. rewrite zsum_app, IH. reflexivity. Qed.
Lemma zsum_map {A B} (f : B -> Z) (g : A -> B) l : zsum f (map g l) = zsum (fun x => f (g x)) l.
Proof. induction l as [|x l IH]; [reflexivity|]. cbn [map]. unfold zsum in *. cbn [fold_right]. rewrite IH. reflexivity. Qed.
Lemma zsum_ext {A} (f g : A -> Z) l : (forall x, In x l -> f x = g x) -> zsum f l = zsum g l.
Proof.
  induction l as [|x l IH]; intros H; [reflexivity|]. unfold zsum in *. cbn [fold_right].
  rewrite IH by (intros; apply H; right; assumption). rewrite H by (left; reflexivity). reflexivity.
Qed.
Lemma zsum_const {A} (c : Z) (l : list A) : zsum (fun _ => c) l = (Z.of_nat (length l) * c)%Z.
Proof. induction l as [|x l IH]; [reflexivity|]. unfold zsum in *. cbn [fold_right length]. rewrite IH. lia. Qed.

Definition dcross (d : hpt * hpt) : Z := cross (fst d) (snd d).
Lemma area2_ring p : area2 p = zsum dcross (ring p).
Proof.
  rewrite ring_combine. destruct p as [|a p]; [reflexivity|]. cbn [area2 skipn firstn].
  assert (G : forall r x, shoelace a (x :: r) = zsum dcross (combine (x :: r) (r ++ [a]))).
  { induction r as [|y r IH]; intros x; [cbn [shoelace combine app]; unfold zsum, dcross; cbn [fold_right fst snd]; lia|].
    change (shoelace a (x :: y :: r)) with (cross x y + shoelace a (y :: r))%Z. rewrite IH. reflexivity. }
  apply G.
Qed.

(** ** The local pieces *)
Definition pieces : list poly := main_hex ++ bottom_polys ++ top_polys ++ top_inner ++ left_polys ++ right_polys ++ right_inner.

Lemma tile_pieces cm i j p : In p (fst (tile_of cm (i, j))) -> exists q, In q pieces /\ p = poly_abs (4 * i) (4 * j) q.
Proof.
  unfold tile_of, hex_tile. cbn [fst snd]. intros H. apply in_map_iff in H as (q & <- & H). exists q. split; [|reflexivity].
  unfold pieces. rewrite !in_app_iff in *.
  destruct (4 * j =? 0), (4 * j + 4 =? cm), (4 * i =? 0), (4 * i + 4 =? cm); tauto.
Qed.

Lemma tiles_in k : forall i j t, In t (tiles k i j) <-> i <= fst t < i + 2 ^ k /\ j <= snd t < j + 2 ^ k.
Proof.
  induction k as [|k IH]; intros i j t; cbn [tiles].
  - cbn [Nat.pow In]. split; [intros [<-|[]]; cbn [fst snd]; lia|]. intros H. left. destruct t as [a b]. cbn [fst snd] in H. f_equal; lia.
  - rewrite !in_app_iff, !IH. cbn [Nat.pow]. assert (0 < 2 ^ k) by (apply Nat.neq_0_lt_0, Nat.pow_nonzero; lia).
    destruct (le_lt_dec (i + 2 ^ k) (fst t)), (le_lt_dec (j + 2 ^ k) (snd t)); intuition lia.
Qed.

Lemma poly_piece l p : In p (all_polys l) -> exists q i j, In q pieces /\ p = poly_abs (4 * i) (4 * j) q /\ i < 2 ^ l /\ j < 2 ^ l /\
  In p (fst (tile_of (4 * 2 ^ l) (i, j))).
Proof.
  intros H. apply in_flat_map in H as ([i j] & Ht & H). apply tiles_in in Ht. cbn [fst snd] in Ht.
  destruct (tile_pieces _ _ _ _ H) as (q & Hq & E). exists q, i, j. repeat split; auto; lia.
Qed.

Definition piece_ok (q : poly) : bool :=
  (3 <=? length q) && nodupb heqd q && nodupb deqd (map und (ring q)) &&
  forallb (fun d => negb (if heqd (fst d) (snd d) then true else false)) (ring q) &&
  (0 <? area2 q)%Z &&
  forallb (fun d => forallb (fun e => if heqd (snd d) (fst e) then (0 <? turn (fst d) (snd d) (snd e))%Z else true) (ring q)) (ring q).
Lemma pieces_ok : forallb piece_ok pieces = true.
Proof. vm_compute. reflexivity. Qed.

Lemma hpt_abs_inj x y p q : hpt_abs x y p = hpt_abs x y q -> p = q.
Proof. destruct p, q. unfold hpt_abs. cbn [fst snd]. intros E. injection E as E1 E2. f_equal; lia. Qed.
Lemma hedge_abs_inj x y p q : hedge_abs x y p = hedge_abs x y q -> p = q.
Proof. destruct p, q. unfold hedge_abs. cbn [fst snd]. intros E. injection E as E1 E2. f_equal; eapply hpt_abs_inj; unfold hpt_abs; f_equal; eassumption. Qed.

Lemma poly_edges_und p : poly_edges p = map und (ring p).
Proof. reflexivity. Qed.

Lemma turn_abs x y a b c : turn (hpt_abs x y a) (hpt_abs x y b) (hpt_abs x y c) = turn a b c.
Proof. unfold turn, hpt_abs. cbn [fst snd]. f_equal; f_equal; lia. Qed.

(** sum of the differences along a closed polygon *)
Lemma closed_sum (g : hpt -> Z) p : zsum (fun d => (g (snd d) - g (fst d))%Z) (ring p) = 0%Z.
Proof.
  rewrite ring_combine. destruct p as [|a p]; [reflexivity|]. cbn [skipn firstn].
  assert (G : forall r x, zsum (fun d => (g (snd d) - g (fst d))%Z) (combine (x :: r) (r ++ [a])) = (g a - g x)%Z).
  { induction r as [|y r IH]; intros x; [cbn; lia|]. cbn [combine app]. change (combine (y :: r) (r ++ [a])) with (combine (y :: r) (r ++ [a])).
    unfold zsum in *. cbn [fold_right fst snd]. specialize (IH y). cbn [combine app] in IH.
    destruct (r ++ [a]) as [|z s] eqn:Er; [destruct r; discriminate|]. cbn [combine fold_right fst snd] in *. lia. }
  rewrite G. lia.
Qed.
Lemma area2_abs x y p : area2 (poly_abs x y p) = area2 p.
Proof.
  rewrite !area2_ring, ring_abs, zsum_map.
  set (X := Z.of_nat x). set (Y := Z.of_nat y).
  rewrite (zsum_ext _ (fun d => (dcross d + (X * Z.of_nat (snd (snd d)) - Y * Z.of_nat (fst (snd d)) - (X * Z.of_nat (snd (fst d)) - Y * Z.of_nat (fst (fst d)))))%Z)).
  - pose proof (closed_sum (fun q => X * Z.of_nat (snd q) - Y * Z.of_nat (fst q))%Z p) as C. cbv beta in C.
    revert C. generalize (ring p). clear. intros r C.
    assert (A : forall (f g : hpt * hpt -> Z) r, zsum (fun d => (f d + g d)%Z) r = (zsum f r + zsum g r)%Z).
    { clear. intros f g r. induction r as [|d r IH]; [reflexivity|]. unfold zsum in *. cbn [fold_right]. lia. }
    rewrite A, C. lia.
  - intros [[a b] [c d]] _. unfold dcross, cross, hedge_abs, hpt_abs, X, Y. cbn [fst snd]. rewrite !Nat2Z.inj_add. ring.
Qed.

Lemma poly_facts l p : In p (all_polys l) -> 3 <= length p /\ NoDup p /\ NoDup (poly_edges p) /\
  (forall d, In d (ring p) -> fst d <> snd d) /\ (0 < area2 p)%Z /\ convex_ccw p.
Proof.
  intros H. apply poly_piece in H as (q & i & j & Hq & -> & _).
  pose proof (proj1 (forallb_forall _ _) pieces_ok q Hq) as K. unfold piece_ok in K. rewrite !andb_true_iff in K.
  destruct K as (((((K1 & K2) & K3) & K4) & K5) & K6). split; [|split; [|split; [|split; [|split]]]].
  - unfold poly_abs. rewrite map_length. apply Nat.leb_le. exact K1.
  - apply map_nodup_on; [|apply (nodupb_ok heqd); exact K2]. intros x y _ _. apply hpt_abs_inj.
  - rewrite poly_edges_und, ring_abs, map_map. rewrite (map_ext _ (fun d => hedge_abs (4 * i) (4 * j) (und d))) by (intros; apply und_abs).
    rewrite <- (map_map und). apply map_nodup_on; [|apply (nodupb_ok deqd); exact K3]. intros x y _ _. apply hedge_abs_inj.
  - intros d Hd. rewrite ring_abs in Hd. apply in_map_iff in Hd as (e & <- & He). unfold hedge_abs. cbn [fst snd]. intros E.
    apply hpt_abs_inj in E. pose proof (proj1 (forallb_forall _ _) K4 e He) as G. cbv beta in G. destruct (heqd (fst e) (snd e)); [discriminate G|contradiction].
  - rewrite area2_abs. apply Z.ltb_lt. exact K5.
  - intros a b c Hab Hbc. apply goes_ring in Hab, Hbc. rewrite ring_abs in Hab, Hbc.
    apply in_map_iff in Hab as (d & Ed & Hd), Hbc as (e & Ee & He). unfold hedge_abs in Ed, Ee. apply pair_equal_spec in Ed as [<- <-]. apply pair_equal_spec in Ee as [E1 <-].
    apply hpt_abs_inj in E1. pose proof (proj1 (forallb_forall _ _) K6 d Hd) as G1. pose proof (proj1 (forallb_forall _ _) G1 e He) as G.
    cbv beta in G. match type of G with (if ?x then _ else _) = _ => destruct x as [_|N] end; [|exfalso; apply N; symmetry; exact E1].
    rewrite turn_abs. apply Z.ltb_lt. exact G.
Qed.

Lemma poly_bounds l p a : In p (all_polys l) -> In a p -> fst a <= 4 * 2 ^ l /\ snd a <= 4 * 2 ^ l.
Proof.
  intros H Ha. apply poly_piece in H as (q & i & j & _ & _ & Hi & Hj & H). set (N := 2 ^ l) in *. clearbody N.
  unfold tile_of, hex_tile in H. cbn [fst snd] in H. apply in_map_iff in H as (q' & <- & H). apply in_map_iff in Ha as (b & <- & Hb).
  unfold hpt_abs. cbn [fst snd].
  assert (B : forall ps X Y, forallb (fun q => forallb (fun b => (fst b <=? X) && (snd b <=? Y)) q) ps = true -> In q' ps -> fst b <= X /\ snd b <= Y).
  { intros ps X Y F Hq. pose proof (proj1 (forallb_forall _ _) F q' Hq) as F1. pose proof (proj1 (forallb_forall _ _) F1 b Hb) as F2.
    cbv beta in F2. apply andb_true_iff in F2 as [F2 F3]. apply Nat.leb_le in F2, F3. lia. }
  rewrite !in_app_iff in H. destruct H as [H|[H|[H|[H|H]]]].
  - apply (B main_hex 4 4) in H; [lia|reflexivity].
  - destruct (4 * j =? 0); [|destruct H]. apply (B bottom_polys 4 4) in H; [lia|reflexivity].
  - destruct (Nat.eqb_spec (4 * j + 4) (4 * N)).
    + apply (B top_polys 4 4) in H; [lia|reflexivity].
    + apply (B top_inner 4 5) in H; [lia|reflexivity].
  - destruct (4 * i =? 0); [|destruct H]. apply (B left_polys 4 4) in H; [lia|reflexivity].
  - destruct (Nat.eqb_spec (4 * i + 4) (4 * N)).
    + apply (B right_polys 4 4) in H; [lia|reflexivity].
    + apply (B right_inner 5 4) in H; [lia|reflexivity].
Qed.

(** ** Areas *)
Lemma total_area l : zsum area2 (all_polys l) = (2 * (Z.of_nat (4 * 2 ^ l) * Z.of_nat (4 * 2 ^ l)))%Z.
Proof.
  rewrite (zsum_ext _ (fun p => zsum dcross (ring p))) by (intros; apply area2_ring). rewrite <- zsum_flat.
  rewrite (zsum_perm _ _ _ (directed l)), !zsum_app, zsum_map.
  assert (A : forall r, (zsum dcross r + zsum (fun d => dcross (drev d)) r = 0)%Z).
  { induction r as [|[a b] r IH]; [reflexivity|]. unfold zsum in *. cbn [fold_right]. unfold dcross, drev, cross in *. cbn [fst snd] in *. lia. }
  rewrite Z.add_assoc, A. set (N := 2 ^ l). unfold outer_edges. rewrite zsum_map, zsum_flat.
  rewrite (zsum_ext _ (fun _ => 32 * Z.of_nat N)%Z).
  - rewrite zsum_const, seq_length. rewrite Nat2Z.inj_mul. ring.
  - intros i _. unfold zsum, dcross, cross, dat, hedge_abs, hpt_abs. cbn [fold_right fst snd]. rewrite !Nat2Z.inj_add, !Nat2Z.inj_mul. change (Z.of_nat 0) with 0%Z; change (Z.of_nat 2) with 2%Z; change (Z.of_nat 3) with 3%Z; change (Z.of_nat 4) with 4%Z; ring.
Qed.

(** ** Owners *)
Fixpoint pairs (polys : list poly) (ofs : nat) : list (hedge * nat) :=
  match polys with [] => [] | p :: r => map (fun e => (e, ofs)) (poly_edges p) ++ pairs r (S ofs) end.
Definition occ (D : list (hedge * nat)) (e : hedge) : list nat := map snd (filter (fun p => hedge_eqb (fst p) e) D).
Definition own_of (l : list nat) : option nat * option nat :=
  match l with [] => (None, None) | [a] => (Some a, None) | a :: b :: _ => (Some a, Some b) end.

Lemma add_owners_pairs polys : forall ofs own,
  add_owners polys ofs own = each (fun p o => add_edge_owner o (fst p) (snd p)) (pairs polys ofs) own.
Proof.
  induction polys as [|p r IH]; intros ofs own; [reflexivity|]. cbn [add_owners pairs]. rewrite each_app.
  assert (E : forall es o, each (fun e o => add_edge_owner o e ofs) es o = each (fun p o => add_edge_owner o (fst p) (snd p)) (map (fun e => (e, ofs)) es) o).
  { induction es as [|e es IHe]; intros o; [reflexivity|]. cbn [each map fst snd]. destruct (add_edge_owner o e ofs); cbn [bind]; auto. }
  rewrite E. destruct (each _ (map _ (poly_edges p)) own); cbn [bind]; auto.
Qed.

Lemma occ_app a b e : occ (a ++ b) e = occ a e ++ occ b e.
Proof. unfold occ. rewrite filter_app, map_app. reflexivity. Qed.

Lemma owners_run L : forall D own, (forall e, own e = own_of (occ D e)) -> (forall e, length (occ (D ++ L) e) <= 2) ->
  exists own', each (fun p o => add_edge_owner o (fst p) (snd p)) L own = Ok own' /\ forall e, own' e = own_of (occ (D ++ L) e).
Proof.
  induction L as [|[e k] L IH]; intros D own Hown Hlen.
  - exists own. split; [reflexivity|]. rewrite app_nil_r. exact Hown.
  - cbn [each fst snd].
    assert (A : D ++ (e, k) :: L = (D ++ [(e, k)]) ++ L) by (rewrite <- app_assoc; reflexivity).
    assert (Le : length (occ D e) <= 1).
    { specialize (Hlen e). rewrite A, !occ_app, !app_length in Hlen. unfold occ at 2 in Hlen. cbn [filter fst] in Hlen.
      rewrite (proj2 (hedge_eqb_iff e e) eq_refl) in Hlen. cbn [map length] in Hlen. lia. }
    assert (Oe : forall x, occ (D ++ [(e, k)]) x = occ D x ++ (if hedge_eqb x e then [k] else [])).
    { intros x. rewrite occ_app. f_equal. unfold occ. cbn [filter fst].
      destruct (hedge_eqb e x) eqn:E1, (hedge_eqb x e) eqn:E2; try reflexivity.
      - apply hedge_eqb_iff in E1. subst. rewrite (proj2 (hedge_eqb_iff _ _) eq_refl) in E2. discriminate.
      - apply hedge_eqb_iff in E2. subst. rewrite (proj2 (hedge_eqb_iff _ _) eq_refl) in E1. discriminate. }
    assert (ST : exists o1, add_edge_owner own e k = Ok o1 /\ forall x, o1 x = own_of (occ (D ++ [(e, k)]) x)).
    { unfold add_edge_owner. rewrite (Hown e). destruct (occ D e) as [|a [|b r]] eqn:Eo; cbn [own_of fst snd length] in *; [| |lia].
      - eexists. split; [reflexivity|]. intros x. rewrite Oe. destruct (hedge_eqb x e) eqn:E.
        + apply hedge_eqb_iff in E. subst x. rewrite Eo. reflexivity.
        + rewrite app_nil_r. apply Hown.
      - eexists. split; [reflexivity|]. intros x. rewrite Oe. destruct (hedge_eqb x e) eqn:E.
        + apply hedge_eqb_iff in E. subst x. rewrite Eo. reflexivity.
        + rewrite app_nil_r. apply Hown. }
    destruct ST as (o1 & E1 & H1). rewrite E1. cbn [bind]. rewrite A. apply IH; [exact H1|]. intros x. rewrite <- A. apply Hlen.
Qed.

Lemma occ_count polys e : forall ofs, length (occ (pairs polys ofs) e) = count_occ deqd (flat_map poly_edges polys) e.
Proof.
  induction polys as [|p r IH]; intros ofs; [reflexivity|]. cbn [pairs flat_map]. rewrite occ_app, app_length, count_occ_app, IH. f_equal.
  induction (poly_edges p) as [|f es IHe]; [reflexivity|]. unfold occ in *. cbn [map filter fst count_occ].
  destruct (hedge_eqb f e) eqn:E, (deqd f e) as [E'|E']; cbn [map length]; rewrite ?IHe; try reflexivity.
  - apply hedge_eqb_iff in E. contradiction.
  - subst. rewrite (proj2 (hedge_eqb_iff _ _) eq_refl) in E. discriminate.
Qed.

Lemma occ_in polys e k : forall ofs, In k (occ (pairs polys ofs) e) <-> exists p, ofs <= k /\ nth_error polys (k - ofs) = Some p /\ In e (poly_edges p).
Proof.
  induction polys as [|p r IH]; intros ofs.
  - split; [intros []|]. intros (p & _ & H & _). destruct (k - ofs); discriminate.
  - cbn [pairs]. rewrite occ_app, in_app_iff, IH. split.
    + intros [H|(q & L & H & K)].
      * unfold occ in H. apply in_map_iff in H as ([f k'] & E & H). apply filter_In in H as [H Ef]. apply in_map_iff in H as (g & Eg & Hg).
        injection Eg as -> ->. cbn [fst snd] in *. apply hedge_eqb_iff in Ef. subst. exists p. rewrite Nat.sub_diag. repeat split; auto.
      * exists q. replace (k - ofs) with (S (k - S ofs)) by lia. repeat split; auto; lia.
    + intros (q & L & H & K). destruct (Nat.eq_dec k ofs) as [->|N].
      * left. rewrite Nat.sub_diag in H. injection H as ->. unfold occ. apply in_map_iff. exists (e, ofs). split; [reflexivity|].
        apply filter_In. split; [apply in_map_iff; exists e; auto|]. apply hedge_eqb_iff. reflexivity.
      * right. exists q. replace (k - ofs) with (S (k - S ofs)) in H by lia. repeat split; auto; lia.
Qed.

Lemma occ_nodup polys e : (forall p, In p polys -> NoDup (poly_edges p)) -> forall ofs, NoDup (occ (pairs polys ofs) e).
Proof.
  induction polys as [|p r IH]; intros H ofs; [constructor|]. cbn [pairs]. rewrite occ_app. apply nodup_app.
  - assert (NE : NoDup (poly_edges p)) by (apply H; left; reflexivity). clear - NE. unfold occ. induction NE as [|f es Hf NE IHe]; [constructor|]. cbn [map filter fst].
    destruct (hedge_eqb f e) eqn:E; [|exact IHe]. cbn [map snd].
    apply hedge_eqb_iff in E. subst. assert (Z : filter (fun q : hedge * nat => hedge_eqb (fst q) e) (map (fun e => (e, ofs)) es) = []).
    { clear - Hf. induction es as [|g es IHe]; [reflexivity|]. cbn [map filter fst]. destruct (hedge_eqb g e) eqn:E.
      - apply hedge_eqb_iff in E. subst. exfalso. apply Hf. left. reflexivity.
      - apply IHe. intros K. apply Hf. right. exact K. }
    rewrite Z. constructor; [intros []|constructor].
  - apply IH. intros q Hq. apply H. right. exact Hq.
  - intros k Hk Hk'. apply occ_in in Hk' as (q & L & _). unfold occ in Hk. apply in_map_iff in Hk as ([f k'] & E & Hk).
    apply filter_In in Hk as [Hk _]. apply in_map_iff in Hk as (g & Eg & _). injection Eg as _ <-. cbn [snd] in E. lia.
Qed.
