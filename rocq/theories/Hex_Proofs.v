(** The hexagonal mesh: every interior edge is traversed once in each direction, every boundary edge once. *)
From Coq Require Import List Arith Bool Sorted Permutation Lia.
From Verif Require Import Common Mesh_Model Mesh_Spec Mesh_Proofs Elem_Model Elem_Spec Elem_Proofs Refine_Proofs Mesher_Model
  Single_Model Hex_Model.
Import ListNotations.
Local Open Scope nat_scope.

(** ** Sums *)
Fixpoint sum (n : nat) (f : nat -> nat) : nat := match n with 0 => 0 | S k => sum k f + f k end.
Lemma sum_ext n f g : (forall i, i < n -> f i = g i) -> sum n f = sum n g.
Proof. induction n as [|n IH]; intros H; [reflexivity|]. cbn [sum]. rewrite IH by (intros; apply H; lia). rewrite H by lia. reflexivity. Qed.
Lemma sum_add n f g : sum n (fun i => f i + g i) = sum n f + sum n g.
Proof. induction n as [|n IH]; [reflexivity|]. cbn [sum]. lia. Qed.
Lemma sum_0 n : sum n (fun _ => 0) = 0.
Proof. induction n as [|n IH]; [reflexivity|]. cbn [sum]. lia. Qed.
Lemma sum_if n (b : bool) f : sum n (fun j => if b then f j else 0) = if b then sum n f else 0.
Proof. destruct b; [reflexivity|apply sum_0]. Qed.
Lemma sum_if' n (b : bool) f : sum n (fun j => if b then 0 else f j) = if b then 0 else sum n f.
Proof. destruct b; [apply sum_0|reflexivity]. Qed.
Lemma sum_S n f : sum (S n) f = f 0 + sum n (fun j => f (S j)).
Proof. induction n as [|n IH]; [cbn; lia|]. cbn [sum] in *. lia. Qed.
Lemma sum_first n f : sum (S n) (fun j => if j =? 0 then f j else 0) = f 0.
Proof. rewrite sum_S. cbn [Nat.eqb]. rewrite sum_0. lia. Qed.
Lemma sum_last n f : sum (S n) (fun j => if j =? n then f j else 0) = f n.
Proof.
  cbn [sum]. rewrite Nat.eqb_refl. rewrite (sum_ext n _ (fun _ => 0)); [rewrite sum_0; reflexivity|].
  intros i Hi. destruct (Nat.eqb_spec i n); [lia|reflexivity].
Qed.
Lemma sum_butlast n f : sum (S n) (fun j => if j =? n then 0 else f j) = sum n f.
Proof.
  cbn [sum]. rewrite Nat.eqb_refl. rewrite Nat.add_0_r. apply sum_ext. intros i Hi. destruct (Nat.eqb_spec i n); [lia|reflexivity].
Qed.

Definition lsum {A} (f : A -> nat) (l : list A) : nat := list_sum (map f l).
Lemma lsum_app {A} (f : A -> nat) a b : lsum f (a ++ b) = lsum f a + lsum f b.
Proof. unfold lsum. rewrite map_app. apply list_sum_app. Qed.
Lemma lsum_nil {A} (f : A -> nat) : lsum f [] = 0. Proof. reflexivity. Qed.
Lemma lsum_cons {A} (f : A -> nat) a l : lsum f (a :: l) = f a + lsum f l. Proof. reflexivity. Qed.
Lemma lsum_flat {A B} (f : B -> nat) (g : A -> list B) l : lsum f (flat_map g l) = lsum (fun x => lsum f (g x)) l.
Proof. induction l as [|x l IH]; [reflexivity|]. cbn [flat_map]. rewrite lsum_app, lsum_cons, IH. reflexivity. Qed.
Lemma lsum_seq (f : nat -> nat) n : lsum f (seq 0 n) = sum n f.
Proof. induction n as [|n IH]; [reflexivity|]. rewrite seq_S, lsum_app, IH, lsum_cons, lsum_nil. cbn [sum plus]. lia. Qed.
Lemma lsum_map {A B} (f : B -> nat) (g : A -> B) l : lsum f (map g l) = lsum (fun x => f (g x)) l.
Proof. unfold lsum. rewrite map_map. reflexivity. Qed.
Lemma lsum_ext {A} (f g : A -> nat) l : (forall x, In x l -> f x = g x) -> lsum f l = lsum g l.
Proof. intros H. unfold lsum. f_equal. apply map_ext_in. exact H. Qed.

Lemma perm_of_sums {A} (eqd : forall a b : A, {a = b} + {a <> b}) (a b : list A) :
  (forall f, lsum f a = lsum f b) -> Permutation a b.
Proof.
  intros H. apply (Permutation_count_occ eqd). intros x.
  assert (E : forall l, count_occ eqd l x = lsum (fun y => if eqd y x then 1 else 0) l).
  { induction l as [|y l IH]; [reflexivity|]. cbn [count_occ]. rewrite lsum_cons. destruct (eqd y x); rewrite IH; reflexivity. }
  rewrite !E. apply H.
Qed.

(** a column of tiles, then the grid: contributions attached to the border or shifted by one tile *)
Lemma column_sum M (A G H Bo Q To : nat -> nat) :
  sum (S M) (fun j => A j + (G j + H (S j)) + (if j =? 0 then Bo j else 0) + (if j =? 0 then Q j else 0)
                      + (if j =? M then To (S j) else 0) + (if j =? M then 0 else Q (S j))) =
  sum (S M) (fun j => A j + Q j) + sum M (fun j => G (S j) + H (S j)) + G 0 + H (S M) + Bo 0 + To (S M).
Proof.
  rewrite (sum_add (S M) (fun j => A j + (G j + H (S j)) + (if j =? 0 then Bo j else 0) + (if j =? 0 then Q j else 0)
                      + (if j =? M then To (S j) else 0))).
  rewrite (sum_add (S M) (fun j => A j + (G j + H (S j)) + (if j =? 0 then Bo j else 0) + (if j =? 0 then Q j else 0))).
  rewrite (sum_add (S M) (fun j => A j + (G j + H (S j)) + (if j =? 0 then Bo j else 0))).
  rewrite (sum_add (S M) (fun j => A j + (G j + H (S j)))). rewrite (sum_add (S M) A). rewrite (sum_add (S M) G), (sum_add (S M) A Q).
  rewrite (sum_first M Bo), (sum_first M Q), (sum_last M (fun j => To (S j))), (sum_butlast M (fun j => Q (S j))).
  rewrite (sum_S M G), (sum_S M Q), (sum_add M (fun j => G (S j))). change (sum (S M) (fun j => H (S j))) with (sum M (fun j => H (S j)) + H (S M)). lia.
Qed.
Lemma row_sum M n (A Lo P Ro : nat -> nat -> nat) :
  sum (S M) (fun i => sum n (fun j => A i j + (if i =? 0 then Lo i j else 0) + (if i =? 0 then P i j else 0)
                      + (if i =? M then Ro (S i) j else 0) + (if i =? M then 0 else P (S i) j))) =
  sum (S M) (fun i => sum n (fun j => A i j)) + sum (S M) (fun i => sum n (fun j => P i j)) + sum n (Lo 0) + sum n (Ro (S M)).
Proof.
  rewrite (sum_ext (S M) _ (fun i => sum n (fun j => A i j) + (if i =? 0 then sum n (Lo i) else 0) + (if i =? 0 then sum n (P i) else 0)
                      + (if i =? M then sum n (Ro (S i)) else 0) + (if i =? M then 0 else sum n (P (S i))))).
  2: { intros i _. rewrite <- (sum_if n (i =? 0) (Lo i)), <- (sum_if n (i =? 0) (P i)), <- (sum_if n (i =? M) (Ro (S i))), <- (sum_if' n (i =? M) (P (S i))).
       rewrite <- !sum_add. reflexivity. }
  rewrite (sum_add (S M) (fun i => sum n (fun j => A i j) + (if i =? 0 then sum n (Lo i) else 0) + (if i =? 0 then sum n (P i) else 0)
                      + (if i =? M then sum n (Ro (S i)) else 0))).
  rewrite (sum_add (S M) (fun i => sum n (fun j => A i j) + (if i =? 0 then sum n (Lo i) else 0) + (if i =? 0 then sum n (P i) else 0))).
  rewrite (sum_add (S M) (fun i => sum n (fun j => A i j) + (if i =? 0 then sum n (Lo i) else 0))).
  rewrite (sum_add (S M) (fun i => sum n (fun j => A i j))).
  rewrite (sum_first M (fun i => sum n (Lo i))), (sum_first M (fun i => sum n (P i))), (sum_last M (fun i => sum n (Ro (S i)))),
    (sum_butlast M (fun i => sum n (P (S i)))). rewrite (sum_S M (fun i => sum n (fun j => P i j))). cbn beta.
  change (fun j => P 0 j) with (P 0). change (fun j : nat => sum n (fun j0 : nat => P (S j) j0)) with (fun j => sum n (P (S j))). lia.
Qed.

(** ** The recursion visits the tiles of a grid *)
Lemma ipow_pow b e : ipow b e = b ^ e.
Proof. induction e as [|e IH]; [reflexivity|]. cbn [ipow Nat.pow]. rewrite IH. apply Nat.mul_comm. Qed.

Fixpoint tiles (k i j : nat) : list (nat * nat) :=
  match k with
  | 0 => [(i, j)]
  | S k => tiles k i j ++ tiles k (i + 2 ^ k) j ++ tiles k i (j + 2 ^ k) ++ tiles k (i + 2 ^ k) (j + 2 ^ k)
  end.

Definition tile_of (cm : nat) (ij : nat * nat) : list poly * list bedge :=
  hex_tile cm (4 * fst ij) (4 * fst ij + 4) (4 * snd ij) (4 * snd ij + 4).

Definition add_tiles (hm : hexmesh) (ts : list (nat * nat)) : hexmesh :=
  fold_left (fun h ij => update_geometry h (fst (tile_of (hm_max hm) ij)) (snd (tile_of (hm_max hm) ij))) ts hm.

Lemma add_tiles_max hm ts : hm_max (add_tiles hm ts) = hm_max hm.
Proof.
  unfold add_tiles. generalize (hm_max hm) at 1 2 as cm. intros cm. revert hm. induction ts as [|t ts IH]; intros hm; [reflexivity|].
  cbn [fold_left]. rewrite IH. reflexivity.
Qed.
Lemma add_tiles_app hm a b : add_tiles hm (a ++ b) = add_tiles (add_tiles hm a) b.
Proof. unfold add_tiles at 1. rewrite fold_left_app. unfold add_tiles at 1. rewrite (add_tiles_max hm a). reflexivity. Qed.

Lemma work_tiles k : forall hm i j fuel, k < fuel ->
  hexmesh_work fuel hm (4 * i) (4 * (i + 2 ^ k)) (4 * j) (4 * (j + 2 ^ k)) = Ok (add_tiles hm (tiles k i j)).
Proof.
  induction k as [|k IH]; intros hm i j fuel Hf; destruct fuel as [|fuel]; try lia.
  - cbn [hexmesh_work]. change (2 ^ 0) with 1. replace (4 * (i + 1) - 4 * i) with 4 by lia. replace (4 * (j + 1) - 4 * j) with 4 by lia.
    cbn [Nat.eqb andb tiles]. unfold add_tiles, tile_of. cbn [fold_left fst snd]. rewrite !Nat.mul_add_distr_l. reflexivity.
  - assert (P : 0 < 2 ^ k) by (apply Nat.neq_0_lt_0, Nat.pow_nonzero; lia).
    cbn [hexmesh_work]. cbn [Nat.pow]. 
    destruct (Nat.eqb_spec (4 * (i + 2 * 2 ^ k) - 4 * i) 4) as [E|_]; [lia|]. cbn [andb].
    replace ((4 * (i + 2 * 2 ^ k) + 4 * i) / 2) with (4 * (i + 2 ^ k)).
    2: { replace (4 * (i + 2 * 2 ^ k) + 4 * i) with (4 * (i + 2 ^ k) * 2) by lia. rewrite Nat.div_mul; lia. }
    replace ((4 * (j + 2 * 2 ^ k) + 4 * j) / 2) with (4 * (j + 2 ^ k)).
    2: { replace (4 * (j + 2 * 2 ^ k) + 4 * j) with (4 * (j + 2 ^ k) * 2) by lia. rewrite Nat.div_mul; lia. }
    rewrite IH by lia. cbn [bind].
    replace (4 * (i + 2 * 2 ^ k)) with (4 * ((i + 2 ^ k) + 2 ^ k)) by lia. rewrite IH by lia. cbn [bind].
    replace (4 * (j + 2 * 2 ^ k)) with (4 * ((j + 2 ^ k) + 2 ^ k)) by lia. rewrite IH by lia. cbn [bind].
    rewrite IH by lia. cbn [tiles]. rewrite !add_tiles_app. reflexivity.
Qed.

Lemma tiles_sum k : forall i j g, lsum g (tiles k i j) = sum (2 ^ k) (fun a => sum (2 ^ k) (fun b => g (i + a, j + b))).
Proof.
  assert (SP : forall n f, sum (n + n) f = sum n f + sum n (fun a => f (n + a))).
  { intros n f. assert (G : forall m, sum (n + m) f = sum n f + sum m (fun a => f (n + a))).
    { induction m as [|m IHm]; [rewrite Nat.add_0_r; cbn; lia|]. rewrite Nat.add_succ_r. cbn [sum]. lia. }
    apply G. }
  induction k as [|k IH]; intros i j g; cbn [tiles].
  - change (2 ^ 0) with 1. cbn [sum]. rewrite lsum_cons, lsum_nil, !Nat.add_0_r. reflexivity.
  - rewrite !lsum_app, !IH. replace (2 ^ S k) with (2 ^ k + 2 ^ k) by (cbn; lia). rewrite SP.
    rewrite (sum_ext (2 ^ k) (fun a => sum (2 ^ k + 2 ^ k) (fun b => g (i + a, j + b)))
      (fun a => sum (2 ^ k) (fun b => g (i + a, j + b)) + sum (2 ^ k) (fun b => g (i + a, j + 2 ^ k + b)))).
    2: { intros a _. rewrite SP. f_equal. apply sum_ext. intros b _. rewrite Nat.add_assoc. reflexivity. }
    rewrite (sum_ext (2 ^ k) (fun a => sum (2 ^ k + 2 ^ k) (fun b => g (i + (2 ^ k + a), j + b)))
      (fun a => sum (2 ^ k) (fun b => g (i + 2 ^ k + a, j + b)) + sum (2 ^ k) (fun b => g (i + 2 ^ k + a, j + 2 ^ k + b)))).
    2: { intros a _. rewrite SP. rewrite Nat.add_assoc. f_equal. apply sum_ext. intros b _. rewrite Nat.add_assoc. reflexivity. }
    rewrite !sum_add. lia.
Qed.

(** what the tiles add *)
Lemma add_tiles_polys cm ts : forall hm, hm_max hm = cm -> let h := add_tiles hm ts in
  hm_polys h = hm_polys hm ++ flat_map (fun t => fst (tile_of cm t)) ts /\
  hm_points h = hm_points hm ++ concat (flat_map (fun t => fst (tile_of cm t)) ts) /\
  hm_edges h = hm_edges hm ++ flat_map poly_edges (flat_map (fun t => fst (tile_of cm t)) ts) /\
  hm_bedges h = hm_bedges hm ++ flat_map (fun t => snd (tile_of cm t)) ts /\ hm_owners h = hm_owners hm.
Proof.
  induction ts as [|t ts IH]; intros hm Hm h.
  - cbn [flat_map concat] in *. subst h. cbn [add_tiles fold_left]. unfold add_tiles. cbn [fold_left]. rewrite !app_nil_r. auto.
  - assert (E : h = add_tiles (update_geometry hm (fst (tile_of cm t)) (snd (tile_of cm t))) ts).
    { unfold h. change (t :: ts) with ([t] ++ ts). rewrite add_tiles_app. unfold add_tiles at 2. cbn [fold_left]. rewrite Hm. reflexivity. }
    rewrite E. destruct (IH (update_geometry hm (fst (tile_of cm t)) (snd (tile_of cm t))) Hm) as (A & B & C & D & F).
    rewrite A, B, C, D, F. cbn [update_geometry hm_polys hm_points hm_edges hm_bedges hm_owners flat_map].
    rewrite !concat_app, !flat_map_app, <- !app_assoc. auto.
Qed.

(** ** Rings *)
Lemma ring_abs bx by_ p : ring (poly_abs bx by_ p) = map (hedge_abs bx by_) (ring p).
Proof.
  unfold ring, poly_abs. rewrite map_length, map_map. apply map_ext_in. intros i Hi. apply in_seq in Hi. unfold hedge_abs. cbn [fst snd].
  assert (K : forall m, m < length p -> nth m (map (hpt_abs bx by_) p) (0, 0) = hpt_abs bx by_ (nth m p (0, 0))).
  { intros m Hm. rewrite (nth_indep _ (0, 0) (hpt_abs bx by_ (0, 0))) by (rewrite map_length; exact Hm). apply map_nth. }
  rewrite !K by (try apply Nat.mod_upper_bound; lia). reflexivity.
Qed.
Lemma rings_abs bx by_ ps : flat_map ring (map (poly_abs bx by_) ps) = map (hedge_abs bx by_) (flat_map ring ps).
Proof. induction ps as [|p ps IH]; [reflexivity|]. cbn [map flat_map]. rewrite ring_abs, IH, map_app. reflexivity. Qed.

(** ** Directed edges of the whole mesh *)
Definition dat (loc : hpt * hpt) (i j : nat) : hpt * hpt := hedge_abs (4 * i) (4 * j) loc.
Definition drev (d : hpt * hpt) : hpt * hpt := (snd d, fst d).

(** the interior edges, in the direction in which one of the two cells traverses them *)
Definition inner_kinds : list (hpt * hpt) :=
  [((0,2),(1,1)); ((1,1),(2,1)); ((2,1),(3,2)); ((3,2),(2,3)); ((2,3),(1,3)); ((1,3),(0,2));
   ((1,1),(0,0)); ((3,0),(2,1)); ((0,4),(1,3)); ((2,3),(3,4)); ((4,2),(3,2))].
Definition inner_edges (N : nat) : list (hpt * hpt) :=
  flat_map (fun i => flat_map (fun j => map (fun k => dat k i j) inner_kinds) (seq 0 N)
                     ++ map (fun j => dat ((3,0),(4,0)) i (S j)) (seq 0 (N - 1))) (seq 0 N).
(** the boundary edges with their sides, counterclockwise *)
Definition outer_edges (N : nat) : list (nat * (hpt * hpt)) :=
  flat_map (fun i => [(BOTTOM, dat ((0,0),(3,0)) i 0); (BOTTOM, dat ((3,0),(4,0)) i 0);
                      (TOP, dat ((3,0),(0,0)) i N); (TOP, dat ((4,0),(3,0)) i N);
                      (RIGHT, dat ((0,0),(0,2)) N i); (RIGHT, dat ((0,2),(0,4)) N i);
                      (LEFT, dat ((0,2),(0,0)) 0 i); (LEFT, dat ((0,4),(0,2)) 0 i)]) (seq 0 N).

Lemma dat_right a b c d i j : dat ((4 + a, b), (4 + c, d)) i j = dat ((a, b), (c, d)) (S i) j.
Proof. unfold dat, hedge_abs, hpt_abs. cbn [fst snd]. assert (H : forall x y z w x' y' z' w' : nat, x = x' -> y = y' -> z = z' -> w = w' -> ((x, y), (z, w)) = ((x', y'), (z', w'))) by congruence. apply H; lia. Qed.
Lemma dat_up a b c d i j : dat ((a, 4 + b), (c, 4 + d)) i j = dat ((a, b), (c, d)) i (S j).
Proof. unfold dat, hedge_abs, hpt_abs. cbn [fst snd]. assert (H : forall x y z w x' y' z' w' : nat, x = x' -> y = y' -> z = z' -> w = w' -> ((x, y), (z, w)) = ((x', y'), (z', w'))) by congruence. apply H; lia. Qed.

Section Directed.
  Variable M : nat.
  Let N := S M.
  Variable f : hpt * hpt -> nat.
  Let F loc i j := f (dat loc i j).

  Lemma tile_sum i j : i < N -> j < N -> lsum f (flat_map ring (fst (tile_of (4 * N) (i, j)))) =
    (F ((0,2),(1,1)) i j + F ((1,1),(2,1)) i j + F ((2,1),(3,2)) i j + F ((3,2),(2,3)) i j + F ((2,3),(1,3)) i j + F ((1,3),(0,2)) i j)
    + (F ((0,4),(1,3)) i j + F ((1,3),(2,3)) i j + F ((2,3),(3,4)) i j)
    + (F ((4,2),(3,2)) i j + F ((3,2),(2,1)) i j + F ((2,1),(3,0)) i j + F ((3,4),(2,3)) i j + F ((2,3),(3,2)) i j + F ((3,2),(4,2)) i j)
    + (F ((3,0),(4,0)) i j + F ((4,0),(3,0)) i (S j))
    + (if j =? 0 then F ((0,0),(3,0)) i j else 0)
    + (if j =? 0 then F ((3,0),(2,1)) i j + F ((2,1),(1,1)) i j + F ((1,1),(0,0)) i j else 0)
    + (if j =? M then F ((3,0),(0,0)) i (S j) else 0)
    + (if j =? M then 0 else F ((3,0),(2,1)) i (S j) + F ((2,1),(1,1)) i (S j) + F ((1,1),(0,0)) i (S j))
    + (if i =? 0 then F ((0,2),(0,0)) i j + F ((0,4),(0,2)) i j else 0)
    + (if i =? 0 then F ((0,0),(1,1)) i j + F ((1,1),(0,2)) i j + F ((0,2),(1,3)) i j + F ((1,3),(0,4)) i j else 0)
    + (if i =? M then F ((0,0),(0,2)) (S i) j + F ((0,2),(0,4)) (S i) j else 0)
    + (if i =? M then 0 else F ((0,0),(1,1)) (S i) j + F ((1,1),(0,2)) (S i) j + F ((0,2),(1,3)) (S i) j + F ((1,3),(0,4)) (S i) j).
  Proof.
    intros Hi Hj. unfold tile_of, hex_tile. cbn [fst snd]. rewrite rings_abs.
    replace (4 * j =? 0) with (j =? 0) by (destruct (Nat.eqb_spec j 0), (Nat.eqb_spec (4 * j) 0); lia).
    replace (4 * i =? 0) with (i =? 0) by (destruct (Nat.eqb_spec i 0), (Nat.eqb_spec (4 * i) 0); try reflexivity; lia).
    replace (4 * j + 4 =? 4 * N) with (j =? M) by (unfold N; destruct (Nat.eqb_spec j M), (Nat.eqb_spec (4 * j + 4) (4 * S M)); try reflexivity; lia).
    replace (4 * i + 4 =? 4 * N) with (i =? M) by (unfold N; destruct (Nat.eqb_spec i M), (Nat.eqb_spec (4 * i + 4) (4 * S M)); try reflexivity; lia).
    rewrite !flat_map_app, !map_app, !lsum_app.
    assert (E1 : lsum f (map (hedge_abs (4 * i) (4 * j)) (flat_map ring main_hex)) =
      F ((0,2),(1,1)) i j + F ((1,1),(2,1)) i j + F ((2,1),(3,2)) i j + F ((3,2),(2,3)) i j + F ((2,3),(1,3)) i j + F ((1,3),(0,2)) i j)
      by (unfold lsum, F, dat; generalize (4 * i), (4 * j); intros; cbn; unfold hpt; lia).
    assert (E2 : lsum f (map (hedge_abs (4 * i) (4 * j)) (flat_map ring (if j =? 0 then bottom_polys else []))) =
      if j =? 0 then F ((0,0),(3,0)) i j + F ((3,0),(2,1)) i j + F ((2,1),(1,1)) i j + F ((1,1),(0,0)) i j else 0)
      by (destruct (j =? 0); unfold lsum, F, dat; [generalize (4 * i), (4 * j); intros; cbn; unfold hpt; lia|reflexivity]).
    assert (E3 : lsum f (map (hedge_abs (4 * i) (4 * j)) (flat_map ring (if j =? M then top_polys else top_inner))) =
      F ((0,4),(1,3)) i j + F ((1,3),(2,3)) i j + F ((2,3),(3,4)) i j +
      if j =? M then F ((3,0),(0,0)) i (S j) else F ((3,0),(2,1)) i (S j) + F ((2,1),(1,1)) i (S j) + F ((1,1),(0,0)) i (S j)).
    { unfold F. rewrite <- !dat_up. unfold dat. destruct (j =? M); unfold lsum; generalize (4 * i), (4 * j); intros; cbn; unfold hpt; lia. }
    assert (E4 : lsum f (map (hedge_abs (4 * i) (4 * j)) (flat_map ring (if i =? 0 then left_polys else []))) =
      if i =? 0 then F ((0,0),(1,1)) i j + F ((1,1),(0,2)) i j + F ((0,2),(0,0)) i j + F ((0,2),(1,3)) i j + F ((1,3),(0,4)) i j + F ((0,4),(0,2)) i j else 0)
      by (destruct (i =? 0); unfold lsum, F, dat; [generalize (4 * i), (4 * j); intros; cbn; unfold hpt; lia|reflexivity]).
    assert (E5 : lsum f (map (hedge_abs (4 * i) (4 * j)) (flat_map ring (if i =? M then right_polys else right_inner))) =
      F ((4,2),(3,2)) i j + F ((3,2),(2,1)) i j + F ((2,1),(3,0)) i j + F ((3,4),(2,3)) i j + F ((2,3),(3,2)) i j + F ((3,2),(4,2)) i j
      + (F ((3,0),(4,0)) i j + F ((4,0),(3,0)) i (S j)) +
      if i =? M then F ((0,0),(0,2)) (S i) j + F ((0,2),(0,4)) (S i) j
      else F ((0,0),(1,1)) (S i) j + F ((1,1),(0,2)) (S i) j + F ((0,2),(1,3)) (S i) j + F ((1,3),(0,4)) (S i) j).
    { unfold F. rewrite <- !dat_right, <- !dat_up. unfold dat. destruct (i =? M); unfold lsum; generalize (4 * i), (4 * j); intros; cbn; unfold hpt; lia. }
    unfold hedge in *. rewrite E1, E2, E3, E4, E5. destruct (j =? 0), (j =? M), (i =? 0), (i =? M); lia.
  Qed.

  Lemma inner_sum : lsum f (inner_edges N) + lsum (fun d => f (drev d)) (inner_edges N) =
    sum N (fun i => sum N (fun j =>
      (F ((0,2),(1,1)) i j + F ((1,1),(2,1)) i j + F ((2,1),(3,2)) i j + F ((3,2),(2,3)) i j + F ((2,3),(1,3)) i j + F ((1,3),(0,2)) i j)
      + (F ((0,4),(1,3)) i j + F ((1,3),(2,3)) i j + F ((2,3),(3,4)) i j)
      + (F ((4,2),(3,2)) i j + F ((3,2),(2,1)) i j + F ((2,1),(3,0)) i j + F ((3,4),(2,3)) i j + F ((2,3),(3,2)) i j + F ((3,2),(4,2)) i j)
      + (F ((3,0),(2,1)) i j + F ((2,1),(1,1)) i j + F ((1,1),(0,0)) i j)
      + (F ((0,0),(1,1)) i j + F ((1,1),(0,2)) i j + F ((0,2),(1,3)) i j + F ((1,3),(0,4)) i j)))
    + sum N (fun i => sum M (fun j => F ((3,0),(4,0)) i (S j) + F ((4,0),(3,0)) i (S j))).
  Proof.
    unfold inner_edges. rewrite !lsum_flat, !lsum_seq, <- !sum_add. apply sum_ext. intros i _.
    rewrite !lsum_app, !lsum_flat, !lsum_map, !lsum_seq. replace (N - 1) with M by (unfold N; lia).
    rewrite (sum_add M).
    match goal with |- ?a + ?b + (?c + ?d) = ?e + (?g + ?h) => enough (a + c = e /\ b = g /\ d = h) by lia end.
    split; [|split; reflexivity]. rewrite <- sum_add. apply sum_ext. intros j _. unfold lsum, F, dat, drev.
    generalize (4 * i), (4 * j). intros. cbn [map inner_kinds list_sum fold_right hedge_abs fst snd]. unfold hedge_abs. cbn [fst snd]. unfold hpt. lia.
  Qed.

  Lemma outer_sum : lsum f (map snd (outer_edges N)) =
    sum N (fun i => F ((0,0),(3,0)) i 0 + F ((3,0),(4,0)) i 0) + sum N (fun i => F ((3,0),(0,0)) i N + F ((4,0),(3,0)) i N)
    + sum N (fun i => F ((0,0),(0,2)) N i + F ((0,2),(0,4)) N i) + sum N (fun i => F ((0,2),(0,0)) 0 i + F ((0,4),(0,2)) 0 i).
  Proof.
    unfold outer_edges. rewrite lsum_map, lsum_flat, lsum_seq, <- !sum_add. apply sum_ext. intros i _. unfold lsum, F.
    cbn [map list_sum fold_right fst snd]. lia.
  Qed.

  Lemma total_sum ts : (forall g, lsum g ts = sum N (fun i => sum N (fun j => g (i, j)))) ->
    lsum f (flat_map ring (flat_map (fun t => fst (tile_of (4 * N) t)) ts)) =
    lsum f (inner_edges N) + lsum (fun d => f (drev d)) (inner_edges N) + lsum f (map snd (outer_edges N)).
  Proof.
    intros Hts. rewrite inner_sum, outer_sum. rewrite flat_map_concat_map, flat_map_concat_map, concat_map, map_map.
    assert (E : lsum f (concat (concat (map (fun x => map ring (fst (tile_of (4 * N) x))) ts))) =
      lsum (fun t => lsum f (flat_map ring (fst (tile_of (4 * N) t)))) ts).
    { clear Hts. induction ts as [|t ts IH]; [reflexivity|]. cbn [map concat]. rewrite concat_app, lsum_app, IH, lsum_cons.
      rewrite flat_map_concat_map. reflexivity. }
    unfold hedge in *. rewrite E, Hts. clear E.
    rewrite (sum_ext N _ _ (fun i Hi => sum_ext N _ _ (fun j Hj => tile_sum i j Hi Hj))). unfold N.
    set (A := fun i j => (F ((0,2),(1,1)) i j + F ((1,1),(2,1)) i j + F ((2,1),(3,2)) i j + F ((3,2),(2,3)) i j + F ((2,3),(1,3)) i j + F ((1,3),(0,2)) i j)
    + (F ((0,4),(1,3)) i j + F ((1,3),(2,3)) i j + F ((2,3),(3,4)) i j)
    + (F ((4,2),(3,2)) i j + F ((3,2),(2,1)) i j + F ((2,1),(3,0)) i j + F ((3,4),(2,3)) i j + F ((2,3),(3,2)) i j + F ((3,2),(4,2)) i j)).
    set (Q := fun i j => F ((3,0),(2,1)) i j + F ((2,1),(1,1)) i j + F ((1,1),(0,0)) i j).
    set (P := fun i j => F ((0,0),(1,1)) i j + F ((1,1),(0,2)) i j + F ((0,2),(1,3)) i j + F ((1,3),(0,4)) i j).
    set (Lo := fun i j => F ((0,2),(0,0)) i j + F ((0,4),(0,2)) i j).
    set (Ro := fun i j => F ((0,0),(0,2)) i j + F ((0,2),(0,4)) i j).
    pose proof (row_sum M (S M) (fun i j => A i j + (F ((3,0),(4,0)) i j + F ((4,0),(3,0)) i (S j)) + (if j =? 0 then F ((0,0),(3,0)) i j else 0)
      + (if j =? 0 then Q i j else 0) + (if j =? M then F ((3,0),(0,0)) i (S j) else 0) + (if j =? M then 0 else Q i (S j))) Lo P Ro) as R.
    etransitivity; [exact R|]. clear R. cbv beta.
    rewrite (sum_ext (S M) _ _ (fun i Hi => column_sum M (A i) (F ((3,0),(4,0)) i) (F ((4,0),(3,0)) i) (F ((0,0),(3,0)) i) (Q i) (F ((3,0),(0,0)) i))).
    match goal with |- _ = sum (S M) ?g + _ + _ => rewrite (sum_ext (S M) g (fun i => sum (S M) (fun j => A i j + Q i j) + sum (S M) (P i))) end.
    2: { intros i _. rewrite <- sum_add. reflexivity. }
    change (fun i => sum (S M) (fun j => P i j)) with (fun i => sum (S M) (P i)).
    rewrite (sum_add (S M) (fun i => sum (S M) (fun j => A i j + Q i j))).
    rewrite (sum_add (S M) (fun i => sum (S M) (fun j => A i j + Q i j) + sum M (fun j => F ((3,0),(4,0)) i (S j) + F ((4,0),(3,0)) i (S j))
       + F ((3,0),(4,0)) i 0 + F ((4,0),(3,0)) i (S M) + F ((0,0),(3,0)) i 0)).
    rewrite (sum_add (S M) (fun i => sum (S M) (fun j => A i j + Q i j) + sum M (fun j => F ((3,0),(4,0)) i (S j) + F ((4,0),(3,0)) i (S j))
       + F ((3,0),(4,0)) i 0 + F ((4,0),(3,0)) i (S M))).
    rewrite (sum_add (S M) (fun i => sum (S M) (fun j => A i j + Q i j) + sum M (fun j => F ((3,0),(4,0)) i (S j) + F ((4,0),(3,0)) i (S j))
       + F ((3,0),(4,0)) i 0)).
    rewrite (sum_add (S M) (fun i => sum (S M) (fun j => A i j + Q i j) + sum M (fun j => F ((3,0),(4,0)) i (S j) + F ((4,0),(3,0)) i (S j)))).
    rewrite (sum_add (S M) (fun i => sum (S M) (fun j => A i j + Q i j))).
    rewrite (sum_add (S M) (fun i => F ((0,0),(3,0)) i 0)), (sum_add (S M) (fun i => F ((3,0),(0,0)) i (S M))).
    change (fun i => F ((0,0),(0,2)) (S M) i + F ((0,2),(0,4)) (S M) i) with (Ro (S M)).
    change (fun i => F ((0,2),(0,0)) 0 i + F ((0,4),(0,2)) 0 i) with (Lo 0). lia.
  Qed.
End Directed.
