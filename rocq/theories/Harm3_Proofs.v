(** The harmonic enrichment of space, away from the axis. *)
From Coq Require Import List Arith ZArith Reals Lia Lra Bool.
From Verif Require Import Common Tensor_Spec Law2_Proofs Bases_Model Bases_Spec Bases_Proofs Bases2_Proofs Bases3_Proofs Harm_Spec Harm_Model Harm_Proofs Harm2_Proofs.
Import ListNotations.
Open Scope R_scope.

Lemma mget_in N M i j : (i < N)%nat -> (j < N)%nat -> mget N M i j = Ok (M i j).
Proof. intros H1 H2. unfold mget. destruct (Nat.ltb_spec i N); [|lia]. destruct (Nat.ltb_spec j N); [reflexivity|lia]. Qed.
Lemma mset_in N M i j v : (i < N)%nat -> (j < N)%nat -> mset N M i j v = Ok (fun a b => if (a =? i)%nat && (b =? j)%nat then v else M a b).
Proof. intros H1 H2. unfold mset. destruct (Nat.ltb_spec i N); [|lia]. destruct (Nat.ltb_spec j N); [reflexivity|lia]. Qed.

Section CS.
  Context (hmd : nat) (x y z : R) (r2 R2 : R) (Er : r2 = y * y + z * z) (ER : R2 = x * x + y * y + z * z) (NZ : r2 <> 0).
  Notation sc := (fun n m => solid_c n m x y z).
  Notation ss := (fun n m => solid_s n m x y z).
  Definition right (CS : mat * mat) (n m : nat) : Prop := fst CS n m = Some (solid_c n m x y z) /\ snd CS n m = Some (solid_s n m x y z).
  Definition Inv (n m : nat) (CS : mat * mat) : Prop :=
    (forall a b, (a < b)%nat -> fst CS a b = Some 0 /\ snd CS a b = Some 0) /\
    (forall a b, (b <= a)%nat -> (a < n)%nat -> right CS a b) /\
    (n <= hmd -> forall b, (b <= n)%nat -> (b <= Nat.max m 1)%nat -> right CS n b)%nat /\
    (n < hmd -> forall b, (b <= 1)%nat -> (b < m \/ n = 0)%nat -> right CS (n + 1) b)%nat.
  Lemma ladder_val n m : (2 <= n)%nat -> (m < n)%nat ->
    2 * (INR m + 1) / ((INR n + INR m + 1) * r2) * ((R2 * solid_c (n - 1) m x y z - x * solid_c n m x y z) * y - (R2 * solid_s (n - 1) m x y z - x * solid_s n m x y z) * z) = solid_c n (m + 1) x y z /\
    2 * (INR m + 1) / ((INR n + INR m + 1) * r2) * ((R2 * solid_s (n - 1) m x y z - x * solid_s n m x y z) * y + (R2 * solid_c (n - 1) m x y z - x * solid_c n m x y z) * z) = solid_s n (m + 1) x y z.
  Proof.
    intros Hn Hm. unfold solid_c, solid_s. rewrite <- ER. set (j := (n - 1 - m)%nat).
    replace (n - m)%nat with (S j) by (unfold j; lia). replace (n - (m + 1))%nat with j by (unfold j; lia). replace (m + 1)%nat with (S m) by lia.
    destruct (cpow_S y z m) as (-> & ->).
    pose proof (zonal_ladder m x r2 j) as K. cbv zeta in K. replace (x * x + r2) with R2 in K by (rewrite ER, Er; ring).
    assert (En : INR n = INR m + INR j + 1) by (unfold j; rewrite <- plus_INR, <- S_INR; f_equal; lia). rewrite En.
    pose proof (pos_INR m) as P1. pose proof (pos_INR j) as P2.
    assert (D : INR m + INR j + 1 + INR m + 1 <> 0) by lra.
    assert (K' : zonal (S m) x R2 j = 2 * (INR m + 1) / ((INR m + INR j + 1 + INR m + 1) * r2) * (R2 * zonal m x R2 j - x * zonal m x R2 (S j))).
    { apply (Rmult_eq_reg_l ((INR m + INR j + 1 + INR m + 1) * r2)); [|apply Rmult_integral_contrapositive_currified; assumption].
      match goal with |- _ = ?r => replace r with (2 * (INR m + 1) * (R2 * zonal m x R2 j - x * zonal m x R2 (S j))) by (field; split; assumption) end.
      revert K. generalize (zonal (S m) x R2 j) (zonal m x R2 j) (zonal m x R2 (S j)) (INR m) (INR j). intros. nra. }
    rewrite K'. split; field; split; assumption.
  Qed.
  Lemma up_val n m : (1 <= n)%nat -> (m <= n)%nat ->
    1 / (INR n + INR m + 1) * ((2 * INR n + 1) * x * solid_c n m x y z - (INR n - INR m) * R2 * (if (m =? n)%nat then 0 else solid_c (n - 1) m x y z)) = solid_c (n + 1) m x y z /\
    1 / (INR n + INR m + 1) * ((2 * INR n + 1) * x * solid_s n m x y z - (INR n - INR m) * R2 * (if (m =? n)%nat then 0 else solid_s (n - 1) m x y z)) = solid_s (n + 1) m x y z.
  Proof.
    intros Hn Hm. pose proof (pos_INR m) as P1. pose proof (pos_INR n) as P2. destruct (Nat.eqb_spec m n) as [->|NE].
    - unfold solid_c, solid_s. rewrite Nat.sub_diag. replace (n + 1 - n)%nat with 1%nat by lia. rewrite zonal_1, zonal_0. split; field; lra.
    - unfold solid_c, solid_s. rewrite <- ER. set (j := (n - 1 - m)%nat). replace (n - m)%nat with (S j) by (unfold j; lia).
      replace (n + 1 - m)%nat with (S (S j)) by (unfold j; lia).
      assert (En : INR n = INR m + INR j + 1) by (unfold j; rewrite <- plus_INR, <- S_INR; f_equal; lia). rewrite En. rewrite En in P2. pose proof (pos_INR j).
      pose proof (zonal_SS m x R2 j) as K.
      assert (K' : zonal m x R2 (S (S j)) = ((2 * INR m + 2 * INR j + 3) * x * zonal m x R2 (S j) - (INR j + 1) * R2 * zonal m x R2 j) / (2 * INR m + INR j + 2)).
      { rewrite <- K. field. lra. }
      rewrite K'. split; field; lra.
  Qed.
  Lemma init_inv CS : (do Cs <- mset (hmd + 1) (fun _ _ => Some 0) 0 0 (Some 1);
    (if (0 <? hmd)%nat
            then do C1 <- mset (hmd + 1) Cs 1 0 (Some x); do C2 <- mset (hmd + 1) C1 1 1 (Some y); do S1 <- mset (hmd + 1) (fun _ _ => Some 0) 1 1 (Some z); Ok (C2, S1)
            else Ok (Cs, fun _ _ => Some 0))) = Ok CS -> Inv 0 0 CS.
  Proof.
    rewrite mset_in by lia. cbn [bind]. intros H.
    assert (C00 : solid_c 0 0 x y z = 1) by (unfold solid_c, cre; cbn; ring). assert (S00 : solid_s 0 0 x y z = 0) by (unfold solid_s, cim; cbn; ring).
    destruct (Nat.ltb_spec 0 hmd).
    - repeat (rewrite mset_in in H by lia; cbn [bind] in H). injection H as <-. unfold Inv, right. cbn [fst snd]. split; [|split; [|split]].
      + intros a b L. destruct a as [|[|a]], b as [|[|b]]; try lia; split; reflexivity.
      + intros; lia.
      + intros _ b L _. assert (b = 0)%nat by lia. subst b. cbn [Nat.eqb andb]. rewrite C00, S00. split; reflexivity.
      + intros _ b L _. destruct b as [|[|b]]; [| |lia]; cbn [Nat.eqb andb Nat.add]; split; f_equal; unfold solid_c, solid_s, cre, cim; cbn; ring.
    - injection H as <-. unfold Inv, right. cbn [fst snd]. split; [|split; [|split]].
      + intros a b L. destruct a as [|[|a]], b as [|[|b]]; try lia; split; reflexivity.
      + intros; lia.
      + intros _ b L _. assert (b = 0)%nat by lia. subst b. cbn [Nat.eqb andb]. rewrite C00, S00. split; reflexivity.
      + intros; lia.
  Qed.
  (** a write of right values at (p, q) keeps every right entry right *)
  Lemma right_upd CS p q c s a b : right CS a b \/ (a = p /\ b = q) -> c = solid_c p q x y z -> s = solid_s p q x y z ->
    right (fun i j => if (i =? p)%nat && (j =? q)%nat then Some c else fst CS i j, fun i j => if (i =? p)%nat && (j =? q)%nat then Some s else snd CS i j) a b.
  Proof.
    intros H -> ->. unfold right. cbn [fst snd]. destruct (Nat.eqb_spec a p) as [->|NE]; cbn [andb].
    - destruct (Nat.eqb_spec b q) as [->|NE]; [split; reflexivity|]. destruct H as [H|[_ H]]; [exact H|contradiction].
    - destruct H as [H|[H _]]; [exact H|contradiction].
  Qed.
  Lemma zero_upd CS p q (c s : fl) a b : (a < b)%nat -> (q <= p)%nat -> fst CS a b = Some 0 /\ snd CS a b = Some 0 ->
    (if (a =? p)%nat && (b =? q)%nat then c else fst CS a b) = Some 0 /\ (if (a =? p)%nat && (b =? q)%nat then s else snd CS a b) = Some 0.
  Proof. intros H1 H2 H. destruct (Nat.eqb_spec a p), (Nat.eqb_spec b q); cbn [andb]; try exact H. lia. Qed.
  Lemma step_inv n m CS : (n <= hmd)%nat -> (m <= n)%nat -> Inv n m CS ->
    exists CS', cs_step hmd x y z R2 r2 n m (Ok CS) = Ok CS' /\ Inv n (S m) CS'.
  Proof.
    intros Hn Hm HI. unfold cs_step. cbn [bind].
    (* first test *)
    assert (L : exists CS1, (if (2 <=? n)%nat && (m <? n)%nat then cs_ladder (hmd + 1) x y z R2 r2 n m CS else Ok CS) = Ok CS1 /\ Inv n m CS1 /\ ((m < n)%nat -> right CS1 n (m + 1))).
    { destruct HI as (Z & A & Bn & Cn). destruct (Nat.leb_spec 2 n) as [H2|H2]; cbn [andb].
      - destruct (Nat.ltb_spec m n) as [Hlt|Hge]; [|exists CS; split; [reflexivity|split; [exact (conj Z (conj A (conj Bn Cn)))|lia]]].
        unfold cs_ladder. destruct CS as [Cs Ss]. repeat (rewrite mget_in by lia; cbn [bind]).
        destruct (A (n - 1)%nat m ltac:(lia) ltac:(lia)) as (E1 & E2). destruct (Bn Hn m ltac:(lia) ltac:(lia)) as (E3 & E4). cbn [fst snd] in *. rewrite E1, E2, E3, E4.
        pose proof (pos_INR m). pose proof (pos_INR n). unfold fdiv. destruct (Req_EM_T ((INR n + INR m + 1) * r2) 0) as [E|_]; [apply Rmult_integral in E; destruct E; [lra|contradiction]|].
        unfold fmul, fsub, fadd, fl2. destruct (ladder_val n m H2 Hlt) as (V1 & V2). rewrite V1, V2. repeat (rewrite mset_in by lia; cbn [bind]).
        eexists. split; [reflexivity|]. split.
        + split; [|split; [|split]].
          * intros a b L. apply (zero_upd (Cs, Ss)); [exact L|lia|apply Z, L].
          * intros a b L1 L2. apply (right_upd (Cs, Ss)); [left; apply A; lia|reflexivity|reflexivity].
          * intros _ b L1 L2. apply (right_upd (Cs, Ss)); [left; apply Bn; lia|reflexivity|reflexivity].
          * intros L0 b L1 L2. apply (right_upd (Cs, Ss)); [left; apply Cn; lia|reflexivity|reflexivity].
        + intros _. apply (right_upd (Cs, Ss)); [right; split; reflexivity|reflexivity|reflexivity].
      - exists CS. split; [reflexivity|]. split; [exact (conj Z (conj A (conj Bn Cn)))|]. intros H. apply Bn; lia. }
    destruct L as (CS1 & -> & I1 & R1). cbn [bind].
    assert (W : Inv n m CS1 -> (m < n -> right CS1 n (m + 1))%nat -> (n < hmd -> (m <= 1)%nat -> (1 <= n)%nat -> right CS1 (n + 1) m)%nat -> Inv n (S m) CS1).
    { intros (Z & A & Bn & Cn) K1 K2. split; [exact Z|]. split; [exact A|]. split.
      - intros L0 b L1 L2. destruct (le_lt_dec b (Nat.max m 1)); [apply Bn; lia|]. replace b with (m + 1)%nat by lia. apply K1. lia.
      - intros L0 b L1 L2. destruct (Nat.eq_dec n 0); [apply Cn; lia|]. destruct (Nat.eq_dec b m) as [->|]; [apply K2; lia|apply Cn; lia]. }
    destruct ((1 <=? n)%nat && (m <? 2)%nat && (n <? hmd)%nat) eqn:T.
    - apply andb_prop in T. destruct T as (T & T3). apply andb_prop in T. destruct T as (T1 & T2). apply Nat.leb_le in T1. apply Nat.ltb_lt in T2, T3.
      unfold cs_up. pose proof I1 as (Z & A & Bn & Cn). destruct CS1 as [Cs Ss]. repeat (rewrite mget_in by lia; cbn [bind]).
      destruct (Bn Hn m ltac:(lia) ltac:(lia)) as (E3 & E4). cbn [fst snd] in *. rewrite E3, E4.
      assert (P : Cs (n - 1)%nat m = Some (if (m =? n)%nat then 0 else solid_c (n - 1) m x y z) /\ Ss (n - 1)%nat m = Some (if (m =? n)%nat then 0 else solid_s (n - 1) m x y z)).
      { destruct (Nat.eqb_spec m n); [apply (Z (n - 1)%nat m); lia|apply A; lia]. }
      destruct P as (P1 & P2). rewrite P1, P2. unfold fmul, fsub, fl2. destruct (up_val n m T1 Hm) as (V1 & V2). rewrite V1, V2. repeat (rewrite mset_in by lia; cbn [bind]).
      eexists. split; [reflexivity|].
      assert (RR : forall a b, right (Cs, Ss) a b \/ (a = (n + 1)%nat /\ b = m) -> right (fun i j => if (i =? n + 1)%nat && (j =? m)%nat then Some (solid_c (n + 1) m x y z) else Cs i j, fun i j => if (i =? n + 1)%nat && (j =? m)%nat then Some (solid_s (n + 1) m x y z) else Ss i j) a b).
      { intros a b H. apply (right_upd (Cs, Ss)); [exact H|reflexivity|reflexivity]. }
      split; [|split; [|split]].
      + intros a b L. apply (zero_upd (Cs, Ss)); [exact L|lia|apply Z, L].
      + intros a b L1 L2. apply RR. left. apply A; lia.
      + intros L0 b L1 L2. apply RR. left. destruct (le_lt_dec b (Nat.max m 1)); [apply Bn; lia|]. replace b with (m + 1)%nat by lia. apply R1. lia.
      + intros L0 b L1 L2. apply RR. destruct (Nat.eq_dec b m) as [->|]; [right; split; reflexivity|left; apply Cn; lia].
    - exists CS1. split; [reflexivity|]. apply W; [exact I1|exact R1|]. intros L0 L1 L2. exfalso.
      destruct (Nat.leb_spec 1 n), (Nat.ltb_spec m 2), (Nat.ltb_spec n hmd); cbn [andb] in T; try discriminate; lia.
  Qed.
  Lemma row_inv n CS : (n <= hmd)%nat -> Inv n 0 CS ->
    exists CS', fold_left (fun st m => cs_step hmd x y z R2 r2 n m st) (seq 0 (S n)) (Ok CS) = Ok CS' /\ Inv (S n) 0 CS'.
  Proof.
    intros Hn HI.
    assert (K : forall k m CS, (m + k <= S n)%nat -> Inv n m CS -> exists CS', fold_left (fun st m => cs_step hmd x y z R2 r2 n m st) (seq m k) (Ok CS) = Ok CS' /\ Inv n (m + k) CS').
    { induction k as [|k IH]; intros m C L H; cbn [seq fold_left]; [exists C; split; [reflexivity|rewrite Nat.add_0_r; exact H]|].
      destruct (step_inv n m C Hn ltac:(lia) H) as (C1 & -> & H1). destruct (IH (S m) C1 ltac:(lia) H1) as (C2 & E & H2). exists C2. split; [exact E|].
      replace (m + S k)%nat with (S m + k)%nat by lia. exact H2. }
    destruct (K (S n) 0%nat CS ltac:(lia) HI) as (C' & E & (Z & A & Bn & Cn)). exists C'. split; [exact E|]. cbn [Nat.add] in *. split; [exact Z|]. split; [|split].
    - intros a b L1 L2. destruct (Nat.eq_dec a n) as [->|]; [apply Bn; lia|apply A; lia].
    - intros L0 b L1 L2. replace (S n) with (n + 1)%nat by lia. apply Cn; lia.
    - intros; lia.
  Qed.
  Lemma eval_cs_right : exists CS, eval_cs hmd x y z = Ok CS /\
    (forall n m, (m <= n)%nat -> (n <= hmd)%nat -> right CS n m) /\ (forall a b, (a < b)%nat -> fst CS a b = Some 0 /\ snd CS a b = Some 0).
  Proof.
    unfold eval_cs. cbv zeta. rewrite <- bind_assoc. match goal with |- context [bind ?o _] => destruct o as [CS|e|] eqn:E end.
    - apply init_inv in E. cbn [bind]. rewrite <- Er, <- ER.
      assert (K : forall k n CS, (n + k <= S hmd)%nat -> Inv n 0 CS -> exists CS', fold_left (fun st n => fold_left (fun st m => cs_step hmd x y z R2 r2 n m st) (seq 0 (S n)) st) (seq n k) (Ok CS) = Ok CS' /\ Inv (n + k) 0 CS').
      { induction k as [|k IH]; intros n C L H; [exists C; split; [reflexivity|rewrite Nat.add_0_r; exact H]|].
        change (seq n (S k)) with (n :: seq (S n) k). cbn [fold_left].
        destruct (row_inv n C ltac:(lia) H) as (C1 & E1 & H1). cbn [fold_left] in E1. destruct (IH (S n) C1 ltac:(lia) H1) as (C2 & E2 & H2). exists C2. split.
        - cbn [seq fold_left] in *. rewrite E1. exact E2.
        - replace (n + S k)%nat with (S n + k)%nat by lia. exact H2. }
      destruct (K (S hmd) 0%nat CS ltac:(lia) E) as (C' & E' & (Z & A & _)). exists C'. split; [exact E'|]. split; [|exact Z]. intros n m L1 L2. apply A; lia.
    - exfalso. rewrite mset_in in E by lia. cbn [bind] in E. destruct (Nat.ltb_spec 0 hmd); [repeat (rewrite mset_in in E by lia; cbn [bind] in E)|]; discriminate E.
    - exfalso. rewrite mset_in in E by lia. cbn [bind] in E. destruct (Nat.ltb_spec 0 hmd); [repeat (rewrite mset_in in E by lia; cbn [bind] in E)|]; discriminate E.
  Qed.
End CS.

(** ** the lists *)
Lemma fold_oput_ext {A B} (f : B -> outcome A) (g : B -> A) l : (forall b, In b l -> f b = Ok (g b)) -> forall st,
  fold_left (fun st b => oput st (f b)) l st = fold_left (fun st b => put st (g b)) l st.
Proof. intros H st. apply fold_ext_in. intros st' b I. rewrite (H b I). apply oput_ok. Qed.
Definition rows {A} (g h : nat -> nat -> A) (s k : nat) : list A := flat_map (fun n => map (g n) (seq 0 (S n)) ++ map (h n) (seq 1 n)) (seq s k).
Lemma rows_split {A} (g h : nat -> nat -> A) s k l : rows g h s (k + l) = rows g h s k ++ rows g h (s + k) l.
Proof. unfold rows. rewrite seq_app, flat_map_app. reflexivity. Qed.
Lemma rows_at {A} (g h : nat -> nat -> A) p f : (p <= f)%nat -> rows g h 1 f = rows g h 1 p ++ rows g h (S p) (f - p).
Proof. intros H. change (S p) with (1 + p)%nat. rewrite <- rows_split. f_equal. lia. Qed.
Lemma len_rows3 {A} (g h : nat -> nat -> A) s k : length (rows g h s k) = ((s + k) * (s + k) - s * s)%nat.
Proof.
  revert s. induction k as [|k IH]; intros s; [rewrite Nat.add_0_r, Nat.sub_diag; reflexivity|].
  unfold rows. change (seq s (S k)) with (s :: seq (S s) k). cbn [flat_map]. fold (rows g h (S s) k). rewrite !app_length, IH, !map_length, !seq_length. nia.
Qed.
Lemma put_rows {A} (f f' : nat -> nat -> outcome A) (g h : nat -> nat -> A) (a0 : A) rest k :
  (forall n m, (1 <= n <= k)%nat -> (m <= n)%nat -> f n m = Ok (g n m)) -> (forall n m, (1 <= n <= k)%nat -> (1 <= m <= n)%nat -> f' n m = Ok (h n m)) ->
  length rest = length (rows g h 1 k) ->
  ret_of (fold_left (fun st n => fold_left (fun st m => oput st (f' n m)) (seq 1 n) (fold_left (fun st m => oput st (f n m)) (seq 0 (S n)) st)) (seq 1 k) (Ok (1%nat, a0 :: rest))) =
  Ok (a0 :: rows g h 1 k).
Proof.
  intros H1 H2 L.
  rewrite (fold_ext_in _ (fun st n => fold_left (fun st v => put st v) (map (g n) (seq 0 (S n)) ++ map (h n) (seq 1 n)) st)).
  - rewrite <- (fold_flat (fun st v => put st v)). fold (rows g h 1 k).
    pose proof (fold_put (fun v : A => v) (rows g h 1 k) [a0] rest ltac:(lia)) as K. cbn [length app] in K. rewrite K. unfold ret_of. cbn [bind snd].
    rewrite map_id, skipn_all2 by lia. rewrite app_nil_r. reflexivity.
  - intros st n I. apply in_seq in I. rewrite fold_left_app, !fold_map.
    rewrite (fold_oput_ext (f n) (g n)) by (intros m J; apply in_seq in J; apply H1; lia).
    rewrite (fold_oput_ext (f' n) (h n)) by (intros m J; apply in_seq in J; apply H2; lia). reflexivity.
Qed.
Section Lists.
  Context (hmd : nat) (x y z : R) (NZ : y * y + z * z <> 0).
  Let r2 := y * y + z * z.
  Lemma bsz : harmonic_basis_size hmd 3 = Ok (S (length (rows (fun _ _ => tt) (fun _ _ => tt) 1 hmd))).
  Proof. rewrite len_rows3. unfold harmonic_basis_size. cbn [Nat.eqb]. f_equal. lia. Qed.
  Lemma harm3_eval : eval_harmonic3 hmd x y z = Ok (map Some (1 :: rows (fun n m => solid_c n m x y z) (fun n m => solid_s n m x y z) 1 hmd)).
  Proof.
    unfold eval_harmonic3. rewrite bsz. cbn [bind]. destruct (eval_cs_right hmd x y z (y * y + z * z) (x * x + y * y + z * z) eq_refl eq_refl NZ) as ((Cs & Ss) & -> & K & _). cbn [bind].
    cbn [repeat vset upd bind].
    unfold vset. cbn [upd bind]. rewrite (put_rows (fun n m => mget (hmd + 1) Cs n m) (fun n m => mget (hmd + 1) Ss n m) (fun n m => Some (solid_c n m x y z)) (fun n m => Some (solid_s n m x y z))).
    - cbn [map]. do 2 f_equal. unfold rows. rewrite !flat_map_concat_map, concat_map, map_map. f_equal. apply map_ext. intros n. rewrite map_app, !map_map. reflexivity.
    - intros n m H1 H2. rewrite mget_in by lia. f_equal. apply (K n m); lia.
    - intros n m H1 H2. rewrite mget_in by lia. f_equal. apply (K n m); lia.
    - rewrite repeat_length, !len_rows3. reflexivity.
  Qed.
  (** the rows of the gradients, as reals *)
  Definition grow (sg : R) (n m : nat) (A' A B : R) : list R :=
    [INR (n - m) * A'; y / r2 * (INR n * A - INR (n - m) * x * A') + sg * (INR m * B * z / r2); z / r2 * (INR n * A - INR (n - m) * x * A') - sg * (INR m * B * y / r2)].
  Definition gc (n m : nat) := grow 1 n m (solid_c (n - 1) m x y z) (solid_c n m x y z) (solid_s n m x y z).
  Definition gs (n m : nat) := grow (-(1)) n m (solid_s (n - 1) m x y z) (solid_s n m x y z) (solid_c n m x y z).
  Lemma grow_eq sg n m (A' : fl) (A'' A B : R) : (m <= n)%nat -> (exists a, A' = Some a /\ (m = n \/ a = A'')) ->
    grad_row x y z r2 sg n m A' (Some A) (Some B) = map Some (grow sg n m A'' A B).
  Proof.
    intros H (a & -> & D). unfold grad_row, grow, fdiv, fadd, fsub, fmul, fl2. cbn [map]. rewrite minus_INR by exact H.
    destruct (Req_EM_T r2 0) as [E|_]; [contradiction|]. destruct D as [->| ->]; [|reflexivity].
    replace (INR n - INR n) with 0 by ring. f_equal; [f_equal; ring|]. f_equal; [f_equal; ring|]. f_equal. f_equal. ring.
  Qed.
  Lemma harm3_grad : eval_harmonic_gradients3 hmd x y z = Ok (map (map Some) ([0; 0; 0] :: rows gc gs 1 hmd)).
  Proof.
    unfold eval_harmonic_gradients3. rewrite bsz. cbn [bind]. destruct (eval_cs_right hmd x y z (y * y + z * z) (x * x + y * y + z * z) eq_refl eq_refl NZ) as ((Cs & Ss) & -> & K & Z). cbn [bind].
    cbn [repeat]. fold r2.
    assert (P : forall n m, (1 <= n <= hmd)%nat -> (m <= n)%nat -> (exists a, Cs (n - 1)%nat m = Some a /\ (m = n \/ a = solid_c (n - 1) m x y z)) /\ (exists a, Ss (n - 1)%nat m = Some a /\ (m = n \/ a = solid_s (n - 1) m x y z))).
    { intros n m H1 H2. destruct (Nat.eq_dec m n) as [->|NE].
      - destruct (Z (n - 1)%nat n ltac:(lia)) as (Z1 & Z2). cbn [fst snd] in *. split; eexists; (split; [eassumption|left; reflexivity]).
      - destruct (K (n - 1)%nat m ltac:(lia) ltac:(lia)) as (Z1 & Z2). cbn [fst snd] in *. split; eexists; (split; [eassumption|right; reflexivity]). }
    erewrite (put_rows _ _ (fun n m => map Some (gc n m)) (fun n m => map Some (gs n m)) [Some 0; Some 0; Some 0]).
    - cbn [map]. do 2 f_equal. unfold rows. rewrite !flat_map_concat_map, concat_map, map_map. f_equal. apply map_ext. intros n. rewrite map_app, !map_map. reflexivity.
    - intros n m H1 H2. cbv beta. rewrite !mget_in by lia. cbn [bind]. destruct (K n m ltac:(lia) ltac:(lia)) as (E1 & E2). cbn [fst snd] in *. rewrite E1, E2. f_equal.
      apply grow_eq; [exact H2|apply P; lia].
    - intros n m H1 H2. cbv beta. rewrite !mget_in by lia. cbn [bind]. destruct (K n m ltac:(lia) ltac:(lia)) as (E1 & E2). cbn [fst snd] in *. rewrite E1, E2. f_equal.
      apply grow_eq; [lia|apply P; lia].
    - rewrite repeat_length, !len_rows3. reflexivity.
  Qed.
End Lists.

(** ** the whole basis *)
Definition mono3 (F : frame) (x : nat -> R) (e : nat * nat * nat) : R :=
  scaling_point 3 F x 0 ^ fst (fst e) * scaling_point 3 F x 1 ^ snd (fst e) * scaling_point 3 F x 2 ^ snd e.
Definition off_axis (bar : nat -> R) (diam : R) (x : nat -> R) : Prop := hep bar diam x 1 * hep bar diam x 1 + hep bar diam x 2 * hep bar diam x 2 <> 0.
Section Top3.
  Context (fbd pd : nat) (Hpd : (pd <= fbd)%nat) (Fit : fits pd 3) (F : frame) (bar : nat -> R) (diam : R).
  Let B := state 3 fbd pd.
  Lemma hs3 {A} (g h : nat -> nat -> A) : (hsz fbd 3 - hsz pd 3 = length (rows g h (S pd) (fbd - pd)))%nat.
  Proof. rewrite len_rows3. unfold hsz. cbn [Nat.eqb]. replace (S pd + (fbd - pd))%nat with (fbd + 1)%nat by lia. replace (S pd) with (pd + 1)%nat by lia. reflexivity. Qed.
  Lemma top3_eval x : pd = fbd \/ off_axis bar diam x -> top3_functions B F bar diam x =
    Ok (map Some (map (mono3 F x) (exps3 pd) ++ rows (fun n m => solid_c n m (hep bar diam x 0) (hep bar diam x 1) (hep bar diam x 2)) (fun n m => solid_s n m (hep bar diam x 0) (hep bar diam x 1) (hep bar diam x 2)) (S pd) (fbd - pd))).
  Proof.
    intros OA. set (g := fun n m => solid_c n m _ _ _). set (h := fun n m => solid_s n m _ _ _).
    unfold top3_functions, B, state. cbn [poly_degree full_size harm_size full_degree]. cbv zeta. rewrite (hs3 g h), (size3 pd Fit).
    rewrite loop3_prefix by lia. cbn [bind]. rewrite (map_ext _ (fun e => Some (mono3 F x e))) by (intros e; rewrite !ipow_pow; reflexivity).
    rewrite map_app, map_map. set (L := length (rows g h (S pd) (fbd - pd))).
    replace (length (exps3 pd) + L - length (exps3 pd))%nat with L by lia.
    destruct (Nat.ltb_spec 0 L) as [HL|HL].
    - destruct OA as [->|OA]; [unfold L in HL; rewrite Nat.sub_diag in HL; cbn in HL; lia|].
      rewrite (harm3_eval fbd _ _ _ OA). cbn [bind]. fold g h. rewrite (rows_at g h pd fbd Hpd). cbn [map]. rewrite map_app.
      match goal with |- copy_tail _ _ (?u :: ?a ++ ?b) = _ => change (u :: a ++ b) with ((u :: a) ++ b) end.
      apply copy_tail_app; [apply repeat_length|apply map_length].
    - unfold L in *. destruct (rows g h (S pd) (fbd - pd)); [reflexivity|cbn in HL; lia].
  Qed.
  Lemma top3_grad x : pd = fbd \/ off_axis bar diam x -> top3_gradients B F bar diam x =
    Ok (map (map Some) (map (row3 F x) (exps3 pd) ++ rows (gc (hep bar diam x 0) (hep bar diam x 1) (hep bar diam x 2)) (gs (hep bar diam x 0) (hep bar diam x 1) (hep bar diam x 2)) (S pd) (fbd - pd))).
  Proof.
    intros OA. set (g := gc _ _ _). set (h := gs _ _ _).
    unfold top3_gradients, B, state. cbn [poly_degree full_size harm_size full_degree]. cbv zeta. rewrite (hs3 g h), (size3 pd Fit).
    rewrite loop3_prefix by lia. cbn [bind].
    rewrite (map_ext _ (fun e => map Some (row3 F x e))).
    2: { intros [[a b] c]. unfold row3, new2old. cbn [sig vec3 fst snd map]. rewrite !ipow_pow, !dpow_pow. f_equal; [f_equal; ring|]. f_equal; [f_equal; ring|]. f_equal. f_equal. ring. }
    rewrite map_app, map_map. set (L := length (rows g h (S pd) (fbd - pd))).
    replace (length (exps3 pd) + L - length (exps3 pd))%nat with L by lia.
    destruct (Nat.ltb_spec 0 L) as [HL|HL].
    - destruct OA as [->|OA]; [unfold L in HL; rewrite Nat.sub_diag in HL; cbn in HL; lia|].
      rewrite (harm3_grad fbd _ _ _ OA). cbn [bind]. fold g h. rewrite (rows_at g h pd fbd Hpd). change (map (map Some) ([0; 0; 0] :: ?l)) with (map Some [0; 0; 0] :: map (map Some) l). cbn [app]. rewrite map_app.
      match goal with |- copy_tail _ _ (?u :: ?a ++ ?b) = _ => change (u :: a ++ b) with ((u :: a) ++ b) end.
      apply copy_tail_app; [apply repeat_length|apply map_length].
    - unfold L in *. destruct (rows g h (S pd) (fbd - pd)); [reflexivity|cbn in HL; lia].
  Qed.
End Top3.
