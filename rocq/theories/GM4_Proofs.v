(** Exactness of the Grundmann-Moeller rule. *)
From Coq Require Import List Arith Bool Reals Lia Lra Factorial.
From Verif Require Import Common Poly_Spec Poly_Proofs GM_Model GM_Proofs GM2_Proofs GM3_Proofs.
Import ListNotations.
Local Open Scope R_scope.

Lemma nsum_lsum l : nsum l = lsum l.
Proof. induction l as [|a l IH]; [reflexivity|]. cbn [nsum lsum]. rewrite IH. reflexivity. Qed.
Lemma nfact_pfact l : nfact l = pfact l.
Proof. induction l as [|a l IH]; [reflexivity|]. cbn [nfact pfact]. rewrite IH. reflexivity. Qed.

Fixpoint rsum {A} (f : A -> R) (l : list A) : R := match l with [] => 0 | x :: r => f x + rsum f r end.
Lemma rsum_app {A} (f : A -> R) a b : rsum f (a ++ b) = rsum f a + rsum f b.
Proof. induction a as [|x a IH]; cbn [app rsum]; [ring|]. rewrite IH. ring. Qed.
Lemma rsum_ext {A} (f g : A -> R) l : (forall x, In x l -> f x = g x) -> rsum f l = rsum g l.
Proof. induction l as [|x l IH]; intros H; [reflexivity|]. cbn [rsum]. rewrite H by (left; reflexivity). rewrite IH by (intros; apply H; right; assumption). reflexivity. Qed.
Lemma rsum_map {A B} (f : B -> R) (g : A -> B) l : rsum f (map g l) = rsum (fun x => f (g x)) l.
Proof. induction l as [|x l IH]; [reflexivity|]. cbn [map rsum]. rewrite IH. reflexivity. Qed.
Lemma rsum_scal {A} c (f : A -> R) l : rsum (fun x => c * f x) l = c * rsum f l.
Proof. induction l as [|x l IH]; cbn [rsum]; [ring|]. rewrite IH. ring. Qed.
Lemma rsum_plus {A} (f g : A -> R) l : rsum (fun x => f x + g x) l = rsum f l + rsum g l.
Proof. induction l as [|x l IH]; cbn [rsum]; [ring|]. rewrite IH. ring. Qed.
Lemma rsum_zero {A} (l : list A) : rsum (fun _ => 0) l = 0.
Proof. induction l as [|x l IH]; cbn [rsum]; [ring|]. rewrite IH. ring. Qed.
Lemma rsum_swap {A B} (f : A -> B -> R) l l' : rsum (fun x => rsum (f x) l') l = rsum (fun y => rsum (fun x => f x y) l) l'.
Proof. induction l as [|x l IH]; cbn [rsum]; [symmetry; apply rsum_zero|]. rewrite IH, <- rsum_plus. reflexivity. Qed.
Lemma rsum_flat {A} (f : A -> R) (g : nat -> list A) n s : rsum f (flat_map g (seq s n)) = rs n (fun i => rsum f (g (s + i)%nat)).
Proof.
  revert s. induction n as [|n IH]; intros s; [reflexivity|]. cbn [seq flat_map]. rewrite rsum_app, IH, rs_head, Nat.add_0_r. f_equal.
  apply rs_ext. intros. rewrite Nat.add_succ_comm. reflexivity.
Qed.
Lemma rsum_seq (f : nat -> R) n : rsum f (seq 0 n) = rs n f.
Proof. pose proof (rsum_flat f (fun i => [i]) n 0) as H. cbn [rsum] in H. rewrite (rs_ext n f (fun i => f (0 + i)%nat + 0)) by (intros; cbn; ring). rewrite <- H. f_equal.
  clear. generalize 0%nat. induction n as [|n IH]; intros s; [reflexivity|]. cbn [seq flat_map app]. rewrite <- IH. reflexivity. Qed.

(** product of odd numbers *)
Fixpoint pw (al a : list nat) : R := match al, a with e :: al, b :: a => F e b * pw al a | _, _ => 1 end.
Lemma pw_snoc al : forall a e j, length al = length a -> pw (al ++ [e]) (a ++ [j]) = F e j * pw al a.
Proof. induction al as [|x al IH]; intros [|y a] e j L; try discriminate; cbn [app pw]; [ring|]. rewrite IH by (cbn in L; lia). ring. Qed.
Lemma sum_pw k : forall al m, length al = k -> rsum (pw al) (enum k m) = cprod (map F (rev al)) m.
Proof.
  induction k as [|k IH]; intros al m L.
  - destruct al; [|discriminate]. cbn [enum rev map cprod delta]. destruct m; cbn [Nat.eqb rsum pw]; unfold delta; ring.
  - destruct (exists_last (l := al)) as (be & e & ->); [destruct al; discriminate|]. rewrite app_length in L. cbn [length] in L.
    rewrite rev_unit. cbn [map cprod]. cbn [enum]. rewrite rsum_flat. unfold conv. apply rs_ext. intros j Hj. rewrite rsum_map. cbn [Nat.add].
    rewrite (rsum_ext _ (fun a => F e j * pw be a)).
    + rewrite rsum_scal, IH by lia. reflexivity.
    + intros a Ha. apply enum_spec in Ha as [La _]. apply pw_snoc. lia.
Qed.

(** barycentric coordinates of a point *)
Definition bary (den : nat) (a : list nat) : pt := fun j => INR (2 * nth j a 0 + 1)%nat / INR den.
Lemma mono_bary den : INR den <> 0 -> forall al a, length al = length a -> mono al (bary den a) = pw al a / INR den ^ nsum al.
Proof.
  intros Hd. induction al as [|e al IH]; intros [|b a] L; try discriminate; cbn [mono pw nsum].
  - cbn [pow]. field.
  - rewrite (mono_ext al _ (bary den a)) by reflexivity. rewrite IH by (cbn in L; lia). rewrite pow_add. unfold bary, F. cbn [nth].
    unfold Rdiv at 1. rewrite Rpow_mult_distr, pow_inv. replace (INR (2 * b + 1)) with (2 * INR b + 1) by (rewrite plus_INR, mult_INR; cbn [INR]; ring).
    field. split; apply pow_nonzero; exact Hd.
Qed.
Lemma bary_sum den k a : length a = k -> den = (2 * nsum a + k)%nat -> (0 < k)%nat -> rs k (bary den a) = 1.
Proof.
  intros L -> Hk. assert (G : forall l c, rs (length l) (fun j => INR (2 * nth j l 0 + 1)%nat * c) = INR (2 * nsum l + length l)%nat * c).
  { induction l as [|x l IH]; intros c; [cbn; ring|]. cbn [length nsum]. rewrite rs_head. cbn [nth]. rewrite IH. rewrite <- Rmult_plus_distr_r, <- plus_INR. do 2 f_equal. lia. }
  rewrite <- L. unfold bary, Rdiv. rewrite G. rewrite L. field. apply not_0_INR. lia.
Qed.

(** raising one exponent *)
Fixpoint bump (al : list nat) (j : nat) : list nat := match al, j with [], _ => [] | e :: r, O => S e :: r | e :: r, S j => e :: bump r j end.
Lemma bump_len al : forall j, length (bump al j) = length al.
Proof. induction al as [|e al IH]; intros [|j]; cbn [bump length]; auto. Qed.
Lemma bump_sum al : forall j, (j < length al)%nat -> nsum (bump al j) = S (nsum al).
Proof. induction al as [|e al IH]; intros [|j] H; cbn [length] in H; try lia; cbn [bump nsum]; [lia|]. rewrite IH by lia. lia. Qed.
Lemma bump_fact al : rs (length al) (fun j => nfact (bump al j)) = nfact al * INR (nsum al + length al).
Proof.
  induction al as [|e al IH]; [cbn; ring|]. cbn [length]. rewrite rs_head. cbn [bump nfact nsum]. rewrite rs_scal, IH, fact_simpl, mult_INR.
  replace (e + nsum al + S (length al))%nat with (S e + (nsum al + length al))%nat by lia. rewrite (plus_INR (S e)). ring.
Qed.
Lemma bump_mono al : forall x, rs (length al) (fun j => mono (bump al j) x) = mono al x * rs (length al) x.
Proof.
  induction al as [|e al IH]; intros x; [cbn; ring|]. cbn [length]. rewrite !rs_head. cbn [bump mono].
  rewrite rs_scal, (IH (fun k => x (S k))). cbn [pow]. ring.
Qed.

(** ** the moments *)
Section Moments.
  Variables (n s : nat).
  Hypothesis Hn : (0 < n)%nat.
  Let d := (2 * s + 1)%nat.
  Definition den (i : nat) : nat := (2 * s + 1 + n - 2 * i)%nat.
  Definition wi (i : nat) : R := gm_weight n (2 * s + 1) s i ((-1) ^ i).
  Definition mom (al : list nat) : R := rs (S s) (fun i => wi i * rsum (fun a => mono al (bary (den i) a)) (enum (S n) (s - i))).

  Lemma den_pos i : (i <= s)%nat -> INR (den i) <> 0.
  Proof. intros H. apply not_0_INR. unfold den. lia. Qed.

  Lemma mom_top al : length al = S n -> nsum al = d -> mom al = INR (fact n) * nfact al / INR (fact (nsum al + n)).
  Proof.
    intros L N. unfold mom.
    assert (R1 : nsum (rev al) = nsum al /\ nfact (rev al) = nfact al).
    { clear. induction al as [|e al [I1 I2]]; [split; reflexivity|]. cbn [rev].
      assert (G : forall l x, nsum (l ++ [x]) = (nsum l + x)%nat /\ nfact (l ++ [x]) = nfact l * INR (fact x)).
      { induction l as [|y l IHl]; intros x; cbn [app nsum nfact]; [split; [lia|ring]|]. destruct (IHl x) as [A B]. rewrite A, B. split; [lia|ring]. }
      destruct (G (rev al) e) as [A B]. rewrite A, B, I1, I2. cbn [nsum nfact]. split; [lia|ring]. }
    destruct R1 as [R1 R2].
    rewrite (rs_ext _ _ (fun i => INR (fact n) / 2 ^ (2 * s) / INR (fact (d + n)) * ((-1) ^ i * INR (choose (d + n) i) * cprod (map F (rev al)) (s - i)%nat))).
    - rewrite rs_scal. unfold d. rewrite (gm_identity s n (rev al)); [|rewrite rev_length; exact L|rewrite R1; exact N]. rewrite R2, N. unfold d. field.
      split; [apply not_0_INR, fact_neq_0|apply pow_nonzero; lra].
    - intros i Hi. rewrite (rsum_ext _ (fun a => / INR (den i) ^ d * pw al a)).
      2: { intros a Ha. apply enum_spec in Ha as [La _]. rewrite mono_bary by (try (apply den_pos; lia); lia). rewrite N. unfold Rdiv. ring. }
      rewrite rsum_scal, sum_pw by exact L. unfold wi. rewrite gm_weight_ok by lia. fold d. change (d + n - 2 * i)%nat with (den i).
      pose proof (choose_fact (d + n) i ltac:(unfold d; lia)) as CF. apply (f_equal INR) in CF. rewrite !mult_INR in CF.
      assert (P1 : INR (fact i) <> 0) by apply not_0_INR, fact_neq_0. assert (P2 : INR (fact (d + n - i)) <> 0) by apply not_0_INR, fact_neq_0.
      assert (P3 : INR (choose (d + n) i) <> 0) by (intros Z; rewrite Z, Rmult_0_l in CF; symmetry in CF; revert CF; apply not_0_INR, fact_neq_0).
      rewrite <- CF. field. repeat split; try assumption; try (apply pow_nonzero; lra). apply pow_nonzero, den_pos. lia.
  Qed.

  Lemma mom_ok : forall g al, length al = S n -> (nsum al + g)%nat = d -> mom al = INR (fact n) * nfact al / INR (fact (nsum al + n)).
  Proof.
    induction g as [|g IH]; intros al L N; [apply mom_top; [exact L|lia]|].
    assert (Sp : mom al = rs (S n) (fun j => mom (bump al j))).
    { unfold mom. rewrite rs_swap. apply rs_ext. intros i Hi. rewrite rs_scal. f_equal. rewrite <- rsum_seq, rsum_swap. apply rsum_ext. intros a Ha.
      apply enum_spec in Ha as [La Sa]. rewrite rsum_seq. rewrite <- L, bump_mono, L. rewrite (bary_sum (den i) (S n) a La); [ring| |lia]. unfold den. lia. }
    rewrite Sp. rewrite (rs_ext _ _ (fun j => INR (fact n) / INR (fact (S (nsum al) + n)) * nfact (bump al j))).
    - rewrite rs_scal, <- L, bump_fact, L. replace (S (nsum al) + n)%nat with (S (nsum al + n)) by lia. rewrite fact_simpl, mult_INR.
      replace (nsum al + S n)%nat with (S (nsum al + n)) by lia. field. split; [apply not_0_INR, fact_neq_0|apply not_0_INR; lia].
    - intros j Hj. rewrite IH; [|rewrite bump_len; exact L|rewrite bump_sum by lia; lia]. rewrite bump_sum by lia. unfold Rdiv. ring.
  Qed.
End Moments.

(** ** the points written *)
Local Open Scope nat_scope.
Definition group (n s i : nat) : list gmpoint := map (gm_pt n (den n s i) (wi n s i)) (enum (n + 1) (s - i)).
Lemma group_len n s i : length (group n s i) = choose (n + (s - i)) n.
Proof. unfold group. rewrite map_length. replace (n + 1) with (S n) by lia. apply enum_length. Qed.
Lemma groups_ok n s : 0 < n -> forall todo i cap, i + todo = S s -> nsm todo (fun j => length (group n s (i + j))) <= cap ->
  gm_groups todo cap n s i ((-1) ^ i)%R = Ok (flat_map (group n s) (seq i todo)).
Proof.
  intros Hn. induction todo as [|todo IH]; intros i cap E C; [reflexivity|]. rewrite nsm_head, Nat.add_0_r in C. cbn [gm_groups seq flat_map].
  rewrite gm_points_ok; [|exact Hn|reflexivity|unfold group in C; rewrite map_length in C; lia]. cbn [bind].
  change (gm_weight n (2 * s + 1) s i ((-1) ^ i)%R) with (wi n s i). change (2 * s + 1 + n - 2 * i) with (den n s i).
  change (map (gm_pt n (den n s i) (wi n s i)) (enum (n + 1) (s - i))) with (group n s i).
  replace (- (-1) ^ i)%R with ((-1) ^ (i + 1))%R by (rewrite pow_add; cbn [pow]; ring). rewrite IH; [|lia|].
  - cbn [bind]. rewrite Nat.add_1_r. reflexivity.
  - rewrite (nsm_ext _ _ (fun j => length (group n s (i + S j)))) by (intros; f_equal; f_equal; lia). lia.
Qed.
Definition gm_list (n s : nat) : list gmpoint := flat_map (group n s) (seq 0 (S s)).
Lemma gm_size n s : gm_rule_size s n = length (gm_list n s).
Proof.
  unfold gm_rule_size. rewrite i4_choose_ok. unfold gm_list. rewrite flat_len.
  rewrite (nsm_ext _ _ (fun i => (fun j => choose (n + j) n) (S s - 1 - i))) by (intros i Hi; rewrite group_len; f_equal; lia).
  rewrite (nsm_rev (S s) (fun j => choose (n + j) n)), hockey. replace s with (n + s + 1 - (n + 1)) at 2 by lia. apply choose_sym. lia.
Qed.
Lemma gm_filled_ok n s : 0 < n -> gm_filled s n = Ok (gm_list n s).
Proof.
  intros Hn. unfold gm_filled, gm_rule_set. change 1%R with ((-1) ^ 0)%R at 1. rewrite (groups_ok n s Hn).
  - cbn [bind]. change (flat_map (group n s) (seq 0 (S s))) with (gm_list n s). rewrite gm_size, Nat.sub_diag. cbn [repeat]. rewrite app_nil_r. reflexivity.
  - reflexivity.
  - rewrite gm_size. unfold gm_list. rewrite flat_len. lia.
Qed.

(** the points seen as points of R^n *)
Definition ptl (x : list R) : pt := fun i => nth i x 0%R.
Definition as_rule (k : R) (l : list gmpoint) : list (pt * R) := map (fun q => (ptl (fst q), (k * snd q)%R)) l.
Lemma qsum_as_rule k l f : qsum (as_rule k l) f = (k * rsum (fun q => snd q * f (ptl (fst q))) l)%R.
Proof. unfold as_rule. induction l as [|[x w] l IH]; cbn [map qsum rsum fst snd]; [ring|]. rewrite IH. ring. Qed.
Lemma ptl_pt n d w a i : i < n -> ptl (fst (gm_pt n d w a)) i = bary d a (S i).
Proof.
  intros H. unfold ptl, gm_pt, bary. cbn [fst]. rewrite (nth_indep _ 0%R ((fun dim => (INR (2 * nth (dim + 1) a 0 + 1)%nat / INR d)%R) 0)) by (rewrite map_length, seq_length; exact H).
  rewrite (map_nth (fun dim => (INR (2 * nth (dim + 1) a 0 + 1)%nat / INR d)%R)). rewrite seq_nth by exact H. replace (0 + i + 1) with (S i) by lia. reflexivity.
Qed.
Lemma mono_on al : forall x y, (forall i, i < length al -> x i = y i) -> mono al x = mono al y.
Proof.
  induction al as [|e al IH]; intros x y H; [reflexivity|]. cbn [mono]. rewrite (H 0) by (cbn; lia). rewrite (IH (fun k => x (S k)) (fun k => y (S k))); [reflexivity|].
  intros i Hi. apply H. cbn [length]. lia.
Qed.
Lemma gm_moment n s al : 0 < n -> length al = n -> lsum al <= 2 * s + 1 -> qsum (as_rule (/ INR (fact n)) (gm_list n s)) (mono al) = smoment n al 1.
Proof.
  intros Hn L N. rewrite qsum_as_rule. unfold gm_list. rewrite rsum_flat.
  rewrite (rs_ext _ _ (fun i => wi n s i * rsum (fun a => mono (O :: al) (bary (den n s i) a)) (enum (S n) (s - i)%nat))%R).
  - pose proof (mom_ok n s Hn (2 * s + 1 - lsum al) (0 :: al)) as M. unfold mom in M. rewrite M.
    + cbn [nsum nfact]. rewrite nsum_lsum, nfact_pfact. unfold smoment. rewrite pow1. cbn [fact Nat.add]. change (INR 1) with 1%R. field.
      split; apply not_0_INR, fact_neq_0.
    + cbn [length]. lia.
    + cbn [nsum]. rewrite nsum_lsum. lia.
  - intros i Hi. cbn [Nat.add]. unfold group. rewrite rsum_map. replace (n + 1) with (S n) by lia. rewrite <- rsum_scal. apply rsum_ext. intros a Ha.
    cbn [mono]. rewrite pow_O, Rmult_1_l. cbn [gm_pt snd]. f_equal. apply mono_on. intros j Hj. apply ptl_pt. lia.
Qed.

Lemma gm_exact n s p I : 0 < n -> pvars n p -> pdeg p <= 2 * s + 1 -> is_int_simplex n 1 (peval p) I ->
  qsum (as_rule (/ INR (fact n)) (gm_list n s)) (peval p) = I.
Proof.
  intros Hn V Dg HI. assert (Z : (Rabs (qsum (as_rule (/ INR (fact n)) (gm_list n s)) (peval p) - I) <= 0 * pmag p (fun _ => 1))%R).
  { eapply (accurate_simplex _ n (2 * s + 1)); [lra|exact V|exact Dg| |exact HI]. intros a La Na. rewrite gm_moment by (assumption || lia).
    rewrite Rminus_diag_eq, Rabs_R0 by reflexivity. lra. }
  rewrite Rmult_0_l in Z. pose proof (Rabs_pos (qsum (as_rule (/ INR (fact n)) (gm_list n s)) (peval p) - I)).
  assert (Z0 : Rabs (qsum (as_rule (/ INR (fact n)) (gm_list n s)) (peval p) - I) = 0%R) by lra.
  destruct (Req_dec (qsum (as_rule (/ INR (fact n)) (gm_list n s)) (peval p) - I) 0) as [Q|Q]; [lra|]. apply Rabs_no_R0 in Q. lra.
Qed.
