(** A fixed-point checker for quadrature tables on the unit simplex of any
    dimension, and its soundness. *)
From Coq Require Import Uint63 Reals List Lia Lra Psatz ZArith QArith Qreals Bool Factorial.
From Verif Require Import Common Poly_Spec Poly_Proofs Quad_Model Quad_Proofs.
Import ListNotations.
Local Open Scope R_scope.

(** Coordinates are scaled by [Xs], products weight * monomial by [Es], both
    rounded down; a number is a sign and a machine integer. *)
Definition Xs : Z := (2 ^ 62)%Z.
Definition Es : Z := (2 ^ 62)%Z.
Definition zc := (bool * int)%type.
Definition zval (c : zc) : Z := if fst c then (- to_Z (snd c))%Z else to_Z (snd c).
Definition mkc (X : Z) : zc := (Z.ltb X 0, of_Z (Z.abs X)).
(** product of two numbers below 2^63, divided by 2^62 *)
Definition umul (x p : int) : int := let '(h, l) := mulc x p in ((h << 1) + (l >> 62))%uint63.
Definition zmulx (c p : zc) : zc := (xorb (fst c) (fst p), umul (snd c) (snd p)).

Lemma wB_eq : wB = (2 ^ 63)%Z. Proof. reflexivity. Qed.
Lemma to_Z_range i : (0 <= to_Z i < 2 ^ 63)%Z.
Proof. pose proof (to_Z_bounded i) as B. rewrite wB_eq in B. exact B. Qed.
Lemma mkc_val X : (Z.abs X < 2 ^ 63)%Z -> zval (mkc X) = X.
Proof.
  intro H. unfold zval, mkc. cbn [fst snd]. rewrite of_Z_spec, wB_eq, Z.mod_small by lia. destruct (Z.ltb_spec X 0); lia.
Qed.
Lemma umul_ok x p : (to_Z x * to_Z p < 2 ^ 125)%Z -> to_Z (umul x p) = (to_Z x * to_Z p / 2 ^ 62)%Z.
Proof.
  intro H. unfold umul. pose proof (mulc_spec x p) as M. destruct (mulc x p) as [h l]. cbn [fst snd] in M. rewrite wB_eq in M.
  pose proof (to_Z_range h) as Bh. pose proof (to_Z_range l) as Bl.
  rewrite add_spec, lsl_spec, lsr_spec, wB_eq. change (to_Z 1%uint63) with 1%Z. change (to_Z 62%uint63) with 62%Z.
  change (2 ^ 1)%Z with 2%Z.
  assert (D : (to_Z x * to_Z p / 2 ^ 62 = to_Z h * 2 + to_Z l / 2 ^ 62)%Z).
  { rewrite M. replace (to_Z h * 2 ^ 63 + to_Z l)%Z with (to_Z h * 2 * 2 ^ 62 + to_Z l)%Z by ring. apply Z.div_add_l. discriminate. }
  assert (U : (to_Z x * to_Z p / 2 ^ 62 < 2 ^ 63)%Z) by (apply Z.div_lt_upper_bound; [reflexivity|]; change (2 ^ 62 * 2 ^ 63)%Z with (2 ^ 125)%Z; exact H).
  assert (L0 : (0 <= to_Z l / 2 ^ 62)%Z) by (apply Z.div_pos; [lia|reflexivity]).
  rewrite (Z.mod_small (to_Z h * 2)) by lia. rewrite Z.mod_small by lia. lia.
Qed.

Definition zr := (list zc * zc)%type.
Definition zrow0 (q : list Q * Q) : zr :=
  (map (fun x => mkc (Qnum x * Xs / Zpos (Qden x))%Z) (fst q), mkc (Qnum (snd q) * Es / Zpos (Qden (snd q)))%Z).
Definition zstep (r : zr) : zr :=
  match fst r with [] => r | x :: _ => (fst r, zmulx x (snd r)) end.
Definition znext (r : zr) : zr := (tl (fst r), snd r).
(** sum of at most 256 numbers: halves of positive and negative terms are added up separately *)
Fixpoint zacc (l : list zr) (ph pl nh nl : int) : Z :=
  match l with
  | [] => ((to_Z ph - to_Z nh) * 2 ^ 32 + (to_Z pl - to_Z nl))%Z
  | (_, (s, p)) :: l =>
      if s then zacc l ph pl (nh + p / 4294967296)%uint63 (nl + p mod 4294967296)%uint63
      else zacc l (ph + p / 4294967296)%uint63 (pl + p mod 4294967296)%uint63 nh nl
  end.
Definition zsum (l : list zr) : Z := zacc l 0%uint63 0%uint63 0%uint63 0%uint63.
Definition zsumv (l : list zr) : Z := fold_right (fun r s => (zval (snd r) + s)%Z) 0%Z l.

Lemma zacc_ok l : forall ph pl nh nl, let n := (Z.of_nat (length l) * 2 ^ 32)%Z in
  (to_Z ph + n < 2 ^ 63)%Z -> (to_Z pl + n < 2 ^ 63)%Z -> (to_Z nh + n < 2 ^ 63)%Z -> (to_Z nl + n < 2 ^ 63)%Z ->
  zacc l ph pl nh nl = ((to_Z ph - to_Z nh) * 2 ^ 32 + (to_Z pl - to_Z nl) + zsumv l)%Z.
Proof.
  induction l as [|[xs [s p]] l IH]; intros ph pl nh nl n H1 H2 H3 H4; [cbn [zacc zsumv fold_right]; lia|].
  unfold n in *. clear n. cbn [length] in *. rewrite Nat2Z.inj_succ in *.
  pose proof (to_Z_range p) as Bp. pose proof (to_Z_range ph). pose proof (to_Z_range pl). pose proof (to_Z_range nh). pose proof (to_Z_range nl).
  assert (E1 : to_Z (p / 4294967296)%uint63 = (to_Z p / 2 ^ 32)%Z) by (rewrite div_spec; reflexivity).
  assert (E2 : to_Z (p mod 4294967296)%uint63 = (to_Z p mod 2 ^ 32)%Z) by (rewrite mod_spec; reflexivity).
  pose proof (Z.div_mod (to_Z p) (2 ^ 32) ltac:(discriminate)) as DM. pose proof (Z.mod_pos_bound (to_Z p) (2 ^ 32) eq_refl) as MB.
  assert (DB : (0 <= to_Z p / 2 ^ 32 < 2 ^ 31)%Z).
  { split; [apply Z.div_pos; [lia|reflexivity]|apply Z.div_lt_upper_bound; [reflexivity|]; change (2 ^ 32 * 2 ^ 31)%Z with (2 ^ 63)%Z; lia]. }
  set (q := (to_Z p / 2 ^ 32)%Z) in *. set (m := (to_Z p mod 2 ^ 32)%Z) in *.
  change (2 ^ 31)%Z with 2147483648%Z in *. change (2 ^ 32)%Z with 4294967296%Z in *. change (2 ^ 63)%Z with 9223372036854775808%Z in *.
  assert (A : forall a b, (to_Z a + to_Z b < 9223372036854775808)%Z -> to_Z (a + b)%uint63 = (to_Z a + to_Z b)%Z).
  { intros a b Hab. rewrite add_spec, wB_eq. apply Z.mod_small. pose proof (to_Z_range a). pose proof (to_Z_range b). lia. }
  cbn [zacc zsumv fold_right snd]. unfold zval at 1. cbn [fst snd]. fold (zsumv l). destruct s.
  - rewrite IH; rewrite ?A; rewrite ?E1, ?E2; lia.
  - rewrite IH; rewrite ?A; rewrite ?E1, ?E2; lia.
Qed.
Lemma zsum_ok l : (length l <= 256)%nat -> zsum l = zsumv l.
Proof.
  intro H. unfold zsum. rewrite zacc_ok; change (to_Z 0%uint63) with 0%Z; try lia.
Qed.

(** [T] is the moment of the monomial reached so far scaled by [Es], [s] = its
    degree + the dimension, [j] the exponent of the current variable. *)
Fixpoint zgo (f : nat -> Z -> Z -> list zr -> bool) (d : nat) (j T s : Z) (l : list zr) : bool :=
  (f d T s (map znext l) &&
   match d with
   | O => true
   | S d' => zgo f d' (j + 1)%Z ((j + 1) * T / (s + 1))%Z (s + 1)%Z (map zstep l)
   end)%bool.
Fixpoint zchk (tol : Z) (n d : nat) (T s : Z) (l : list zr) {struct n} : bool :=
  match n with
  | O => Z.leb (Z.abs (zsum l - T)) tol
  | S m => zgo (zchk tol m) d 0%Z T s l
  end.

Definition beta : R := 65 / 64.
Lemma beta1 : 1 <= beta. Proof. unfold beta. lra. Qed.
Lemma beta_pow k : (k <= 31)%nat -> beta ^ k <= 2.
Proof.
  intro H. apply Rle_trans with (beta ^ 31); [apply Rle_pow; [apply beta1|exact H]|]. unfold beta. lra.
Qed.
Lemma beta_pow1 k : 1 <= beta ^ k.
Proof. apply pow_R1_Rle, beta1. Qed.
Lemma Xsp : 0 < IZR Xs. Proof. apply IZR_lt. reflexivity. Qed.
Lemma Esp : 0 < IZR Es. Proof. apply IZR_lt. reflexivity. Qed.

Lemma zmulx_err c p : (Z.abs (zval c * zval p) < 2 ^ 125)%Z -> Rabs (IZR (zval (zmulx c p)) - IZR (zval p * zval c) / IZR Xs) <= 1.
Proof.
  destruct c as [s x], p as [s' p]. pose proof (to_Z_range x) as Bx. pose proof (to_Z_range p) as Bp. intro H.
  assert (H' : (to_Z x * to_Z p < 2 ^ 125)%Z).
  { unfold zval in H. cbn [fst snd] in H. destruct s, s'; nia. }
  assert (E : Rabs (IZR (to_Z p * to_Z x / Xs) - IZR (to_Z p * to_Z x) / IZR Xs) <= 1) by (apply floor_err; reflexivity).
  assert (Sg : forall a b : Z, Rabs (IZR a - IZR b / IZR Xs) <= 1 -> Rabs (IZR (- a) - IZR (- b) / IZR Xs) <= 1).
  { intros a b Q. rewrite !opp_IZR. replace (- IZR a - - IZR b / IZR Xs) with (- (IZR a - IZR b / IZR Xs)) by (unfold Rdiv; ring). now rewrite Rabs_Ropp. }
  unfold zmulx, zval. cbn [fst snd]. rewrite (umul_ok x p H'). rewrite (Z.mul_comm (to_Z x)). fold Xs. destruct s, s'; cbn [xorb].
  - replace (- to_Z p * - to_Z x)%Z with (to_Z p * to_Z x)%Z by ring. exact E.
  - replace (to_Z p * - to_Z x)%Z with (- (to_Z p * to_Z x))%Z by ring. now apply Sg.
  - replace (- to_Z p * to_Z x)%Z with (- (to_Z p * to_Z x))%Z by ring. now apply Sg.
  - exact E.
Qed.

(** the number [c] stands for the coordinate [x] *)
Definition crep (c : zc) (x : R) : Prop :=
  Rabs (IZR (zval c) / IZR Xs - x) <= 1 / IZR Xs /\ Rabs (IZR (zval c) / IZR Xs) <= beta /\ Rabs x <= beta.
(** real row: coordinates, weight times monomial so far, weight *)
Record rrow := RR { rx : list R; rp : R; rw : R }.
Definition zrep (k : nat) (r : zr) (t : rrow) : Prop :=
  Forall2 crep (fst r) (rx t) /\ Rabs (rw t) <= 9 / 10 /\ Rabs (rp t) <= beta ^ k * Rabs (rw t) /\
  Rabs (IZR (zval (snd r)) / IZR Es - rp t) <= beta ^ k * (INR (S k) / IZR Es + INR k * Rabs (rw t) / IZR Xs).

Definition rstep (t : rrow) : rrow := match rx t with [] => t | x :: _ => RR (rx t) (rp t * x) (rw t) end.
Definition rnext (t : rrow) : rrow := RR (tl (rx t)) (rp t) (rw t).

Lemma zrep_next k r t : zrep k r t -> zrep k (znext r) (rnext t).
Proof.
  intros (A & B & C). split; [|split; assumption]. unfold znext, rnext; cbn [fst rx]. destruct A; cbn [tl]; [constructor|assumption].
Qed.
Lemma zrep_small k P (p w v : R) : (k <= 30)%nat -> Rabs w <= 9 / 10 -> Rabs p <= beta ^ k * Rabs w ->
  Rabs (IZR P / IZR Es - p) <= beta ^ k * (INR (S k) / IZR Es + INR k * Rabs w / IZR Xs) -> Rabs v <= beta ->
  Rabs (v * (IZR P / IZR Es)) < 2.
Proof.
  intros Hk W B C V. pose proof (beta_pow1 k) as Hb. pose proof (beta_pow k ltac:(lia)) as Hb2. pose proof (Rabs_pos w) as W0.
  assert (I : INR (S k) <= 31) by (replace 31 with (INR 31) by (rewrite INR_IZR_INZ; reflexivity); apply le_INR; lia).
  assert (I' : INR k <= 30) by (replace 30 with (INR 30) by (rewrite INR_IZR_INZ; reflexivity); apply le_INR; lia).
  pose proof (pos_INR k) as I0. pose proof (pos_INR (S k)) as I1.
  assert (EE : INR (S k) / IZR Es + INR k * Rabs w / IZR Xs <= 1 / 10 ^ 10).
  { unfold Es, Xs. change (IZR (2 ^ 62)) with 4611686018427387904. assert (INR k * Rabs w <= 30) by nra. lra. }
  assert (E0 : 0 <= INR (S k) / IZR Es + INR k * Rabs w / IZR Xs).
  { unfold Es, Xs. change (IZR (2 ^ 62)) with 4611686018427387904. assert (0 <= INR k * Rabs w) by nra. lra. }
  assert (BB : beta ^ k * beta <= 163 / 100).
  { replace (beta ^ k * beta) with (beta ^ (S k)) by (cbn [pow]; ring). apply Rle_trans with (beta ^ 31); [apply Rle_pow; [apply beta1|lia]|]. unfold beta. lra. }
  set (e := INR (S k) / IZR Es + INR k * Rabs w / IZR Xs) in *. set (q := IZR P / IZR Es) in *.
  assert (Q : Rabs q <= beta ^ k * (Rabs w + e)).
  { replace q with ((q - p) + p) by ring. eapply Rle_trans; [apply Rabs_triang|]. lra. }
  rewrite Rabs_mult. apply Rle_lt_trans with (beta * (beta ^ k * (Rabs w + e))); [apply Rmult_le_compat; try apply Rabs_pos; assumption|].
  replace (beta * (beta ^ k * (Rabs w + e))) with (beta ^ k * beta * (Rabs w + e)) by ring.
  apply Rle_lt_trans with (163 / 100 * (9 / 10 + 1 / 10 ^ 10)); [|lra]. pose proof beta1. apply Rmult_le_compat; try lra. nra.
Qed.
Lemma zrep_step k r t : (k <= 30)%nat -> rx t <> [] -> zrep k r t -> zrep (S k) (zstep r) (rstep t).
Proof.
  destruct r as [xs P], t as [ys p w]. cbn [rx]. intros Hk N (A & Wb & B & C). cbn [fst snd rx rp rw] in *.
  unfold zstep, rstep; cbn [fst snd rx rp rw]. destruct A as [|c x xs ys (D1 & D2 & D3) A]; [congruence|].
  pose proof Xsp as HX. pose proof Esp as HE. pose proof beta1 as Hb. pose proof (beta_pow1 k) as Hbk.
  split; [cbn [fst rx]; constructor; [repeat split; assumption|exact A]|]. cbn [snd rp rw]. split; [exact Wb|].
  split.
  - rewrite Rabs_mult. cbn [pow]. replace (beta * beta ^ k * Rabs w) with (beta ^ k * Rabs w * beta) by ring.
    apply Rmult_le_compat; try apply Rabs_pos; assumption.
  - assert (SM : (Z.abs (zval c * zval P) < 2 ^ 125)%Z).
    { pose proof (zrep_small k (zval P) p w _ Hk Wb B C D2) as S0. apply lt_IZR. rewrite abs_IZR, mult_IZR.
      replace (IZR (zval c) / IZR Xs * (IZR (zval P) / IZR Es)) with (IZR (zval c) * IZR (zval P) / (IZR Xs * IZR Es)) in S0 by (field; lra).
      rewrite Rabs_div in S0 by nra. apply (Rmult_lt_compat_r (IZR Xs * IZR Es)) in S0; [|nra].
      unfold Rdiv in S0. rewrite Rmult_assoc, Rinv_l, Rmult_1_r in S0 by nra. rewrite <- mult_IZR in S0. 
      replace (IZR (2 ^ 125)) with (2 * (IZR Xs * IZR Es)) by (rewrite <- !mult_IZR; reflexivity). rewrite <- (mult_IZR (zval c)). exact S0. }
    pose proof (zmulx_err c P SM) as FE. set (fl := IZR (zval (zmulx c P))) in *. set (X := zval c) in *. set (Pz := zval P) in *.
    replace (fl / IZR Es - p * x) with
      ((fl - IZR (Pz * X) / IZR Xs) / IZR Es + ((IZR Pz / IZR Es - p) * (IZR X / IZR Xs) + p * (IZR X / IZR Xs - x)))
      by (rewrite mult_IZR; field; lra).
    eapply Rle_trans; [apply Rabs_triang|].
    assert (B1 : Rabs ((fl - IZR (Pz * X) / IZR Xs) / IZR Es) <= 1 / IZR Es).
    { rewrite Rabs_div by lra. apply Rmult_le_compat_r; [apply Rlt_le, Rinv_0_lt_compat; lra|exact FE]. }
    assert (B2 : Rabs ((IZR Pz / IZR Es - p) * (IZR X / IZR Xs)) <= beta ^ k * (INR (S k) / IZR Es + INR k * Rabs w / IZR Xs) * beta).
    { rewrite Rabs_mult. apply Rmult_le_compat; try apply Rabs_pos; assumption. }
    assert (B3 : Rabs (p * (IZR X / IZR Xs - x)) <= beta ^ k * Rabs w * (1 / IZR Xs)).
    { rewrite Rabs_mult. apply Rmult_le_compat; try apply Rabs_pos; assumption. }
    pose proof (Rabs_triang ((IZR Pz / IZR Es - p) * (IZR X / IZR Xs)) (p * (IZR X / IZR Xs - x))).
    assert (E1 : 1 / IZR Es <= beta ^ S k * (1 / IZR Es)).
    { pose proof (beta_pow1 (S k)). assert (0 < 1 / IZR Es) by (apply Rdiv_lt_0_compat; lra). nra. }
    assert (E2 : beta ^ k * Rabs w * (1 / IZR Xs) <= beta ^ S k * Rabs w * (1 / IZR Xs)).
    { apply Rmult_le_compat_r; [apply Rlt_le, Rdiv_lt_0_compat; lra|]. apply Rmult_le_compat_r; [apply Rabs_pos|]. cbn [pow]. nra. }
    replace (beta ^ S k * (INR (S (S k)) / IZR Es + INR (S k) * Rabs w / IZR Xs)) with
      (beta ^ k * (INR (S k) / IZR Es + INR k * Rabs w / IZR Xs) * beta + beta ^ S k * (1 / IZR Es) + beta ^ S k * Rabs w * (1 / IZR Xs));
      [lra|]. rewrite !S_INR. cbn [pow]. field. lra.
Qed.

Definition rsumf (f : rrow -> R) (l : list rrow) : R := fold_right (fun t s => f t + s) 0 l.
Lemma rsumf_ext f g l : (forall t, In t l -> f t = g t) -> rsumf f l = rsumf g l.
Proof. induction l as [|t l IH]; intro H; [reflexivity|]. cbn [rsumf fold_right]. fold (rsumf f l) (rsumf g l). rewrite IH, H; [reflexivity|now left|]. intros; apply H; now right. Qed.
Lemma rsumf_map f g l : rsumf f (map g l) = rsumf (fun t => f (g t)) l.
Proof. induction l as [|t l IH]; [reflexivity|]. cbn [map rsumf fold_right]. unfold rsumf in *. now rewrite IH. Qed.

Lemma zsumv_err k l r : Forall2 (zrep k) l r ->
  Rabs (rsumf rp r - IZR (zsumv l) / IZR Es) <=
  beta ^ k * (INR (S k) * INR (length r) / IZR Es + INR k * rsumf (fun t => Rabs (rw t)) r / IZR Xs).
Proof.
  pose proof Xsp as HX. pose proof Esp as HE.
  induction 1 as [|[xs P] [ys p w] l r (A & _ & B & C) _ IH].
  - cbn [rsumf zsumv fold_right length]. change (INR 0) with 0. replace (0 - 0 / IZR Es) with 0 by (field; lra). rewrite Rabs_R0. rewrite !Rmult_0_r. unfold Rdiv. rewrite !Rmult_0_l. lra.
  - cbn [rsumf zsumv fold_right length rp rw fst snd] in *. fold (rsumf rp r) (zsumv l) (rsumf (fun t => Rabs (rw t)) r).
    rewrite plus_IZR, (S_INR (length r)).
    replace (p + rsumf rp r - (IZR (zval P) + IZR (zsumv l)) / IZR Es) with (- (IZR (zval P) / IZR Es - p) + (rsumf rp r - IZR (zsumv l) / IZR Es)) by (field; lra).
    eapply Rle_trans; [apply Rabs_triang|]. rewrite Rabs_Ropp.
    eapply Rle_trans; [apply Rplus_le_compat; [exact C|exact IH]|]. apply Req_le. field. lra.
Qed.

Lemma zsum_err k l r : (length l <= 256)%nat -> Forall2 (zrep k) l r ->
  Rabs (rsumf rp r - IZR (zsum l) / IZR Es) <=
  beta ^ k * (INR (S k) * INR (length r) / IZR Es + INR k * rsumf (fun t => Rabs (rw t)) r / IZR Xs).
Proof. intro L. rewrite zsum_ok by exact L. apply zsumv_err. Qed.

(** bound on the accumulated rounding *)
Definition rnd (K : nat) (r : list rrow) : R :=
  beta ^ K * (INR (S K) * INR (length r) / IZR Es + INR K * rsumf (fun t => Rabs (rw t)) r / IZR Xs).
Lemma rsumf_nonneg f l : (forall t, 0 <= f t) -> 0 <= rsumf f l.
Proof. intro H. induction l as [|t l IH]; cbn; [lra|]. specialize (H t). unfold rsumf in IH. lra. Qed.
Lemma rnd_mono k K r : (k <= K)%nat -> rnd k r <= rnd K r.
Proof.
  intro H. unfold rnd. pose proof Xsp as HX. pose proof Esp as HE.
  assert (W : 0 <= rsumf (fun t => Rabs (rw t)) r) by (apply rsumf_nonneg; intro; apply Rabs_pos).
  assert (A : INR (S k) <= INR (S K)) by (apply le_INR; lia). assert (B : INR k <= INR K) by (apply le_INR; lia).
  pose proof (pos_INR (length r)). pose proof (pos_INR k). pose proof (pos_INR (S k)).
  assert (IE : 0 < / IZR Es) by (apply Rinv_0_lt_compat; lra). assert (IX : 0 < / IZR Xs) by (apply Rinv_0_lt_compat; lra).
  apply Rmult_le_compat.
  - pose proof (beta_pow1 k); lra.
  - unfold Rdiv. apply Rplus_le_le_0_compat; apply Rmult_le_pos; try lra; apply Rmult_le_pos; lra.
  - apply Rle_pow; [apply beta1|lia].
  - unfold Rdiv. apply Rplus_le_compat; apply Rmult_le_compat_r; try lra; apply Rmult_le_compat_r; lra.
Qed.

Definition ptl (l : list R) : pt := fun i => nth i l 0.
Fixpoint monol (a : list nat) (xs : list R) : R :=
  match a, xs with [], _ => 1 | e :: t, x :: ys => x ^ e * monol t ys | e :: t, [] => 0 ^ e * monol t [] end.
Lemma monol_pt a : forall xs, monol a xs = mono a (ptl xs).
Proof.
  induction a as [|e t IH]; intros [|x xs]; cbn [monol mono]; try reflexivity.
  - rewrite IH. f_equal. apply mono_ext. intro k. unfold ptl. destruct k; reflexivity.
  - rewrite IH. f_equal.
Qed.

Definition mtarget (v : R) (s : nat) (c a : R) (m : nat) : R := v * c * a * INR (fact s) / INR (fact (s + m)).
Definition trep (k : nat) (T : Z) (v : R) : Prop := Rabs (IZR T / IZR Es - v) <= INR (S k) / IZR Es.
Lemma trep_step k T v (j s : nat) : (j <= s)%nat -> trep k T v ->
  trep (S k) ((Z.of_nat j + 1) * T / (Z.of_nat s + 1))%Z (v * INR (S j) / INR (S s)).
Proof.
  intros L H. unfold trep in *. pose proof Esp as HE.
  replace (Z.of_nat j + 1)%Z with (Z.of_nat (S j)) by lia. replace (Z.of_nat s + 1)%Z with (Z.of_nat (S s)) by lia.
  pose proof (floor_err (Z.of_nat (S j) * T) (Z.of_nat (S s)) ltac:(lia)) as F. rewrite mult_IZR, <- !INR_IZR_INZ in F.
  assert (P1 : 0 < INR (S j)) by (apply lt_0_INR; lia). assert (P2 : INR (S j) <= INR (S s)) by (apply le_INR; lia).
  set (fl := IZR (Z.of_nat (S j) * T / Z.of_nat (S s))) in *.
  replace (fl / IZR Es - v * INR (S j) / INR (S s)) with
    ((fl - INR (S j) * IZR T / INR (S s)) / IZR Es + (IZR T / IZR Es - v) * (INR (S j) / INR (S s))) by (field; lra).
  eapply Rle_trans; [apply Rabs_triang|]. rewrite (S_INR (S k)). replace ((INR (S k) + 1) / IZR Es) with (1 / IZR Es + INR (S k) / IZR Es * 1) by (field; lra).
  apply Rplus_le_compat.
  - rewrite Rabs_div by lra. apply Rmult_le_compat_r; [apply Rlt_le, Rinv_0_lt_compat; lra|exact F].
  - rewrite Rabs_mult. apply Rmult_le_compat; try apply Rabs_pos; [exact H|]. rewrite Rabs_pos_eq by (apply Rlt_le, Rdiv_lt_0_compat; lra).
    apply (Rmult_le_reg_r (INR (S s))); [lra|]. unfold Rdiv. rewrite Rmult_assoc, Rinv_l by lra. lra.
Qed.

Lemma rnext_len n r : Forall (fun t => length (rx t) = S n) r -> Forall (fun t => length (rx t) = n) (map rnext r).
Proof.
  intro H. rewrite Forall_forall in *. intros t Ht. apply in_map_iff in Ht as (u & <- & Hu). specialize (H u Hu).
  cbn [rnext rx]. destruct (rx u); cbn in *; [discriminate|]. lia.
Qed.
Lemma rstep_len n r : Forall (fun t => length (rx t) = n) r -> Forall (fun t => length (rx t) = n) (map rstep r).
Proof.
  intro H. rewrite Forall_forall in *. intros t Ht. apply in_map_iff in Ht as (u & <- & Hu). specialize (H u Hu).
  unfold rstep. destruct (rx u) eqn:E; [now rewrite E|]. cbn [rx]. assumption.
Qed.
Lemma rstep_w r : rsumf (fun t => Rabs (rw t)) (map rstep r) = rsumf (fun t => Rabs (rw t)) r.
Proof. rewrite rsumf_map. apply rsumf_ext. intros t _. unfold rstep. destruct (rx t); reflexivity. Qed.
Lemma rnext_w r : rsumf (fun t => Rabs (rw t)) (map rnext r) = rsumf (fun t => Rabs (rw t)) r.
Proof. rewrite rsumf_map. apply rsumf_ext. intros t _. reflexivity. Qed.

Section Sound.
Context (tol : Z).
Definition bnd (K : nat) (r : list rrow) : R := IZR tol / IZR Es + INR (S K) / IZR Es + rnd K r.
Definition sound (n : nat) : Prop := forall d T v (s : nat) l r k,
  zchk tol n d T (Z.of_nat s) l = true -> trep k T v -> (k + d <= 30)%nat -> (length l <= 256)%nat -> Forall2 (zrep k) l r -> Forall (fun t => length (rx t) = n) r ->
  forall a, length a = n -> (lsum a <= d)%nat ->
  Rabs (rsumf (fun t => rp t * monol a (rx t)) r - mtarget v s 1 (pfact a) (lsum a)) <= bnd (k + lsum a) r.

Lemma sound_0 : sound 0.
Proof.
  intros d T v s l r k C Ht _ LL F2 _ a La _. destruct a; [|discriminate]. cbn [lsum monol pfact]. rewrite Nat.add_0_r. cbn [zchk] in C.
  apply Z.leb_le, IZR_le in C. rewrite abs_IZR, minus_IZR in C.
  pose proof Esp as HE. pose proof (zsum_err k l r LL F2) as Z. fold (rnd k r) in Z. unfold bnd. unfold trep in Ht.
  rewrite (rsumf_ext _ rp) by (intros; ring). unfold mtarget. rewrite Nat.add_0_r. pose proof (fact_neq s) as Fs.
  replace (rsumf rp r - v * 1 * 1 * INR (fact s) / INR (fact s)) with
    ((IZR (zsum l) - IZR T) / IZR Es + (IZR T / IZR Es - v) + (rsumf rp r - IZR (zsum l) / IZR Es)) by (field; split; [exact Fs|lra]).
  eapply Rle_trans; [apply Rabs_triang|]. apply Rplus_le_compat; [|exact Z].
  eapply Rle_trans; [apply Rabs_triang|]. apply Rplus_le_compat; [|exact Ht].
  rewrite Rabs_div by lra. apply Rmult_le_compat_r; [apply Rlt_le, Rinv_0_lt_compat; lra|exact C].
Qed.

Lemma go_sound m : sound m -> forall d (j : nat) T v (s : nat) l r k,
  zgo (zchk tol m) d (Z.of_nat j) T (Z.of_nat s) l = true -> trep k T v -> (j <= s)%nat -> (k + d <= 30)%nat -> (length l <= 256)%nat -> Forall2 (zrep k) l r -> Forall (fun t => length (rx t) = S m) r ->
  forall e a, length a = m -> (e + lsum a <= d)%nat ->
  Rabs (rsumf (fun t => rp t * monol (e :: a) (rx t)) r - mtarget v s (INR (fact (j + e)) / INR (fact j)) (pfact a) (e + lsum a)) <= bnd (k + (e + lsum a)) r.
Proof.
  intro IH. induction d as [|d IHd]; intros j T v s l r k C Hd Js Kd LL F2 FL e a La He;
    cbn [zgo] in C; apply andb_true_iff in C as [C1 C2].
  - assert (e = 0%nat) by lia. subst e. cbn [Nat.add] in *. rewrite Nat.add_0_r.
    specialize (IH _ T v s (map znext l) (map rnext r) k C1 Hd Kd ltac:(rewrite map_length; exact LL)). specialize (IH ltac:(clear -F2; induction F2; cbn [map]; constructor; auto using zrep_next) ltac:(now apply rnext_len) a La He).
    rewrite rsumf_map in IH. unfold bnd, rnd in *. rewrite rnext_w, map_length in IH. pose proof (fact_neq j).
    replace (mtarget v s (INR (fact j) / INR (fact j)) (pfact a) (lsum a)) with (mtarget v s 1 (pfact a) (lsum a)) by (unfold Rdiv; rewrite Rinv_r by assumption; reflexivity).
    rewrite (rsumf_ext _ (fun t => rp (rnext t) * monol a (rx (rnext t)))); [exact IH|].
    intros t Ht. rewrite Forall_forall in FL. specialize (FL t Ht). cbn [rnext rp rx]. destruct (rx t); [discriminate|]. cbn [monol tl pow]. ring.
  - destruct e as [|e].
    + cbn [Nat.add] in *. rewrite Nat.add_0_r.
      specialize (IH _ T v s (map znext l) (map rnext r) k C1 Hd Kd ltac:(rewrite map_length; exact LL)). specialize (IH ltac:(clear -F2; induction F2; cbn [map]; constructor; auto using zrep_next) ltac:(now apply rnext_len) a La He).
      rewrite rsumf_map in IH. unfold bnd, rnd in *. rewrite rnext_w, map_length in IH. pose proof (fact_neq j).
      replace (mtarget v s (INR (fact j) / INR (fact j)) (pfact a) (lsum a)) with (mtarget v s 1 (pfact a) (lsum a)) by (unfold Rdiv; rewrite Rinv_r by assumption; reflexivity).
      rewrite (rsumf_ext _ (fun t => rp (rnext t) * monol a (rx (rnext t)))); [exact IH|].
      intros t Ht. rewrite Forall_forall in FL. specialize (FL t Ht). cbn [rnext rp rx]. destruct (rx t); [discriminate|]. cbn [monol tl pow]. ring.
    + replace (Z.of_nat j + 1)%Z with (Z.of_nat (S j)) in C2 by lia. replace (Z.of_nat s + 1)%Z with (Z.of_nat (S s)) in C2 by lia.
      assert (F2' : Forall2 (zrep (S k)) (map zstep l) (map rstep r)).
      { clear - F2 FL Kd. induction F2; cbn [map]; [constructor|]. inversion FL; subst. constructor; [|auto]. apply zrep_step; [lia| |assumption].
        destruct (rx y); [discriminate|congruence]. }
      pose proof (trep_step k T v j s Js Hd) as Hd'. replace (Z.of_nat j + 1)%Z with (Z.of_nat (S j)) in Hd' by lia. replace (Z.of_nat s + 1)%Z with (Z.of_nat (S s)) in Hd' by lia.
      specialize (IHd (S j) _ _ (S s) _ (map rstep r) (S k) C2 Hd' ltac:(lia) ltac:(lia) ltac:(rewrite map_length; exact LL) F2' ltac:(now apply rstep_len) e a La ltac:(lia)).
      rewrite rsumf_map in IHd. unfold bnd, rnd in *. rewrite rstep_w, map_length in IHd.
      replace (S k + (e + lsum a))%nat with (k + (S e + lsum a))%nat in IHd by lia.
      replace (mtarget v s (INR (fact (j + S e)) / INR (fact j)) (pfact a) (S e + lsum a)) with
        (mtarget (v * INR (S j) / INR (S s)) (S s) (INR (fact (S j + e)) / INR (fact (S j))) (pfact a) (e + lsum a)).
      * rewrite (rsumf_ext _ (fun t => rp (rstep t) * monol (e :: a) (rx (rstep t)))); [exact IHd|].
        intros t Ht. rewrite Forall_forall in FL. specialize (FL t Ht). unfold rstep. destruct (rx t); [discriminate|]. cbn [monol tl pow rp rx]. ring.
      * unfold mtarget. replace (j + S e)%nat with (S j + e)%nat by lia. replace (s + (S e + lsum a))%nat with (S s + (e + lsum a))%nat by lia.
        rewrite (fact_simpl j), (fact_simpl s), !mult_INR.
        assert (INR (S j) <> 0) by (apply not_0_INR; lia). assert (INR (S s) <> 0) by (apply not_0_INR; lia). pose proof (fact_neq j). pose proof (fact_neq s). pose proof (fact_neq (S s + (e + lsum a))).
        field. repeat split; try assumption; lra.
Qed.

Lemma zchk_sound n : sound n.
Proof.
  induction n as [|n IH]; [apply sound_0|]. intros d T v s l r k C Hd Kd LL F2 FL [|e a] La Ha; [discriminate|].
  cbn [zchk] in C. cbn [lsum] in *. pose proof (go_sound n IH d 0%nat T v s l r k C Hd ltac:(lia) Kd LL F2 FL e a ltac:(now injection La) Ha) as G.
  replace (mtarget v s 1 (pfact (e :: a)) (e + lsum a)) with (mtarget v s (INR (fact (0 + e)) / INR (fact 0)) (pfact a) (e + lsum a)); [exact G|].
  unfold mtarget. cbn [pfact Nat.add fact]. change (INR 1) with 1. unfold Rdiv. rewrite Rinv_1. ring.
Qed.
End Sound.

(** ** Tables *)
Definition qtab := list (list Q * Q).
Definition tabRn (t : qtab) : list (pt * R) := map (fun q => (ptl (map Q2R (fst q)), Q2R (snd q))) t.
Definition cok (x : Q) : bool := Z.leb (Z.abs (Qnum x) * 64) (65 * Zpos (Qden x)).
Definition wok (x : Q) : bool := Z.leb (Z.abs (Qnum x) * 10) (9 * Zpos (Qden x)).
Definition wtot (l : list zr) : Z := fold_right (fun r s => (to_Z (snd (snd r)) + 1 + s)%Z) 0%Z l.
Definition tol15 : Z := (5 * Es / 10 ^ 15)%Z.
Definition tab_ok (n d : nat) (t : qtab) : bool :=
  (let rows := map zrow0 t in
   (forallb (fun q => Nat.eqb (length (fst q)) n && forallb cok (fst q) && wok (snd q)) t && Z.leb (wtot rows) (2 * Es) && Nat.leb (length t) 256)
   && zchk tol15 n d (Es / Z.of_nat (fact n)) (Z.of_nat n) rows)%bool.
Definition tri_eps : R := 1 / 10 ^ 14.

Lemma q2r_frac q : Q2R q = IZR (Qnum q) / IZR (Zpos (Qden q)).
Proof. reflexivity. Qed.
Lemma floor_scale q S : (0 < S)%Z -> Rabs (IZR (Qnum q * S / Zpos (Qden q)) / IZR S - Q2R q) <= 1 / IZR S.
Proof.
  intro HS. apply IZR_lt in HS. assert (D : 0 < IZR (Zpos (Qden q))) by (apply IZR_lt; reflexivity).
  pose proof (floor_err (Qnum q * S) (Zpos (Qden q)) eq_refl) as F. rewrite q2r_frac.
  replace (IZR (Qnum q * S / Z.pos (Qden q)) / IZR S - IZR (Qnum q) / IZR (Z.pos (Qden q))) with
    ((IZR (Qnum q * S / Z.pos (Qden q)) - IZR (Qnum q * S) / IZR (Z.pos (Qden q))) / IZR S) by (rewrite mult_IZR; field; lra).
  rewrite Rabs_div by lra. apply Rmult_le_compat_r; [apply Rlt_le, Rinv_0_lt_compat; lra|exact F].
Qed.
Lemma cok_crep x : cok x = true -> crep (mkc (Qnum x * Xs / Zpos (Qden x))) (Q2R x).
Proof.
  unfold cok. intro A. apply Z.leb_le in A.
  assert (B : (Z.abs (Qnum x * Xs / Zpos (Qden x)) * 64 <= 65 * Xs)%Z).
  { change Xs with (64 * 72057594037927936)%Z. assert (L1 : (Qnum x * (64 * 72057594037927936) / Zpos (Qden x) <= 65 * 72057594037927936)%Z).
    { apply Z.lt_succ_r, Z.div_lt_upper_bound; lia. }
    assert (L2 : (- (65 * 72057594037927936) <= Qnum x * (64 * 72057594037927936) / Zpos (Qden x))%Z) by (apply Z.div_le_lower_bound; lia).
    lia. }
  assert (V : zval (mkc (Qnum x * Xs / Zpos (Qden x))) = (Qnum x * Xs / Zpos (Qden x))%Z).
  { apply mkc_val. change Xs with 4611686018427387904%Z in *. lia. }
  unfold crep. rewrite V. clear V. apply IZR_le in A. apply IZR_le in B.
  rewrite !mult_IZR, !abs_IZR in A, B. pose proof Xsp as HX. assert (D : 0 < IZR (Zpos (Qden x))) by (apply IZR_lt; reflexivity).
  split; [apply floor_scale; reflexivity|]. unfold beta. split.
  - rewrite Rabs_div by lra. apply (Rmult_le_reg_r (IZR Xs)); [lra|]. unfold Rdiv at 1. rewrite Rmult_assoc, Rinv_l by lra. lra.
  - rewrite q2r_frac, Rabs_div by lra. apply (Rmult_le_reg_r (IZR (Zpos (Qden x)))); [lra|]. unfold Rdiv at 1. rewrite Rmult_assoc, Rinv_l by lra. lra.
Qed.
Lemma wok_R w : wok w = true -> Rabs (Q2R w) <= 9 / 10.
Proof.
  unfold wok. intro H. apply Z.leb_le, IZR_le in H. rewrite !mult_IZR, abs_IZR in H. assert (D : 0 < IZR (Zpos (Qden w))) by (apply IZR_lt; reflexivity).
  rewrite q2r_frac, Rabs_div by lra. apply (Rmult_le_reg_r (IZR (Zpos (Qden w)))); [lra|]. unfold Rdiv at 1. rewrite Rmult_assoc, Rinv_l by lra. lra.
Qed.
Lemma wok_val w : wok w = true -> zval (mkc (Qnum w * Es / Zpos (Qden w))) = (Qnum w * Es / Zpos (Qden w))%Z.
Proof.
  unfold wok. intro H. apply mkc_val. apply Z.leb_le in H. change Es with 4611686018427387904%Z.
  apply Z.abs_lt. split; [apply Z.lt_le_trans with (-9223372036854775807)%Z; [reflexivity|apply Z.div_le_lower_bound]|apply Z.div_lt_upper_bound]; lia.
Qed.
Definition rrow0 (q : list Q * Q) : rrow := RR (map Q2R (fst q)) (Q2R (snd q)) (Q2R (snd q)).
Lemma abs_le_both x y : Rabs x <= y -> - y <= x <= y.
Proof. intro H. unfold Rabs in H. destruct (Rcase_abs x); lra. Qed.
Lemma wtot_sum t : (forall q, In q t -> wok (snd q) = true) -> rsumf (fun r => Rabs (rw r)) (map rrow0 t) <= IZR (wtot (map zrow0 t)) / IZR Es.
Proof.
  pose proof Esp as HE. induction t as [|[xs w] t IH]; intro W; [cbn; unfold Rdiv; rewrite Rmult_0_l; lra|].
  specialize (IH ltac:(intros; apply W; now right)). specialize (W _ (or_introl eq_refl)). cbn [snd] in W. apply wok_val in W.
  cbn [map rsumf fold_right wtot fst snd rrow0 rw zrow0]. fold (rsumf (fun r => Rabs (rw r)) (map rrow0 t)) (wtot (map zrow0 t)).
  assert (E : (Z.abs (Qnum w * Es / Zpos (Qden w)) <= to_Z (snd (mkc (Qnum w * Es / Zpos (Qden w)))))%Z).
  { rewrite <- W at 1. unfold zval. pose proof (to_Z_range (snd (mkc (Qnum w * Es / Zpos (Qden w))))). destruct (fst _); lia. }
  apply IZR_le in E. rewrite abs_IZR in E. pose proof (floor_scale w Es eq_refl) as F.
  rewrite !plus_IZR. set (f := IZR (Qnum w * Es / Zpos (Qden w))) in *. set (g := IZR (to_Z _)) in *.
  assert (E2 : Rabs (Q2R w) <= g / IZR Es + 1 / IZR Es).
  { replace (Q2R w) with (f / IZR Es + - (f / IZR Es - Q2R w)) by ring. eapply Rle_trans; [apply Rabs_triang|]. rewrite Rabs_Ropp.
    apply Rplus_le_compat; [|exact F]. rewrite Rabs_div by lra. apply Rmult_le_compat_r; [apply Rlt_le, Rinv_0_lt_compat; lra|exact E]. }
  replace ((g + 1 + IZR (wtot (map zrow0 t))) / IZR Es) with (g / IZR Es + 1 / IZR Es + IZR (wtot (map zrow0 t)) / IZR Es) by (field; lra). lra.
Qed.
Lemma rsumf_qsum t a : rsumf (fun r => rp r * monol a (rx r)) (map rrow0 t) = qsum (tabRn t) (mono a).
Proof.
  induction t as [|[xs w] t IH]; [reflexivity|]. cbn [map rsumf fold_right tabRn qsum rrow0 rp rx fst snd]. rewrite <- monol_pt.
  unfold rsumf, tabRn in IH. rewrite <- IH. reflexivity.
Qed.

Lemma tab_moments n d t : tab_ok n d t = true -> (d <= 30)%nat ->
  forall a, length a = n -> (lsum a <= d)%nat -> Rabs (qsum (tabRn t) (mono a) - smoment n a 1) <= tri_eps - 1 / 10 ^ 15.
Proof.
  unfold tab_ok. cbv zeta. intros H Hd a La Ha. apply andb_true_iff in H as [H1 H2]. apply andb_true_iff in H1 as [H1 H4]. apply andb_true_iff in H1 as [H1 H3].
  rewrite forallb_forall in H1. apply Z.leb_le, IZR_le in H3. rewrite mult_IZR in H3. apply Nat.leb_le in H4.
  assert (HW : forall q, In q t -> wok (snd q) = true) by (intros q Hq; specialize (H1 q Hq); now apply andb_true_iff in H1 as [_ H1]).
  assert (F2 : Forall2 (zrep 0) (map zrow0 t) (map rrow0 t)).
  { clear - H1 HW. induction t as [|q t IH]; cbn [map]; [constructor|]. constructor; [|apply IH; intros; [apply H1|apply HW]; now right].
    specialize (H1 q (or_introl eq_refl)). specialize (HW q (or_introl eq_refl)).
    apply andb_true_iff in H1 as [H1 _]. apply andb_true_iff in H1 as [_ H1]. rewrite forallb_forall in H1. destruct q as [xs w]. cbn [fst snd] in *.
    split; [|split; [|split]].
    - cbn [zrow0 rrow0 fst rx]. induction xs as [|x xs IHx]; cbn [map]; constructor; [apply cok_crep, H1; now left|apply IHx; intros; apply H1; now right].
    - apply wok_R, HW.
    - cbn [rrow0 rp rw snd pow]. lra.
    - cbn [zrow0 rrow0 fst snd rp rw pow]. rewrite (wok_val _ HW). pose proof (floor_scale w Es eq_refl). cbn [INR]. unfold Rdiv in *. rewrite !Rmult_0_l. lra. }
  assert (FL : Forall (fun r => length (rx r) = n) (map rrow0 t)).
  { apply Forall_forall. intros r Hr. apply in_map_iff in Hr as (q & <- & Hq). specialize (H1 q Hq). apply andb_true_iff in H1 as [H1 _]. apply andb_true_iff in H1 as [H1 _]. apply Nat.eqb_eq in H1. cbn. now rewrite map_length. }
  assert (Dp : (0 < Z.of_nat (fact n))%Z) by (pose proof (lt_O_fact n); lia).
  assert (T0 : trep 0 (Es / Z.of_nat (fact n)) (1 / INR (fact n))).
  { unfold trep. pose proof Esp as HE. pose proof (floor_err Es (Z.of_nat (fact n)) Dp) as F. rewrite <- INR_IZR_INZ in F. pose proof (fact_neq n).
    replace (IZR (Es / Z.of_nat (fact n)) / IZR Es - 1 / INR (fact n)) with ((IZR (Es / Z.of_nat (fact n)) - IZR Es / INR (fact n)) / IZR Es) by (field; split; [assumption|lra]).
    rewrite Rabs_div by lra. change (INR 1) with 1. apply Rmult_le_compat_r; [apply Rlt_le, Rinv_0_lt_compat; lra|exact F]. }
  pose proof (zchk_sound tol15 n d _ _ n _ _ 0%nat H2 T0 ltac:(lia) ltac:(rewrite map_length; exact H4) F2 FL a La Ha) as B. rewrite rsumf_qsum in B.
  replace (smoment n a 1) with (mtarget (1 / INR (fact n)) n 1 (pfact a) (lsum a)).
  2:{ unfold mtarget, smoment. rewrite pow1, (Nat.add_comm n). pose proof (fact_neq n). pose proof (fact_neq (lsum a + n)). field. split; assumption. }
  eapply Rle_trans; [exact B|]. cbn [Nat.add]. unfold bnd. apply Rle_trans with (IZR tol15 / IZR Es + 31 / IZR Es + rnd 30 (map rrow0 t)).
  { apply Rplus_le_compat; [apply Rplus_le_compat_l|apply rnd_mono; lia]. pose proof Esp. apply Rmult_le_compat_r; [apply Rlt_le, Rinv_0_lt_compat; lra|].
    replace 31 with (INR 31) by (rewrite INR_IZR_INZ; reflexivity). apply le_INR. lia. }
  pose proof Xsp as HX. pose proof Esp as HE.
  assert (T : IZR tol15 / IZR Es <= 5 / 10 ^ 15).
  { unfold tol15. pose proof (floor_err (5 * Es) (10 ^ 15) eq_refl) as F. rewrite mult_IZR in F.
    assert (F' : IZR (5 * Es / 10 ^ 15) <= 5 * IZR Es / IZR (10 ^ 15)).
    { pose proof (Z.mul_div_le (5 * Es) (10 ^ 15) eq_refl) as M. apply IZR_le in M. rewrite !mult_IZR in M.
      assert (0 < IZR (10 ^ 15)) by (apply IZR_lt; reflexivity). apply (Rmult_le_reg_r (IZR (10 ^ 15))); [lra|].
      unfold Rdiv. rewrite Rmult_assoc, Rinv_l by lra. lra. }
    replace (10 ^ 15) with (IZR (10 ^ 15)) by (rewrite (pow_IZR 10 15); f_equal). apply (Rmult_le_reg_r (IZR Es)); [lra|].
    unfold Rdiv at 1. rewrite Rmult_assoc, Rinv_l by lra. unfold Rdiv in *. lra. }
  assert (Rn : rnd 30 (map rrow0 t) <= 2 * (31 * 256 / IZR Es + 30 * 2 / IZR Xs)).
  { unfold rnd. pose proof (wtot_sum t HW) as W. assert (W2 : rsumf (fun r => Rabs (rw r)) (map rrow0 t) <= 2).
    { eapply Rle_trans; [exact W|]. apply (Rmult_le_reg_r (IZR Es)); [lra|]. unfold Rdiv. rewrite Rmult_assoc, Rinv_l by lra. lra. }
    assert (W0 : 0 <= rsumf (fun r => Rabs (rw r)) (map rrow0 t)) by (apply rsumf_nonneg; intro; apply Rabs_pos).
    rewrite map_length. apply le_INR in H4. pose proof (pos_INR (length t)).
    assert (I256 : INR 256 = 256) by (rewrite INR_IZR_INZ; reflexivity). rewrite I256 in H4.
    assert (I31 : INR 31 = 31) by (rewrite INR_IZR_INZ; reflexivity). assert (I30 : INR 30 = 30) by (rewrite INR_IZR_INZ; reflexivity). rewrite I31, I30.
    assert (IE : 0 < / IZR Es) by (apply Rinv_0_lt_compat; lra). assert (IX : 0 < / IZR Xs) by (apply Rinv_0_lt_compat; lra).
    apply Rmult_le_compat.
    - pose proof (beta_pow1 30); lra.
    - unfold Rdiv. apply Rplus_le_le_0_compat; apply Rmult_le_pos; lra.
    - apply beta_pow. lia.
    - unfold Rdiv. apply Rplus_le_compat; apply Rmult_le_compat_r; lra. }
  apply Rle_trans with (5 / 10 ^ 15 + 31 / IZR Es + 2 * (31 * 256 / IZR Es + 30 * 2 / IZR Xs)); [lra|].
  unfold Es, Xs, tri_eps. change (2 ^ 62)%Z with 4611686018427387904%Z. lra.
Qed.
