(** Tensor rules: degree in each variable, squares and cubes. *)
From Coq Require Import List ZArith QArith Reals Qreals Lra Lia Arith.
From Verif Require Import Common Poly_Spec Poly_Proofs Quad_Model Quad_Proofs.
Import ListNotations.
Open Scope R_scope.

(** degree in variable [i] *)
Fixpoint pdegv (i : nat) (p : pexp) : nat :=
  match p with
  | PC _ => 0
  | PX j => if Nat.eqb i j then 1 else 0
  | PAdd p q => Nat.max (pdegv i p) (pdegv i q)
  | PMul p q => pdegv i p + pdegv i q
  end.

Definition vok (n : nat) (d : nat -> nat) (m : mlist) :=
  Forall (fun t => length (snd t) = n /\ forall i, (nth i (snd t) O <= d i)%nat) m.

Lemma nth_add a : forall b i, length a = length b -> nth i (addexp a b) O = (nth i a O + nth i b O)%nat.
Proof.
  induction a as [|x a IH]; intros [|y b] [|i] L; try discriminate; try reflexivity.
  cbn [addexp combine map nth fst snd]. fold (addexp a b). apply IH. simpl in L. lia.
Qed.
Lemma nth_unit n : forall j i, (nth i (unit_exp n j) O <= if Nat.eqb i j then 1 else 0)%nat.
Proof.
  induction n as [|n IH]; intros [|j] [|i]; cbn [unit_exp nth Nat.eqb]; try lia.
  - assert (forall k, nth k (repeat O n) O = O) by (clear; induction n; intros [|k]; cbn; auto). rewrite H. lia.
  - apply IH.
Qed.
Lemma vok_mono n d d' m : (forall i, d i <= d' i)%nat -> vok n d m -> vok n d' m.
Proof. intros L. apply Forall_impl. intros [c a] [H1 H2]. split; [exact H1|]. intro i. specialize (H2 i). specialize (L i). lia. Qed.
Lemma vok_mscale n d e c a m : length a = n -> (forall i, nth i a O <= e i)%nat -> vok n d m ->
  vok n (fun i => e i + d i)%nat (mscale c a m).
Proof.
  intros La Sa H. induction H as [|[k b] t [H1 H2] _ IH]; [constructor|].
  cbn [mscale map fst snd]. constructor; [|exact IH]. cbn [snd fst] in *.
  rewrite add_len by congruence. split; [exact H1|]. intro i. rewrite nth_add by congruence. specialize (Sa i). specialize (H2 i). lia.
Qed.
Lemma vok_mmul n d e p q : vok n d p -> vok n e q -> vok n (fun i => d i + e i)%nat (mmul p q).
Proof.
  intros H K. induction H as [|[c a] t [H1 H2] _ IH]; [constructor|].
  cbn [mmul]. apply Forall_app. split; [|exact IH]. now apply vok_mscale.
Qed.
Lemma monos_vok n p : vok n (fun i => pdegv i p) (monos n p).
Proof.
  induction p as [c|j|p IHp q IHq|p IHp q IHq]; cbn [monos pdegv].
  - constructor; [|constructor]. cbn [snd]. rewrite repeat_length. split; [reflexivity|].
    clear. induction n; intros [|i]; cbn; auto.
  - constructor; [|constructor]. cbn [snd]. split; [apply unit_len|]. intro i. apply nth_unit.
  - apply Forall_app. split; eapply vok_mono; try eassumption; intro i; cbv beta; lia.
  - now apply vok_mmul.
Qed.
Lemma psub_degv i s p : (forall j, pdegv i (s j) <= 1)%nat -> (pdegv i (psub s p) <= pdeg p)%nat.
Proof. intro H. induction p; cbn [psub pdegv pdeg]; try lia. apply H. Qed.

Lemma accurate_cube_v (r : list (pt * R)) n d eps p I : 0 <= eps -> pvars n p -> (forall i, (i < n)%nat -> (pdegv i p <= d)%nat) ->
  (forall a, length a = n -> (forall i, (nth i a O <= d)%nat) -> Rabs (qsum r (mono a) - cmoment a) <= eps) ->
  is_int_cube n (peval p) I -> Rabs (qsum r (peval p) - I) <= eps * pmag p (fun _ => 1).
Proof.
  intros He V D A HI. pose proof (monos_vok n p) as K.
  assert (E : forall x, meval (monos n p) x = peval p x) by (intro; now apply monos_eval).
  rewrite <- (monos_norm n) by exact V. rewrite <- (qsum_ext r _ _ E).
  replace I with (fold_right (fun t s => fst t * cmoment (snd t) + s) 0 (monos n p)).
  - rewrite qsum_meval. clear HI E. unfold vok in K.
    induction K as [|[c a] t [H1 H2] _ IH]; cbn [fold_right fst snd mnorm] in *.
    + rewrite Rminus_diag_eq, Rabs_R0 by reflexivity. lra.
    + match goal with |- Rabs (c * ?q + ?u - (c * ?m + ?v)) <= _ =>
        replace (c * q + u - (c * m + v)) with (c * (q - m) + (u - v)) by ring end.
      eapply Rle_trans; [apply Rabs_triang|]. rewrite Rabs_mult, mono_one, Rmult_1_r, Rmult_plus_distr_l.
      apply Rplus_le_compat; [|exact IH]. rewrite (Rmult_comm eps). apply Rmult_le_compat_l; [apply Rabs_pos|].
      apply A; [exact H1|]. intro i. destruct (Nat.lt_ge_cases i n) as [L|L].
      * specialize (H2 i). specialize (D i L). lia.
      * rewrite nth_overflow by lia. lia.
  - apply (is_int_cube_unique n (peval p)); [|exact HI].
    eapply is_int_cube_ext; [exact E|]. eapply is_int_cube_meval, monos_ok.
Qed.

(** ** tensor products of a table *)
Lemma square_sum t i j : qsum (square_points t) (mono [i; j]) = qsum (tabR t) (fun x => x ^ i) * qsum (tabR t) (fun x => x ^ j).
Proof.
  unfold square_points.
  assert (G : forall s, qsum (flat_map (fun qpy => map (fun qpx => (pt2 (Q2R (fst qpx)) (Q2R (fst qpy)), Q2R (snd qpx) * Q2R (snd qpy))) t) s) (mono [i; j])
    = qsum (tabR t) (fun x => x ^ i) * qsum (tabR s) (fun x => x ^ j)).
  { induction s as [|[y v] s IH]; cbn [flat_map tabR map qsum fst snd]; [ring|].
    fold (tabR s). rewrite qsum_app, IH.
    assert (H : qsum (map (fun qpx => (pt2 (Q2R (fst qpx)) (Q2R y), Q2R (snd qpx) * Q2R v)) t) (mono [i; j])
       = qsum (tabR t) (fun x => x ^ i) * (Q2R v * Q2R y ^ j)).
    { clear. induction t as [|[x w] t IH]; cbn [map tabR qsum fst snd]; [ring|]. fold (tabR t). rewrite IH.
      cbn [mono pt2]. ring. }
    rewrite H. ring. }
  apply G.
Qed.

Definition cube_points (t : table1) : list (pt * R) :=
  flat_map (fun qx => flat_map (fun qy => map (fun qz =>
     (pt3 (Q2R (fst qx)) (Q2R (fst qy)) (Q2R (fst qz)), Q2R (snd qx) * Q2R (snd qy) * Q2R (snd qz))) t) t) t.
Lemma cube_sum t i j k : qsum (cube_points t) (mono [i; j; k]) =
  qsum (tabR t) (fun x => x ^ i) * (qsum (tabR t) (fun x => x ^ j) * qsum (tabR t) (fun x => x ^ k)).
Proof.
  unfold cube_points.
  assert (G1 : forall x w y v s, qsum (map (fun qz => (pt3 x y (Q2R (fst qz)), w * v * Q2R (snd qz))) s) (mono [i; j; k])
     = w * x ^ i * (v * y ^ j * qsum (tabR s) (fun z => z ^ k))).
  { intros x w y v s. induction s as [|[z u] s IH]; cbn [map tabR qsum fst snd]; [ring|]. fold (tabR s). rewrite IH.
    cbn [mono pt3]. ring. }
  assert (G2 : forall x w s, qsum (flat_map (fun qy => map (fun qz =>
     (pt3 x (Q2R (fst qy)) (Q2R (fst qz)), w * Q2R (snd qy) * Q2R (snd qz))) t) s) (mono [i; j; k])
     = w * x ^ i * (qsum (tabR s) (fun y => y ^ j) * qsum (tabR t) (fun z => z ^ k))).
  { intros x w s. induction s as [|[y v] s IH]; cbn [flat_map map tabR qsum fst snd]; [ring|]. fold (tabR s).
    rewrite qsum_app, IH, G1. ring. }
  assert (G3 : forall s, qsum (flat_map (fun qx => flat_map (fun qy => map (fun qz =>
     (pt3 (Q2R (fst qx)) (Q2R (fst qy)) (Q2R (fst qz)), Q2R (snd qx) * Q2R (snd qy) * Q2R (snd qz))) t) t) s) (mono [i; j; k])
     = qsum (tabR s) (fun y => y ^ i) * (qsum (tabR t) (fun y => y ^ j) * qsum (tabR t) (fun z => z ^ k))).
  { induction s as [|[x w] s IH]; cbn [flat_map map tabR qsum fst snd]; [ring|]. fold (tabR s).
    rewrite qsum_app, IH, G2. ring. }
  apply G3.
Qed.

Lemma imom_bound k : Rabs (imom k) <= 2.
Proof.
  rewrite imom_target. assert (1 <= INR (S k)) by (rewrite S_INR; pose proof (pos_INR k); lra).
  rewrite Rabs_div by lra. unfold itarget. destruct (Z.even _).
  - rewrite (Rabs_right 2) by lra. apply (Rmult_le_reg_r (INR (S k))); [lra|]. unfold Rdiv. rewrite Rmult_assoc, Rinv_l by lra. lra.
  - rewrite Rabs_R0. unfold Rdiv. lra.
Qed.
Lemma prod_err a b c d eps : 0 <= eps <= 1 -> Rabs (a - c) <= eps -> Rabs b <= 3 -> Rabs (b - d) <= eps -> Rabs c <= 2 ->
  Rabs (a * b - c * d) <= 5 * eps.
Proof.
  intros He H1 H2 H3 H4. replace (a * b - c * d) with ((a - c) * b + c * (b - d)) by ring.
  eapply Rle_trans; [apply Rabs_triang|]. rewrite !Rabs_mult.
  pose proof (Rmult_le_compat _ _ _ _ (Rabs_pos _) (Rabs_pos _) H1 H2).
  pose proof (Rmult_le_compat _ _ _ _ (Rabs_pos _) (Rabs_pos _) H4 H3). lra.
Qed.
Lemma near_bound a c eps : eps <= 1 -> Rabs (a - c) <= eps -> Rabs c <= 2 -> Rabs a <= 3.
Proof. intros. replace a with ((a - c) + c) by ring. eapply Rle_trans; [apply Rabs_triang|]. lra. Qed.

Lemma square_acc t K eps : 0 <= eps <= 1 -> acc (tabR t) K eps ->
  forall a, length a = 2%nat -> (forall i, (nth i a O <= K - 1)%nat) -> (0 < K)%nat ->
  Rabs (qsum (square_points t) (mono a) - cmoment a) <= 5 * eps.
Proof.
  intros He A [|i [|j [|? ?]]] L D HK; try discriminate. rewrite square_sum. cbn [cmoment]. rewrite Rmult_1_r.
  pose proof (D 0%nat) as Di. pose proof (D 1%nat) as Dj. cbn [nth] in Di, Dj.
  assert (Ai := A i ltac:(lia)). assert (Aj := A j ltac:(lia)).
  apply prod_err; auto using imom_bound. apply (near_bound _ (imom j) eps); auto using imom_bound. lra.
Qed.

Lemma cube_acc t K eps : 0 <= eps <= 1 / 10 -> acc (tabR t) K eps ->
  forall a, length a = 3%nat -> (forall i, (nth i a O <= K - 1)%nat) -> (0 < K)%nat ->
  Rabs (qsum (cube_points t) (mono a) - cmoment a) <= 20 * eps.
Proof.
  intros He A [|i [|j [|k [|? ?]]]] L D HK; try discriminate. rewrite cube_sum. cbn [cmoment]. rewrite Rmult_1_r.
  pose proof (D 0%nat) as Di. pose proof (D 1%nat) as Dj. pose proof (D 2%nat) as Dk. cbn [nth] in Di, Dj, Dk.
  assert (Ai := A i ltac:(lia)). assert (Aj := A j ltac:(lia)). assert (Ak := A k ltac:(lia)).
  set (qi := qsum (tabR t) (fun x => x ^ i)) in *.
  set (qj := qsum (tabR t) (fun x => x ^ j)) in *. set (qk := qsum (tabR t) (fun x => x ^ k)) in *.
  assert (Bk : Rabs qk <= 3) by (apply (near_bound _ (imom k) eps); auto using imom_bound; lra).
  assert (P : Rabs (qj * qk - imom j * imom k) <= 5 * eps) by (apply prod_err; auto using imom_bound; lra).
  assert (M : Rabs (imom j * imom k) <= 4).
  { rewrite Rabs_mult. pose proof (Rmult_le_compat _ _ _ _ (Rabs_pos _) (Rabs_pos _) (imom_bound j) (imom_bound k)). lra. }
  replace (qi * (qj * qk) - imom i * (imom j * imom k)) with
    ((qi - imom i) * (qj * qk - imom j * imom k) + (qi - imom i) * (imom j * imom k) + imom i * (qj * qk - imom j * imom k)) by ring.
  eapply Rle_trans; [apply Rabs_triang|]. eapply Rle_trans; [apply Rplus_le_compat_r, Rabs_triang|]. rewrite !(Rabs_mult (_ - _)), Rabs_mult.
  pose proof (Rmult_le_compat _ _ _ _ (Rabs_pos _) (Rabs_pos _) Ai P).
  pose proof (Rmult_le_compat _ _ _ _ (Rabs_pos _) (Rabs_pos _) Ai M).
  pose proof (Rmult_le_compat _ _ _ _ (Rabs_pos _) (Rabs_pos _) (imom_bound i) P).
  rewrite Rabs_mult in *. nra.
Qed.

(** ** mapped rules: points through [phi], weights multiplied by [J] *)
Lemma qsum_mapped (r : list (pt * R)) (phi : pt -> pt) (J : pt -> R) f :
  qsum (map (fun t => (phi (fst t), snd t * J (fst t))) r) f = qsum r (fun x => f (phi x) * J x).
Proof. induction r as [|[x w] t IH]; cbn [qsum map fst snd]; [reflexivity|]. rewrite IH. ring. Qed.

(** ** quadrangles *)
From Verif Require Import Quad_Spec.

Definition Pm (p q : pexp) : pexp := PAdd p (PMul (PC (-1)) q).
Definition om (i : nat) : pexp := Pm (PC 1) (PX i).   (* 1 - x_i *)
Definition op (i : nat) : pexp := PAdd (PC 1) (PX i). (* 1 + x_i *)
Definition bil (p0 p1 p2 p3 : pt) (i : nat) : pexp :=
  PMul (PC (/ 4)) (PAdd (PAdd (PMul (PC (p0 i)) (PMul (om 0) (om 1))) (PMul (PC (p1 i)) (PMul (op 0) (om 1))))
                        (PAdd (PMul (PC (p2 i)) (PMul (op 0) (op 1))) (PMul (PC (p3 i)) (PMul (om 0) (op 1))))).
Definition bd0 (p0 p1 p2 p3 : pt) (i : nat) : pexp :=
  PMul (PC (/ 4)) (PAdd (PMul (om 1) (PC (p1 i - p0 i))) (PMul (op 1) (PC (p2 i - p3 i)))).
Definition bd1 (p0 p1 p2 p3 : pt) (i : nat) : pexp :=
  PMul (PC (/ 4)) (PAdd (PMul (om 0) (PC (p3 i - p0 i))) (PMul (op 0) (PC (p2 i - p1 i)))).
Definition bjac (p0 p1 p2 p3 : pt) : pexp :=
  Pm (PMul (bd0 p0 p1 p2 p3 0) (bd1 p0 p1 p2 p3 1)) (PMul (bd0 p0 p1 p2 p3 1) (bd1 p0 p1 p2 p3 0)).

Lemma bil_eval p0 p1 p2 p3 i z : peval (bil p0 p1 p2 p3 i) z = bilin p0 p1 p2 p3 z i.
Proof. unfold bilin. cbn [bil om op Pm peval]. field. Qed.
Lemma bjac_eval p0 p1 p2 p3 z : peval (bjac p0 p1 p2 p3) z = bilin_jac p0 p1 p2 p3 z.
Proof. unfold bilin_jac, bilin_d0, bilin_d1. cbn [bjac bd0 bd1 om op Pm peval]. field. Qed.

(** size of the pulled-back integrand: coordinates bounded by the sum of the
    vertices', Jacobian by products of edge lengths *)
Definition quad_radius (p0 p1 p2 p3 : pt) : pt := fun i => Rabs (p0 i) + Rabs (p1 i) + Rabs (p2 i) + Rabs (p3 i).
Definition quad_jmag (p0 p1 p2 p3 : pt) : R :=
  let e0 i := (Rabs (p1 i - p0 i) + Rabs (p2 i - p3 i)) / 2 in
  let e1 i := (Rabs (p3 i - p0 i) + Rabs (p2 i - p1 i)) / 2 in
  e0 0%nat * e1 1%nat + e0 1%nat * e1 0%nat.

Lemma bil_mag p0 p1 p2 p3 i : pmag (bil p0 p1 p2 p3 i) (fun _ => 1) = quad_radius p0 p1 p2 p3 i.
Proof.
  unfold quad_radius. cbn [bil om op Pm pmag]. rewrite !Rabs_R1, (Rabs_right (/ 4)), (Rabs_left (-1)) by lra. field.
Qed.
Lemma bjac_mag p0 p1 p2 p3 : pmag (bjac p0 p1 p2 p3) (fun _ => 1) = quad_jmag p0 p1 p2 p3.
Proof.
  unfold quad_jmag. cbn [bjac bd0 bd1 om op Pm pmag]. rewrite !Rabs_R1, (Rabs_right (/ 4)), (Rabs_left (-1)) by lra. field.
Qed.

(** the Jacobian is affine and non-negative at the corners *)
Lemma jac_corners p0 p1 p2 p3 xi eta :
  16 * bilin_jac p0 p1 p2 p3 (pt2 xi eta) =
  (1 - xi) * (1 - eta) * cross2 p0 p1 p3 + (1 + xi) * (1 - eta) * cross2 p1 p2 p0 +
  (1 + xi) * (1 + eta) * cross2 p2 p3 p1 + (1 - xi) * (1 + eta) * cross2 p3 p0 p2.
Proof. unfold bilin_jac, bilin_d0, bilin_d1, cross2. cbn [pt2]. field. Qed.
Lemma quad_J_is p0 p1 p2 p3 xi eta : quad_J p0 p1 p2 p3 xi eta = Rabs (bilin_jac p0 p1 p2 p3 (pt2 xi eta)).
Proof. unfold quad_J, bilin_jac, bilin_d0, bilin_d1. cbn [pt2]. f_equal. field. Qed.
Lemma jac_nonneg p0 p1 p2 p3 xi eta : convex_ccw p0 p1 p2 p3 -> -1 <= xi <= 1 -> -1 <= eta <= 1 ->
  0 <= bilin_jac p0 p1 p2 p3 (pt2 xi eta).
Proof.
  intros (C0 & C1 & C2 & C3) Hx He. pose proof (jac_corners p0 p1 p2 p3 xi eta) as E.
  assert (0 <= (1 - xi) * (1 - eta) * cross2 p0 p1 p3) by (apply Rmult_le_pos; [apply Rmult_le_pos|]; lra).
  assert (0 <= (1 + xi) * (1 - eta) * cross2 p1 p2 p0) by (apply Rmult_le_pos; [apply Rmult_le_pos|]; lra).
  assert (0 <= (1 + xi) * (1 + eta) * cross2 p2 p3 p1) by (apply Rmult_le_pos; [apply Rmult_le_pos|]; lra).
  assert (0 <= (1 - xi) * (1 + eta) * cross2 p3 p0 p2) by (apply Rmult_le_pos; [apply Rmult_le_pos|]; lra).
  lra.
Qed.

Lemma square_in t (P : R -> Prop) : Forall (fun p => P (fst p)) (tabR t) ->
  forall z w, In (z, w) (square_points t) -> exists x y, z = pt2 x y /\ P x /\ P y.
Proof.
  intros H z w I. unfold square_points in I. apply in_flat_map in I. destruct I as ((y & v) & Iy & I).
  apply in_map_iff in I. destruct I as ((x & u) & E & Ix). injection E as <- <-. rewrite Forall_forall in H.
  exists (Q2R x), (Q2R y). cbn [fst snd]. split; [reflexivity|].
  split; [apply (H (Q2R x, Q2R u))|apply (H (Q2R y, Q2R v))]; apply in_map_iff.
  - now exists (x, u).
  - now exists (y, v).
Qed.

Lemma bil_pt p0 p1 p2 p3 z i : (i < 2)%nat ->
  pt2 (quad_X 0 p0 p1 p2 p3 (z 0%nat) (z 1%nat)) (quad_X 1 p0 p1 p2 p3 (z 0%nat) (z 1%nat)) i = bilin p0 p1 p2 p3 z i.
Proof. intro H. destruct i as [|[|i]]; [| |lia]; cbn [pt2]; unfold quad_X, bilin; field. Qed.

Lemma peval_agree n p x y : pvars n p -> (forall i, (i < n)%nat -> x i = y i) -> peval p x = peval p y.
Proof. intros V H. induction p; cbn [peval pvars] in *; try (destruct V; f_equal; auto); auto. Qed.

Lemma mapped_eq (r : list (pt * R)) phi psi J J' (f : pt -> R) :
  (forall z w, In (z, w) r -> f (phi z) = f (psi z) /\ J z = J' z) ->
  qsum (map (fun t => (phi (fst t), snd t * J (fst t))) r) f = qsum r (fun x => f (psi x) * J' x).
Proof. intro H. rewrite qsum_mapped. apply qsum_ext_in. intros z w I. destruct (H z w I) as [-> ->]. reflexivity. Qed.

Lemma quad_acc t K eps p0 p1 p2 p3 p I : 0 <= eps <= 1 -> (0 < K)%nat -> acc (tabR t) K eps ->
  Forall (fun q => -1 <= fst q <= 1) (tabR t) -> convex_ccw p0 p1 p2 p3 -> pvars 2 p -> (pdeg p + 1 <= K - 1)%nat ->
  is_int_quad p0 p1 p2 p3 (peval p) I ->
  Rabs (qsum (map (fun qp => let xi := fst qp 0%nat in let eta := fst qp 1%nat in
                          (pt2 (quad_X 0 p0 p1 p2 p3 xi eta) (quad_X 1 p0 p1 p2 p3 xi eta),
                           snd qp * quad_J p0 p1 p2 p3 xi eta)) (square_points t)) (peval p) - I)
    <= 5 * eps * (pmag p (quad_radius p0 p1 p2 p3) * quad_jmag p0 p1 p2 p3).
Proof.
  intros He HK A Ft CC V Dg HI.
  cbv zeta.
  rewrite (mapped_eq _ (fun z => pt2 (quad_X 0 p0 p1 p2 p3 (z 0%nat) (z 1%nat)) (quad_X 1 p0 p1 p2 p3 (z 0%nat) (z 1%nat)))
             (bilin p0 p1 p2 p3) (fun z => quad_J p0 p1 p2 p3 (z 0%nat) (z 1%nat)) (bilin_jac p0 p1 p2 p3)).
  2:{ intros z w Iz. destruct (square_in t (fun u => -1 <= u <= 1) Ft z w Iz) as (x & y & -> & Hx & Hy). split.
      - apply (peval_agree 2); [exact V|]. intros i Hi. now apply bil_pt.
      - cbn [pt2]. rewrite quad_J_is. apply Rabs_right, Rle_ge. now apply jac_nonneg. }
  set (q := PMul (psub (bil p0 p1 p2 p3) p) (bjac p0 p1 p2 p3)).
  assert (EQ : forall z, peval (psub (bil p0 p1 p2 p3) p) z * peval (bjac p0 p1 p2 p3) z = peval p (bilin p0 p1 p2 p3 z) * bilin_jac p0 p1 p2 p3 z).
  { intro z. rewrite bjac_eval, psub_eval. f_equal. apply peval_ext. intro i. apply bil_eval. }
  rewrite <- (qsum_ext _ _ _ EQ).
  replace (pmag p (quad_radius p0 p1 p2 p3) * quad_jmag p0 p1 p2 p3) with (pmag q (fun _ => 1)).
  - apply (accurate_cube_v _ 2 (K - 1) (5 * eps) q I).
    + lra.
    + cbn [pvars q]. split; [apply psub_vars|]; intros; cbn; repeat split; lia.
    + intros i Hi. cbn [pdegv q]. pose proof (psub_degv i (bil p0 p1 p2 p3) p) as B.
      assert (pdegv i (bjac p0 p1 p2 p3) <= 1)%nat by (destruct i as [|[|i]]; cbn; lia).
      assert (forall j, pdegv i (bil p0 p1 p2 p3 j) <= 1)%nat by (intro; destruct i as [|[|i]]; cbn; lia).
      specialize (B H0). lia.
    + intros a L Da. eapply square_acc; eauto.
    + exact (is_int_cube_ext 2 (fun z => peval p (bilin p0 p1 p2 p3 z) * bilin_jac p0 p1 p2 p3 z) _ I (fun z => eq_sym (EQ z)) HI).
  - cbn [pmag q]. rewrite psub_mag, bjac_mag. f_equal. apply pmag_ext. intro i. apply bil_mag.
Qed.

(** parallelograms: the map is affine and the Jacobian constant *)
Definition aff2 (p0 p1 p3 : pt) (i : nat) : pexp :=
  PAdd (PC ((p1 i + p3 i) / 2)) (PAdd (PMul (PC ((p1 i - p0 i) / 2)) (PX 0)) (PMul (PC ((p3 i - p0 i) / 2)) (PX 1))).
Definition pgram_radius (p0 p1 p3 : pt) : pt :=
  fun i => Rabs ((p1 i + p3 i) / 2) + (Rabs ((p1 i - p0 i) / 2) + Rabs ((p3 i - p0 i) / 2)).

Lemma aff2_eval p0 p1 p3 i z : peval (aff2 p0 p1 p3 i) z =
  p0 i + (1 + z 0%nat) / 2 * (p1 i - p0 i) + (1 + z 1%nat) / 2 * (p3 i - p0 i).
Proof. cbn [aff2 peval]. field. Qed.
Lemma aff2_mag p0 p1 p3 i : pmag (aff2 p0 p1 p3 i) (fun _ => 1) = pgram_radius p0 p1 p3 i.
Proof. cbn [aff2 pmag]. unfold pgram_radius. ring. Qed.

Lemma square_affine_acc t K eps k p0 p1 p3 p J : 0 <= eps <= 1 -> 0 <= k -> (0 < K)%nat -> acc (tabR t) K eps ->
  pvars 3 p -> (pdeg p <= K - 1)%nat ->
  is_int_cube 2 (fun z => peval p (fun i => p0 i + (1 + z 0%nat) / 2 * (p1 i - p0 i) + (1 + z 1%nat) / 2 * (p3 i - p0 i))) J ->
  Rabs (qsum (square_points t) (fun z => peval p (fun i => p0 i + (1 + z 0%nat) / 2 * (p1 i - p0 i) + (1 + z 1%nat) / 2 * (p3 i - p0 i)) * k) - k * J)
    <= 5 * eps * k * pmag p (pgram_radius p0 p1 p3).
Proof.
  intros He Hk HK A V Dg HJ.
  set (q := psub (aff2 p0 p1 p3) p).
  assert (EQ : forall z, peval q z = peval p (fun i => p0 i + (1 + z 0%nat) / 2 * (p1 i - p0 i) + (1 + z 1%nat) / 2 * (p3 i - p0 i))).
  { intro z. unfold q. rewrite psub_eval. apply peval_ext. intro i. apply aff2_eval. }
  rewrite (qsum_ext _ _ (fun z => k * peval q z)) by (intro; rewrite EQ; ring). rewrite qsum_scal.
  assert (B : Rabs (qsum (square_points t) (peval q) - J) <= 5 * eps * pmag q (fun _ => 1)).
  { apply (accurate_cube_v _ 2 (K - 1) (5 * eps) q J).
    - lra.
    - apply psub_vars. intro; cbn; repeat split; lia.
    - intros i Hi. pose proof (psub_degv i (aff2 p0 p1 p3) p) as B.
      assert (forall j, pdegv i (aff2 p0 p1 p3 j) <= 1)%nat by (intro; destruct i as [|[|i]]; cbn; lia).
      specialize (B H). fold q in B. lia.
    - intros a L Da. eapply square_acc; eauto.
    - exact (is_int_cube_ext 2 (fun z => _) _ J (fun z => eq_sym (EQ z)) HJ). }
  replace (pmag q (fun _ => 1)) with (pmag p (pgram_radius p0 p1 p3)) in B
    by (unfold q; rewrite psub_mag; apply pmag_ext; intro i; symmetry; apply aff2_mag).
  match goal with |- Rabs (k * ?s - k * J) <= _ => replace (k * s - k * J) with (k * (s - J)) by ring end.
  rewrite Rabs_mult, (Rabs_right k) by lra.
  replace (5 * eps * k * pmag p (pgram_radius p0 p1 p3)) with (k * (5 * eps * pmag p (pgram_radius p0 p1 p3))) by ring.
  apply Rmult_le_compat_l; [lra|exact B].
Qed.

(** boxes *)
Definition aff3 (p0 p1 p3 p4 : pt) (i : nat) : pexp :=
  PAdd (PC ((p1 i + p3 i + p4 i - p0 i) / 2))
    (PAdd (PMul (PC ((p1 i - p0 i) / 2)) (PX 0)) (PAdd (PMul (PC ((p3 i - p0 i) / 2)) (PX 1)) (PMul (PC ((p4 i - p0 i) / 2)) (PX 2)))).
Definition ppiped_radius (p0 p1 p3 p4 : pt) : pt :=
  fun i => Rabs ((p1 i + p3 i + p4 i - p0 i) / 2) + (Rabs ((p1 i - p0 i) / 2) + (Rabs ((p3 i - p0 i) / 2) + Rabs ((p4 i - p0 i) / 2))).
Lemma cube_affine_acc t K eps k p0 p1 p3 p4 p J : 0 <= eps <= 1 / 10 -> 0 <= k -> (0 < K)%nat -> acc (tabR t) K eps ->
  pvars 3 p -> (pdeg p <= K - 1)%nat ->
  let F z := fun i : nat => p0 i + (1 + z 0%nat) / 2 * (p1 i - p0 i) + (1 + z 1%nat) / 2 * (p3 i - p0 i) + (1 + z 2%nat) / 2 * (p4 i - p0 i) in
  is_int_cube 3 (fun z => peval p (F z)) J ->
  Rabs (qsum (cube_points t) (fun z => peval p (F z) * k) - k * J)
    <= 20 * eps * k * pmag p (ppiped_radius p0 p1 p3 p4).
Proof.
  intros He Hk HK A V Dg F HJ.
  set (q := psub (aff3 p0 p1 p3 p4) p).
  assert (EQ : forall z, peval q z = peval p (F z)).
  { intro z. unfold q. rewrite psub_eval. apply peval_ext. intro i. unfold F. cbn [aff3 peval]. field. }
  rewrite (qsum_ext _ _ (fun z => k * peval q z)) by (intro; rewrite EQ; ring). rewrite qsum_scal.
  assert (B : Rabs (qsum (cube_points t) (peval q) - J) <= 20 * eps * pmag q (fun _ => 1)).
  { apply (accurate_cube_v _ 3 (K - 1) (20 * eps) q J).
    - lra.
    - apply psub_vars. intro; cbn; repeat split; lia.
    - intros i Hi. pose proof (psub_degv i (aff3 p0 p1 p3 p4) p) as B.
      assert (forall j, pdegv i (aff3 p0 p1 p3 p4 j) <= 1)%nat by (intro; destruct i as [|[|[|i]]]; cbn; lia).
      specialize (B H). fold q in B. lia.
    - intros a L Da. eapply cube_acc; eauto.
    - exact (is_int_cube_ext 3 (fun z => _) _ J (fun z => eq_sym (EQ z)) HJ). }
  replace (pmag q (fun _ => 1)) with (pmag p (ppiped_radius p0 p1 p3 p4)) in B.
  2:{ unfold q. rewrite psub_mag. apply pmag_ext. intro i. unfold ppiped_radius. cbn [aff3 pmag]. ring. }
  match goal with |- Rabs (k * ?s - k * J) <= _ => replace (k * s - k * J) with (k * (s - J)) by ring end.
  rewrite Rabs_mult, (Rabs_right k) by lra.
  replace (20 * eps * k * pmag p (ppiped_radius p0 p1 p3 p4)) with (k * (20 * eps * pmag p (ppiped_radius p0 p1 p3 p4))) by ring.
  apply Rmult_le_compat_l; [lra|exact B].
Qed.

Lemma map_flat_map {A B C} (h : B -> C) (k : A -> list B) l : map h (flat_map k l) = flat_map (fun x => map h (k x)) l.
Proof. induction l as [|x l IH]; [reflexivity|]. cbn [flat_map]. now rewrite map_app, IH. Qed.
Lemma cube_points_map t f g : 
  flat_map (fun qx => flat_map (fun qy => map (fun qz =>
          let xi := Q2R (fst qx) in let eta := Q2R (fst qy) in let zeta := Q2R (fst qz) in
          (f xi eta zeta : pt, Q2R (snd qx) * Q2R (snd qy) * Q2R (snd qz) * g xi eta zeta : R)) t) t) t =
  map (fun s => (f (fst s 0%nat) (fst s 1%nat) (fst s 2%nat), snd s * g (fst s 0%nat) (fst s 1%nat) (fst s 2%nat))) (cube_points t).
Proof.
  unfold cube_points. cbv zeta. rewrite map_flat_map. apply flat_map_ext. intro x. rewrite map_flat_map.
  apply flat_map_ext. intro y. rewrite map_map. reflexivity.
Qed.

(** ** The closed-form rules of quad_bones.hpp: all moments up to 2 n - 1 *)
Lemma sqrt_sq x : 0 <= x -> sqrt x * sqrt x = x.
Proof. apply sqrt_sqrt. Qed.

Lemma pow_even x k : x ^ (2 * k) = (x * x) ^ k.
Proof. rewrite pow_mult. f_equal. ring. Qed.
Lemma imom_odd k : imom (2 * k + 1) = 0.
Proof.
  unfold imom. replace (S (2 * k + 1)) with (2 * (k + 1))%nat by lia. rewrite !pow_even.
  replace (-1 * -1) with (1 * 1) by ring. unfold Rdiv. ring.
Qed.

Lemma pow_odd x k : x ^ (2 * k + 1) = (x * x) ^ k * x.
Proof. rewrite pow_add, pow_even. ring. Qed.
Definition spair (q w : R) : list (R * R) := [(- q, w); (q, w)].
Lemma spair_even q w k : qsum (spair q w) (fun x => x ^ (2 * k)) = 2 * w * (q * q) ^ k.
Proof. unfold spair. cbn [qsum fst snd]. rewrite !pow_even. replace (- q * - q) with (q * q) by ring. ring. Qed.
Lemma spair_odd q w k : qsum (spair q w) (fun x => x ^ (2 * k + 1)) = 0.
Proof. unfold spair. cbn [qsum fst snd]. rewrite !pow_odd. replace (- q * - q) with (q * q) by ring. ring. Qed.
Lemma imom_even k : imom (2 * k) = 2 / INR (S (2 * k)).
Proof.
  unfold imom. replace (S (2 * k)) with (2 * k + 1)%nat by lia. rewrite !pow_odd. replace (-1 * -1) with 1 by ring.
  replace (1 * 1) with 1 by ring. rewrite pow1. unfold Rdiv. ring.
Qed.
Lemma szero_even w k : qsum [(0, w)] (fun x => x ^ (2 * k)) = w * 0 ^ k.
Proof. cbn [qsum fst snd]. rewrite pow_even. replace (0 * 0) with 0 by ring. ring. Qed.
Lemma szero_odd w k : qsum [(0, w)] (fun x => x ^ (2 * k + 1)) = 0.
Proof. cbn [qsum fst snd]. rewrite pow_odd. ring. Qed.

Lemma sqrt_lt_num x y : 0 <= x -> 0 <= y -> x < y * y -> sqrt x < y.
Proof. intros Hx Hy H. rewrite <- (sqrt_square y Hy). apply sqrt_lt_1; nra. Qed.

Definition bones_exact (r : list (R * R)) (K : nat) := forall k, (k < K)%nat -> qsum r (fun x => x ^ k) = imom k.
Lemma bones_by_parity r n : (forall j, (j < n)%nat -> qsum r (fun x => x ^ (2 * j)) = 2 / INR (S (2 * j))) ->
  (forall j, qsum r (fun x => x ^ (2 * j + 1)) = 0) -> bones_exact r (2 * n).
Proof.
  intros E O k Hk. destruct (Nat.Even_or_Odd k) as [[j Hj]|[j Hj]]; subst k.
  - rewrite imom_even. apply E. lia.
  - rewrite imom_odd. apply O.
Qed.

Lemma bones_rule gw degree : (degree <= 9)%nat -> bones_exact (bones_gauss_legendre gw degree) (2 * (degree / 2 + 1)).
Proof.
  intro Hd.
  assert (S3 : (1 / sqrt 3) * (1 / sqrt 3) = 1 / 3).
  { pose proof (sqrt_sq 3 ltac:(lra)). assert (0 < sqrt 3) by (apply sqrt_lt_R0; lra).
    assert (sqrt 3 <> 0) by lra. transitivity (1 / (sqrt 3 * sqrt 3)); [field; auto|]. now rewrite H. }
  assert (S30 := sqrt_sq 30 ltac:(lra)). assert (S35 := sqrt_sq (3 / 5) ltac:(lra)).
  assert (S70 := sqrt_sq 70 ltac:(lra)). 
  assert (L30 : sqrt 30 < 6) by (apply sqrt_lt_num; lra). assert (P30 := sqrt_pos 30).
  assert (E107 : sqrt (10 / 7) = sqrt 70 / 7).
  { replace (10 / 7) with (70 / (7 * 7)) by lra. rewrite sqrt_div, sqrt_square; lra. }
  assert (L70 : sqrt 70 < 9) by (apply sqrt_lt_num; lra). assert (P70 := sqrt_pos 70).
  assert (Q1 := sqrt_sq ((15 - 2 * sqrt 30) / 35) ltac:(lra)).
  assert (Q2 := sqrt_sq ((15 + 2 * sqrt 30) / 35) ltac:(lra)).
  assert (Q3 := sqrt_sq (5 - 2 * (sqrt 70 / 7)) ltac:(lra)).
  assert (Q4 := sqrt_sq (5 + 2 * (sqrt 70 / 7)) ltac:(lra)).
  assert (C : (degree = 0 \/ degree = 1 \/ degree = 2 \/ degree = 3 \/ degree = 4 \/ degree = 5 \/ degree = 6 \/ degree = 7 \/ degree = 8 \/ degree = 9)%nat) by lia.
  assert (R1 : bones_exact [(0, 2)] 2).
  { apply (bones_by_parity _ 1); [|intro; apply szero_odd]. intros j Hj. rewrite szero_even. replace j with O by lia. cbn [pow INR Nat.mul Nat.add]. field. }
  assert (R2 : bones_exact (spair (1 / sqrt 3) 1) 4).
  { apply (bones_by_parity _ 2); [|intro; apply spair_odd]. intros j Hj. rewrite spair_even, S3.
    destruct j as [|[|j]]; [| |lia]; cbn [pow INR Nat.mul Nat.add]; field. }
  assert (R3 : bones_exact (spair (sqrt (3 / 5)) (5 / 9) ++ [(0, 8 / 9)]) 6).
  { apply (bones_by_parity _ 3); [|intro; rewrite qsum_app, spair_odd, szero_odd; ring]. intros j Hj. rewrite qsum_app, spair_even, szero_even, S35.
    destruct j as [|[|[|j]]]; [| | |lia]; cbn [pow INR Nat.mul Nat.add]; field. }
  assert (R4 : bones_exact (spair (sqrt ((15 - 2 * sqrt 30) / 35)) ((18 + sqrt 30) / 36) ++ spair (sqrt ((15 + 2 * sqrt 30) / 35)) ((18 - sqrt 30) / 36)) 8).
  { apply (bones_by_parity _ 4); [|intro; rewrite qsum_app, !spair_odd; ring]. intros j Hj. rewrite qsum_app, !spair_even, Q1, Q2.
    destruct j as [|[|[|[|j]]]]; [| | | |lia]; cbn [pow INR Nat.mul Nat.add]; field [S30]. }
  assert (R5 : bones_exact ([(0, 128 / 225)] ++ spair (sqrt (5 - 2 * (sqrt 70 / 7)) / 3) ((322 + 13 * sqrt 70) / 900) ++
                            spair (sqrt (5 + 2 * (sqrt 70 / 7)) / 3) ((322 - 13 * sqrt 70) / 900)) 10).
  { apply (bones_by_parity _ 5); [|intro; rewrite !qsum_app, !spair_odd, szero_odd; ring]. intros j Hj. rewrite !qsum_app, !spair_even, szero_even.
    replace (sqrt (5 - 2 * (sqrt 70 / 7)) / 3 * (sqrt (5 - 2 * (sqrt 70 / 7)) / 3)) with ((5 - 2 * (sqrt 70 / 7)) / 9)
      by (rewrite <- Q3 at 1; field).
    replace (sqrt (5 + 2 * (sqrt 70 / 7)) / 3 * (sqrt (5 + 2 * (sqrt 70 / 7)) / 3)) with ((5 + 2 * (sqrt 70 / 7)) / 9)
      by (rewrite <- Q4 at 1; field).
    destruct j as [|[|[|[|[|j]]]]]; [| | | | |lia]; cbn [pow INR Nat.mul Nat.add]; field [S70]. }
  unfold bones_gauss_legendre. rewrite E107.
  repeat (destruct C as [->|C]; [|]); [..|subst degree]; cbn [Nat.eqb Nat.modulo Nat.divmod Nat.div Nat.add Nat.mul fst snd Nat.sub];
    first [exact R1|exact R2|exact R3|exact R4|exact R5].
Qed.
