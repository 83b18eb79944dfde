(** Lemmas on polynomial expressions, monomials and their integrals. *)
From Coq Require Import List Reals Lra Lia Arith.
From Verif Require Import Poly_Spec.
Import ListNotations.
Open Scope R_scope.

(** ** antiderivatives *)

Lemma dl_ext f g x l : (forall y, f y = g y) -> derivable_pt_lim f x l -> derivable_pt_lim g x l.
Proof.
  intros E D eps He. destruct (D eps He) as [d Hd]. exists d. intros h Hh Hd'.
  rewrite <- !E. now apply Hd.
Qed.

Lemma same_deriv F G (f : R -> R) : (forall x, derivable_pt_lim F x (f x)) -> (forall x, derivable_pt_lim G x (f x)) ->
  forall a b, F b - F a = G b - G a.
Proof.
  intros HF HG a b.
  assert (D : forall x, derivable_pt_lim (F - G)%F x 0).
  { intro x. replace 0 with (f x - f x) by ring. now apply derivable_pt_lim_minus. }
  assert (pr : derivable (F - G)%F) by (intro x; exists 0; apply D).
  pose proof (null_derivative_1 (F - G)%F pr (fun x => derive_pt_eq_0 _ _ _ (pr x) (D x))) as C.
  specialize (C a b). unfold minus_fct in C. lra.
Qed.

Lemma is_int1_unique f a b I J : is_int1 f a b I -> is_int1 f a b J -> I = J.
Proof. intros (F & HF & ->) (G & HG & ->). now apply same_deriv with (f := f). Qed.

Lemma is_int1_ext f g a b I : (forall x, f x = g x) -> is_int1 f a b I -> is_int1 g a b I.
Proof. intros E (F & HF & ->). exists F. split; [|reflexivity]. intro x. rewrite <- E. apply HF. Qed.

Lemma is_int1_zero a b : is_int1 (fun _ => 0) a b 0.
Proof. exists (fun _ => 0). split; [intro; apply derivable_pt_lim_const|ring]. Qed.

Lemma is_int1_plus f g a b I J : is_int1 f a b I -> is_int1 g a b J -> is_int1 (fun x => f x + g x) a b (I + J).
Proof.
  intros (F & HF & ->) (G & HG & ->). exists (fun x => F x + G x). split; [|ring].
  intro x. apply (dl_ext (F + G)%F); [reflexivity|]. now apply derivable_pt_lim_plus.
Qed.

Lemma is_int1_scal k f a b I : is_int1 f a b I -> is_int1 (fun x => k * f x) a b (k * I).
Proof.
  intros (F & HF & ->). exists (fun x => k * F x). split; [|ring].
  intro x. apply (dl_ext (mult_real_fct k F)); [reflexivity|]. now apply derivable_pt_lim_scal.
Qed.

Lemma dl_pow n x : derivable_pt_lim (fun y => y ^ S n) x (INR (S n) * x ^ n).
Proof. apply (dl_ext (fun y => y ^ S n)); [reflexivity|]. apply (derivable_pt_lim_pow x (S n)). Qed.

Lemma is_int1_pow n a b : is_int1 (fun x => x ^ n) a b ((b ^ S n - a ^ S n) / INR (S n)).
Proof.
  exists (fun x => / INR (S n) * x ^ S n). split.
  - intro x. replace (x ^ n) with (/ INR (S n) * (INR (S n) * x ^ n)).
    + apply (dl_ext (mult_real_fct (/ INR (S n)) (fun y => y ^ S n))); [reflexivity|].
      apply derivable_pt_lim_scal, dl_pow.
    + field. apply not_0_INR. lia.
  - field. apply not_0_INR. lia.
Qed.

(** affine change of variable *)
Lemma is_int1_affine f a b I : is_int1 f a b I ->
  is_int1 (fun t => (b - a) / 2 * f ((a + b) / 2 + (b - a) / 2 * t)) (-1) 1 I.
Proof.
  intros (F & HF & ->). exists (fun t => F ((a + b) / 2 + (b - a) / 2 * t)). split.
  - intro t. set (m := (a + b) / 2). set (h := (b - a) / 2).
    apply (dl_ext (comp F (fun t => m + h * t))); [reflexivity|].
    rewrite Rmult_comm. apply derivable_pt_lim_comp; [|apply HF].
    assert (Da : derivable_pt_lim (fun t => m + h * t) t (0 + h * 1)).
    { apply (dl_ext ((fun _ => m) + mult_real_fct h id)%F); [reflexivity|].
      apply derivable_pt_lim_plus; [apply derivable_pt_lim_const|].
      apply derivable_pt_lim_scal, derivable_pt_lim_id. }
    now rewrite Rplus_0_l, Rmult_1_r in Da.
  - f_equal; f_equal; field.
Qed.

(** Beta integral *)
Lemma fact_neq n : INR (fact n) <> 0.
Proof. apply not_0_INR. pose proof (lt_O_fact n). lia. Qed.

Lemma is_int1_beta m : forall e c,
  is_int1 (fun s => s ^ e * (c - s) ^ m) 0 c (INR (fact e) * INR (fact m) / INR (fact (e + m + 1)) * c ^ (e + m + 1)).
Proof.
  induction m as [|m IH]; intros e c.
  - apply (is_int1_ext (fun s => s ^ e)); [intro; ring|].
    replace (INR (fact e) * _ / _ * _) with ((c ^ S e - 0 ^ S e) / INR (S e)); [apply is_int1_pow|].
    replace (e + 0 + 1)%nat with (S e) by lia. rewrite fact_simpl, mult_INR.
    change (INR (fact 0)) with 1. rewrite pow_i by lia. field.
    split; [apply fact_neq|apply not_0_INR; lia].
  - destruct (IH (S e) c) as (F & HF & EF).
    exists (fun s => / INR (S e) * (s ^ S e * (c - s) ^ S m) + INR (S m) / INR (S e) * F s). split.
    + intro s.
      assert (Dc : derivable_pt_lim (fun s => (c - s) ^ S m) s (- (INR (S m) * (c - s) ^ m))).
      { apply (dl_ext (comp (fun y => y ^ S m) (fun s => c - s))); [reflexivity|].
        replace (- (INR (S m) * (c - s) ^ m)) with ((INR (S m) * (c - s) ^ m) * (0 - 1)) by ring.
        apply derivable_pt_lim_comp; [|apply dl_pow].
        apply (dl_ext ((fun _ => c) - id)%F); [reflexivity|].
        apply derivable_pt_lim_minus; [apply derivable_pt_lim_const|apply derivable_pt_lim_id]. }
      replace (s ^ e * (c - s) ^ S m) with
        (/ INR (S e) * (INR (S e) * s ^ e * (c - s) ^ S m + s ^ S e * (- (INR (S m) * (c - s) ^ m)))
         + INR (S m) / INR (S e) * (s ^ S e * (c - s) ^ m)).
      * apply (dl_ext (mult_real_fct (/ INR (S e)) ((fun s => s ^ S e) * (fun s => (c - s) ^ S m))%F
                       + mult_real_fct (INR (S m) / INR (S e)) F)%F); [reflexivity|].
        apply derivable_pt_lim_plus; apply derivable_pt_lim_scal; [|apply HF].
        apply (derivable_pt_lim_mult (fun s => s ^ S e) (fun s => (c - s) ^ S m)); [apply dl_pow|exact Dc].
      * cbn [pow]. field. apply not_0_INR. lia.
    + replace (INR (fact e) * INR (fact (S m)) / INR (fact (e + S m + 1)) * c ^ (e + S m + 1)) with
        (INR (S m) / INR (S e) * (F c - F 0)).
      * cbn [pow]. field. apply not_0_INR. lia.
      * rewrite <- EF. replace (S e + m + 1)%nat with (e + S m + 1)%nat by lia.
        rewrite !fact_simpl, !mult_INR. field. rewrite <- ?mult_INR, <- ?fact_simpl.
        repeat split; try apply fact_neq; apply not_0_INR; lia.
Qed.

(** ** monomials *)
Fixpoint mono (a : list nat) (x : pt) : R :=
  match a with
  | [] => 1
  | e :: t => x O ^ e * mono t (fun k => x (S k))
  end.

Fixpoint lsum (l : list nat) : nat := match l with [] => O | a :: t => (a + lsum t)%nat end.

Definition mlist := list (R * list nat).
Fixpoint meval (m : mlist) (x : pt) : R :=
  match m with
  | [] => 0
  | (c, a) :: t => c * mono a x + meval t x
  end.
Fixpoint mnorm (m : mlist) (r : pt) : R :=
  match m with
  | [] => 0
  | (c, a) :: t => Rabs c * mono a r + mnorm t r
  end.

Definition addexp (a b : list nat) : list nat := map (fun p => (fst p + snd p)%nat) (combine a b).
Fixpoint unit_exp (n i : nat) : list nat :=
  match n with
  | O => []
  | S m => match i with O => 1%nat :: repeat O m | S j => O :: unit_exp m j end
  end.
Definition mscale (c : R) (a : list nat) (m : mlist) : mlist := map (fun t => (c * fst t, addexp a (snd t))) m.
Fixpoint mmul (p q : mlist) : mlist :=
  match p with [] => [] | (c, a) :: t => mscale c a q ++ mmul t q end.
Fixpoint monos (n : nat) (p : pexp) : mlist :=
  match p with
  | PC c => [(c, repeat O n)]
  | PX i => [(1, unit_exp n i)]
  | PAdd p q => monos n p ++ monos n q
  | PMul p q => mmul (monos n p) (monos n q)
  end.

Lemma mono_ext a : forall x y, (forall k, x k = y k) -> mono a x = mono a y.
Proof. induction a as [|e t IH]; intros x y E; cbn [mono]; [reflexivity|]. rewrite E. f_equal. apply IH. intro; apply E. Qed.
Lemma meval_ext m x y : (forall k, x k = y k) -> meval m x = meval m y.
Proof. intro E. induction m as [|[c a] t IH]; cbn [meval]; [reflexivity|]. now rewrite (mono_ext a x y E), IH. Qed.
Lemma meval_app p q x : meval (p ++ q) x = meval p x + meval q x.
Proof. induction p as [|[c a] t IH]; cbn [meval app]; [ring|]. rewrite IH. ring. Qed.
Lemma mnorm_app p q x : mnorm (p ++ q) x = mnorm p x + mnorm q x.
Proof. induction p as [|[c a] t IH]; cbn [mnorm app]; [ring|]. rewrite IH. ring. Qed.
Lemma mono_add a : forall b x, length a = length b -> mono (addexp a b) x = mono a x * mono b x.
Proof.
  induction a as [|e t IH]; intros [|f u] x L; try discriminate; cbn [mono addexp combine map fst snd]; [ring|].
  fold (addexp t u). rewrite IH by (simpl in L; lia). rewrite pow_add. ring.
Qed.
Lemma mono_zero n : forall x, mono (repeat O n) x = 1.
Proof. induction n as [|n IH]; intro x; cbn [repeat mono]; [reflexivity|]. rewrite IH. ring. Qed.
Lemma mono_unit n : forall i x, (i < n)%nat -> mono (unit_exp n i) x = x i.
Proof.
  induction n as [|n IH]; intros [|i] x H; try lia; cbn [unit_exp mono].
  - rewrite mono_zero. ring.
  - rewrite IH by lia. ring.
Qed.
Lemma unit_len n : forall i, length (unit_exp n i) = n.
Proof. induction n as [|n IH]; intros [|i]; cbn [unit_exp length]; try reflexivity; [now rewrite repeat_length|now rewrite IH]. Qed.
Lemma unit_sum n : forall i, (lsum (unit_exp n i) <= 1)%nat.
Proof.
  induction n as [|n IH]; intros [|i]; cbn [unit_exp lsum]; try lia.
  - assert (lsum (repeat O n) = O) by (clear; induction n; cbn; lia). lia.
  - apply IH.
Qed.
Lemma add_len a : forall b, length a = length b -> length (addexp a b) = length b.
Proof. intros b L. unfold addexp. rewrite map_length, combine_length. lia. Qed.
Lemma add_sum a : forall b, length a = length b -> lsum (addexp a b) = (lsum a + lsum b)%nat.
Proof.
  induction a as [|e t IH]; intros [|f u] L; try discriminate; [reflexivity|].
  cbn [addexp combine map fst snd lsum]. fold (addexp t u). rewrite IH by (simpl in L; lia). lia.
Qed.

Definition mok (n d : nat) (m : mlist) := Forall (fun t => length (snd t) = n /\ (lsum (snd t) <= d)%nat) m.

Lemma mok_mono n d d' m : (d <= d')%nat -> mok n d m -> mok n d' m.
Proof. intros L. apply Forall_impl. intros [c a] [H1 H2]. split; [exact H1|lia]. Qed.
Lemma mok_mscale n d e c a m : length a = n -> (lsum a <= e)%nat -> mok n d m -> mok n (e + d) (mscale c a m).
Proof.
  intros La Sa H. induction H as [|[k b] t [H1 H2] _ IH]; [constructor|].
  cbn [mscale map fst snd]. constructor; [|exact IH]. cbn [snd fst] in *.
  rewrite add_len, add_sum by congruence. lia.
Qed.
Lemma mok_mmul n d e p q : mok n d p -> mok n e q -> mok n (d + e) (mmul p q).
Proof.
  intros H K. induction H as [|[c a] t [H1 H2] _ IH]; [constructor|].
  cbn [mmul]. apply Forall_app. split; [|exact IH]. now apply mok_mscale.
Qed.
Lemma monos_ok n p : mok n (pdeg p) (monos n p).
Proof.
  induction p as [c|i|p IHp q IHq|p IHp q IHq]; cbn [monos pdeg].
  - constructor; [|constructor]. cbn [snd]. rewrite repeat_length. split; [reflexivity|].
    clear. induction n; cbn; lia.
  - constructor; [|constructor]. cbn [snd]. split; [apply unit_len|apply unit_sum].
  - apply Forall_app. split; eapply mok_mono; try eassumption; lia.
  - now apply mok_mmul.
Qed.

Lemma meval_mscale n d c a m x : length a = n -> mok n d m -> meval (mscale c a m) x = c * mono a x * meval m x.
Proof.
  intros La H. induction H as [|[k b] t [H1 H2] _ IH]; cbn [mscale map meval fst snd] in *; [ring|].
  fold (mscale c a t). rewrite IH, mono_add by congruence. ring.
Qed.
Lemma meval_mmul n d e p q x : mok n d p -> mok n e q -> meval (mmul p q) x = meval p x * meval q x.
Proof.
  intros H K. induction H as [|[c a] t [H1 H2] _ IH]; cbn [mmul meval]; [ring|].
  rewrite meval_app, IH, (meval_mscale n e) by assumption. ring.
Qed.
Lemma mnorm_mscale n d c a m x : length a = n -> mok n d m -> mnorm (mscale c a m) x = Rabs c * mono a x * mnorm m x.
Proof.
  intros La H. induction H as [|[k b] t [H1 H2] _ IH]; cbn [mscale map mnorm fst snd] in *; [ring|].
  fold (mscale c a t). rewrite IH, mono_add, Rabs_mult by congruence. ring.
Qed.
Lemma mnorm_mmul n d e p q x : mok n d p -> mok n e q -> mnorm (mmul p q) x = mnorm p x * mnorm q x.
Proof.
  intros H K. induction H as [|[c a] t [H1 H2] _ IH]; cbn [mmul mnorm]; [ring|].
  rewrite mnorm_app, IH, (mnorm_mscale n e) by assumption. ring.
Qed.

Lemma monos_eval n p x : pvars n p -> meval (monos n p) x = peval p x.
Proof.
  induction p as [c|i|p IHp q IHq|p IHp q IHq]; cbn [monos pvars meval peval]; intro V.
  - rewrite mono_zero. ring.
  - rewrite mono_unit by exact V. ring.
  - destruct V. now rewrite meval_app, IHp, IHq.
  - destruct V. rewrite (meval_mmul n (pdeg p) (pdeg q)) by apply monos_ok. now rewrite IHp, IHq.
Qed.
Lemma monos_norm n p r : pvars n p -> mnorm (monos n p) r = pmag p r.
Proof.
  induction p as [c|i|p IHp q IHq|p IHp q IHq]; cbn [monos pvars mnorm pmag]; intro V.
  - rewrite mono_zero. ring.
  - rewrite mono_unit by exact V. rewrite Rabs_R1. ring.
  - destruct V. now rewrite mnorm_app, IHp, IHq.
  - destruct V. rewrite (mnorm_mmul n (pdeg p) (pdeg q)) by apply monos_ok. now rewrite IHp, IHq.
Qed.

(** ** substitution *)
Fixpoint psub (s : nat -> pexp) (p : pexp) : pexp :=
  match p with
  | PC c => PC c
  | PX i => s i
  | PAdd p q => PAdd (psub s p) (psub s q)
  | PMul p q => PMul (psub s p) (psub s q)
  end.
Lemma psub_eval s p x : peval (psub s p) x = peval p (fun i => peval (s i) x).
Proof. induction p; cbn [psub peval]; congruence. Qed.
Lemma psub_mag s p r : pmag (psub s p) r = pmag p (fun i => pmag (s i) r).
Proof. induction p; cbn [psub pmag]; congruence. Qed.
Lemma psub_deg s p : (forall i, pdeg (s i) <= 1)%nat -> (pdeg (psub s p) <= pdeg p)%nat.
Proof. intro H. induction p; cbn [psub pdeg]; try lia. apply H. Qed.
Lemma psub_vars n s p : (forall i, pvars n (s i)) -> pvars n (psub s p).
Proof. intro H. induction p; cbn [psub pvars]; auto. Qed.

Lemma peval_ext p x y : (forall k, x k = y k) -> peval p x = peval p y.
Proof. intro E. induction p; cbn [peval]; try congruence; auto. Qed.
Lemma pmag_ext p x y : (forall k, x k = y k) -> pmag p x = pmag p y.
Proof. intro E. induction p; cbn [pmag]; try congruence; auto. Qed.
Lemma pmag_nonneg p r : (forall k, 0 <= r k) -> 0 <= pmag p r.
Proof.
  intro E. induction p; cbn [pmag]; auto using Rabs_pos.
  - now apply Rplus_le_le_0_compat.
  - now apply Rmult_le_pos.
Qed.
Lemma pmag_mono p r s : (forall k, 0 <= r k <= s k) -> pmag p r <= pmag p s.
Proof.
  intro E. assert (N : forall q, 0 <= pmag q r) by (intro; apply pmag_nonneg; intro; apply E).
  induction p; cbn [pmag]; [lra|apply E|lra|]. apply Rmult_le_compat; auto.
Qed.

(** ** integral over the simplex *)
Lemma is_int_simplex_ext n : forall c f g I, (forall x, f x = g x) -> is_int_simplex n c f I -> is_int_simplex n c g I.
Proof.
  induction n as [|n IH]; intros c f g I E; cbn [is_int_simplex]; [now rewrite E|].
  intros (G & HG & HI). exists G. split; [|exact HI]. intro s. eapply IH; [|apply HG]. intro; apply E.
Qed.
Lemma is_int_simplex_unique n : forall c f I J, is_int_simplex n c f I -> is_int_simplex n c f J -> I = J.
Proof.
  induction n as [|n IH]; intros c f I J; cbn [is_int_simplex]; [congruence|].
  intros (G & HG & HI) (H & HH & HJ). apply (is_int1_unique H 0 c); [|exact HJ].
  eapply is_int1_ext; [|exact HI]. intro s. eapply IH; [apply HG|apply HH].
Qed.
Lemma is_int_simplex_zero n : forall c, is_int_simplex n c (fun _ => 0) 0.
Proof.
  induction n as [|n IH]; intro c; cbn [is_int_simplex]; [reflexivity|].
  exists (fun _ => 0). split; [intro; apply IH|apply is_int1_zero].
Qed.
Lemma is_int_simplex_plus n : forall c f g I J, is_int_simplex n c f I -> is_int_simplex n c g J ->
  is_int_simplex n c (fun x => f x + g x) (I + J).
Proof.
  induction n as [|n IH]; intros c f g I J; cbn [is_int_simplex]; [intros -> ->; reflexivity|].
  intros (G & HG & HI) (H & HH & HJ). exists (fun s => G s + H s). split; [|now apply is_int1_plus].
  intro s. exact (IH _ (fun x => f (scons s x)) (fun x => g (scons s x)) _ _ (HG s) (HH s)).
Qed.
Lemma is_int_simplex_scal n : forall c k f I, is_int_simplex n c f I ->
  is_int_simplex n c (fun x => k * f x) (k * I).
Proof.
  induction n as [|n IH]; intros c k f I; cbn [is_int_simplex]; [intros ->; reflexivity|].
  intros (G & HG & HI). exists (fun s => k * G s). split; [|now apply is_int1_scal].
  intro s. exact (IH _ k (fun x => f (scons s x)) _ (HG s)).
Qed.

Fixpoint pfact (a : list nat) : R := match a with [] => 1 | e :: t => INR (fact e) * pfact t end.
(** Dirichlet's formula *)
Definition smoment (n : nat) (a : list nat) (c : R) : R := pfact a / INR (fact (lsum a + n)) * c ^ (lsum a + n).

Lemma is_int_simplex_mono a : forall c, is_int_simplex (length a) c (mono a) (smoment (length a) a c).
Proof.
  induction a as [|e t IH]; intro c; unfold smoment; cbn [length is_int_simplex mono lsum pfact].
  - cbn. field.
  - exists (fun s => s ^ e * smoment (length t) t (c - s)). split.
    + intro s. apply (is_int_simplex_ext _ _ (fun x => s ^ e * mono t x)).
      * intro x. cbn [scons]. f_equal; apply mono_ext; reflexivity.
      * apply is_int_simplex_scal, IH.
    + set (m := (lsum t + length t)%nat).
      apply (is_int1_ext (fun s => pfact t / INR (fact m) * (s ^ e * (c - s) ^ m))).
      * intro s. unfold smoment. fold m. ring.
      * replace (INR (fact e) * pfact t / INR (fact (e + lsum t + S (length t))) * c ^ (e + lsum t + S (length t)))
          with (pfact t / INR (fact m) * (INR (fact e) * INR (fact m) / INR (fact (e + m + 1)) * c ^ (e + m + 1))).
        -- apply is_int1_scal, is_int1_beta.
        -- replace (e + lsum t + S (length t))%nat with (e + m + 1)%nat by (unfold m; lia).
           field. split; apply fact_neq.
Qed.

Lemma is_int_simplex_meval n d c m : mok n d m ->
  is_int_simplex n c (meval m) (fold_right (fun t r => fst t * smoment n (snd t) c + r) 0 m).
Proof.
  intro H. induction H as [|[k a] t [H1 H2] _ IH]; cbn [fold_right fst snd].
  - apply (is_int_simplex_ext _ _ (fun _ => 0)); [reflexivity|apply is_int_simplex_zero].
  - apply (is_int_simplex_ext _ _ (fun x => k * mono a x + meval t x)); [reflexivity|].
    apply is_int_simplex_plus; [|exact IH]. cbn [snd] in H1. subst n.
    apply is_int_simplex_scal, is_int_simplex_mono.
Qed.

(** ** integral over the cube *)
Lemma is_int_cube_ext n : forall f g I, (forall x, f x = g x) -> is_int_cube n f I -> is_int_cube n g I.
Proof.
  induction n as [|n IH]; intros f g I E; cbn [is_int_cube]; [now rewrite E|].
  intros (G & HG & HI). exists G. split; [|exact HI]. intro s. eapply IH; [|apply HG]. intro; apply E.
Qed.
Lemma is_int_cube_unique n : forall f I J, is_int_cube n f I -> is_int_cube n f J -> I = J.
Proof.
  induction n as [|n IH]; intros f I J; cbn [is_int_cube]; [congruence|].
  intros (G & HG & HI) (H & HH & HJ). apply (is_int1_unique H (-1) 1); [|exact HJ].
  eapply is_int1_ext; [|exact HI]. intro s. eapply IH; [apply HG|apply HH].
Qed.
Lemma is_int_cube_zero n : is_int_cube n (fun _ => 0) 0.
Proof.
  induction n as [|n IH]; cbn [is_int_cube]; [reflexivity|].
  exists (fun _ => 0). split; [intro; apply IH|apply is_int1_zero].
Qed.
Lemma is_int_cube_plus n : forall f g I J, is_int_cube n f I -> is_int_cube n g J ->
  is_int_cube n (fun x => f x + g x) (I + J).
Proof.
  induction n as [|n IH]; intros f g I J; cbn [is_int_cube]; [intros -> ->; reflexivity|].
  intros (G & HG & HI) (H & HH & HJ). exists (fun s => G s + H s). split; [|now apply is_int1_plus].
  intro s. exact (IH (fun x => f (scons s x)) (fun x => g (scons s x)) _ _ (HG s) (HH s)).
Qed.
Lemma is_int_cube_scal n : forall k f I, is_int_cube n f I -> is_int_cube n (fun x => k * f x) (k * I).
Proof.
  induction n as [|n IH]; intros k f I; cbn [is_int_cube]; [intros ->; reflexivity|].
  intros (G & HG & HI). exists (fun s => k * G s). split; [|now apply is_int1_scal].
  intro s. exact (IH k (fun x => f (scons s x)) _ (HG s)).
Qed.

(** integral of x^k over [-1,1] *)
Definition imom (k : nat) : R := (1 ^ S k - (-1) ^ S k) / INR (S k).
Fixpoint cmoment (a : list nat) : R := match a with [] => 1 | e :: t => imom e * cmoment t end.

Lemma is_int_cube_mono a : is_int_cube (length a) (mono a) (cmoment a).
Proof.
  induction a as [|e t IH]; cbn [length is_int_cube mono cmoment]; [reflexivity|].
  exists (fun s => s ^ e * cmoment t). split.
  - intro s. apply (is_int_cube_ext _ (fun x => s ^ e * mono t x)).
    + intro x. cbn [scons]. f_equal; apply mono_ext; reflexivity.
    + apply is_int_cube_scal, IH.
  - apply (is_int1_ext (fun s => cmoment t * s ^ e)); [intro; ring|].
    rewrite Rmult_comm. apply is_int1_scal, is_int1_pow.
Qed.
Lemma is_int_cube_meval n d m : mok n d m ->
  is_int_cube n (meval m) (fold_right (fun t r => fst t * cmoment (snd t) + r) 0 m).
Proof.
  intro H. induction H as [|[k a] t [H1 H2] _ IH]; cbn [fold_right fst snd].
  - apply (is_int_cube_ext _ (fun _ => 0)); [reflexivity|apply is_int_cube_zero].
  - apply (is_int_cube_ext _ (fun x => k * mono a x + meval t x)); [reflexivity|].
    apply is_int_cube_plus; [|exact IH]. cbn [snd] in H1. subst n.
    apply is_int_cube_scal, is_int_cube_mono.
Qed.

(** ** quadrature sums *)
Lemma qsum_ext {P} (r : list (P * R)) f g : (forall x, f x = g x) -> qsum r f = qsum r g.
Proof. intro E. induction r as [|[x w] t IH]; cbn [qsum]; [reflexivity|]. now rewrite E, IH. Qed.
Lemma qsum_ext_in {P} (r : list (P * R)) f g : (forall x w, In (x, w) r -> f x = g x) -> qsum r f = qsum r g.
Proof.
  induction r as [|[x w] t IH]; cbn [qsum]; intro E; [reflexivity|].
  rewrite (E x w) by (left; reflexivity). rewrite IH; [reflexivity|]. intros y v H. apply (E y v). now right.
Qed.
Lemma qsum_plus {P} (r : list (P * R)) f g : qsum r (fun x => f x + g x) = qsum r f + qsum r g.
Proof. induction r as [|[x w] t IH]; cbn [qsum]; [ring|]. rewrite IH. ring. Qed.
Lemma qsum_scal {P} (r : list (P * R)) k f : qsum r (fun x => k * f x) = k * qsum r f.
Proof. induction r as [|[x w] t IH]; cbn [qsum]; [ring|]. rewrite IH. ring. Qed.
Lemma qsum_zero {P} (r : list (P * R)) : qsum r (fun _ => 0) = 0.
Proof. induction r as [|[x w] t IH]; cbn [qsum]; [ring|]. rewrite IH. ring. Qed.
Lemma qsum_app {P} (r s : list (P * R)) f : qsum (r ++ s) f = qsum r f + qsum s f.
Proof. induction r as [|[x w] t IH]; cbn [qsum app]; [ring|]. rewrite IH. ring. Qed.
(** mapping points and scaling weights *)
Lemma qsum_map {P S} (phi : P -> S) k (r : list (P * R)) f :
  qsum (map (fun t => (phi (fst t), k * snd t)) r) f = k * qsum r (fun x => f (phi x)).
Proof. induction r as [|[x w] t IH]; cbn [qsum map fst snd]; [ring|]. rewrite IH. ring. Qed.

Lemma qsum_meval (r : list (pt * R)) m :
  qsum r (meval m) = fold_right (fun t s => fst t * qsum r (mono (snd t)) + s) 0 m.
Proof.
  induction m as [|[c a] t IH]; cbn [fold_right fst snd].
  - rewrite (qsum_ext r _ (fun _ => 0)) by reflexivity. apply qsum_zero.
  - rewrite (qsum_ext r _ (fun x => c * mono a x + meval t x)) by reflexivity.
    now rewrite qsum_plus, qsum_scal, IH.
Qed.

Lemma mono_one a : mono a (fun _ => 1) = 1.
Proof. induction a as [|e t IH]; cbn [mono]; [reflexivity|]. rewrite IH, pow1. ring. Qed.

(** A rule that is accurate on monomials is accurate on polynomials. *)
Lemma accurate_on_monos (r : list (pt * R)) n d eps M m : mok n d m -> 0 <= eps ->
  (forall a, length a = n -> (lsum a <= d)%nat -> Rabs (qsum r (mono a) - M a) <= eps) ->
  Rabs (qsum r (meval m) - fold_right (fun t s => fst t * M (snd t) + s) 0 m) <= eps * mnorm m (fun _ => 1).
Proof.
  intros H He A. rewrite qsum_meval.
  induction H as [|[c a] t [H1 H2] _ IH]; cbn [fold_right fst snd mnorm] in *.
  - rewrite Rminus_diag_eq, Rabs_R0 by reflexivity. lra.
  - match goal with |- Rabs (c * ?q + ?u - (c * ?m + ?v)) <= _ =>
      replace (c * q + u - (c * m + v)) with (c * (q - m) + (u - v)) by ring end.
    eapply Rle_trans; [apply Rabs_triang|]. rewrite Rabs_mult, mono_one, Rmult_1_r, Rmult_plus_distr_l.
    apply Rplus_le_compat; [|exact IH]. rewrite (Rmult_comm eps). apply Rmult_le_compat_l; [apply Rabs_pos|].
    now apply A.
Qed.

Lemma accurate_simplex (r : list (pt * R)) n d eps p I : 0 <= eps -> pvars n p -> (pdeg p <= d)%nat ->
  (forall a, length a = n -> (lsum a <= d)%nat -> Rabs (qsum r (mono a) - smoment n a 1) <= eps) ->
  is_int_simplex n 1 (peval p) I -> Rabs (qsum r (peval p) - I) <= eps * pmag p (fun _ => 1).
Proof.
  intros He V D A HI. pose proof (mok_mono _ _ _ _ D (monos_ok n p)) as K.
  assert (E : forall x, meval (monos n p) x = peval p x) by (intro; now apply monos_eval).
  rewrite <- (monos_norm n) by exact V. rewrite <- (qsum_ext r _ _ E).
  replace I with (fold_right (fun t s => fst t * smoment n (snd t) 1 + s) 0 (monos n p)).
  - eapply (accurate_on_monos r n d eps (fun a => smoment n a 1)); eauto.
  - apply (is_int_simplex_unique n 1 (peval p)); [|exact HI].
    eapply is_int_simplex_ext; [exact E|]. eapply is_int_simplex_meval; eauto.
Qed.

Lemma accurate_cube (r : list (pt * R)) n d eps p I : 0 <= eps -> pvars n p -> (pdeg p <= d)%nat ->
  (forall a, length a = n -> (lsum a <= d)%nat -> Rabs (qsum r (mono a) - cmoment a) <= eps) ->
  is_int_cube n (peval p) I -> Rabs (qsum r (peval p) - I) <= eps * pmag p (fun _ => 1).
Proof.
  intros He V D A HI. pose proof (mok_mono _ _ _ _ D (monos_ok n p)) as K.
  assert (E : forall x, meval (monos n p) x = peval p x) by (intro; now apply monos_eval).
  rewrite <- (monos_norm n) by exact V. rewrite <- (qsum_ext r _ _ E).
  replace I with (fold_right (fun t s => fst t * cmoment (snd t) + s) 0 (monos n p)).
  - eapply (accurate_on_monos r n d eps cmoment); eauto.
  - apply (is_int_cube_unique n (peval p)); [|exact HI].
    eapply is_int_cube_ext; [exact E|]. eapply is_int_cube_meval; eauto.
Qed.
(** every polynomial has an integral *)
Lemma simplex_int_exists n p c : pvars n p -> exists I, is_int_simplex n c (peval p) I.
Proof.
  intro V. eexists. eapply is_int_simplex_ext; [intro x; now apply (monos_eval n)|].
  eapply is_int_simplex_meval, monos_ok.
Qed.
Lemma cube_int_exists n p : pvars n p -> exists I, is_int_cube n (peval p) I.
Proof.
  intro V. eexists. eapply is_int_cube_ext; [intro x; now apply (monos_eval n)|].
  eapply is_int_cube_meval, monos_ok.
Qed.
