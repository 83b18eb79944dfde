(** Proofs for C198-C200. *)
From Coq Require Import Reals List Arith Lra Lia.
From Verif Require Import Common Tensor_Model Tensor_Spec Tensor_Proofs Law_Model Log_Model Log_Spec.
Import ListNotations.
Local Open Scope R_scope.

(** ** coefficients *)
Lemma almost_refl x : 0 < x -> almost_equal x x = true.
Proof.
  intros H. unfold almost_equal. destruct (Rle_dec _ _) as [|N]; [reflexivity|]. exfalso. apply N. rewrite Rminus_diag_eq, Rabs_R0 by reflexivity.
  apply Rmult_le_pos; [|lra]. apply Rmult_le_pos; [left; apply Rinv_0_lt_compat; apply pow_lt; lra|apply Rabs_pos].
Qed.
Lemma almost_iff lam i j : separated lam -> positive lam -> (i < 3)%nat -> (j < 3)%nat -> almost_equal (lam i) (lam j) = (if Req_EM_T (lam i) (lam j) then true else false).
Proof.
  intros S P Hi Hj. destruct (Req_EM_T (lam i) (lam j)) as [E|N].
  - rewrite E. apply almost_refl. now apply P.
  - destruct (S i j Hi Hj) as [E|E]; [contradiction|exact E].
Qed.
Definition theta_of (c : coefs) : mtx := fst (fst c).
Definition xi_of (c : coefs) : mtx := snd (fst c).
Definition eta_of (c : coefs) : R := snd c.
Definition code_coef (lam : vec) : coefs := compute_coefficient lam (compute_ei lam) (compute_di lam) (compute_fi lam).
Lemma case3 (P : nat -> nat -> Prop) : P 0%nat 1%nat -> P 0%nat 2%nat -> P 1%nat 0%nat -> P 1%nat 2%nat -> P 2%nat 0%nat -> P 2%nat 1%nat ->
  forall i j, (i < 3)%nat -> (j < 3)%nat -> i <> j -> P i j.
Proof. intros. destruct i as [|[|[|i]]], j as [|[|[|j]]]; try lia; assumption. Qed.
Ltac coef_end := unfold dd2, dd1, hlog', hlog, hlog2;
  repeat match goal with |- context [Req_EM_T ?a ?b] => destruct (Req_EM_T a b) end; try (exfalso; lra); try congruence;
  repeat match goal with H : ?a = ?b :> R |- _ => rewrite H in *; clear H end; try (exfalso; lra); field; repeat split; lra.
Lemma theta_ok lam : separated lam -> positive lam -> (lam 1%nat = lam 2%nat -> lam 0%nat = lam 1%nat) ->
  (forall i j, (i < 3)%nat -> (j < 3)%nat -> i <> j -> theta_of (code_coef lam) i j = dd1 (lam i) (lam j) /\ xi_of (code_coef lam) i j = dd2 (lam i) (lam j) (lam j)) /\
  ((lam 0%nat = lam 2%nat -> lam 0%nat = lam 1%nat) -> eta_of (code_coef lam) = dd2 (lam 0%nat) (lam 1%nat) (lam 2%nat)).
Proof.
  intros S P G. unfold code_coef, compute_coefficient, selectCase. rewrite !almost_iff by (assumption || lia).
  pose proof (P 0%nat ltac:(lia)) as P0. pose proof (P 1%nat ltac:(lia)) as P1. pose proof (P 2%nat ltac:(lia)) as P2.
  assert (S2 : lam 2%nat <> lam 1%nat -> lam 1%nat <> lam 2%nat) by congruence. clear S.
  split; [apply case3; split|intros G2]; (destruct (Req_EM_T (lam 0%nat) (lam 1%nat)) as [E01|N01]; [destruct (Req_EM_T (lam 1%nat) (lam 2%nat)) as [E12|N12]|
    destruct (Req_EM_T (lam 1%nat) (lam 2%nat)) as [E12|N12]; [exfalso; exact (N01 (G E12))|destruct (Req_EM_T (lam 0%nat) (lam 2%nat)) as [E02|N02]]]);
  unfold compute_two_equal, compute_three_diff, compute_three_equal, compute_ei, compute_di, compute_fi, theta_of, xi_of, eta_of; cbn [fst snd off tsum Nat.eqb orb]; coef_end.
Qed.

(** ** the projector *)
Definition Theta (lam : vec) : mtx := fun i j => if (i =? j)%nat then compute_di lam i / 2 else theta_of (code_coef lam) i j.
Lemma rd_tadd A B i j k l : rd 3 (tadd A B) i j k l = rd 3 A i j k l + rd 3 B i j k l. Proof. reflexivity. Qed.
Lemma rd_tscl x A i j k l : rd 3 (tscl x A) i j k l = x * rd 3 A i j k l. Proof. reflexivity. Qed.
Lemma rd_mzero i j k l : rd 3 mzero i j k l = 0. Proof. reflexivity. Qed.
Lemma projector_at F Fi T lam V tl a b k l : (a < 3)%nat -> (b < 3)%nat -> (k < 3)%nat -> (l < 3)%nat ->
  rd 3 (fst (compute_projector F Fi T lam V tl)) a b k l =
  sig 3 (fun i => sig 3 (fun j => Theta lam i j * V a i * V b j * compute_Mij (compute_Ni V) (compute_ni F (compute_Ni V)) i j k l)).
Proof.
  intros Ha Hb Hk Hl. unfold compute_projector, Theta. fold (code_coef lam). destruct (code_coef lam) as [[th x] e]. unfold theta_of. cbn [fst snd].
  destruct tl; cbn [seq fold_left Nat.eqb orb fst snd]; rewrite !rd_tadd, !rd_Kronecker, rd_mzero by assumption; unfold tscl, vKron, compute_Ni at 1; cbn [sig Nat.eqb]; unfold compute_Ni; ring.
Qed.
Lemma projector2_at T lam V tl a b k l : (a < 3)%nat -> (b < 3)%nat -> (k < 3)%nat -> (l < 3)%nat ->
  rd 3 (fst (compute_projector_PK2 T lam V tl)) a b k l =
  sig 3 (fun i => sig 3 (fun j => Theta lam i j * V a i * V b j * compute_Mij (compute_Ni V) (compute_Ni V) i j k l)).
Proof.
  intros Ha Hb Hk Hl. unfold compute_projector_PK2, Theta. fold (code_coef lam). destruct (code_coef lam) as [[th x] e]. unfold theta_of. cbn [fst snd].
  destruct tl; cbn [seq fold_left Nat.eqb orb fst snd]; rewrite !rd_tadd, !rd_tscl, !rd_Kronecker, rd_mzero by assumption; unfold vKron; cbn [sig Nat.eqb]; unfold compute_Ni; ring.
Qed.
(** V^T A V *)
Definition frame (V A : mtx) : mtx := fun i j => sig 3 (fun a => sig 3 (fun b => V a i * A a b * V b j)).
(** V (G . B) V^T with the entrywise product *)
Definition recompose (V G B : mtx) : mtx := fun a b => sig 3 (fun i => sig 3 (fun j => G i j * V a i * V b j * B i j)).
Definition green_rate (F F' : mtx) : mtx := fun a b => sig 3 (fun k => F' k a * F k b + F k a * F' k b).
Lemma sig9 (f : nat -> nat -> R) g : (forall i j, (i < 3)%nat -> (j < 3)%nat -> f i j = g i j) -> sig 3 (fun i => sig 3 (fun j => f i j)) = sig 3 (fun i => sig 3 (fun j => g i j)).
Proof. intros H. apply sig_ext. intros i Hi. apply sig_ext. intros j Hj. now apply H. Qed.
Lemma exch (f : nat -> nat -> R) (h : nat -> nat -> R) (M : nat -> nat -> nat -> nat -> R) :
  sig 3 (fun k => sig 3 (fun l => sig 3 (fun i => sig 3 (fun j => f i j * M i j k l)) * h k l)) = sig 3 (fun i => sig 3 (fun j => f i j * sig 3 (fun k => sig 3 (fun l => M i j k l * h k l)))).
Proof. cbn [sig]. ring. Qed.
Lemma projector_apply F Fi T lam V tl F' a b : (a < 3)%nat -> (b < 3)%nat ->
  tm_prod 3 (fst (compute_projector F Fi T lam V tl)) F' a b = recompose V (Theta lam) (frame V (green_rate F F')) a b.
Proof.
  intros Ha Hb. rewrite tm_prod_at by assumption. unfold recompose.
  transitivity (sig 3 (fun k => sig 3 (fun l => sig 3 (fun i => sig 3 (fun j => Theta lam i j * V a i * V b j * compute_Mij (compute_Ni V) (compute_ni F (compute_Ni V)) i j k l)) * F' k l))); [apply sig9; intros k l Hk Hl; rewrite projector_at by assumption; reflexivity|].
  rewrite (exch (fun i j => Theta lam i j * V a i * V b j) F' (compute_Mij (compute_Ni V) (compute_ni F (compute_Ni V)))). apply sig9. intros i j Hi Hj. f_equal.
  unfold compute_Mij, compute_ni, compute_Ni, frame, green_rate. cbn [sig tsum]. ring.
Qed.
Lemma projector2_apply T lam V tl C' a b : (a < 3)%nat -> (b < 3)%nat -> (forall i j, (i < 3)%nat -> (j < 3)%nat -> C' i j = C' j i) ->
  tm_prod 3 (fst (compute_projector_PK2 T lam V tl)) C' a b = 2 * recompose V (Theta lam) (frame V C') a b.
Proof.
  intros Ha Hb S. rewrite tm_prod_at by assumption. unfold recompose.
  transitivity (sig 3 (fun k => sig 3 (fun l => sig 3 (fun i => sig 3 (fun j => Theta lam i j * V a i * V b j * compute_Mij (compute_Ni V) (compute_Ni V) i j k l)) * C' k l))); [apply sig9; intros k l Hk Hl; rewrite projector2_at by assumption; reflexivity|].
  rewrite (exch (fun i j => Theta lam i j * V a i * V b j) C' (compute_Mij (compute_Ni V) (compute_Ni V))). rewrite <- sig_mul. apply sig_ext. intros i Hi. rewrite <- sig_mul. apply sig_ext. intros j Hj.
  assert (E : sig 3 (fun k => sig 3 (fun l => compute_Mij (compute_Ni V) (compute_Ni V) i j k l * C' k l)) = 2 * frame V C' i j); [|rewrite E; ring].
  unfold compute_Mij, compute_Ni, frame. cbn [sig]. rewrite (S 1%nat 0%nat), (S 2%nat 0%nat), (S 2%nat 1%nat) by lia. ring.
Qed.

(** ** derivative of the strain *)
Definition form (W : mtx) (e : vec) : mtx := fun a b => sig 3 (fun i => W a i * e i * W b i).
Definition form' (W W' : mtx) (e e' : vec) : mtx := fun a b => sig 3 (fun i => W' a i * e i * W b i + W a i * e' i * W b i + W a i * e i * W' b i).
Lemma d3 f g h x a b c : derivable_pt_lim f x a -> derivable_pt_lim g x b -> derivable_pt_lim h x c -> derivable_pt_lim (fun t => f t * g t * h t) x (a * g x * h x + f x * b * h x + f x * g x * c).
Proof.
  intros A B C. replace (a * g x * h x + f x * b * h x + f x * g x * c) with ((a * g x + f x * b) * h x + (f x * g x) * c) by ring.
  apply (derivable_pt_lim_mult (fun t => f t * g t) h); [apply (derivable_pt_lim_mult f g); assumption|exact C].
Qed.
Lemma dsum3 (f : nat -> R -> R) x (l : nat -> R) : (forall i, (i < 3)%nat -> derivable_pt_lim (f i) x (l i)) -> derivable_pt_lim (fun t => sig 3 (fun i => f i t)) x (sig 3 l).
Proof.
  intros H. cbn [sig]. apply (derivable_pt_lim_plus (fun t => 0 + f 0%nat t + f 1%nat t) (f 2%nat)); [|apply H; lia].
  apply (derivable_pt_lim_plus (fun t => 0 + f 0%nat t) (f 1%nat)); [|apply H; lia]. apply (derivable_pt_lim_plus (fun _ => 0) (f 0%nat)); [apply derivable_pt_lim_const|apply H; lia].
Qed.
Lemma form_deriv W W' e e' : mderiv W W' -> (forall i, (i < 3)%nat -> derivable_pt_lim (fun t => e t i) 0 (e' i)) -> mderiv (fun t => form (W t) (e t)) (form' (W 0) W' (e 0) e').
Proof.
  intros HW He a b Ha Hb. unfold form, form'. apply (dsum3 (fun i t => W t a i * e t i * W t b i)). intros i Hi. apply (d3 (fun t => W t a i) (fun t => e t i) (fun t => W t b i)); [now apply HW|now apply He|now apply HW].
Qed.
Lemma green_deriv F F' : mderiv F F' -> mderiv (fun t => cauchy_green (F t)) (green_rate (F 0) F').
Proof.
  intros H a b Ha Hb. unfold cauchy_green, mmul, mtr, green_rate. apply (dsum3 (fun k t => F t k a * F t k b)). intros k Hk. apply (derivable_pt_lim_mult (fun t => F t k a) (fun t => F t k b)); now apply H.
Qed.
Lemma mderiv_unique A B A' B' : (forall t, meq 3 (A t) (B t)) -> mderiv A A' -> mderiv B B' -> meq 3 A' B'.
Proof.
  intros E HA HB a b Ha Hb. apply (uniqueness_limite (fun t => A t a b) 0); [now apply HA|]. intros eps He. destruct (HB a b Ha Hb eps He) as (d & Hd). exists d. intros h N Hh. rewrite !(E _ a b Ha Hb). now apply Hd.
Qed.
Lemma mderiv_ext A B A' : (forall t, meq 3 (A t) (B t)) -> mderiv A A' -> mderiv B A'.
Proof. intros E HA a b Ha Hb eps He. destruct (HA a b Ha Hb eps He) as (d & Hd). exists d. intros h N Hh. rewrite <- !(E _ a b Ha Hb). now apply Hd. Qed.

Definition om (W W' : mtx) : mtx := fun i j => sig 3 (fun a => W a i * W' a j).
Lemma om_skew W W' : (forall t, orthonormal (W t)) -> mderiv W W' -> forall i j, (i < 3)%nat -> (j < 3)%nat -> om (W 0) W' i j + om (W 0) W' j i = 0.
Proof.
  intros O H i j Hi Hj.
  assert (D : derivable_pt_lim (fun t => sig 3 (fun a => W t a i * W t a j)) 0 (sig 3 (fun a => W' a i * W 0 a j + W 0 a i * W' a j))).
  { apply (dsum3 (fun a t => W t a i * W t a j)). intros a Ha. apply (derivable_pt_lim_mult (fun t => W t a i) (fun t => W t a j)); now apply H. }
  assert (D0 : derivable_pt_lim (fun t => sig 3 (fun a => W t a i * W t a j)) 0 0).
  { intros eps He. destruct (derivable_pt_lim_const (delta i j) 0 eps He) as (d & Hd). exists d. intros h N Hh. rewrite !(proj1 (O _ i j Hi Hj)). exact (Hd h N Hh). }
  pose proof (uniqueness_limite _ _ _ _ D D0) as E. eapply eq_trans; [|exact E]. unfold om. cbn [sig]. ring.
Qed.
(** in the frame of the eigenvectors *)
Lemma frame_form W W' e e' : orthonormal W -> (forall i j, (i < 3)%nat -> (j < 3)%nat -> om W W' i j + om W W' j i = 0) -> forall i j, (i < 3)%nat -> (j < 3)%nat ->
  frame W (form' W W' e e') i j = om W W' i j * (e j - e i) + delta i j * e' i.
Proof.
  intros O SK i j Hi Hj. pose (G := fun p q => sig 3 (fun a => W a p * W a q)).
  assert (E : frame W (form' W W' e e') i j = sig 3 (fun k => om W W' i k * e k * G k j + G i k * e' k * G k j + G i k * e k * om W W' j k)).
  { unfold frame, form', om, G. cbn [sig]. ring. }
  rewrite E. rewrite (sig_ext 3 _ (fun k => delta k j * (om W W' i k * e k + delta i k * e' k) + delta i k * (e k * om W W' j k))).
  - rewrite sig_add, sig_delta, sig_delta' by assumption. pose proof (SK i j Hi Hj) as S. replace (om W W' j i) with (- om W W' i j) by lra.
    unfold delta. destruct (Nat.eqb_spec i j) as [->|]; ring.
  - intros k Hk. unfold G. rewrite (proj1 (O k j Hk Hj)), (proj1 (O i k Hi Hk)). ring.
Qed.
Definition one : mtx := fun _ _ => 1.
Lemma recompose_frame W A : orthonormal W -> meq 3 (recompose W one (frame W A)) A.
Proof.
  intros O a b Ha Hb. pose (H := fun p q => sig 3 (fun i => W p i * W q i)).
  assert (E : recompose W one (frame W A) a b = sig 3 (fun c => sig 3 (fun d => H a c * A c d * H b d))) by (unfold recompose, one, frame, H; cbn [sig]; ring).
  rewrite E. rewrite (sig_ext 3 _ (fun c => delta a c * A c b)); [now rewrite sig_delta'|]. intros c Hc. rewrite (sig_ext 3 _ (fun d => delta b d * (delta a c * A c d))); [now rewrite sig_delta'|].
  intros d Hd. unfold H. rewrite (proj2 (O a c Ha Hc)), (proj2 (O b d Hb Hd)). ring.
Qed.
Lemma frame_ext V A B : meq 3 A B -> forall i j, frame V A i j = frame V B i j.
Proof. intros E i j. apply sig9. intros a b Ha Hb. now rewrite E. Qed.
Definition turn (V W : mtx) : mtx := fun p i => sig 3 (fun a => V a p * W a i).
Lemma turn_eigen C V lam W L : eigen C lam V -> eigen C L W -> forall p i, (p < 3)%nat -> (i < 3)%nat -> turn V W p i * (L i - lam p) = 0.
Proof.
  intros (OV & EV) (OW & EW) p i Hp Hi. pose (G := sig 3 (fun a => sig 3 (fun b => V a p * C a b * W b i))).
  assert (E1 : G = turn V W p i * lam p).
  { assert (X : G = sig 3 (fun q => sig 3 (fun a => V a p * V a q) * lam q * turn V W q i)).
    { unfold G. rewrite (sig9 _ (fun a b => V a p * sig 3 (fun i => V a i * lam i * V b i) * W b i)) by (intros a b Ha Hb; rewrite (EV a b Ha Hb); reflexivity). unfold turn. cbn [sig]. ring. }
    rewrite X, (sig_ext 3 _ (fun q => delta p q * (lam q * turn V W q i))); [rewrite sig_delta' by exact Hp; ring|]. intros q Hq. rewrite (proj1 (OV p q Hp Hq)). ring. }
  assert (E2 : G = turn V W p i * L i).
  { assert (X : G = sig 3 (fun q => turn V W p q * L q * sig 3 (fun a => W a q * W a i))).
    { unfold G. rewrite (sig9 _ (fun a b => V a p * sig 3 (fun i => W a i * L i * W b i) * W b i)) by (intros a b Ha Hb; rewrite (EW a b Ha Hb); reflexivity). unfold turn. cbn [sig]. ring. }
    rewrite X, (sig_ext 3 _ (fun q => delta q i * (turn V W p q * L q))); [rewrite sig_delta by exact Hi; ring|]. intros q Hq. rewrite (proj1 (OW q i Hq Hi)). ring. }
  rewrite Rmult_minus_distr_l, <- E1, <- E2. ring.
Qed.
Lemma change_frame C V lam W L g A : eigen C lam V -> eigen C L W -> meq 3 (recompose V (fun p q => g (lam p) (lam q)) (frame V A)) (recompose W (fun i j => g (L i) (L j)) (frame W A)).
Proof.
  intros EV EW a b Ha Hb. pose proof EV as (OV & _). pose proof EW as (OW & _). pose (Q := turn V W). pose (B := frame W A).
  assert (HB : forall p q, frame V A p q = sig 3 (fun i => sig 3 (fun j => Q p i * Q q j * B i j))).
  { intros p q. rewrite <- (frame_ext V _ A (recompose_frame W A OW) p q). fold B. unfold frame, recompose, one, Q, turn. cbn [sig]. ring. }
  assert (HW : forall c i, (c < 3)%nat -> (i < 3)%nat -> sig 3 (fun p => V c p * Q p i) = W c i).
  { intros c i Hc Hi. rewrite <- (sig_delta' 3 c (fun d => W d i) Hc). rewrite (sig_ext 3 (fun i0 => delta c i0 * W i0 i) (fun d => sig 3 (fun p => V c p * V d p) * W d i)); [|intros d Hd; now rewrite (proj2 (OV c d Hc Hd))]. unfold Q, turn. cbn [sig]. ring. }
  unfold recompose at 1.
  transitivity (sig 3 (fun p => sig 3 (fun q => V a p * V b q * sig 3 (fun i => sig 3 (fun j => Q p i * Q q j * (g (L i) (L j) * B i j)))))).
  - apply sig9. intros p q Hp Hq. rewrite HB. replace (g (lam p) (lam q) * V a p * V b q * sig 3 (fun i => sig 3 (fun j => Q p i * Q q j * B i j))) with (V a p * V b q * (g (lam p) (lam q) * sig 3 (fun i => sig 3 (fun j => Q p i * Q q j * B i j)))) by ring.
    f_equal. rewrite <- sig_mul. apply sig_ext. intros i Hi. rewrite <- sig_mul. apply sig_ext. intros j Hj.
    pose proof (turn_eigen C V lam W L EV EW p i Hp Hi) as T1. pose proof (turn_eigen C V lam W L EV EW q j Hq Hj) as T2. fold Q in T1, T2.
    destruct (Rmult_integral _ _ T1) as [Z|Z]; [rewrite Z; ring|]. destruct (Rmult_integral _ _ T2) as [Z'|Z']; [rewrite Z'; ring|].
    replace (lam p) with (L i) by lra. replace (lam q) with (L j) by lra. ring.
  - transitivity (sig 3 (fun i => sig 3 (fun j => g (L i) (L j) * sig 3 (fun p => V a p * Q p i) * sig 3 (fun q => V b q * Q q j) * B i j))).
    + clear. generalize (fun i j => g (L i) (L j)) as h. intros h. cbn [sig]. ring.
    + unfold recompose. apply sig9. intros i j Hi Hj. rewrite !HW by assumption. reflexivity.
Qed.

Lemma eigen_positive C lam V L W : eigen C lam V -> eigen C L W -> positive lam -> positive L.
Proof.
  intros EV EW P i Hi. destruct (Rlt_dec 0 (L i)) as [H|N]; [exact H|]. exfalso.
  assert (Z : forall p, (p < 3)%nat -> turn V W p i = 0).
  { intros p Hp. pose proof (turn_eigen C V lam W L EV EW p i Hp Hi) as T. destruct (Rmult_integral _ _ T) as [T0|T0]; [exact T0|]. pose proof (P p Hp). exfalso. lra. }
  destruct EV as (OV & _). destruct EW as (OW & _).
  assert (W0 : forall c, (c < 3)%nat -> W c i = 0).
  { intros c Hc. rewrite <- (sig_delta' 3 c (fun d => W d i) Hc). rewrite (sig_ext 3 (fun i0 => delta c i0 * W i0 i) (fun d => sig 3 (fun p => V c p * V d p) * W d i)); [|intros d Hd; now rewrite (proj2 (OV c d Hc Hd))].
    transitivity (sig 3 (fun p => V c p * turn V W p i)); [unfold turn; cbn [sig]; ring|]. apply sig_zero. intros p Hp. rewrite (Z p Hp). ring. }
  pose proof (proj1 (OW i i Hi Hi)) as O. rewrite sig_zero in O by (intros c Hc; rewrite (W0 c Hc); ring). unfold delta in O. rewrite Nat.eqb_refl in O. lra.
Qed.
Lemma d_hlog f x l : 0 < f x -> derivable_pt_lim f x l -> derivable_pt_lim (fun t => hlog (f t)) x (hlog' (f x) * l).
Proof.
  intros P H. unfold hlog, hlog'. replace (/ (2 * f x) * l) with (/ 2 * (/ f x * l)) by (field; lra).
  assert (D : derivable_pt_lim (fun t => / 2 * ln (f t)) x (/ 2 * (/ f x * l))).
  { apply (derivable_pt_lim_scal (fun t => ln (f t))). apply (derivable_pt_lim_comp f ln x l (/ f x)); [exact H|apply derivable_pt_lim_ln; exact P]. }
  intros eps He. destruct (D eps He) as (d & Hd). exists d. intros h N Hh. specialize (Hd h N Hh). unfold Rdiv in *. rewrite !(Rmult_comm (ln _) (/ 2)). exact Hd.
Qed.
Lemma Elog_form lam W a b : compute_Elog lam W a b = form W (fun i => hlog (lam i)) a b.
Proof. reflexivity. Qed.
Lemma strain_deriv C C' L L' W W' lam V : mderiv C C' -> (forall t, eigen (C t) (L t) (W t)) -> mderiv W W' -> (forall i, (i < 3)%nat -> derivable_pt_lim (fun t => L t i) 0 (L' i)) ->
  eigen (C 0) lam V -> positive lam -> mderiv (fun t => compute_Elog (L t) (W t)) (recompose V (fun p q => dd1 (lam p) (lam q)) (frame V C')).
Proof.
  intros HC E HW HL EV P. pose proof (eigen_positive _ _ _ _ _ EV (E 0) P) as P0. pose proof (E 0) as E0. pose proof E0 as (O0 & _).
  pose (e' := fun i => hlog' (L 0 i) * L' i).
  assert (DE : mderiv (fun t => compute_Elog (L t) (W t)) (form' (W 0) W' (fun i => hlog (L 0 i)) e')).
  { apply (form_deriv W W' (fun t i => hlog (L t i)) e' HW). intros i Hi. apply (d_hlog (fun t => L t i)); [now apply P0|now apply HL]. }
  assert (EC : meq 3 C' (form' (W 0) W' (L 0) L')).
  { apply (mderiv_unique C (fun t => form (W t) (L t))); [intros t a b Ha Hb; exact (proj2 (E t) a b Ha Hb)|exact HC|exact (form_deriv W W' L L' HW HL)]. }
  pose proof (om_skew W W' (fun t => proj1 (E t)) HW) as SK.
  intros a b Ha Hb. rewrite (change_frame (C 0) V lam (W 0) (L 0) dd1 C' EV E0 a b Ha Hb).
  replace (recompose (W 0) (fun i j => dd1 (L 0 i) (L 0 j)) (frame (W 0) C') a b) with (form' (W 0) W' (fun i => hlog (L 0 i)) e' a b); [exact (DE a b Ha Hb)|].
  rewrite <- (recompose_frame (W 0) (form' (W 0) W' (fun i => hlog (L 0 i)) e') O0 a b Ha Hb). unfold recompose, one. apply sig9. intros i j Hi Hj.
  rewrite (frame_ext _ _ _ EC). rewrite !frame_form by assumption. unfold e', delta, dd1. destruct (Nat.eqb_spec i j) as [->|N]; destruct (Req_EM_T _ _) as [Q|Q]; try congruence; rewrite ?Q; [ring|ring|field; lra].
Qed.
Lemma Theta_dd1 lam : separated lam -> positive lam -> (lam 1%nat = lam 2%nat -> lam 0%nat = lam 1%nat) -> forall i j, (i < 3)%nat -> (j < 3)%nat -> Theta lam i j = dd1 (lam i) (lam j).
Proof.
  intros S P G i j Hi Hj. unfold Theta. destruct (Nat.eqb_spec i j) as [->|N].
  - unfold dd1, compute_di, hlog'. destruct (Req_EM_T _ _) as [_|]; [|congruence]. pose proof (P j Hj). field. lra.
  - exact (proj1 (proj1 (theta_ok lam S P G) i j Hi Hj N)).
Qed.
Lemma recompose_ext V G G' B a b : meq 3 G G' -> recompose V G B a b = recompose V G' B a b.
Proof. intros E. apply sig9. intros i j Hi Hj. now rewrite E. Qed.
