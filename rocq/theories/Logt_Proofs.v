(** Second derivative of the logarithmic strain. *)
From Coq Require Import Reals List Arith Lra Lia FunctionalExtensionality.
From Verif Require Import Common Tensor_Model Tensor_Spec Tensor_Proofs Tensor_Properties Law_Model Log_Model Log_Spec Log_Proofs.
Import ListNotations.
Local Open Scope R_scope.

(** ** divided differences *)
Lemma dd1_sym x y : dd1 x y = dd1 y x.
Proof. unfold dd1. destruct (Req_EM_T x y), (Req_EM_T y x); subst; try congruence. field. split; lra. Qed.
Lemma dd2_rec x y z : dd2 x y z * (y - x) = dd1 y z - dd1 x z.
Proof.
  unfold dd2. destruct (Req_EM_T x z) as [->|N].
  - destruct (Req_EM_T z y) as [->|M]; [ring|field; lra].
  - destruct (Req_EM_T x y) as [->|M]; [ring|]. unfold dd1. destruct (Req_EM_T x y); [lra|]. destruct (Req_EM_T y z) as [->|K]; destruct (Req_EM_T _ z); try lra; field; repeat split; lra.
Qed.
Lemma dd2_flip x y z : dd2 x y z = dd2 z y x.
Proof.
  unfold dd2. destruct (Req_EM_T x z) as [->|N].
  - destruct (Req_EM_T z z); [|lra]. reflexivity.
  - destruct (Req_EM_T z x); [lra|]. rewrite (dd1_sym z y), (dd1_sym y x). field. split; lra.
Qed.
Lemma dd2_rec' x y z : dd2 x y z * (z - y) = dd1 x z - dd1 x y.
Proof. rewrite dd2_flip. pose proof (dd2_rec z y x) as H. rewrite (dd1_sym x z), (dd1_sym x y). lra. Qed.
Lemma dd2_swap x y z : dd2 x y z = dd2 y x z.
Proof.
  destruct (Req_EM_T x y) as [->|N]; [reflexivity|]. apply (Rmult_eq_reg_r (y - x)); [|lra].
  rewrite dd2_rec. pose proof (dd2_rec y x z). lra.
Qed.

(** ** derivative of the divided difference *)
Lemma d_local f g l d : 0 < d -> (forall t, Rabs t < d -> f t = g t) -> derivable_pt_lim f 0 l -> derivable_pt_lim g 0 l.
Proof.
  intros Hd E D eps He. destruct (D eps He) as (e & H). exists (mkposreal (Rmin d e) (Rmin_pos _ _ Hd (cond_pos e))). intros h N Hh. cbn in Hh.
  pose proof (Rmin_l d e). pose proof (Rmin_r d e). rewrite <- (E (0 + h)), <- (E 0) by (rewrite ?Rplus_0_l, ?Rabs_R0; lra). apply H; [exact N|lra].
Qed.
Lemma d_near f l c : derivable_pt_lim f 0 l -> 0 < c -> exists d, 0 < d /\ forall t, Rabs t < d -> Rabs (f t - f 0) < c.
Proof.
  intros D Hc. assert (C : continuity_pt f 0) by (apply derivable_continuous_pt; exists l; exact D).
  destruct (C c Hc) as (d & Hd & H). exists d. split; [exact Hd|]. intros t Ht. destruct (Req_EM_T t 0) as [->|N]; [rewrite Rminus_diag_eq, Rabs_R0; [exact Hc|reflexivity]|].
  apply (H t). split; [split; [exact I|congruence]|]. unfold dist; cbn. unfold R_dist. now rewrite Rminus_0_r.
Qed.
Definition phi (u : R) : R := if Req_EM_T u 1 then 1 else ln u / (u - 1).
Lemma ln_cubic h : Rabs h <= / 2 -> Rabs (ln (1 + h) - h + h ^ 2 / 2) <= 2 * Rabs h ^ 3.
Proof.
  intros Hh. pose (g := fun x => ln (1 + x) - x + x ^ 2 / 2). pose (g' := fun x => x ^ 2 / (1 + x)).
  assert (D : forall c, -1 < c -> derivable_pt_lim g c (g' c)).
  { intros c Hc. unfold g, g'. replace (c ^ 2 / (1 + c)) with (/ (1 + c) * (0 + 1) - 1 + (/ 2 * (INR 2 * c ^ 1))) by (cbn; field; lra).
    assert (D2 : derivable_pt_lim (fun x => / 2 * x ^ 2) c (/ 2 * (INR 2 * c ^ 1))) by (apply (derivable_pt_lim_scal (fun x => x ^ 2)); exact (derivable_pt_lim_pow c 2)).
    apply (derivable_pt_lim_plus (fun x => ln (1 + x) - x)); [|intros eps He; destruct (D2 eps He) as (d & H); exists d; intros x N Hx; specialize (H x N Hx); unfold Rdiv in *; rewrite !(Rmult_comm _ (/ 2)) in *; rewrite ?(Rmult_comm (/ 2)) in *; exact H].
    apply (derivable_pt_lim_minus (fun x => ln (1 + x)) (fun x => x)); [|exact (derivable_pt_lim_id c)].
    apply (derivable_pt_lim_comp (fun x => 1 + x) ln); [apply (derivable_pt_lim_plus (fun _ => 1) (fun x => x)); [apply derivable_pt_lim_const|exact (derivable_pt_lim_id c)]|apply derivable_pt_lim_ln; lra]. }
  change (Rabs (g h) <= 2 * Rabs h ^ 3). assert (G0 : g 0 = 0) by (unfold g; rewrite Rplus_0_r, ln_1; field).
  assert (B : forall c, Rabs c <= Rabs h -> Rabs (g' c) <= 2 * Rabs h ^ 2).
  { intros c Hc. unfold g'. assert (B1 : / 2 <= 1 + c) by (split_Rabs; lra). unfold Rdiv. rewrite Rabs_mult. rewrite <- RPow_abs. rewrite (Rabs_pos_eq (/ (1 + c))) by (left; apply Rinv_0_lt_compat; lra).
    assert (/ (1 + c) <= 2) by (rewrite <- (Rinv_inv 2); apply Rinv_le_contravar; lra). pose proof (Rabs_pos c). assert (Rabs c ^ 2 <= Rabs h ^ 2) by (apply pow_incr; lra). pose proof (Rinv_0_lt_compat (1 + c) ltac:(lra)). pose proof (pow2_ge_0 (Rabs c)). nra. }
  destruct (Rtotal_order h 0) as [N|[Z|Pp]].
  - destruct (MVT_cor2 g g' h 0 N) as (c & E & Hc); [intros c Hc; apply D; split_Rabs; lra|].
    replace (g h) with (- (g' c * (0 - h))) by lra. rewrite Rabs_Ropp, Rabs_mult. pose proof (B c ltac:(split_Rabs; lra)). replace (Rabs (0 - h)) with (Rabs h) by (split_Rabs; lra). pose proof (Rabs_pos h). nra.
  - rewrite Z, G0, Rabs_R0. lra.
  - destruct (MVT_cor2 g g' 0 h Pp) as (c & E & Hc); [intros c Hc; apply D; split_Rabs; lra|].
    replace (g h) with (g' c * (h - 0)) by lra. rewrite Rabs_mult. pose proof (B c ltac:(split_Rabs; lra)). replace (Rabs (h - 0)) with (Rabs h) by (split_Rabs; lra). pose proof (Rabs_pos h). nra.
Qed.
Lemma d_phi : derivable_pt_lim phi 1 (- / 2).
Proof.
  intros eps He. assert (Hd : 0 < Rmin (/ 2) (eps / 4)) by (apply Rmin_pos; lra). exists (mkposreal _ Hd). intros h N Hh. cbn in Hh.
  pose proof (Rmin_l (/ 2) (eps / 4)). pose proof (Rmin_r (/ 2) (eps / 4)). unfold phi. destruct (Req_EM_T 1 1); [|lra]. destruct (Req_EM_T (1 + h) 1); [lra|].
  replace (1 + h - 1) with h by ring. replace ((ln (1 + h) / h - 1) / h - - / 2) with ((ln (1 + h) - h + h ^ 2 / 2) * / h ^ 2) by (field; exact N).
  rewrite Rabs_mult, (Rabs_inv (h ^ 2)). pose proof (ln_cubic h ltac:(lra)) as B. assert (Pp : 0 < Rabs h) by now apply Rabs_pos_lt. rewrite <- RPow_abs.
  apply (Rle_lt_trans _ (2 * Rabs h ^ 3 * / Rabs h ^ 2)); [apply Rmult_le_compat_r; [left; apply Rinv_0_lt_compat, pow_lt; exact Pp|exact B]|].
  replace (2 * Rabs h ^ 3 * / Rabs h ^ 2) with (2 * Rabs h) by (field; lra). lra.
Qed.
Lemma dd1_phi x y : 0 < x -> 0 < y -> dd1 x y = / (2 * x) * phi (y / x).
Proof.
  intros X Y. unfold dd1, phi, hlog', hlog. destruct (Req_EM_T x y) as [->|N].
  - destruct (Req_EM_T (y / y) 1) as [_|K]; [field; lra|]. exfalso. apply K. field. lra.
  - destruct (Req_EM_T (y / x) 1) as [K|_]; [exfalso; apply N; apply (Rmult_eq_compat_r x) in K; field_simplify in K; lra|]. replace (ln (y / x)) with (ln y - ln x) by (unfold Rdiv; rewrite ln_mult, ln_Rinv by (try apply Rinv_0_lt_compat; assumption); ring). field. repeat split; lra.
Qed.
Lemma d_inv f l : f 0 <> 0 -> derivable_pt_lim f 0 l -> derivable_pt_lim (fun t => / f t) 0 (- l / (f 0 * f 0)).
Proof.
  intros N D. assert (X : derivable_pt_lim (fun t => 1 / f t) 0 ((0 * f 0 - l * 1) / Rsqr (f 0))) by (apply (derivable_pt_lim_div (fun _ => 1) f); [apply derivable_pt_lim_const|exact D|exact N]).
  replace (- l / (f 0 * f 0)) with ((0 * f 0 - l * 1) / Rsqr (f 0)) by (unfold Rsqr; field; exact N).
  refine (d_local _ _ _ 1 _ _ X); [lra|]. intros t _. unfold Rdiv. ring.
Qed.
Lemma d_dd1 x y x' y' : 0 < x 0 -> 0 < y 0 -> derivable_pt_lim x 0 x' -> derivable_pt_lim y 0 y' ->
  derivable_pt_lim (fun t => dd1 (x t) (y t)) 0 (dd2 (x 0) (x 0) (y 0) * x' + dd2 (x 0) (y 0) (y 0) * y').
Proof.
  intros X Y DX DY. destruct (d_near x x' (x 0) DX X) as (d1 & Hd1 & N1). destruct (d_near y y' (y 0) DY Y) as (d2 & Hd2 & N2).
  assert (P1 : forall t, Rabs t < d1 -> 0 < x t) by (intros t Ht; specialize (N1 t Ht); split_Rabs; lra).
  assert (P2 : forall t, Rabs t < d2 -> 0 < y t) by (intros t Ht; specialize (N2 t Ht); split_Rabs; lra). clear N1 N2.
  destruct (Req_EM_T (x 0) (y 0)) as [E|N].
  - apply (d_local (fun t => / (2 * x t) * phi (y t / x t)) _ _ (Rmin d1 d2)); [now apply Rmin_pos| |].
    { intros t Ht. pose proof (Rmin_l d1 d2). pose proof (Rmin_r d1 d2). rewrite dd1_phi; [reflexivity|apply P1; lra|apply P2; lra]. }
    assert (DI : derivable_pt_lim (fun t => / (2 * x t)) 0 (- (2 * x') / (2 * x 0 * (2 * x 0)))) by (apply (d_inv (fun t => 2 * x t)); [lra|now apply (derivable_pt_lim_scal x)]).
    assert (DQ : derivable_pt_lim (fun t => y t / x t) 0 ((y' * x 0 - x' * y 0) / Rsqr (x 0))) by (apply (derivable_pt_lim_div y x); [exact DY|exact DX|lra]).
    assert (Q1 : y 0 / x 0 = 1) by (rewrite E; field; lra).
    assert (DP : derivable_pt_lim (fun t => phi (y t / x t)) 0 (- / 2 * ((y' * x 0 - x' * y 0) / Rsqr (x 0)))).
    { apply (derivable_pt_lim_comp (fun t => y t / x t) phi); [exact DQ|]. rewrite Q1. exact d_phi. }
    pose proof (derivable_pt_lim_mult _ _ _ _ _ DI DP) as D. cbn beta in D. replace (_ + _) with (- (2 * x') / (2 * x 0 * (2 * x 0)) * phi (y 0 / x 0) + / (2 * x 0) * (- / 2 * ((y' * x 0 - x' * y 0) / (x 0)²))); [exact D|].
    rewrite Q1, <- E. unfold phi, dd2, hlog2, Rsqr. destruct (Req_EM_T 1 1); [|lra]. destruct (Req_EM_T (x 0) (x 0)); [|lra]. field. lra.
  - pose (c := Rabs (x 0 - y 0) / 2). assert (Hc : 0 < c) by (unfold c; pose proof (Rabs_pos_lt (x 0 - y 0)); lra).
    destruct (d_near x x' c DX Hc) as (e1 & He1 & M1). destruct (d_near y y' c DY Hc) as (e2 & He2 & M2).
    apply (d_local (fun t => (hlog (x t) - hlog (y t)) / (x t - y t)) _ _ (Rmin e1 e2)); [now apply Rmin_pos| |].
    { intros t Ht. pose proof (Rmin_l e1 e2). pose proof (Rmin_r e1 e2). specialize (M1 t ltac:(lra)). specialize (M2 t ltac:(lra)). unfold dd1. destruct (Req_EM_T (x t) (y t)); [|reflexivity]. exfalso. unfold c in *. split_Rabs; lra. }
    pose proof (derivable_pt_lim_div (fun t => hlog (x t) - hlog (y t)) (fun t => x t - y t) 0 (hlog' (x 0) * x' - hlog' (y 0) * y') (x' - y')) as D.
    replace (_ + _) with (((hlog' (x 0) * x' - hlog' (y 0) * y') * (x 0 - y 0) - (x' - y') * (hlog (x 0) - hlog (y 0))) / (x 0 - y 0)²).
    + apply D; [apply (derivable_pt_lim_minus (fun t => hlog (x t)) (fun t => hlog (y t))); now apply d_hlog|now apply (derivable_pt_lim_minus x y)|lra].
    + unfold dd2, dd1, Rsqr. destruct (Req_EM_T (x 0) (y 0)); [lra|]. destruct (Req_EM_T (x 0) (x 0)); [|lra]. destruct (Req_EM_T (y 0) (y 0)); [|lra]. field. lra.
Qed.

(** ** derivative of the rate *)
Definition rate (lam : vec) (V K : mtx) : mtx := recompose V (fun p q => dd1 (lam p) (lam q)) (frame V K).
Definition curv (lam : vec) (V H K : mtx) : mtx := fun a b => sig 3 (fun i => sig 3 (fun j => V a i * V b j * sig 3 (fun k =>
  dd2 (lam i) (lam k) (lam j) * (frame V H i k * frame V K k j + frame V K i k * frame V H k j)))).
Lemma W_om W W' : orthonormal W -> forall a i, (a < 3)%nat -> W' a i = sig 3 (fun k => W a k * om W W' k i).
Proof.
  intros O a i Ha. transitivity (sig 3 (fun c => sig 3 (fun k => W a k * W c k) * W' c i)); [|unfold om; cbn [sig]; ring].
  rewrite (sig_ext 3 _ (fun c => delta a c * W' c i)); [now rewrite sig_delta'|]. intros c Hc. now rewrite (proj2 (O a c Ha Hc)).
Qed.
Definition frame' (W W' K : mtx) : mtx := fun i j => sig 3 (fun a => sig 3 (fun b => W' a i * K a b * W b j + W a i * K a b * W' b j)).
Lemma frame_deriv W W' K : mderiv W W' -> mderiv (fun t => frame (W t) K) (frame' (W 0) W' K).
Proof.
  intros HW i j Hi Hj. unfold frame, frame'. apply (dsum3 (fun a t => sig 3 (fun b => W t a i * K a b * W t b j))). intros a Ha. apply (dsum3 (fun b t => W t a i * K a b * W t b j)). intros b Hb.
  replace (W' a i * K a b * W 0 b j + W 0 a i * K a b * W' b j) with (W' a i * K a b * W 0 b j + W 0 a i * 0 * W 0 b j + W 0 a i * K a b * W' b j) by ring.
  apply (d3 (fun t => W t a i) (fun _ => K a b) (fun t => W t b j)); [now apply HW|apply derivable_pt_lim_const|now apply HW].
Qed.
Lemma frame'_om W W' K : orthonormal W -> forall i j, frame' W W' K i j = sig 3 (fun k => om W W' k i * frame W K k j + frame W K i k * om W W' k j).
Proof.
  intros O i j. unfold frame'.
  transitivity (sig 3 (fun a => sig 3 (fun b => sig 3 (fun k => W a k * om W W' k i) * K a b * W b j + W a i * K a b * sig 3 (fun k => W b k * om W W' k j)))).
  - apply sig9. intros a b Ha Hb. rewrite <- !(W_om W W' O) by assumption. reflexivity.
  - unfold frame. generalize (om W W'). intros Om. cbn [sig]. ring.
Qed.
Lemma d4 f g h k x a b c d : derivable_pt_lim f x a -> derivable_pt_lim g x b -> derivable_pt_lim h x c -> derivable_pt_lim k x d ->
  derivable_pt_lim (fun t => f t * g t * h t * k t) x ((a * g x * h x + f x * b * h x + f x * g x * c) * k x + f x * g x * h x * d).
Proof. intros A B C D. apply (derivable_pt_lim_mult (fun t => f t * g t * h t) k); [now apply d3|exact D]. Qed.
Lemma rate_alg (G G' W Om B : mtx) a b :
  sig 3 (fun i => sig 3 (fun j => (G' i j * W a i * W b j + G i j * sig 3 (fun k => W a k * Om k i) * W b j + G i j * W a i * sig 3 (fun k => W b k * Om k j)) * B i j
    + G i j * W a i * W b j * sig 3 (fun k => Om k i * B k j + B i k * Om k j)))
  = sig 3 (fun i => sig 3 (fun j => W a i * W b j * (G' i j * B i j + sig 3 (fun k => Om i k * G k j * B k j + G i k * B i k * Om j k + G i j * (Om k i * B k j + B i k * Om k j))))).
Proof. cbn [sig]. ring. Qed.
Lemma rate_deriv C C' L L' W W' K : mderiv C C' -> (forall t, eigen (C t) (L t) (W t)) -> mderiv W W' -> (forall i, (i < 3)%nat -> derivable_pt_lim (fun t => L t i) 0 (L' i)) -> positive (L 0) ->
  mderiv (fun t => rate (L t) (W t) K) (curv (L 0) (W 0) C' K).
Proof.
  intros HC E HW HL P a b Ha Hb. pose proof (E 0) as E0. pose proof E0 as (O0 & _).
  assert (EC : meq 3 C' (form' (W 0) W' (L 0) L')).
  { apply (mderiv_unique C (fun t => form (W t) (L t))); [intros t c d Hc Hd; exact (proj2 (E t) c d Hc Hd)|exact HC|exact (form_deriv W W' L L' HW HL)]. }
  pose proof (om_skew W W' (fun t => proj1 (E t)) HW) as SK.
  pose (G := fun i j => dd1 (L 0 i) (L 0 j)). pose (G' := fun i j => dd2 (L 0 i) (L 0 i) (L 0 j) * L' i + dd2 (L 0 i) (L 0 j) (L 0 j) * L' j).
  assert (D : derivable_pt_lim (fun t => rate (L t) (W t) K a b) 0
    (sig 3 (fun i => sig 3 (fun j => (G' i j * W 0 a i * W 0 b j + G i j * W' a i * W 0 b j + G i j * W 0 a i * W' b j) * frame (W 0) K i j + G i j * W 0 a i * W 0 b j * frame' (W 0) W' K i j)))).
  { unfold rate, recompose. apply (dsum3 (fun i t => sig 3 (fun j => dd1 (L t i) (L t j) * W t a i * W t b j * frame (W t) K i j))). intros i Hi.
    apply (dsum3 (fun j t => dd1 (L t i) (L t j) * W t a i * W t b j * frame (W t) K i j)). intros j Hj.
    apply (d4 (fun t => dd1 (L t i) (L t j)) (fun t => W t a i) (fun t => W t b j) (fun t => frame (W t) K i j)); [|now apply HW|now apply HW|now apply frame_deriv].
    apply (d_dd1 (fun t => L t i) (fun t => L t j)); [now apply P|now apply P|now apply HL|now apply HL]. }
  replace (curv (L 0) (W 0) C' K a b) with (sig 3 (fun i => sig 3 (fun j => (G' i j * W 0 a i * W 0 b j + G i j * W' a i * W 0 b j + G i j * W 0 a i * W' b j) * frame (W 0) K i j + G i j * W 0 a i * W 0 b j * frame' (W 0) W' K i j))); [exact D|]. clear D.
  pose (B := frame (W 0) K). pose (Om := om (W 0) W').
  transitivity (sig 3 (fun i => sig 3 (fun j => (G' i j * W 0 a i * W 0 b j + G i j * sig 3 (fun k => W 0 a k * Om k i) * W 0 b j + G i j * W 0 a i * sig 3 (fun k => W 0 b k * Om k j)) * B i j
    + G i j * W 0 a i * W 0 b j * sig 3 (fun k => Om k i * B k j + B i k * Om k j)))).
  { apply sig9. intros i j Hi Hj. rewrite (frame'_om (W 0) W' K O0 i j). unfold Om. rewrite <- !(W_om (W 0) W' O0) by assumption. reflexivity. }
  rewrite rate_alg. unfold curv. apply sig9. intros i j Hi Hj. f_equal. fold B.
  transitivity (sig 3 (fun k => delta i k * (dd2 (L 0 i) (L 0 k) (L 0 j) * L' i * B k j) + delta k j * (dd2 (L 0 i) (L 0 k) (L 0 j) * L' k * B i k) + (Om i k * G k j * B k j + G i k * B i k * Om j k + G i j * (Om k i * B k j + B i k * Om k j)))).
  { transitivity (sig 3 (fun k => delta i k * (dd2 (L 0 i) (L 0 k) (L 0 j) * L' i * B k j)) + sig 3 (fun k => delta k j * (dd2 (L 0 i) (L 0 k) (L 0 j) * L' k * B i k)) + sig 3 (fun k => Om i k * G k j * B k j + G i k * B i k * Om j k + G i j * (Om k i * B k j + B i k * Om k j))).
    - rewrite sig_delta, sig_delta' by assumption. unfold G'. ring.
    - cbn [sig]. ring. }
  apply sig_ext. intros k Hk. rewrite !(frame_ext _ _ _ EC). rewrite !frame_form by assumption. fold Om.
  pose proof (dd2_rec (L 0 i) (L 0 k) (L 0 j)) as R1. pose proof (dd2_rec' (L 0 i) (L 0 k) (L 0 j)) as R2. pose proof (SK i k Hi Hk) as S1. pose proof (SK k j Hk Hj) as S2. fold Om in S1, S2.
  replace (Om k i) with (- Om i k) by lra. replace (Om j k) with (- Om k j) by lra. unfold G.
  transitivity (delta i k * (dd2 (L 0 i) (L 0 k) (L 0 j) * L' i * B k j) + delta k j * (dd2 (L 0 i) (L 0 k) (L 0 j) * L' k * B i k) + (Om i k * B k j * (dd1 (L 0 k) (L 0 j) - dd1 (L 0 i) (L 0 j)) + B i k * Om k j * (dd1 (L 0 i) (L 0 j) - dd1 (L 0 i) (L 0 k)))); [ring|].
  rewrite <- R1, <- R2. ring.
Qed.

(** ** the same in any frame of eigenvectors *)
Definition comp (W : mtx) (x : vec) : vec := fun i => sig 3 (fun a => W a i * x a).
Lemma swap1 C V lam W L (g : R -> R) x y : eigen C lam V -> eigen C L W -> sig 3 (fun i => g (L i) * comp W x i * comp W y i) = sig 3 (fun p => g (lam p) * comp V x p * comp V y p).
Proof.
  intros EV EW. pose proof EV as (OV & _). pose proof EW as (OW & _). pose (Q := turn V W).
  assert (CV : forall z p, comp V z p = sig 3 (fun i => Q p i * comp W z i)).
  { intros z p. unfold comp at 1. rewrite (sig_ext 3 _ (fun a => V a p * sig 3 (fun b => sig 3 (fun i => W a i * W b i) * z b))); [unfold comp, Q, turn; cbn [sig]; ring|].
    intros a Ha. f_equal. rewrite (sig_ext 3 _ (fun b => delta a b * z b)); [now rewrite sig_delta'|]. intros b Hb. now rewrite (proj2 (OW a b Ha Hb)). }
  assert (CW : forall z i, (i < 3)%nat -> comp W z i = sig 3 (fun p => Q p i * comp V z p)).
  { intros z i Hi. unfold comp at 1. rewrite (sig_ext 3 _ (fun a => W a i * sig 3 (fun b => sig 3 (fun p => V a p * V b p) * z b))); [unfold comp, Q, turn; cbn [sig]; ring|].
    intros a Ha. f_equal. rewrite (sig_ext 3 _ (fun b => delta a b * z b)); [now rewrite sig_delta'|]. intros b Hb. now rewrite (proj2 (OV a b Ha Hb)). }
  transitivity (sig 3 (fun i => sig 3 (fun p => g (lam p) * Q p i * comp V x p * comp W y i))).
  - apply sig_ext. intros i Hi. rewrite (CW x i Hi). rewrite <- sig_mul, <- sig_mul_r. apply sig_ext. intros p Hp.
    pose proof (turn_eigen C V lam W L EV EW p i Hp Hi) as T1. fold Q in T1. destruct (Rmult_integral _ _ T1) as [Z|Z]; [rewrite Z; ring|]. replace (lam p) with (L i) by lra. ring.
  - transitivity (sig 3 (fun p => g (lam p) * comp V x p * sig 3 (fun i => Q p i * comp W y i))); [cbn [sig]; ring|]. apply sig_ext. intros p Hp. now rewrite <- CV.
Qed.
Definition unitv (a : nat) : vec := fun c => delta a c.
Definition colv (A W : mtx) (k : nat) : vec := fun a => sig 3 (fun b => A a b * W b k).
Lemma comp_unit W a i : (a < 3)%nat -> comp W (unitv a) i = W a i.
Proof. intros Ha. unfold comp, unitv. rewrite (sig_ext 3 _ (fun c => delta a c * W c i)); [now rewrite sig_delta'|]. intros; ring. Qed.
Lemma frame_comp W A i k : frame W A i k = comp W (colv A W k) i.
Proof. unfold frame, comp, colv. cbn [sig]. ring. Qed.
Definition tri (g : R -> R -> R -> R) (lam : vec) (V A B : mtx) (a b : nat) : R :=
  sig 3 (fun i => sig 3 (fun j => V a i * V b j * sig 3 (fun k => g (lam i) (lam k) (lam j) * (frame V A i k * frame V B k j)))).
Lemma sig27 f g : (forall i j k, (i < 3)%nat -> (j < 3)%nat -> (k < 3)%nat -> f i j k = g i j k) ->
  sig 3 (fun i => sig 3 (fun j => sig 3 (fun k => f i j k))) = sig 3 (fun i => sig 3 (fun j => sig 3 (fun k => g i j k))).
Proof. intros H. apply sig9. intros i j Hi Hj. apply sig_ext. intros k Hk. now apply H. Qed.
Lemma tri_frame C V lam W L g A B a b : eigen C lam V -> eigen C L W -> (a < 3)%nat -> (b < 3)%nat -> tri g L W A B a b = tri g lam V A B a b.
Proof.
  intros EV EW Ha Hb. unfold tri.
  transitivity (sig 3 (fun j => sig 3 (fun k => sig 3 (fun i => g (L i) (L k) (L j) * comp W (unitv a) i * comp W (colv A W k) i) * (comp W (unitv b) j * frame W B k j)))).
  { transitivity (sig 3 (fun i => sig 3 (fun j => sig 3 (fun k => g (L i) (L k) (L j) * comp W (unitv a) i * comp W (colv A W k) i * (comp W (unitv b) j * frame W B k j))))).
    - apply sig9. intros i j Hi Hj. rewrite <- sig_mul. apply sig_ext. intros k Hk. rewrite !comp_unit, <- frame_comp by assumption. ring.
    - generalize (fun i k j => g (L i) (L k) (L j)) as h. intros h. generalize (comp W (unitv a)), (comp W (unitv b)), (fun k => comp W (colv A W k)), (frame W B). intros u v w z. cbn [sig]. ring. }
  transitivity (sig 3 (fun p => sig 3 (fun k => sig 3 (fun j => g (lam p) (L k) (L j) * comp W (unitv b) j * comp W (colv (mtr B) W k) j) * (comp V (unitv a) p * comp V (colv A W k) p)))).
  { transitivity (sig 3 (fun j => sig 3 (fun k => sig 3 (fun p => g (lam p) (L k) (L j) * comp V (unitv a) p * comp V (colv A W k) p) * (comp W (unitv b) j * comp W (colv (mtr B) W k) j)))).
    - apply sig9. intros j k Hj Hk. f_equal; [exact (swap1 C V lam W L (fun x => g x (L k) (L j)) _ _ EV EW)|]. f_equal. unfold frame, comp, colv, mtr. cbn [sig]. ring.
    - generalize (fun i k j => g (lam i) (L k) (L j)) as h. intros h. generalize (comp V (unitv a)), (comp W (unitv b)), (fun k => comp V (colv A W k)), (fun k => comp W (colv (mtr B) W k)). intros u v w z. cbn [sig]. ring. }
  transitivity (sig 3 (fun p => sig 3 (fun q => sig 3 (fun k => g (lam p) (L k) (lam q) * comp W (colv (mtr A) V p) k * comp W (colv B V q) k) * (comp V (unitv a) p * comp V (unitv b) q)))).
  { transitivity (sig 3 (fun p => sig 3 (fun k => sig 3 (fun q => g (lam p) (L k) (lam q) * comp V (unitv b) q * comp V (colv (mtr B) W k) q) * (comp V (unitv a) p * comp V (colv A W k) p)))).
    - apply sig9. intros p k Hp Hk. f_equal. exact (swap1 C V lam W L (fun x => g (lam p) (L k) x) _ _ EV EW).
    - transitivity (sig 3 (fun p => sig 3 (fun k => sig 3 (fun q => g (lam p) (L k) (lam q) * comp V (unitv b) q * comp W (colv B V q) k) * (comp V (unitv a) p * comp W (colv (mtr A) V p) k)))).
      + apply sig9. intros p k Hp Hk. f_equal; [apply sig_ext; intros q Hq; f_equal|f_equal]; unfold comp, colv, mtr; cbn [sig]; ring.
      + generalize (fun i k j => g (lam i) (L k) (lam j)) as h. intros h. generalize (comp V (unitv a)), (comp V (unitv b)), (fun p => comp W (colv (mtr A) V p)), (fun k => comp W (colv B V k)). intros u v w z. cbn [sig]. ring. }
  apply sig9. intros p q Hp Hq. rewrite (swap1 C V lam W L (fun x => g (lam p) x (lam q)) _ _ EV EW). rewrite !comp_unit by assumption. rewrite Rmult_comm. f_equal. apply sig_ext. intros k Hk.
  rewrite Rmult_assoc. f_equal. f_equal; unfold frame, comp, colv, mtr; cbn [sig]; ring.
Qed.
Lemma curv_tri lam V H K a b : curv lam V H K a b = tri dd2 lam V H K a b + tri dd2 lam V K H a b.
Proof.
  unfold curv, tri. rewrite <- sig_add. apply sig_ext. intros i Hi. rewrite <- sig_add. apply sig_ext. intros j Hj. rewrite <- Rmult_plus_distr_l, <- sig_add. f_equal. apply sig_ext. intros; ring.
Qed.
Lemma curv_frame C V lam W L H K : eigen C lam V -> eigen C L W -> meq 3 (curv L W H K) (curv lam V H K).
Proof. intros EV EW a b Ha Hb. rewrite !curv_tri. now rewrite !(tri_frame C V lam W L) by assumption. Qed.

(** ** the code *)
Definition bil (K X H : mtx) : R := sig 3 (fun a => sig 3 (fun b => sig 3 (fun c => sig 3 (fun d => K a b * rd 3 X a b c d * H c d)))).
Definition msym (K : mtx) : mtx := fun a b => (K a b + K b a) / 2.
Lemma bil_inner K X H : InnerProduct 3 K (tm_prod 3 X H) = bil K X H.
Proof.
  unfold InnerProduct, msum, bil. rewrite tsum_sig. apply sig_ext. intros a Ha. rewrite tsum_sig. apply sig_ext. intros b Hb. rewrite tm_prod_at by assumption. cbn [sig]. ring.
Qed.
Lemma bil_add K X Y H : bil K (tadd X Y) H = bil K X H + bil K Y H.
Proof. unfold bil. rewrite <- sig_add. apply sig_ext. intros a _. rewrite <- sig_add. apply sig_ext. intros b _. rewrite <- sig_add. apply sig_ext. intros c _. rewrite <- sig_add. apply sig_ext. intros d _. rewrite rd_tadd. ring. Qed.
Lemma bil_scl K x Y H : bil K (tscl x Y) H = x * bil K Y H.
Proof. unfold bil. rewrite <- sig_mul. apply sig_ext. intros a _. rewrite <- sig_mul. apply sig_ext. intros b _. rewrite <- sig_mul. apply sig_ext. intros c _. rewrite <- sig_mul. apply sig_ext. intros d _. rewrite rd_tscl. ring. Qed.
Lemma bil_zero K H : bil K mzero H = 0.
Proof. unfold bil. apply sig_zero. intros a _. apply sig_zero. intros b _. apply sig_zero. intros c _. apply sig_zero. intros d _. rewrite rd_mzero. ring. Qed.
Definition dots (A B : mtx) : R := sig 3 (fun a => sig 3 (fun b => A a b * B a b)).
Lemma bil_kron K A B H : bil K (Kronecker 3 A B) H = dots K A * dots B H.
Proof.
  unfold bil, dots. transitivity (sig 3 (fun a => sig 3 (fun b => sig 3 (fun c => sig 3 (fun d => K a b * (A a b * B c d) * H c d))))); [|cbn [sig]; ring].
  apply sig9. intros a b Ha Hb. apply sig9. intros c d Hc Hd. now rewrite rd_Kronecker by assumption.
Qed.
Lemma dots_M K V i j : dots K (compute_Mij (compute_Ni V) (compute_Ni V) i j) = 2 * frame V (msym K) i j.
Proof. unfold dots, compute_Mij, compute_Ni, frame, msym. cbn [sig]. field. Qed.
Lemma dots_M' K V i j : dots (compute_Mij (compute_Ni V) (compute_Ni V) i j) K = 2 * frame V (msym K) i j.
Proof. rewrite <- dots_M. unfold dots. apply sig9. intros; ring. Qed.
Lemma zeta_frame T V i j : compute_zeta T (compute_Ni V) i j = frame V T i j.
Proof. unfold compute_zeta, InnerProduct, msum, vKron, compute_Ni, frame. cbn [sig tsum]. ring. Qed.
Lemma frame_msym V K i j : frame V (msym K) i j = frame V (msym K) j i.
Proof. unfold frame, msym. cbn [sig]. field. Qed.
Lemma frame_sym V K : meq 3 K (mtr K) -> forall i j, frame V K i j = frame V K j i.
Proof.
  intros E i j. unfold frame. rewrite sig_swap. apply sig9. intros a b Ha Hb. rewrite (E b a) by assumption. unfold mtr. ring.
Qed.
Lemma curv_power T lam V H K : InnerProduct 3 T (curv lam V H K) = sig 3 (fun i => sig 3 (fun j => frame V T i j * sig 3 (fun k => dd2 (lam i) (lam k) (lam j) * (frame V H i k * frame V K k j + frame V K i k * frame V H k j)))).
Proof.
  pose (G := fun i j => sig 3 (fun k => dd2 (lam i) (lam k) (lam j) * (frame V H i k * frame V K k j + frame V K i k * frame V H k j))).
  change (InnerProduct 3 T (fun a b => sig 3 (fun i => sig 3 (fun j => V a i * V b j * G i j))) = sig 3 (fun i => sig 3 (fun j => frame V T i j * G i j))).
  clearbody G. unfold InnerProduct, msum, frame. cbn [sig tsum]. ring.
Qed.
Definition full_guard (lam : vec) : Prop := (lam 1%nat = lam 2%nat -> lam 0%nat = lam 1%nat) /\ (lam 0%nat = lam 2%nat -> lam 0%nat = lam 1%nat).
Lemma TL2 T lam V H K : separated lam -> positive lam -> full_guard lam -> meq 3 T (mtr T) ->
  bil K (snd (compute_projector_PK2 T lam V true)) H = 4 * InnerProduct 3 T (curv lam V (msym H) (msym K)).
Proof.
  intros S P (G1 & G2) ST. destruct (theta_ok lam S P G1) as (TX & TE). specialize (TE G2). unfold compute_projector_PK2. fold (code_coef lam). destruct (code_coef lam) as [[th x] e] eqn:EC. unfold xi_of, eta_of in TX, TE. cbn [fst snd] in TX, TE.
  pose proof (fun i j => dots_M K V i j) as DM. pose proof (fun i j => dots_M' H V i j) as DM'. pose proof (fun i j => zeta_frame T V i j) as DZ.
  set (M := compute_Mij (compute_Ni V) (compute_Ni V)) in *. set (zt := compute_zeta T (compute_Ni V)) in *. clearbody M zt.
  cbn [seq fold_left Nat.eqb orb fst snd]. rewrite !bil_add, !bil_scl, !bil_add, !bil_scl, !bil_add, !bil_kron, !bil_zero, !DM, !DM', !DZ. clear DM DM' DZ M zt.
  rewrite !(fun i j Hi Hj N => proj2 (TX i j Hi Hj N)) by lia. rewrite TE.
  rewrite curv_power.
  assert (D : forall i, (i < 3)%nat -> compute_fi lam i = 8 * dd2 (lam i) (lam i) (lam i)).
  { intros i Hi. unfold compute_fi, dd2, hlog2. destruct (Req_EM_T (lam i) (lam i)); [|lra]. pose proof (P i Hi). field. lra. }
  rewrite !D by lia. clear D TX TE EC. pose proof (frame_sym V T ST) as ZS. pose proof (frame_msym V H) as HS. pose proof (frame_msym V K) as KS.
  set (Z := frame V T) in *. set (h := frame V (msym H)) in *. set (k := frame V (msym K)) in *. clearbody Z h k.
  cbn [sig]. rewrite (ZS 1 0)%nat, (ZS 2 0)%nat, (ZS 2 1)%nat, (HS 1 0)%nat, (HS 2 0)%nat, (HS 2 1)%nat, (KS 1 0)%nat, (KS 2 0)%nat, (KS 2 1)%nat.
  set (l0 := lam 0%nat) in *. set (l1 := lam 1%nat) in *. set (l2 := lam 2%nat) in *.
  assert (S1 : forall u v, dd2 u v u = dd2 v u u) by (intros; apply dd2_swap).
  assert (S2 : forall u v, dd2 u u v = dd2 v u u) by (intros; apply dd2_flip).
  rewrite (S1 l0 l1), (S1 l0 l2), (S1 l1 l0), (S1 l1 l2), (S1 l2 l0), (S1 l2 l1), (S2 l0 l1), (S2 l0 l2), (S2 l1 l0), (S2 l1 l2), (S2 l2 l0), (S2 l2 l1).
  assert (Q1 : dd2 l1 l0 l2 = dd2 l0 l1 l2) by apply dd2_swap. assert (Q2 : dd2 l2 l1 l0 = dd2 l0 l1 l2) by apply dd2_flip.
  assert (Q3 : dd2 l2 l0 l1 = dd2 l0 l1 l2) by (rewrite dd2_flip; exact Q1). assert (Q4 : dd2 l0 l2 l1 = dd2 l0 l1 l2) by (rewrite dd2_swap; exact Q3). assert (Q5 : dd2 l1 l2 l0 = dd2 l0 l1 l2) by (rewrite dd2_swap; exact Q2).
  rewrite Q1, Q2, Q3, Q4, Q5. field.
Qed.

(** ** the tangent *)
Definition unit2 (a b : nat) : mtx := fun c d => delta a c * delta b d.
Lemma inner_unit X a b : (a < 3)%nat -> (b < 3)%nat -> InnerProduct 3 (unit2 a b) X = X a b.
Proof.
  intros Ha Hb. unfold InnerProduct, msum, unit2. change tsum with sig; cbn beta. rewrite (sig_ext 3 _ (fun c => delta a c * X c b)); [now rewrite sig_delta'|]. intros c Hc. change tsum with sig; cbn beta.
  rewrite (sig_ext 3 _ (fun d => delta b d * (delta a c * X c d))); [now rewrite sig_delta'|]. intros; ring.
Qed.
Lemma inner_sym A B : InnerProduct 3 A B = InnerProduct 3 B A.
Proof. unfold InnerProduct, msum. cbn [tsum]. ring. Qed.
Lemma inner_meq A B X Y : meq 3 A B -> meq 3 X Y -> InnerProduct 3 A X = InnerProduct 3 B Y.
Proof. intros E1 E2. unfold InnerProduct, msum. cbn [tsum]. rewrite !E1, !E2 by lia. reflexivity. Qed.
Lemma inner_msym S K : meq 3 S (mtr S) -> InnerProduct 3 S (msym K) = InnerProduct 3 S K.
Proof.
  intros E. unfold InnerProduct, msum, msym. cbn [tsum]. pose proof (E 1 0 ltac:(lia) ltac:(lia))%nat as E1. pose proof (E 2 0 ltac:(lia) ltac:(lia))%nat as E2. pose proof (E 2 1 ltac:(lia) ltac:(lia))%nat as E3. unfold mtr in *. rewrite E1, E2, E3. field.
Qed.
Lemma sum4_swap (f : nat -> nat -> nat -> nat -> R) : sig 3 (fun a => sig 3 (fun b => sig 3 (fun k => sig 3 (fun l => f a b k l)))) = sig 3 (fun k => sig 3 (fun l => sig 3 (fun a => sig 3 (fun b => f a b k l)))).
Proof. cbn [sig]. ring. Qed.
Lemma bil_transpose K P X : InnerProduct 3 K (tm_prod 3 (transpose 3 P) X) = InnerProduct 3 (tm_prod 3 P K) X.
Proof.
  rewrite bil_inner. unfold bil. rewrite (sum4_swap (fun a b k l => K a b * rd 3 (transpose 3 P) a b k l * X k l)). unfold InnerProduct, msum. change tsum with sig; cbn beta. apply sig_ext. intros k Hk. change tsum with sig; cbn beta. apply sig_ext. intros l Hl.
  rewrite tm_prod_at by assumption. rewrite <- sig_mul_r. apply sig_ext. intros a Ha. rewrite <- sig_mul_r. apply sig_ext. intros b Hb. rewrite rd_transpose by assumption. ring.
Qed.
Lemma prod_meq A X Y : meq 3 X Y -> meq 3 (tm_prod 3 A X) (tm_prod 3 A Y).
Proof. intros E i j Hi Hj. rewrite !tm_prod_at by assumption. apply sig9. intros k l Hk Hl. now rewrite E. Qed.
Lemma prod_contracted A B X : meq 3 (tm_prod 3 (ContractedProduct 3 A B) X) (tm_prod 3 A (tm_prod 3 B X)).
Proof.
  intros i j Hi Hj. rewrite !tm_prod_at by assumption.
  transitivity (sig 3 (fun k => sig 3 (fun l => sig 3 (fun p => sig 3 (fun q => rd 3 A i j p q * rd 3 B p q k l * X k l))))).
  - apply sig9. intros k l Hk Hl. rewrite rd_Contracted by assumption. rewrite <- sig_mul_r. apply sig_ext. intros p Hp. rewrite <- sig_mul_r. apply sig_ext. intros q Hq. ring.
  - rewrite (sum4_swap (fun k l p q => rd 3 A i j p q * rd 3 B p q k l * X k l)). apply sig9. intros p q Hp Hq. rewrite tm_prod_at by assumption. rewrite <- sig_mul. apply sig_ext. intros k Hk. rewrite <- sig_mul. apply sig_ext. intros l Hl. ring.
Qed.
Definition code_C2 (T D : mtx) (lam : vec) (V : mtx) : mtx :=
  let p2 := compute_projector_PK2 T lam V true in tadd (ContractedProduct 3 (transpose 3 (fst p2)) (ContractedProduct 3 D (fst p2))) (snd p2).
Lemma rate_scal lam V K c : forall H, (forall i j, frame V H i j = c * frame V K i j) -> forall a b, rate lam V H a b = c * rate lam V K a b.
Proof. intros H E a b. unfold rate, recompose. rewrite <- sig_mul. apply sig_ext. intros i Hi. rewrite <- sig_mul. apply sig_ext. intros j Hj. rewrite E. ring. Qed.
Lemma curv_scal lam V K c G : forall H, (forall i j, frame V H i j = c * frame V K i j) -> forall a b, curv lam V H G a b = c * curv lam V K G a b.
Proof.
  intros H E a b. unfold curv. rewrite <- sig_mul. apply sig_ext. intros i Hi. rewrite <- sig_mul. apply sig_ext. intros j Hj.
  rewrite (sig_ext 3 _ (fun k => c * (dd2 (lam i) (lam k) (lam j) * (frame V K i k * frame V G k j + frame V G i k * frame V K k j)))) by (intros k Hk; rewrite !E; ring). rewrite sig_mul. ring.
Qed.
Lemma P2_apply T lam V K : separated lam -> positive lam -> full_guard lam -> meq 3 (tm_prod 3 (fst (compute_projector_PK2 T lam V true)) K) (mscal 2 (rate lam V (msym K))).
Proof.
  intros S P (G1 & G2) a b Ha Hb. unfold mscal. unfold rate. rewrite <- (recompose_ext V _ _ _ a b (Theta_dd1 lam S P G1)). rewrite <- (projector2_apply T lam V true (msym K) a b Ha Hb) by (intros; unfold msym; field).
  rewrite !tm_prod_at by assumption.
  assert (Y : forall k l, (k < 3)%nat -> (l < 3)%nat -> rd 3 (fst (compute_projector_PK2 T lam V true)) a b k l = rd 3 (fst (compute_projector_PK2 T lam V true)) a b l k).
  { intros k l Hk Hl. rewrite !projector2_at by assumption. apply sig9. intros i j _ _. unfold compute_Mij. ring. }
  pose proof (Y 1 0 ltac:(lia) ltac:(lia))%nat as E1. pose proof (Y 2 0 ltac:(lia) ltac:(lia))%nat as E2. pose proof (Y 2 1 ltac:(lia) ltac:(lia))%nat as E3. clear Y.
  cbn [sig]. rewrite E1, E2, E3. unfold msym. field.
Qed.
Lemma C2_bil T D lam V H K : separated lam -> positive lam -> full_guard lam -> meq 3 T (mtr T) ->
  bil K (code_C2 T D lam V) H = 4 * InnerProduct 3 (rate lam V (msym K)) (tm_prod 3 D (rate lam V (msym H))) + 4 * InnerProduct 3 T (curv lam V (msym H) (msym K)).
Proof.
  intros S P G ST. unfold code_C2. rewrite bil_add, TL2 by assumption. f_equal. rewrite <- bil_inner.
  rewrite (inner_meq K K _ _ (fun _ _ _ _ => eq_refl) (prod_contracted _ _ H)). rewrite bil_transpose.
  rewrite (inner_meq _ _ _ _ (P2_apply T lam V K S P G) (prod_contracted D _ H)).
  rewrite (inner_meq _ _ _ _ (fun _ _ _ _ => eq_refl) (prod_meq D _ _ (P2_apply T lam V H S P G))).
  rewrite !bil_inner. unfold bil, mscal. rewrite <- sig_mul. apply sig_ext. intros a _. rewrite <- sig_mul. apply sig_ext. intros b _. rewrite <- sig_mul. apply sig_ext. intros c _. rewrite <- sig_mul. apply sig_ext. intros d _. ring.
Qed.
Lemma sym_deriv A A' : (forall t, meq 3 (A t) (mtr (A t))) -> mderiv A A' -> meq 3 A' (mtr A').
Proof. intros E D. apply (mderiv_unique A (fun t => mtr (A t))); [exact E|exact D|]. intros a b Ha Hb. exact (D b a Hb Ha). Qed.
Lemma eigen_sym C lam V : eigen C lam V -> meq 3 C (mtr C).
Proof. intros (_ & E) a b Ha Hb. unfold mtr. rewrite (E a b Ha Hb), (E b a Hb Ha). apply sig_ext. intros; ring. Qed.
Lemma inner_deriv T T' X X' : mderiv T T' -> mderiv X X' -> derivable_pt_lim (fun t => InnerProduct 3 (T t) (X t)) 0 (InnerProduct 3 T' (X 0) + InnerProduct 3 (T 0) X').
Proof.
  intros HT HX. replace (InnerProduct 3 T' (X 0) + InnerProduct 3 (T 0) X') with (sig 3 (fun a => sig 3 (fun b => T' a b * X 0 a b + T 0 a b * X' a b))) by (unfold InnerProduct, msum; cbn [sig tsum]; ring).
  unfold InnerProduct, msum. apply (dsum3 (fun a t => tsum 3 (fun b => T t a b * X t a b))). intros a Ha. apply (dsum3 (fun b t => T t a b * X t a b)). intros b Hb.
  apply (derivable_pt_lim_mult (fun t => T t a b) (fun t => X t a b)); [now apply HT|now apply HX].
Qed.
Lemma conj_at S T lam V a b : meq 3 S (mtr S) -> (forall K, meq 3 K (mtr K) -> InnerProduct 3 S K = 2 * InnerProduct 3 T (rate lam V K)) -> (a < 3)%nat -> (b < 3)%nat ->
  S a b = 2 * InnerProduct 3 T (rate lam V (msym (unit2 a b))).
Proof.
  intros SS CJ Ha Hb. rewrite <- CJ by (intros c d _ _; unfold msym, mtr; field). rewrite inner_msym by exact SS. rewrite inner_sym, inner_unit by assumption. reflexivity.
Qed.
Lemma tangent2 C C' L L' W W' lam V T T' D S : mderiv C C' -> (forall t, eigen (C t) (L t) (W t)) -> mderiv W W' -> (forall i, (i < 3)%nat -> derivable_pt_lim (fun t => L t i) 0 (L' i)) ->
  eigen (C 0) lam V -> positive lam -> separated lam -> full_guard lam -> mderiv T T' -> meq 3 T' (tm_prod 3 D (rate lam V C')) -> meq 3 (T 0) (mtr (T 0)) ->
  (forall t, meq 3 (S t) (mtr (S t))) -> (forall t K, meq 3 K (mtr K) -> InnerProduct 3 (S t) K = 2 * InnerProduct 3 (T t) (rate (L t) (W t) K)) ->
  mderiv S (tm_prod 3 (code_C2 (T 0) D lam V) (mscal (1 / 2) C')).
Proof.
  intros HC E HW HL EV P SE G HT TD ST SS CJ a b Ha Hb. pose proof (eigen_positive _ _ _ _ _ EV (E 0) P) as P0.
  pose (U := msym (unit2 a b)).
  assert (DS : derivable_pt_lim (fun t => S t a b) 0 (2 * (InnerProduct 3 T' (rate (L 0) (W 0) U) + InnerProduct 3 (T 0) (curv (L 0) (W 0) C' U)))).
  { apply (d_local (fun t => 2 * InnerProduct 3 (T t) (rate (L t) (W t) U)) _ _ 1); [lra|intros t _; exact (eq_sym (conj_at (S t) (T t) (L t) (W t) a b (SS t) (CJ t) Ha Hb))|].
    apply (derivable_pt_lim_scal (fun t => InnerProduct 3 (T t) (rate (L t) (W t) U))). apply (inner_deriv T T' (fun t => rate (L t) (W t) U)); [exact HT|]. exact (rate_deriv C C' L L' W W' U HC E HW HL P0). }
  replace (tm_prod 3 (code_C2 (T 0) D lam V) (mscal (1 / 2) C') a b) with (2 * (InnerProduct 3 T' (rate (L 0) (W 0) U) + InnerProduct 3 (T 0) (curv (L 0) (W 0) C' U))); [exact DS|]. clear DS.
  rewrite <- (inner_unit (tm_prod 3 _ _) a b Ha Hb), bil_inner, C2_bil by assumption. fold U.
  assert (CS : meq 3 C' (mtr C')) by (apply (sym_deriv C C'); [intros t; exact (eigen_sym _ _ _ (E t))|exact HC]).
  assert (F2 : forall i j, frame V (msym (mscal (1 / 2) C')) i j = 1 / 2 * frame V C' i j).
  { intros i j. unfold frame. rewrite <- sig_mul. apply sig_ext. intros c Hc. rewrite <- sig_mul. apply sig_ext. intros d Hd. unfold msym, mscal. rewrite (CS d c Hd Hc). unfold mtr. field. }
  rewrite (inner_meq T' _ _ (rate lam V U) TD) by (intros c d Hc Hd; symmetry; exact (change_frame (C 0) V lam (W 0) (L 0) dd1 U EV (E 0) c d Hc Hd)).
  rewrite (inner_meq (T 0) (T 0) _ (curv lam V C' U) (fun _ _ _ _ => eq_refl)) by exact (curv_frame (C 0) V lam (W 0) (L 0) C' U EV (E 0)).
  rewrite (inner_meq (T 0) (T 0) (curv lam V (msym (mscal (1 / 2) C')) U) (mscal (1 / 2) (curv lam V C' U)) (fun _ _ _ _ => eq_refl)) by (intros c d Hc Hd; exact (curv_scal lam V C' (1 / 2) U _ F2 c d)).
  rewrite (inner_meq (rate lam V U) (rate lam V U) _ (tm_prod 3 D (mscal (1 / 2) (rate lam V C'))) (fun _ _ _ _ => eq_refl)) by (apply prod_meq; intros c d Hc Hd; exact (rate_scal lam V C' (1 / 2) _ F2 c d)).
  rewrite (inner_sym (tm_prod 3 D _) (rate lam V U)). rewrite !bil_inner.
  assert (B2 : bil (rate lam V U) D (mscal (1 / 2) (rate lam V C')) = 1 / 2 * bil (rate lam V U) D (rate lam V C')).
  { unfold bil, mscal. rewrite <- sig_mul. apply sig_ext. intros c _. rewrite <- sig_mul. apply sig_ext. intros d _. rewrite <- sig_mul. apply sig_ext. intros e _. rewrite <- sig_mul. apply sig_ext. intros f _. ring. }
  rewrite B2. unfold InnerProduct, msum, mscal. generalize (curv lam V C' U). intros X. cbn [tsum]. field.
Qed.

(** ** first Piola-Kirchhoff stress *)
Lemma rate_adjoint T lam V K : InnerProduct 3 T (rate lam V K) = InnerProduct 3 (rate lam V T) K.
Proof.
  transitivity (sig 3 (fun i => sig 3 (fun j => frame V T i j * dd1 (lam i) (lam j) * frame V K i j))).
  - pose (G := fun i j => dd1 (lam i) (lam j) * frame V K i j).
    transitivity (InnerProduct 3 T (fun a b => sig 3 (fun i => sig 3 (fun j => V a i * V b j * G i j)))).
    { apply inner_meq; [intros c d _ _; reflexivity|]. intros a b _ _. unfold rate, recompose, G. apply sig9. intros; ring. }
    transitivity (sig 3 (fun i => sig 3 (fun j => frame V T i j * G i j))); [|unfold G; apply sig9; intros; ring].
    clearbody G. unfold InnerProduct, msum, frame. cbn [sig tsum]. ring.
  - pose (G := fun i j => dd1 (lam i) (lam j) * frame V T i j).
    transitivity (InnerProduct 3 K (fun a b => sig 3 (fun i => sig 3 (fun j => V a i * V b j * G i j)))).
    2:{ rewrite inner_sym. apply inner_meq; [|intros c d _ _; reflexivity]. intros a b _ _. unfold rate, recompose, G. apply sig9. intros; ring. }
    transitivity (sig 3 (fun i => sig 3 (fun j => frame V K i j * G i j))); [unfold G; apply sig9; intros; ring|].
    clearbody G. unfold InnerProduct, msum, frame. cbn [sig tsum]. ring.
Qed.
Definition pk2 (lam : vec) (V T : mtx) : mtx := fun a b => rate lam V T a b + rate lam V T b a.
Lemma pk2_sym lam V T : symmetric (pk2 lam V T). Proof. intros a b _ _. unfold pk2, mtr. ring. Qed.
Lemma pk2_conj lam V T K : symmetric K -> InnerProduct 3 (pk2 lam V T) K = 2 * InnerProduct 3 T (rate lam V K).
Proof.
  intros E. rewrite rate_adjoint. rewrite <- (inner_msym K (rate lam V T) E) || idtac. unfold pk2. generalize (rate lam V T). intros N.
  pose proof (E 1 0 ltac:(lia) ltac:(lia))%nat as E1. pose proof (E 2 0 ltac:(lia) ltac:(lia))%nat as E2. pose proof (E 2 1 ltac:(lia) ltac:(lia))%nat as E3. unfold mtr in *.
  unfold InnerProduct, msum. cbn [tsum]. rewrite E1, E2, E3. ring.
Qed.
Lemma conj_pk1 P T F lam V : conjugate P T F lam V -> meq 3 P (mmul 3 F (pk2 lam V T)).
Proof.
  intros H a b Ha Hb. rewrite <- (inner_unit P a b Ha Hb), <- (inner_unit (mmul 3 F (pk2 lam V T)) a b Ha Hb), inner_sym. rewrite H.
  change (strain_rate lam V (cauchy_green_rate F (unit2 a b))) with (rate lam V (cauchy_green_rate F (unit2 a b))). rewrite rate_adjoint. rewrite (inner_sym (unit2 a b)). unfold pk2. generalize (rate lam V T), (unit2 a b). intros N G.
  unfold InnerProduct, msum, cauchy_green_rate, mmul. cbn [sig tsum]. ring.
Qed.
Lemma code_pk2 T lam V : separated lam -> positive lam -> full_guard lam -> meq 3 (tm_prod_left 3 T (fst (compute_projector_PK2 T lam V true))) (pk2 lam V T).
Proof.
  intros S P G a b Ha Hb. rewrite <- (inner_unit (tm_prod_left 3 T _) a b Ha Hb), inner_sym.
  assert (LP : forall X K, InnerProduct 3 (tm_prod_left 3 T X) K = InnerProduct 3 T (tm_prod 3 X K)).
  { intros X K. rewrite bil_inner. unfold bil. rewrite (sum4_swap (fun a b c d => T a b * rd 3 X a b c d * K c d)). unfold InnerProduct, msum. change tsum with sig. apply sig9. intros c d Hc Hd. rewrite tm_prod_left_at by assumption. rewrite <- sig_mul_r. apply sig_ext. intros. rewrite <- sig_mul_r. reflexivity. }
  rewrite LP. rewrite (inner_meq T T _ _ (fun _ _ _ _ => eq_refl) (P2_apply T lam V (unit2 a b) S P G)).
  transitivity (2 * InnerProduct 3 T (rate lam V (msym (unit2 a b)))); [unfold InnerProduct, msum, mscal; generalize (rate lam V (msym (unit2 a b))); intros X; cbn [tsum]; ring|].
  rewrite <- pk2_conj by (intros c d _ _; unfold msym, mtr; field). rewrite inner_msym by apply pk2_sym. rewrite inner_sym, inner_unit by assumption. reflexivity.
Qed.

Lemma bil_unit X H a b : (a < 3)%nat -> (b < 3)%nat -> bil (unit2 a b) X H = sig 3 (fun c => sig 3 (fun d => rd 3 X a b c d * H c d)).
Proof. intros Ha Hb. rewrite <- bil_inner, inner_unit by assumption. now apply tm_prod_at. Qed.
Lemma bil_unit2 X a b c d : (a < 3)%nat -> (b < 3)%nat -> (c < 3)%nat -> (d < 3)%nat -> bil (unit2 a b) X (unit2 c d) = rd 3 X a b c d.
Proof.
  intros Ha Hb Hc Hd. rewrite bil_unit by assumption. rewrite <- (inner_unit (fun c d => rd 3 X a b c d) c d Hc Hd), inner_sym. reflexivity.
Qed.
Lemma bil_major D X Y : major D -> bil X D Y = bil Y D X.
Proof.
  intros M. unfold bil. rewrite (sum4_swap (fun a b c d => X a b * rd 3 D a b c d * Y c d)). apply sig9. intros c d Hc Hd. apply sig9. intros a b Ha Hb. rewrite (M a b c d) by assumption. ring.
Qed.
Lemma curv_sym lam V H K a b : curv lam V H K a b = curv lam V K H a b.
Proof. unfold curv. apply sig9. intros i j _ _. f_equal. apply sig_ext. intros k _. ring. Qed.
Lemma C2_major T D lam V : separated lam -> positive lam -> full_guard lam -> symmetric T -> major D -> major (code_C2 T D lam V).
Proof.
  intros S P G ST M a b c d Ha Hb Hc Hd. rewrite <- (bil_unit2 _ a b c d), <- (bil_unit2 _ c d a b) by assumption. rewrite !C2_bil by assumption. rewrite !bil_inner. rewrite (bil_major D _ _ M). f_equal. f_equal.
  apply inner_meq; [intros e f _ _; reflexivity|]. intros e f _ _. apply curv_sym.
Qed.
Lemma C2_minor T D lam V H K X : separated lam -> positive lam -> full_guard lam -> symmetric T -> meq 3 (msym H) (msym K) -> bil X (code_C2 T D lam V) H = bil X (code_C2 T D lam V) K.
Proof.
  intros S P G ST E. rewrite !C2_bil by assumption.
  assert (FE : forall i j, frame V (msym H) i j = 1 * frame V (msym K) i j) by (intros i j; rewrite (frame_ext V _ _ E); ring).
  f_equal; f_equal; apply inner_meq; try (intros e f _ _; reflexivity).
  - apply prod_meq. intros c d _ _. rewrite (rate_scal lam V (msym K) 1 _ FE). ring.
  - intros c d _ _. rewrite (curv_scal lam V (msym K) 1 _ _ FE). ring.
Qed.
Lemma ctoa_apply C S F H i J : major C -> symmetric S -> (i < 3)%nat -> (J < 3)%nat ->
  tm_prod 3 (convertCtoA C S F) H i J = sig 3 (fun M => F i M * tm_prod 3 C (mmul 3 (mtr F) H) M J) + sig 3 (fun L => S J L * H i L).
Proof.
  intros M SS Hi HJ. rewrite tm_prod_at by assumption. pose proof (ctoa_at C S F) as AT. cbv zeta in AT.
  transitivity (sig 3 (fun k => sig 3 (fun L => (sig 3 (fun P => sig 3 (fun N => F i P * rd 3 C P J N L * F k N)) + delta i k * S J L) * H k L))).
  - apply sig9. intros k L Hk HL. f_equal. rewrite AT by assumption.
    assert (VV : forall i J k L, (i < 3)%nat -> (J < 3)%nat -> (k < 3)%nat -> (L < 3)%nat -> sig 3 (fun M => sig 3 (fun N => rd 3 C M J N L * F k N) * F i M) + (if (i =? k)%nat then S J L else 0) =
       sig 3 (fun M => sig 3 (fun N => F i M * rd 3 C M J N L * F k N)) + delta i k * S J L).
    { intros. f_equal; [|unfold delta; destruct (_ =? _)%nat; ring]. apply sig_ext. intros Q HQ. rewrite <- sig_mul_r. apply sig_ext. intros. ring. }
    destruct ((i <? k) || ((i =? k) && (J <=? L)))%nat%bool; rewrite VV by assumption; [|reflexivity]. f_equal.
    + rewrite sig_swap. apply sig_ext. intros Q HQ. apply sig_ext. intros N HN. rewrite (M N L Q J) by assumption. ring.
    + unfold delta. rewrite Nat.eqb_sym. rewrite (SS L J HL HJ). reflexivity.
  - rewrite (sig_ext 3 (fun P => F i P * tm_prod 3 C (mmul 3 (mtr F) H) P J) (fun P => F i P * sig 3 (fun N => sig 3 (fun L => rd 3 C P J N L * sig 3 (fun k => F k N * H k L))))) by (intros P HP; rewrite tm_prod_at by assumption; reflexivity).
    rewrite <- (sig_delta' 3 i (fun k => sig 3 (fun L => S J L * H k L)) Hi).
    transitivity (sig 3 (fun k => sig 3 (fun L => sig 3 (fun P => sig 3 (fun N => F i P * rd 3 C P J N L * F k N)) * H k L)) + sig 3 (fun k => delta i k * sig 3 (fun L => S J L * H k L))).
    + cbn [sig]. ring.
    + f_equal. pose (c := fun P N L => rd 3 C P J N L).
      change (sig 3 (fun k => sig 3 (fun L => sig 3 (fun P => sig 3 (fun N => F i P * c P N L * F k N)) * H k L)) = sig 3 (fun P => F i P * sig 3 (fun N => sig 3 (fun L => c P N L * sig 3 (fun k => F k N * H k L))))).
      clearbody c. cbn [sig]. ring.
Qed.
Lemma mul_deriv F F' S S' : mderiv F F' -> mderiv S S' -> mderiv (fun t => mmul 3 (F t) (S t)) (fun a b => sig 3 (fun k => F' a k * S 0 k b + F 0 a k * S' k b)).
Proof.
  intros HF HS a b Ha Hb. unfold mmul. apply (dsum3 (fun k t => F t a k * S t k b)). intros k Hk. apply (derivable_pt_lim_mult (fun t => F t a k) (fun t => S t k b)); [now apply HF|now apply HS].
Qed.
Lemma tangent1 F F' L L' W W' lam V T T' D P : mderiv F F' -> (forall t, eigen (cauchy_green (F t)) (L t) (W t)) -> mderiv W W' -> (forall i, (i < 3)%nat -> derivable_pt_lim (fun t => L t i) 0 (L' i)) ->
  eigen (cauchy_green (F 0)) lam V -> positive lam -> separated lam -> full_guard lam -> mderiv T T' -> meq 3 T' (tm_prod 3 D (rate lam V (green_rate (F 0) F'))) -> symmetric (T 0) -> major D ->
  (forall t, conjugate (P t) (T t) (F t) (L t) (W t)) ->
  mderiv P (tm_prod 3 (convertCtoA (code_C2 (T 0) D lam V) (tm_prod_left 3 (T 0) (fst (compute_projector_PK2 (T 0) lam V true))) (F 0)) F').
Proof.
  intros HF E HW HL EV PO SE G HT TD ST MD CJ. pose (S := fun t => pk2 (L t) (W t) (T t)). pose (C := fun t => cauchy_green (F t)). pose (C2 := code_C2 (T 0) D lam V).
  assert (DS : mderiv S (tm_prod 3 C2 (mscal (1 / 2) (green_rate (F 0) F')))).
  { apply (tangent2 C (green_rate (F 0) F') L L' W W' lam V T T' D S); try assumption; [exact (green_deriv F F' HF)|intros t; apply pk2_sym|intros t K HK; now apply pk2_conj]. }
  assert (S0 : meq 3 (tm_prod_left 3 (T 0) (fst (compute_projector_PK2 (T 0) lam V true))) (S 0)).
  { intros a b Ha Hb. rewrite (code_pk2 (T 0) lam V SE PO G a b Ha Hb). unfold S, pk2. f_equal; apply (change_frame (C 0) V lam (W 0) (L 0) dd1 (T 0) EV (E 0)); assumption. }
  set (SC := tm_prod_left 3 (T 0) (fst (compute_projector_PK2 (T 0) lam V true))) in *.
  assert (SS : symmetric SC). { intros a b Ha Hb. unfold mtr. rewrite (S0 a b Ha Hb), (S0 b a Hb Ha). exact (pk2_sym _ _ _ a b Ha Hb). }
  apply (mderiv_ext (fun t => mmul 3 (F t) (S t))). { intros t a b Ha Hb. symmetry. exact (conj_pk1 (P t) (T t) (F t) (L t) (W t) (CJ t) a b Ha Hb). }
  intros i J Hi HJ. rewrite ctoa_apply by (try assumption; now apply C2_major). fold C2.
  replace (sig 3 (fun M => F 0 i M * tm_prod 3 C2 (mmul 3 (mtr (F 0)) F') M J) + sig 3 (fun L0 => SC J L0 * F' i L0)) with (sig 3 (fun k => F' i k * S 0 k J + F 0 i k * tm_prod 3 C2 (mscal (1 / 2) (green_rate (F 0) F')) k J)); [exact (mul_deriv F F' S _ HF DS i J Hi HJ)|].
  rewrite sig_add. rewrite Rplus_comm. f_equal; apply sig_ext; intros k Hk.
  - f_equal. rewrite <- (inner_unit (tm_prod 3 C2 (mscal (1 / 2) (green_rate (F 0) F'))) k J Hk HJ), <- (inner_unit (tm_prod 3 C2 (mmul 3 (mtr (F 0)) F')) k J Hk HJ), !bil_inner. apply C2_minor; try assumption.
    intros a b Ha Hb. unfold msym, mscal, green_rate, mmul, mtr. cbn [sig]. field.
  - rewrite (SS J k HJ Hk). unfold mtr. rewrite (S0 k J Hk HJ). ring.
Qed.
