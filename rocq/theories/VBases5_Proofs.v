(** Proofs about the tangential bases: number of functions, independence, gradients. *)
From Coq Require Import List Arith ZArith Bool Reals Lia Lra.
From Verif Require Import Common Tensor_Spec Tensor_Proofs Law2_Proofs Bases_Model Bases_Spec Bases_Proofs Bases2_Proofs Bases3_Proofs VBases_Model VBases_Spec VBases_Proofs VBases2_Proofs VBases3_Proofs.
Import ListNotations.
Open Scope R_scope.

Definition fref (bar e0 e1 x : nat -> R) (i : nat) : R := face_coord bar (match i with O => e0 | _ => e1 end) x.
Lemma flat_as_seq' {A B} (dflt : A) (g : A -> list B) l : flat_map g l = flat_map (fun i => g (nth i l dflt)) (seq 0 (length l)).
Proof.
  induction l as [|a l IH]; [reflexivity|]. cbn [length seq flat_map nth]. f_equal. rewrite IH, !flat_map_concat_map. f_equal. rewrite <- seq_shift, map_map. reflexivity.
Qed.
Lemma dot_sum n (k : nat -> R) (c : nat -> nat -> R) e : sig 3 (fun a => e a * sig n (fun j => k j * c j a)) = sig n (fun j => k j * sig 3 (fun a => e a * c j a)).
Proof.
  rewrite (sig_ext 3 _ (fun a => sig n (fun j => e a * (k j * c j a)))) by (intros; symmetry; apply sig_mul). rewrite sig_swap. apply sig_ext. intros j _.
  rewrite <- sig_mul. apply sig_ext. intros. ring.
Qed.
Section Tan.
  Context (bar e0 e1 : nat -> R) (ON : orthonormal2 e0 e1).
  Notation m x e := (face_coord bar e0 x ^ fst e * face_coord bar e1 x ^ snd e).
  Notation rows x L := (flat_map (tan_rows (face_coord bar e0 x) (face_coord bar e1 x) e0 e1) L).
  Lemma nth_tan x L i q : (i < length L)%nat -> (q < 2)%nat ->
    nth (2 * i + q) (rows x L) [] = vec_row (fun c => (match q with O => e0 | _ => e1 end) c * m x (nth i L (0, 0)%nat)).
  Proof.
    intros Hi Hq. rewrite (flat_as_seq' (0, 0)%nat). rewrite (nth_flat _ 2) by (try assumption; intros; reflexivity). rewrite Nat.add_0_l. upto 2%nat q; reflexivity.
  Qed.
  Lemma sel_row (e v : nat -> R) : sig 3 (fun a => e a * nth a (vec_row v) 0) = inner e v.
  Proof. unfold vec_row, inner. cbn [sig nth]. ring. Qed.
  Lemma inner_scale e v s : inner e (fun c => v c * s) = inner e v * s. Proof. unfold inner. ring. Qed.
  Lemma inner_comb e s t : inner e (fun c => e0 c * s + e1 c * t) = inner e e0 * s + inner e e1 * t. Proof. unfold inner. ring. Qed.
  Notation ee q := (match q with O => e0 | _ => e1 end).
  Lemma ortho q r : (q < 2)%nat -> (r < 2)%nat -> inner (ee q) (ee r) = if (q =? r)%nat then 1 else 0.
  Proof. destruct ON as (H0 & H1 & H2). intros Hq Hr. upto 2%nat q; upto 2%nat r; cbn [Nat.eqb]; try assumption. rewrite <- H2. unfold inner. ring. Qed.
  Lemma tan_sum x L k q : (q < 2)%nat ->
    sig (2 * length L) (fun j => k j * sig 3 (fun a => ee q a * nth a (nth j (rows x L) []) 0)) = sig (length L) (fun i => k (2 * i + q)%nat * m x (nth i L (0, 0)%nat)).
  Proof.
    intros Hq. rewrite sig_block. apply sig_ext. intros i Hi. rewrite (sig_single 2 q); [|exact Hq|].
    - rewrite nth_tan by assumption. rewrite sel_row. rewrite (inner_scale _ (ee q)). rewrite ortho by assumption. rewrite Nat.eqb_refl. ring.
    - intros r Hr N. rewrite nth_tan by assumption. rewrite sel_row. rewrite (inner_scale _ (ee r)). rewrite ortho by assumption. destruct (Nat.eqb_spec q r); [congruence|ring].
  Qed.
  Lemma as2_mono x e : monomial (as2 e) (fref bar e0 e1 x) 0 = m x e.
  Proof. destruct e. cbn. ring. Qed.
  Lemma as2_mono_y e y : monomial (as2 e) y 0 = y 0%nat ^ fst e * y 1%nat ^ snd e.
  Proof. destruct e. cbn. ring. Qed.
  Lemma fonto : onto 2 (fref bar e0 e1). Proof. exact (face_onto bar e0 e1 ON). Qed.
  Lemma tan_indep deg : fits deg 2 -> vindependent 3 (vector_basis_size deg 2 2) (tangential_functions deg bar e0 e1).
  Proof.
    intros H k HZ j Hj. unfold vector_basis_size in *. rewrite (size2 deg) in * by exact H.
    destruct (split_index _ _ _ Hj) as (i & q & Hi & Hq & ->).
    assert (Li : length (map as2 (exps2 deg)) = length (exps2 deg)) by apply map_length.
    apply (indep_idx 2 (EE 2 deg) (fun i => k (2 * i + q)%nat)).
    - apply EE_nodup. auto.
    - intros a. apply EE_dim. auto.
    - intros y. destruct (fonto y) as (x & Hx). unfold EE. cbn [Nat.eqb]. rewrite map_length.
      assert (Z : sig 3 (fun a => ee q a * sig (2 * length (exps2 deg)) (fun j => k j * nth a (nth j (rows x (exps2 deg)) []) 0)) = 0).
      { rewrite (sig_ext 3 _ (fun _ => 0)). { apply sig_zero. reflexivity. } intros a Ha. specialize (HZ x a Ha). unfold vcomp in HZ. rewrite tangential_eq in HZ by exact H. rewrite HZ. ring. }
      rewrite dot_sum, tan_sum in Z by exact Hq. rewrite <- Z. apply sig_ext. intros l Hl. f_equal.
      rewrite (nth_indep _ [] (as2 (0, 0)%nat)) by (rewrite map_length; exact Hl). rewrite map_nth, as2_mono_y. rewrite <- !Hx by lia. reflexivity.
    - unfold EE. cbn [Nat.eqb]. rewrite map_length. exact Hi.
  Qed.
  Lemma tan_returns deg : fits deg 2 -> returns_vectors 3 (vector_basis_size deg 2 2) (tangential_functions deg bar e0 e1).
  Proof.
    intros H x. rewrite tangential_eq by exact H. eexists. split; [reflexivity|]. split; [rewrite len_tan; unfold vector_basis_size; rewrite size2 by exact H; reflexivity|].
    apply Forall_forall. intros r I. apply in_flat_map in I. destruct I as (e & _ & [<-|[<-|[]]]); reflexivity.
  Qed.
  Lemma ned_returns deg : fits (S deg) 2 -> returns_vectors 3 (nedelec_size deg) (nedelec_functions deg bar e0 e1).
  Proof.
    intros H x. rewrite nedelec_eq by exact H. eexists. split; [reflexivity|]. split.
    - unfold ned_all. rewrite app_length, len_tan, map_length, seq_length, nedelec_size_eq by exact H. lia.
    - apply Forall_app. split; apply Forall_forall; intros r I.
      + apply in_flat_map in I. destruct I as (e & _ & [<-|[<-|[]]]); reflexivity.
      + apply in_map_iff in I. destruct I as (i & <- & _). reflexivity.
  Qed.
  Lemma nth_ned x deg l : (l < deg + 2)%nat -> nth (2 * length (lower2 deg) + l) (ned_all deg bar e0 e1 x) [] = ned_row deg (face_coord bar e0 x) (face_coord bar e1 x) e0 e1 l.
  Proof.
    intros H. unfold ned_all. rewrite app_nth2 by (rewrite len_tan; lia). rewrite len_tan. replace (2 * length (lower2 deg) + l - 2 * length (lower2 deg))%nat with l by lia.
    apply nth_map_seq, H.
  Qed.
  Definition dmono q deg l (u v : R) : R :=
    match q with O => INR (S deg - l) * u ^ pred (S deg - l) * v ^ l | _ => u ^ (S deg - l) * (INR l * v ^ pred l) end.
  Lemma ned_sum x deg k q : (q < 2)%nat ->
    sig (2 * length (lower2 deg) + (deg + 2)) (fun j => k j * sig 3 (fun a => ee q a * nth a (nth j (ned_all deg bar e0 e1 x) []) 0))
    = sig (length (lower2 deg)) (fun i => k (2 * i + q)%nat * m x (nth i (lower2 deg) (0, 0)%nat))
      + sig (deg + 2) (fun l => k (2 * length (lower2 deg) + l)%nat * dmono q deg l (face_coord bar e0 x) (face_coord bar e1 x)).
  Proof.
    intros Hq. rewrite sig_plus. f_equal.
    - rewrite <- tan_sum by exact Hq. apply sig_ext. intros j Hj. f_equal. apply sig_ext. intros a _. f_equal. f_equal. unfold ned_all. apply app_nth1. rewrite len_tan. exact Hj.
    - apply sig_ext. intros l Hl. rewrite nth_ned by exact Hl. f_equal. unfold ned_row. rewrite sel_row, inner_comb.
      pose proof (ortho q 0 Hq ltac:(lia)) as O0. pose proof (ortho q 1 Hq ltac:(lia)) as O1. cbv beta iota in O0, O1. rewrite O0, O1. unfold dmono. upto 2%nat q; cbn [Nat.eqb]; ring.
  Qed.
  Lemma TT2_nth deg l : (l <= deg)%nat -> nth l (TT 2 deg) [] = as2 ((deg - l)%nat, l).
  Proof.
    intros H. unfold TT. cbn [Nat.eqb]. rewrite map_map. rewrite nth_map_seq by lia. reflexivity.
  Qed.
  Lemma split_sum deg (y : nat -> R) (g h : nat -> R) :
    sig (length (EE 2 deg)) (fun i => (if (i <? length (lower2 deg))%nat then g i else h (i - length (lower2 deg))%nat) * monomial (nth i (EE 2 deg) []) y 0)
    = sig (length (lower2 deg)) (fun i => g i * (y 0%nat ^ fst (nth i (lower2 deg) (0, 0)%nat) * y 1%nat ^ snd (nth i (lower2 deg) (0, 0)%nat)))
      + sig (S deg) (fun l => h l * (y 0%nat ^ (deg - l) * y 1%nat ^ l)).
  Proof.
    rewrite (EE_split 2) by auto. rewrite <- lower2_LL. rewrite app_length, map_length, len_TT2. rewrite sig_plus. f_equal.
    - apply sig_ext. intros i Hi. destruct (Nat.ltb_spec i (length (lower2 deg))); [|lia]. f_equal. rewrite app_nth1 by (rewrite map_length; exact Hi).
      rewrite (nth_indep _ [] (as2 (0, 0)%nat)) by (rewrite map_length; exact Hi). rewrite map_nth, as2_mono_y. reflexivity.
    - apply sig_ext. intros l Hl. destruct (Nat.ltb_spec (length (lower2 deg) + l) (length (lower2 deg))); [lia|].
      replace (length (lower2 deg) + l - length (lower2 deg))%nat with l by lia. f_equal. rewrite app_nth2 by (rewrite map_length; lia). rewrite map_length.
      replace (length (lower2 deg) + l - length (lower2 deg))%nat with l by lia. rewrite TT2_nth by lia. rewrite as2_mono_y. reflexivity.
  Qed.
  Lemma ned_indep deg : fits (S deg) 2 -> vindependent 3 (nedelec_size deg) (nedelec_functions deg bar e0 e1).
  Proof.
    intros H k HZ. rewrite nedelec_size_eq in * by exact H. set (nl := length (lower2 deg)) in *.
    assert (Z : forall x q, (q < 2)%nat -> sig nl (fun i => k (2 * i + q)%nat * m x (nth i (lower2 deg) (0, 0)%nat))
      + sig (deg + 2) (fun l => k (2 * nl + l)%nat * dmono q deg l (face_coord bar e0 x) (face_coord bar e1 x)) = 0).
    { intros x q Hq. unfold nl. rewrite <- ned_sum by exact Hq. rewrite <- dot_sum. rewrite (sig_ext 3 _ (fun _ => 0)). { apply sig_zero. reflexivity. }
      intros a Ha. specialize (HZ x a Ha). unfold vcomp in HZ. rewrite nedelec_eq in HZ by exact H. fold nl. rewrite HZ. ring. }
    assert (LE : length (EE 2 deg) = (nl + S deg)%nat).
    { rewrite (EE_split 2) by auto. rewrite <- lower2_LL, app_length, map_length, len_TT2. reflexivity. }
    assert (A0 : forall i, (i < length (EE 2 deg))%nat -> (if (i <? nl)%nat then k (2 * i + 0)%nat else k (2 * nl + (i - nl))%nat * INR (S deg - (i - nl))) = 0).
    { apply (indep_idx 2 (EE 2 deg) (fun i => if (i <? nl)%nat then k (2 * i + 0)%nat else k (2 * nl + (i - nl))%nat * INR (S deg - (i - nl)))); [apply EE_nodup; auto|intros a; apply EE_dim; auto|].
      intros y. pose proof (split_sum deg y (fun i => k (2 * i + 0)%nat) (fun l => k (2 * nl + l)%nat * INR (S deg - l))) as SS. cbv beta in SS. fold nl in SS. rewrite SS. destruct (fonto y) as (x & Hx).
      specialize (Z x 0%nat ltac:(lia)). rewrite <- Z. f_equal.
      - apply sig_ext. intros i Hi. f_equal. rewrite <- !Hx by lia. reflexivity.
      - replace (deg + 2)%nat with (S (S deg)) by lia. change (sig (S (S deg)) ?f) with (sig (S deg) f + f (S deg)). unfold dmono at 2. rewrite Nat.sub_diag. change (INR 0) with 0. rewrite !Rmult_0_l, Rmult_0_r, Rplus_0_r.
        apply sig_ext. intros l Hl. unfold dmono. rewrite <- (Hx 0%nat), <- (Hx 1%nat) by lia. unfold fref. replace (pred (S deg - l)) with (deg - l)%nat by lia. ring. }
    assert (A1 : forall i, (i < length (EE 2 deg))%nat -> (if (i <? nl)%nat then k (2 * i + 1)%nat else k (2 * nl + S (i - nl))%nat * INR (S (i - nl))) = 0).
    { apply (indep_idx 2 (EE 2 deg) (fun i => if (i <? nl)%nat then k (2 * i + 1)%nat else k (2 * nl + S (i - nl))%nat * INR (S (i - nl)))); [apply EE_nodup; auto|intros a; apply EE_dim; auto|].
      intros y. pose proof (split_sum deg y (fun i => k (2 * i + 1)%nat) (fun l => k (2 * nl + S l)%nat * INR (S l))) as SS. cbv beta in SS. fold nl in SS. rewrite SS. destruct (fonto y) as (x & Hx).
      specialize (Z x 1%nat ltac:(lia)). rewrite <- Z. f_equal.
      - apply sig_ext. intros i Hi. f_equal. rewrite <- !Hx by lia. reflexivity.
      - replace (deg + 2)%nat with (S (S deg)) by lia. rewrite (sig_shift (S deg)). unfold dmono at 1. change (INR 0) with 0. rewrite Rmult_0_l, !Rmult_0_r, Rplus_0_l.
        apply sig_ext. intros l Hl. unfold dmono. rewrite <- (Hx 0%nat), <- (Hx 1%nat) by lia. unfold fref. replace (S deg - S l)%nat with (deg - l)%nat by lia. cbn [pred]. ring. }
    intros j Hj. destruct (Nat.lt_ge_cases j (2 * nl)) as [C|C].
    - destruct (split_index _ _ _ C) as (i & q & Hi & Hq & ->). upto 2%nat q.
      + specialize (A0 i ltac:(lia)). apply Nat.ltb_lt in Hi. rewrite Hi in A0. exact A0.
      + specialize (A1 i ltac:(lia)). apply Nat.ltb_lt in Hi. rewrite Hi in A1. exact A1.
    - destruct (Nat.eq_dec j (2 * nl + S deg)) as [->|N].
      + specialize (A1 (nl + deg)%nat ltac:(lia)). destruct (Nat.ltb_spec (nl + deg) nl); [lia|]. replace (nl + deg - nl)%nat with deg in A1 by lia.
        apply Rmult_integral in A1. destruct A1 as [A1|A1]; [exact A1|]. exfalso. revert A1. apply not_0_INR. lia.
      + specialize (A0 (nl + (j - 2 * nl))%nat ltac:(lia)). destruct (Nat.ltb_spec (nl + (j - 2 * nl)) nl); [lia|]. replace (nl + (j - 2 * nl) - nl)%nat with (j - 2 * nl)%nat in A0 by lia.
        replace (2 * nl + (j - 2 * nl))%nat with j in A0 by lia.
        apply Rmult_integral in A0. destruct A0 as [A0|A0]; [exact A0|]. exfalso. revert A0. apply not_0_INR. lia.
  Qed.
  (** the added functions are gradients *)
  Lemma d_face x c e : (c < 3)%nat -> dlim (fun t => face_coord bar e (move x c t)) (x c) (e c).
  Proof.
    intros Hc. unfold face_coord. eapply d_eq; [|apply (d_sigf 3 (fun i t => (move x c t i - bar i) * e i) (fun i => if (i =? c)%nat then e i else 0))].
    - rewrite (sig_single 3 c); [rewrite Nat.eqb_refl; reflexivity|exact Hc|]. intros i _ N. apply Nat.eqb_neq in N. rewrite N. reflexivity.
    - intros i Hi. unfold move. destruct (Nat.eqb_spec i c) as [->|N].
      + eapply d_eq; [|apply (d_mult (fun t => t - bar c) (fun _ => e c)); [apply (d_minus (fun t => t) (fun _ => bar c)); [apply d_id|apply d_const]|apply d_const]]. ring.
      + apply (d_const ((x i - bar i) * e i)).
  Qed.
  Lemma face_same x c e : face_coord bar e (move x c (x c)) = face_coord bar e x.
  Proof. unfold face_coord. apply sig_ext. intros i _. unfold move. destruct (Nat.eqb_spec i c) as [->|]; reflexivity. Qed.
  Lemma ned_grad deg : fits (S deg) 2 -> forall l x c, (l < deg + 2)%nat -> (c < 3)%nat ->
    derivable_pt_lim (fun t => monomial [(S deg - l)%nat; l] (fref bar e0 e1 (move x c t)) 0) (x c) (vcomp (nedelec_functions deg bar e0 e1) (2 * length (lower2 deg) + l) c x).
  Proof.
    intros H l x c Hl Hc. unfold vcomp. rewrite nedelec_eq by exact H. rewrite nth_ned by exact Hl.
    eapply d_ext; [intros t; symmetry; apply (as2_mono (move x c t) ((S deg - l)%nat, l))|]. cbn [fst snd].
    eapply d_eq; [|apply d_prod2; apply d_face; exact Hc]. cbv beta. rewrite !face_same. unfold ned_row, vec_row. upto 3%nat c; cbn [nth]; ring.
  Qed.
End Tan.
