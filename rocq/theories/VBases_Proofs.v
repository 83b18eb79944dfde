(** Proofs about the vector and matrix bases: the loops, linear independence of monomials. *)
From Coq Require Import List Arith ZArith Bool Reals Lia Lra.
From Verif Require Import Common Tensor_Spec Tensor_Proofs Law2_Proofs Bases_Model Bases_Spec Bases_Proofs Bases2_Proofs Bases3_Proofs VBases_Model VBases_Spec.
Import ListNotations.
Open Scope R_scope.

(** ** loops *)
Lemma for_app {A} (f : list A -> nat -> outcome (list A)) (g : nat -> list A) n : forall beg s,
  (forall s i, (beg <= i < beg + n)%nat -> f s i = Ok (s ++ g i)) -> for_range beg (beg + n) f (Ok s) = Ok (s ++ flat_map g (seq beg n)).
Proof.
  unfold for_range. induction n as [|n IH]; intros beg s H.
  - replace (beg + 0 - beg)%nat with 0%nat by lia. cbn. rewrite app_nil_r. reflexivity.
  - replace (beg + S n - beg)%nat with (S n) by lia. cbn [seq fold_left flat_map]. cbn [bind]. rewrite H by lia.
    specialize (IH (S beg) (s ++ g beg)). replace (S beg + n - S beg)%nat with n in IH by lia. rewrite IH by (intros; apply H; lia).
    rewrite app_assoc. reflexivity.
Qed.
Lemma for_app' {A} (f : list A -> nat -> outcome (list A)) (g : nat -> list A) beg fin s : (beg <= fin)%nat ->
  (forall s i, (beg <= i < fin)%nat -> f s i = Ok (s ++ g i)) -> for_range beg fin f (Ok s) = Ok (s ++ flat_map g (seq beg (fin - beg))).
Proof. intros L H. replace fin with (beg + (fin - beg))%nat at 1 by lia. apply for_app. intros. apply H. lia. Qed.
Lemma for_empty {A} beg fin f (s : outcome A) : (fin <= beg)%nat -> for_range beg fin f s = s.
Proof. intros H. unfold for_range. replace (fin - beg)%nat with 0%nat by lia. reflexivity. Qed.
(** filling an array in order, [w] entries per turn *)
Lemma for_fill {A} (z : A) (w : nat) (f : list A -> nat -> outcome (list A)) (g : nat -> list A) n : forall beg L m p,
  (forall i L m, (beg <= i < beg + n)%nat -> length L = (p + w * (i - beg))%nat -> f (L ++ repeat z (w + m)) i = Ok (L ++ g i ++ repeat z m)) ->
  (forall i, (beg <= i < beg + n)%nat -> length (g i) = w) -> length L = p ->
  for_range beg (beg + n) f (Ok (L ++ repeat z (w * n + m))) = Ok (L ++ flat_map g (seq beg n) ++ repeat z m).
Proof.
  unfold for_range. induction n as [|n IH]; intros beg L m p H HL EL.
  - replace (beg + 0 - beg)%nat with 0%nat by lia. rewrite Nat.mul_0_r. reflexivity.
  - replace (beg + S n - beg)%nat with (S n) by lia. cbn [seq fold_left flat_map]. cbn [bind].
    replace (w * S n + m)%nat with (w + (w * n + m))%nat by lia. rewrite H by (try rewrite Nat.sub_diag; lia).
    specialize (IH (S beg) (L ++ g beg) m (p + w)%nat). replace (S beg + n - S beg)%nat with n in IH by lia.
    rewrite app_assoc, IH.
    + rewrite !app_assoc. reflexivity.
    + intros i L' m' I E. apply H; [lia|]. rewrite E. replace (i - beg)%nat with (S (i - S beg)) by lia. lia.
    + intros i I. apply HL. lia.
    + rewrite app_length, HL by lia. lia.
Qed.
Lemma mput_at (L T : mat) row r c v : length L = r -> mput (L ++ row :: T) r c v = do row' <- vset row c v; Ok (L ++ row' :: T).
Proof.
  intros H. unfold mput, vget. rewrite nth_error_app2 by lia. rewrite H, Nat.sub_diag. cbn [nth_error bind].
  destruct (vset row c v) as [row'| |]; cbn [bind]; try reflexivity. unfold vset. rewrite <- H, upd_app. reflexivity.
Qed.
Lemma len_axis d c v : length (axis d c v) = d. Proof. unfold axis. rewrite map_length, seq_length. reflexivity. Qed.
Lemma map_cst {A B} (b : B) (l : list A) : map (fun _ => b) l = repeat b (length l).
Proof. induction l as [|a l IH]; cbn; [reflexivity|]. rewrite IH. reflexivity. Qed.
Lemma flat_single {A B} (h : A -> B) l : flat_map (fun c => [h c]) l = map h l.
Proof. induction l as [|a l IH]; cbn; [reflexivity|]. rewrite IH. reflexivity. Qed.
Lemma vset_axis d c v : (c < d)%nat -> vset (repeat 0 d) c v = Ok (axis d c v).
Proof.
  intros H. replace (repeat 0 d) with (repeat 0 c ++ 0 :: repeat 0 (d - S c)).
  2:{ change (0 :: repeat 0 (d - S c)) with (repeat 0 (S (d - S c))). rewrite <- repeat_app. f_equal. lia. }
  unfold vset. rewrite <- (repeat_length 0 c) at 3. rewrite upd_app. apply f_equal. unfold axis.
  replace (seq 0 d) with (seq 0 c ++ c :: seq (S c) (d - S c)).
  2:{ change (c :: seq (S c) (d - S c)) with (seq c (S (d - S c))). rewrite <- (Nat.add_0_l c) at 2. rewrite <- seq_app. f_equal. lia. }
  rewrite map_app. cbn [map]. rewrite Nat.eqb_refl. f_equal; [|f_equal].
  - rewrite (map_ext_in _ (fun _ => 0)). { rewrite map_cst, seq_length. reflexivity. }
    intros a I. apply in_seq in I. destruct (Nat.eqb_spec a c); [lia|reflexivity].
  - rewrite (map_ext_in _ (fun _ => 0)). { rewrite map_cst, seq_length. reflexivity. }
    intros a I. apply in_seq in I. destruct (Nat.eqb_spec a c); [lia|reflexivity].
Qed.
Lemma nth_map_seq {B} (h : nat -> B) n a d : (a < n)%nat -> nth a (map h (seq 0 n)) d = h a.
Proof.
  intros H. apply nth_error_nth. rewrite (map_nth_error h a (seq 0 n) (d := a)); [reflexivity|].
  rewrite (nth_error_nth' _ 0%nat) by (rewrite seq_length; exact H). rewrite seq_nth by exact H. reflexivity.
Qed.
Lemma nth_axis d c v a : nth a (axis d c v) 0 = if (a <? d)%nat && (a =? c)%nat then v else 0.
Proof.
  unfold axis. destruct (Nat.ltb_spec a d) as [H|H]; cbn [andb].
  - rewrite nth_map_seq by exact H. reflexivity.
  - apply nth_overflow. rewrite map_length, seq_length. lia.
Qed.
Lemma vget_nth {A} (l : list A) i d : (i < length l)%nat -> vget l i = Ok (nth i l d).
Proof. intros H. unfold vget. rewrite (nth_error_nth' _ d) by exact H. reflexivity. Qed.

(** the rows written by eval_functions *)
Definition vrows (d : nat) (phi : list R) : mat := flat_map (fun i => map (fun c => axis d c (nth i phi 0)) (seq 0 d)) (seq 0 (length phi)).
Lemma flat_map_length_const {A B} (g : A -> list B) w l : (forall i, In i l -> length (g i) = w) -> length (flat_map g l) = (w * length l)%nat.
Proof. induction l as [|a l IH]; intros H; cbn; [lia|]. rewrite app_length, IH by (intros; apply H; right; assumption). rewrite H by (left; reflexivity). lia. Qed.
Lemma vec_functions_eq d n phi : length phi = n -> vec_functions d n (d * n) phi = Ok (vrows d phi).
Proof.
  intros H. unfold vec_functions, zero_rows. pose proof (for_fill (repeat 0 d) d
    (fun ret i => for_range 0 d (fun ret c => do p <- vget phi i; mput ret (d * i + c) c p) (Ok ret))
    (fun i => map (fun c => axis d c (nth i phi 0)) (seq 0 d)) n 0 [] 0 0) as K.
  rewrite Nat.add_0_r, Nat.add_0_l in K. cbn [app repeat] in K. rewrite app_nil_r in K. rewrite K; clear K.
  - unfold vrows. rewrite H. reflexivity.
  - intros i L m I EL. pose proof (for_fill (repeat 0 d) 1 (fun ret c => do p <- vget phi i; mput ret (d * i + c) c p)
      (fun c => [axis d c (nth i phi 0)]) d 0 L m (d * i)) as K. rewrite Nat.mul_1_l, Nat.add_0_l in K. rewrite K; clear K.
    + rewrite flat_single. reflexivity.
    + intros c L' m' Ic E'. rewrite (vget_nth _ _ 0) by lia. cbn [bind]. cbn [Nat.add repeat]. rewrite mput_at by lia. rewrite vset_axis by lia. reflexivity.
    + reflexivity.
    + lia.
  - intros i I. rewrite map_length, seq_length. reflexivity.
  - reflexivity.
Qed.

(** ** linear independence of monomials *)
Lemma sig_shift n f : sig (S n) f = f 0%nat + sig n (fun i => f (S i)).
Proof. induction n as [|n IH]; [cbn; ring|]. change (sig (S (S n)) f) with (sig (S n) f + f (S n)). rewrite IH. cbn [sig]. ring. Qed.
Lemma d_sigf n (f : nat -> R -> R) (g : nat -> R) x : (forall i, (i < n)%nat -> dlim (f i) x (g i)) -> dlim (fun t => sig n (fun i => f i t)) x (sig n g).
Proof.
  induction n as [|n IH]; intros H; cbn [sig]; [apply d_const|].
  apply d_plus; [apply IH; intros; apply H; lia|apply H; lia].
Qed.
Lemma poly_zero n : forall p, (forall t, sig n (fun e => p e * t ^ e) = 0) -> forall e, (e < n)%nat -> p e = 0.
Proof.
  induction n as [|n IH]; intros p H e He; [lia|].
  assert (Q : forall e, (e < n)%nat -> p (S e) * INR (S e) = 0).
  { apply (IH (fun e => p (S e) * INR (S e))). intros t.
    assert (D : dlim (fun t => sig (S n) (fun e => p e * t ^ e)) t (sig (S n) (fun e => p e * (INR e * t ^ pred e)))).
    { apply (d_sigf (S n) (fun e t => p e * t ^ e) (fun e => p e * (INR e * t ^ pred e))). intros i Hi.
      eapply d_eq; [|apply d_mult; [apply d_const|apply derivable_pt_lim_pow]]. cbn. ring. }
    assert (Z : dlim (fun t => sig (S n) (fun e => p e * t ^ e)) t 0) by (eapply d_ext; [|apply (d_const 0)]; intros s; cbn beta; rewrite H; reflexivity).
    pose proof (uniqueness_limite _ _ _ _ D Z) as U. rewrite sig_shift in U. change (INR 0) with 0 in U.
    rewrite (sig_ext n _ (fun i => p (S i) * (INR (S i) * t ^ pred (S i)))); [lra|]. intros i _. cbn [pred]. ring. }
  destruct e as [|e].
  - pose proof (H 0) as K. rewrite sig_shift in K. rewrite sig_zero in K; [cbn in K; lra|]. intros i _. cbn [pow]. ring.
  - specialize (Q e ltac:(lia)). apply Rmult_integral in Q. destruct Q as [Q|Q]; [exact Q|]. exfalso. apply (not_0_INR (S e)); [lia|exact Q].
Qed.

Lemma mono_ext a : forall y z i, (forall k, (i <= k)%nat -> y k = z k) -> monomial a y i = monomial a z i.
Proof. induction a as [|e a IH]; intros y z i H; cbn; [reflexivity|]. rewrite H by lia. rewrite (IH y z (S i)) by (intros; apply H; lia). reflexivity. Qed.
Lemma lsum_ext {X} (f g : X -> R) l : (forall x, In x l -> f x = g x) -> lsum f l = lsum g l.
Proof. induction l as [|a l IH]; intros H; cbn; [reflexivity|]. rewrite H by (left; reflexivity). rewrite IH by (intros; apply H; right; assumption). reflexivity. Qed.
Lemma lsum_filter_split (f : list nat -> R) (N : nat) l : (forall a, In a l -> (hd 0 a < N)%nat) ->
  lsum f l = sig N (fun e => lsum f (filter (fun a => hd 0 a =? e)%nat l)).
Proof.
  induction l as [|a l IH]; intros H; cbn [filter lsum].
  - symmetry. apply sig_zero. reflexivity.
  - rewrite IH by (intros; apply H; right; assumption).
    rewrite (sig_ext N (fun e => lsum f (if (hd 0 a =? e)%nat then a :: filter (fun a => hd 0 a =? e)%nat l else filter (fun a => hd 0 a =? e)%nat l))
      (fun e => (if (hd 0 a =? e)%nat then f a else 0) + lsum f (filter (fun a => hd 0 a =? e)%nat l))).
    2:{ intros e _. destruct (hd 0 a =? e)%nat; cbn [lsum]; ring. }
    rewrite sig_add. f_equal. rewrite (sig_single N (hd 0%nat a)).
    + rewrite Nat.eqb_refl. reflexivity.
    + apply H. left. reflexivity.
    + intros i _ Ni. destruct (Nat.eqb_spec (hd 0%nat a) i); [lia|reflexivity].
Qed.
Lemma mono_indep d : forall i0 (E : list (list nat)) (c : list nat -> R), NoDup E -> (forall a, In a E -> length a = d) ->
  (forall y, lsum (fun a => c a * monomial a y i0) E = 0) -> forall a, In a E -> c a = 0.
Proof.
  induction d as [|d IH]; intros i0 E c ND LE H a Ia.
  - destruct E as [|b E]; [destruct Ia|]. assert (b = []) by (destruct b; [reflexivity|]; specialize (LE _ (or_introl eq_refl)); discriminate).
    subst b. destruct E as [|b E].
    + destruct Ia as [<-|[]]. specialize (H (fun _ => 0)). cbn in H. lra.
    + exfalso. assert (b = []) by (destruct b; [reflexivity|]; specialize (LE _ (or_intror (or_introl eq_refl))); discriminate).
      subst b. inversion ND as [|? ? N1 _]. apply N1. left. reflexivity.
  - destruct a as [|e a]; [specialize (LE _ Ia); discriminate|].
    set (N := S (list_max (map (hd 0%nat) E))).
    assert (HN : forall b, In b E -> (hd 0 b < N)%nat).
    { intros b Ib. unfold N. pose proof (proj1 (list_max_le (map (hd 0%nat) E) _) (le_n _)) as F. rewrite Forall_forall in F.
      specialize (F (hd 0%nat b)). apply Nat.lt_succ_r, F, in_map, Ib. }
    set (Ee := map (@tl nat) (filter (fun b => hd 0 b =? e)%nat E)).
    assert (PE : forall y, lsum (fun b => c (e :: b) * monomial b y (S i0)) Ee = 0).
    { intros y. pose proof (poly_zero N (fun e' => lsum (fun b => c b * monomial (tl b) y (S i0)) (filter (fun b => hd 0 b =? e')%nat E))) as Z.
      assert (KZ : forall t, sig N (fun e' => lsum (fun b => c b * monomial (tl b) y (S i0)) (filter (fun b => hd 0 b =? e')%nat E) * t ^ e') = 0).
      { intros t. specialize (H (move y i0 t)). rewrite (lsum_filter_split _ N) in H by exact HN. rewrite <- H. apply sig_ext. intros e' _.
        rewrite Rmult_comm. rewrite <- (Rmult_1_r (lsum _ _)) at 1.
        assert (G : forall l, (forall b, In b l -> In b E /\ hd 0%nat b = e') -> t ^ e' * (lsum (fun b => c b * monomial (tl b) y (S i0)) l * 1) = lsum (fun a0 => c a0 * monomial a0 (move y i0 t) i0) l).
        { induction l as [|b l IHl]; intros Hl; cbn [lsum]; [ring|]. rewrite <- IHl by (intros; apply Hl; right; assumption).
          destruct (Hl b (or_introl eq_refl)) as [Ib Hb]. specialize (LE b Ib). destruct b as [|b0 b]; [discriminate|]. cbn [hd] in Hb. subst b0.
          cbn [tl monomial]. unfold move at 1. rewrite Nat.eqb_refl. rewrite (mono_ext b (move y i0 t) y (S i0)).
          - ring.
          - intros k Hk. unfold move. destruct (Nat.eqb_spec k i0); [lia|reflexivity]. }
        apply G. intros b Ib. apply filter_In in Ib. destruct Ib as [Ib Hb]. apply Nat.eqb_eq in Hb. split; assumption. }
      specialize (Z KZ e (HN _ Ia)). unfold Ee. rewrite lsum_map. rewrite <- Z. apply lsum_ext. intros b Ib. apply filter_In in Ib. destruct Ib as [Ib Hb].
      apply Nat.eqb_eq in Hb. specialize (LE b Ib). destruct b as [|b0 b]; [discriminate|]. cbn [hd] in Hb. subst b0. reflexivity. }
    refine (IH (S i0) Ee (fun b => c (e :: b)) _ _ PE a _).
    + unfold Ee. assert (NF : NoDup (filter (fun b => hd 0 b =? e)%nat E)) by (apply NoDup_filter, ND).
      assert (HF : forall b, In b (filter (fun b => hd 0 b =? e)%nat E) -> b = e :: tl b).
      { intros b Ib. apply filter_In in Ib. destruct Ib as [Ib Hb]. apply Nat.eqb_eq in Hb. specialize (LE b Ib). destruct b; [discriminate|]. cbn in Hb. subst. reflexivity. }
      clear PE; clear Ee. induction (filter (fun b => hd 0 b =? e)%nat E) as [|b l IHl]; cbn; [constructor|]. inversion NF as [|? ? N1 N2]; subst. constructor.
      * intros I. apply in_map_iff in I. destruct I as (b' & Et & Ib'). apply N1. rewrite (HF b (or_introl eq_refl)). rewrite <- Et. rewrite <- (HF b' (or_intror Ib')). exact Ib'.
      * apply IHl; [exact N2|intros; apply HF; right; assumption].
    + intros b Ib. unfold Ee in Ib. apply in_map_iff in Ib. destruct Ib as (b' & <- & Ib'). apply filter_In in Ib'. destruct Ib' as [Ib' _].
      specialize (LE _ Ib'). destruct b'; [discriminate|]. cbn in *. lia.
    + unfold Ee. apply in_map_iff. exists (e :: a). split; [reflexivity|]. apply filter_In. split; [exact Ia|]. cbn. apply Nat.eqb_refl.
Qed.

Fixpoint idx (e : list nat) (E : list (list nat)) : nat :=
  match E with [] => 0 | b :: l => if list_eq_dec Nat.eq_dec b e then 0 else S (idx e l) end.
Lemma idx_nth E : NoDup E -> forall i, (i < length E)%nat -> idx (nth i E []) E = i.
Proof.
  induction E as [|b E IH]; intros ND i Hi; [cbn in Hi; lia|]. inversion ND as [|? ? N1 N2]; subst. destruct i as [|i]; cbn [nth idx].
  - destruct (list_eq_dec Nat.eq_dec b b); [reflexivity|contradiction].
  - cbn [length] in Hi. destruct (list_eq_dec Nat.eq_dec b (nth i E [])) as [->|_].
    + exfalso. apply N1. apply nth_In. lia.
    + rewrite IH by (try assumption; lia). reflexivity.
Qed.
Lemma lsum_nth {X} (f : X -> R) d l : lsum f l = sig (length l) (fun i => f (nth i l d)).
Proof. induction l as [|a l IH]; [reflexivity|]. cbn [length]. rewrite sig_shift. cbn [lsum nth]. rewrite IH. reflexivity. Qed.
Lemma indep_idx d E (h : nat -> R) : NoDup E -> (forall a, In a E -> length a = d) ->
  (forall y, sig (length E) (fun i => h i * monomial (nth i E []) y 0) = 0) -> forall i, (i < length E)%nat -> h i = 0.
Proof.
  intros ND LE H i Hi. pose proof (mono_indep d 0 E (fun e => h (idx e E)) ND LE) as K. cbv beta in K.
  rewrite <- (idx_nth E ND i Hi). apply K; [|apply nth_In, Hi].
  intros y. rewrite (lsum_nth _ []). rewrite <- (H y). apply sig_ext. intros l Hl. rewrite idx_nth by assumption. reflexivity.
Qed.
Lemma mono_ext_len a : forall y z i, (forall k, (i <= k < i + length a)%nat -> y k = z k) -> monomial a y i = monomial a z i.
Proof. induction a as [|e a IH]; intros y z i H; cbn; [reflexivity|]. cbn [length] in H. rewrite H by lia. rewrite (IH y z (S i)) by (intros; apply H; lia). reflexivity. Qed.
(** raising the exponent of variable b *)
Fixpoint raise (b : nat) (a : list nat) : list nat := match a, b with [], _ => [] | e :: a, O => S e :: a | e :: a, S b => e :: raise b a end.
Lemma len_raise a : forall b, length (raise b a) = length a.
Proof. induction a as [|e a IH]; intros [|b]; cbn; try reflexivity. rewrite IH. reflexivity. Qed.
Lemma raise_sum a : forall b, (b < length a)%nat -> list_sum (raise b a) = S (list_sum a).
Proof. induction a as [|e a IH]; intros [|b] H; cbn [length] in H; try lia; cbn [raise]; [reflexivity|]. change (e + list_sum (raise b a) = S (e + list_sum a))%nat. rewrite IH by lia. lia. Qed.
Lemma raise_inj a : forall b c, raise b a = raise b c -> a = c.
Proof.
  induction a as [|e a IH]; intros [|b] [|f c] H; cbn in H; try discriminate; try reflexivity.
  - injection H as -> ->. reflexivity.
  - injection H as -> H. f_equal. eapply IH, H.
Qed.
Lemma raise_mono a : forall b y i, (b < length a)%nat -> monomial (raise b a) y i = y (i + b)%nat * monomial a y i.
Proof.
  induction a as [|e a IH]; intros [|b] y i H; cbn [length] in H; try lia; cbn [raise monomial].
  - rewrite Nat.add_0_r. cbn. ring.
  - rewrite IH by lia. replace (S i + b)%nat with (i + S b)%nat by lia. ring.
Qed.
Lemma sig_plus n m f : sig (n + m) f = sig n f + sig m (fun i => f (n + i)%nat).
Proof. induction m as [|m IH]; [rewrite Nat.add_0_r; cbn; ring|]. rewrite Nat.add_succ_r. cbn [sig]. rewrite IH. ring. Qed.
Lemma sig_block w n f : sig (w * n) f = sig n (fun i => sig w (fun q => f (w * i + q)%nat)).
Proof. induction n as [|n IH]; [rewrite Nat.mul_0_r; reflexivity|]. rewrite Nat.mul_succ_r, sig_plus, IH. reflexivity. Qed.
(** monomials of degree <= D and monomials of degree D times a variable *)
Lemma shift_indep d D E H (h g : nat -> R) (a : nat) (L : R) :
  NoDup E -> (forall e, In e E -> length e = d /\ (list_sum e <= D)%nat) ->
  NoDup H -> (forall e, In e H -> length e = d /\ list_sum e = D) -> (a < d)%nat -> L <> 0 ->
  (forall y, sig (length E) (fun i => h i * monomial (nth i E []) y 0) + sig (length H) (fun l => g l * (L * y a * monomial (nth l H []) y 0)) = 0) ->
  (forall i, (i < length E)%nat -> h i = 0) /\ (forall l, (l < length H)%nat -> g l = 0).
Proof.
  intros NE HE NH HH Ha HL Z. set (F := E ++ map (raise a) H).
  set (k := fun i => if (i <? length E)%nat then h i else L * g (i - length E)%nat).
  assert (NF : NoDup F).
  { apply NoDup_app; [exact NE| |].
    - clear - NH. induction H as [|x l IH]; cbn; [constructor|]. inversion NH; subst. constructor; [|apply IH; assumption].
      intros I. apply in_map_iff in I. destruct I as (x' & E & I). apply raise_inj in E. subst. contradiction.
    - intros x I1 I2. apply in_map_iff in I2. destruct I2 as (e & <- & I2). destruct (HE _ I1) as [_ S1]. destruct (HH _ I2) as [L2 S2].
      rewrite raise_sum in S1 by lia. lia. }
  assert (LF : length F = (length E + length H)%nat) by (unfold F; rewrite app_length, map_length; reflexivity).
  assert (K : forall i, (i < length F)%nat -> k i = 0).
  { apply (indep_idx d F k NF).
    - intros e I. unfold F in I. apply in_app_iff in I. destruct I as [I|I]; [apply HE, I|]. apply in_map_iff in I. destruct I as (e' & <- & I). rewrite len_raise. apply HH, I.
    - intros y. rewrite LF, sig_plus. rewrite <- (Z y). f_equal.
      + apply sig_ext. intros i Hi. unfold k, F. rewrite app_nth1 by exact Hi. destruct (Nat.ltb_spec i (length E)); [reflexivity|lia].
      + apply sig_ext. intros l Hl. unfold k, F. rewrite app_nth2 by lia. destruct (Nat.ltb_spec (length E + l) (length E)); [lia|].
        replace (length E + l - length E)%nat with l by lia. rewrite (nth_indep _ [] (raise a [])) by (rewrite map_length; exact Hl). rewrite map_nth.
        rewrite raise_mono by (rewrite (proj1 (HH _ (nth_In H [] Hl))); exact Ha). cbn [Nat.add]. ring. }
  split.
  - intros i Hi. specialize (K i ltac:(lia)). unfold k in K. destruct (Nat.ltb_spec i (length E)); [exact K|lia].
  - intros l Hl. specialize (K (length E + l)%nat ltac:(lia)). unfold k in K. destruct (Nat.ltb_spec (length E + l) (length E)); [lia|].
    replace (length E + l - length E)%nat with l in K by lia. apply Rmult_integral in K. destruct K; [contradiction|assumption].
Qed.
Lemma nth_flat {B} (g : nat -> list B) w n b i q dflt : (forall i, (b <= i < b + n)%nat -> length (g i) = w) -> (i < n)%nat -> (q < w)%nat ->
  nth (w * i + q) (flat_map g (seq b n)) dflt = nth q (g (b + i)%nat) dflt.
Proof.
  revert b i. induction n as [|n IH]; intros b i H Hi Hq; [lia|]. cbn [seq flat_map]. destruct i as [|i].
  - rewrite Nat.mul_0_r, !Nat.add_0_r, Nat.add_0_l. apply app_nth1. rewrite H by lia. exact Hq.
  - rewrite app_nth2 by (rewrite H by lia; lia). rewrite H by lia. replace (w * S i + q - w)%nat with (w * i + q)%nat by lia.
    rewrite IH by (try lia; intros; apply H; lia). f_equal. f_equal. lia.
Qed.
