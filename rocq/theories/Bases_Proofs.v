(** Proofs about the scalar bases. *)
From Coq Require Import List Arith ZArith Reals Lia Lra Factorial.
From Verif Require Import Common Util_Model Util_Spec Util_Proofs Tensor_Spec Poly_Spec Poly_Proofs Law2_Proofs Bases_Model Bases_Spec.
Import ListNotations.
Open Scope R_scope.

(** ** powers *)
Lemma power_pow x n : power Rmult 1 x n = x ^ n.
Proof. induction n as [|n IH]; cbn [power pow]; [reflexivity|]. rewrite <- IH. reflexivity. Qed.
Lemma ipow_pow x n : ipow x n = x ^ n.
Proof.
  unfold ipow. rewrite (iexp_pow_spec Rmult 1); [apply power_pow| |lia].
  split; [intros; ring|split; intros; ring].
Qed.
Lemma dpow_pow x n : dpow x n = INR n * x ^ pred n.
Proof. unfold dpow. destruct n as [|n]; cbn [Nat.eqb]; [cbn; ring|]. rewrite ipow_pow. replace (S n - 1)%nat with n by lia. reflexivity. Qed.

(** ** sizes *)
Lemma rising_pos k d : (0 < rising k d)%Z.
Proof. induction d as [|d IH]; cbn [rising]; [lia|]. apply Z.mul_pos_pos; lia. Qed.
Lemma rising_mono k d : (rising k d <= rising k (S d))%Z.
Proof. cbn [rising]. pose proof (rising_pos k d). nia. Qed.
Lemma rising_ge_fact k d : (Z.of_nat (fact d) <= rising k d)%Z.
Proof.
  induction d as [|d IH]; [cbn; lia|]. change (fact (S d)) with (S d * fact d)%nat. cbn [rising].
  pose proof (rising_pos k d). rewrite Nat2Z.inj_mul. nia.
Qed.
Lemma rising_fact k d : (rising k d * Z.of_nat (fact k) = Z.of_nat (fact (k + d)))%Z.
Proof.
  induction d as [|d IH]; [cbn [rising]; rewrite Nat.add_0_r; lia|].
  cbn [rising]. replace (k + S d)%nat with (S (k + d)) by lia. change (fact (S (k + d))) with (S (k + d) * fact (k + d))%nat.
  rewrite Nat2Z.inj_mul, <- IH. lia.
Qed.
Lemma u64_small z : (0 <= z < 2 ^ 64)%Z -> u64 z = z.
Proof. apply Z.mod_small. Qed.
Lemma size_loop_eq k d : fits k d -> size_loop (Z.of_nat k) d = (rising k d, Z.of_nat (fact d)).
Proof.
  unfold fits. induction d as [|d IH]; intros H; [reflexivity|].
  cbn [size_loop]. rewrite IH by (pose proof (rising_mono k d); lia). cbn [rising] in *.
  pose proof (rising_pos k d). pose proof (rising_ge_fact k (S d)) as G. cbn [rising] in G.
  replace (Z.of_nat k + Z.of_nat (S d))%Z with (Z.of_nat (k + S d)) by lia.
  rewrite (u64_small (Z.of_nat (k + S d))) by nia. rewrite u64_small by nia.
  change (fact (S d)) with (S d * fact d)%nat in *. rewrite Nat2Z.inj_mul in *. f_equal. rewrite u64_small by nia. lia.
Qed.
Lemma scalar_size_spec k d n : fits k d -> is_binomial k d n -> scalar_basis_size k d = n.
Proof.
  intros H B. unfold scalar_basis_size, scalar_basis_size_u. rewrite (size_loop_eq k d H).
  pose proof (rising_fact k d) as E. unfold is_binomial in B. pose proof (lt_O_fact k). pose proof (lt_O_fact d).
  assert (rising k d = Z.of_nat n * Z.of_nat (fact d))%Z as ->.
  { apply (Z.mul_cancel_r _ _ (Z.of_nat (fact k))); [lia|]. rewrite E, <- B. rewrite !Nat2Z.inj_mul. ring. }
  rewrite Z.div_mul by lia. apply Nat2Z.id.
Qed.
Lemma new_size2_spec k n : is_binomial k 2 n -> new_size2 k = n.
Proof.
  unfold is_binomial, new_size2. replace (k + 2)%nat with (S (S k)) by lia. change (fact 2) with 2%nat.
  change (fact (S (S k))) with (S (S k) * (S k * fact k))%nat. intros B. pose proof (lt_O_fact k).
  assert (S (S k) * (k + 1) = n * 2)%nat as -> by (apply (Nat.mul_cancel_r _ _ (fact k)); [lia|nia]). apply Nat.div_mul. lia.
Qed.
Lemma new_size3_spec k n : is_binomial k 3 n -> new_size3 k = n.
Proof.
  unfold is_binomial, new_size3. replace (k + 3)%nat with (S (S (S k))) by lia. change (fact 3) with 6%nat.
  change (fact (S (S (S k)))) with (S (S (S k)) * (S (S k) * (S k * fact k)))%nat. intros B. pose proof (lt_O_fact k).
  assert (S (S (S k)) * (k + 2) * (k + 1) = n * 6)%nat as -> by (apply (Nat.mul_cancel_r _ _ (fact k)); [lia|nia]). apply Nat.div_mul. lia.
Qed.

(** ** loops *)
Lemma upd_app {A} (a : list A) x y r : upd (a ++ x :: r) (length a) y = Some (a ++ y :: r).
Proof. induction a as [|h a IH]; cbn [app length upd]; [reflexivity|]. rewrite IH. reflexivity. Qed.
Lemma fold_put {A B} (g : B -> A) l : forall a rest, (length l <= length rest)%nat ->
  fold_left (fun st x => put st (g x)) l (Ok (length a, a ++ rest)) = Ok ((length a + length l)%nat, a ++ map g l ++ skipn (length l) rest).
Proof.
  induction l as [|x l IH]; intros a rest H; cbn [fold_left map length app skipn]; [rewrite Nat.add_0_r; reflexivity|].
  destruct rest as [|r rest]; cbn [length] in H; [lia|].
  unfold put at 2. cbn [bind fst snd]. unfold vset. rewrite upd_app. cbn [bind fst snd].
  replace (a ++ g x :: rest) with ((a ++ [g x]) ++ rest) by (rewrite <- app_assoc; reflexivity).
  replace (S (length a)) with (length (a ++ [g x])) by (rewrite app_length; cbn; lia).
  rewrite IH by lia. rewrite <- app_assoc, app_length. cbn [app length skipn]. f_equal. f_equal; lia.
Qed.
Lemma fold_flat {A B C} (f : A -> C -> A) (g : B -> list C) l : forall st,
  fold_left f (flat_map g l) st = fold_left (fun st b => fold_left f (g b) st) l st.
Proof. induction l as [|b l IH]; intros st; cbn [flat_map fold_left]; [reflexivity|]. rewrite fold_left_app. apply IH. Qed.
Lemma fold_map {A B C} (f : A -> C -> A) (g : B -> C) l : forall st, fold_left f (map g l) st = fold_left (fun st b => f st (g b)) l st.
Proof. induction l as [|b l IH]; intros st; cbn [map fold_left]; [reflexivity|]. apply IH. Qed.
Lemma fold_ext_in {A B} (f g : A -> B -> A) l : (forall st x, In x l -> f st x = g st x) -> forall st, fold_left f l st = fold_left g l st.
Proof.
  induction l as [|x l IH]; intros H st; cbn [fold_left]; [reflexivity|]. rewrite H by (left; reflexivity).
  apply IH. intros. apply H. right. assumption.
Qed.
Definition exps2 (deg : nat) : list (nat * nat) := flat_map (fun k => map (fun i => ((k - i)%nat, i)) (seq 0 (S k))) (seq 0 (S deg)).
Definition exps3 (deg : nat) : list (nat * nat * nat) :=
  flat_map (fun k => flat_map (fun a => map (fun b => (a, b, (k - a - b)%nat)) (seq 0 (S (k - a)))) (seq 0 (S k))) (seq 0 (S deg)).
Lemma oput_ok {A} st (a : A) : oput st (Ok a) = put st a.
Proof. unfold oput, put. destruct st as [s|e|]; reflexivity. Qed.
Lemma oloop2_flat {A} deg (f : nat -> nat -> outcome A) st :
  oloop2 deg f st = fold_left (fun st e => oput st (f (fst e) (snd e))) (exps2 deg) st.
Proof.
  unfold oloop2, exps2. rewrite fold_flat. apply fold_ext_in. intros st' k _. rewrite fold_map. reflexivity.
Qed.
Lemma oloop3_flat {A} deg (f : nat -> nat -> nat -> outcome A) st :
  oloop3 deg f st = fold_left (fun st e => oput st (f (fst (fst e)) (snd (fst e)) (snd e))) (exps3 deg) st.
Proof.
  unfold oloop3, exps3. rewrite fold_flat. apply fold_ext_in. intros st' k _. rewrite fold_flat.
  apply fold_ext_in. intros st'' a _. rewrite fold_map. reflexivity.
Qed.
Lemma oloop2_run {A} deg (f : nat -> nat -> outcome A) (g : nat -> nat -> A) l :
  (forall a b, In (a, b) (exps2 deg) -> f a b = Ok (g a b)) -> length l = length (exps2 deg) ->
  ret_of (oloop2 deg f (Ok (0%nat, l))) = Ok (map (fun e => g (fst e) (snd e)) (exps2 deg)).
Proof.
  intros H L. rewrite oloop2_flat.
  rewrite (fold_ext_in _ (fun st e => put st (g (fst e) (snd e)))) by (intros st [a b] I; cbn [fst snd]; rewrite (H _ _ I); apply oput_ok).
  pose proof (fold_put (fun e => g (fst e) (snd e)) (exps2 deg) [] l ltac:(lia)) as K. cbn [length app] in K. rewrite K. unfold ret_of. cbn [bind snd].
  rewrite skipn_all2 by lia. rewrite app_nil_r. reflexivity.
Qed.
Lemma oloop3_run {A} deg (f : nat -> nat -> nat -> outcome A) (g : nat -> nat -> nat -> A) l :
  (forall a b c, In (a, b, c) (exps3 deg) -> f a b c = Ok (g a b c)) -> length l = length (exps3 deg) ->
  ret_of (oloop3 deg f (Ok (0%nat, l))) = Ok (map (fun e => g (fst (fst e)) (snd (fst e)) (snd e)) (exps3 deg)).
Proof.
  intros H L. rewrite oloop3_flat.
  rewrite (fold_ext_in _ (fun st e => put st (g (fst (fst e)) (snd (fst e)) (snd e))))
    by (intros st [[a b] c] I; cbn [fst snd]; rewrite (H _ _ _ I); apply oput_ok).
  pose proof (fold_put (fun e => g (fst (fst e)) (snd (fst e)) (snd e)) (exps3 deg) [] l ltac:(lia)) as K. cbn [length app] in K. rewrite K. unfold ret_of. cbn [bind snd].
  rewrite skipn_all2 by lia. rewrite app_nil_r. reflexivity.
Qed.
Lemma loop2_oloop2 {A} deg (f : nat -> nat -> A) st : loop2 deg f st = oloop2 deg (fun a b => Ok (f a b)) st.
Proof. unfold loop2, oloop2. apply fold_ext_in. intros st' k _. apply fold_ext_in. intros st'' i _. symmetry. apply oput_ok. Qed.
Lemma loop3_oloop3 {A} deg (f : nat -> nat -> nat -> A) st : loop3 deg f st = oloop3 deg (fun a b c => Ok (f a b c)) st.
Proof.
  unfold loop3, oloop3. apply fold_ext_in. intros st' k _. apply fold_ext_in. intros st'' i _.
  apply fold_ext_in. intros st''' j _. symmetry. apply oput_ok.
Qed.

(** ** the exponents *)
Lemma in_exps2 deg a b : In (a, b) (exps2 deg) <-> (a + b <= deg)%nat.
Proof.
  unfold exps2. rewrite in_flat_map. split.
  - intros (k & K & I). apply in_map_iff in I. destruct I as (i & E & I). injection E as <- <-. apply in_seq in K, I. lia.
  - intros H. exists (a + b)%nat. split; [apply in_seq; lia|]. apply in_map_iff. exists b. split; [f_equal; lia|apply in_seq; lia].
Qed.
Lemma in_exps3 deg a b c : In (a, b, c) (exps3 deg) <-> (a + b + c <= deg)%nat.
Proof.
  unfold exps3. rewrite in_flat_map. split.
  - intros (k & K & I). apply in_flat_map in I. destruct I as (p & P & I). apply in_map_iff in I. destruct I as (q & E & I).
    injection E as <- <- <-. apply in_seq in K, P, I. lia.
  - intros H. exists (a + b + c)%nat. split; [apply in_seq; lia|]. apply in_flat_map. exists a. split; [apply in_seq; lia|].
    apply in_map_iff. exists b. split; [f_equal; lia|apply in_seq; lia].
Qed.
Lemma NoDup_app {A} (l1 l2 : list A) : NoDup l1 -> NoDup l2 -> (forall x, In x l1 -> ~ In x l2) -> NoDup (l1 ++ l2).
Proof.
  induction l1 as [|a l1 IH]; intros H1 H2 D; cbn [app]; [assumption|]. inversion H1; subst. constructor.
  - rewrite in_app_iff. intros [I|I]; [contradiction|]. apply (D a); [left; reflexivity|assumption].
  - apply IH; try assumption. intros x I. apply D. right. assumption.
Qed.
Lemma NoDup_flat_map {A B} (f : A -> list B) (key : B -> A) l :
  NoDup l -> (forall a, In a l -> NoDup (f a)) -> (forall a b, In a l -> In b (f a) -> key b = a) -> NoDup (flat_map f l).
Proof.
  induction l as [|a l IH]; intros N H K; cbn [flat_map]; [constructor|]. inversion N; subst. apply NoDup_app.
  - apply H. left; reflexivity.
  - apply IH; [assumption| |]; intros; [apply H|apply K]; try right; assumption.
  - intros b I J. apply in_flat_map in J. destruct J as (a' & I' & J). assert (a = a') as ->; [|contradiction].
    rewrite <- (K a b) by (try left; auto). apply K; [right|]; assumption.
Qed.
Lemma nodup_exps2 deg : NoDup (exps2 deg).
Proof.
  apply (NoDup_flat_map _ (fun e => fst e + snd e)%nat); [apply seq_NoDup| |].
  - intros k _. apply FinFun.Injective_map_NoDup; [|apply seq_NoDup]. intros i j E. injection E; auto.
  - intros k [a b] _ I. apply in_map_iff in I. destruct I as (i & E & I). injection E as <- <-. apply in_seq in I. cbn [fst snd]. lia.
Qed.
Lemma nodup_exps3 deg : NoDup (exps3 deg).
Proof.
  apply (NoDup_flat_map _ (fun e => fst (fst e) + snd (fst e) + snd e)%nat); [apply seq_NoDup| |].
  - intros k _. apply (NoDup_flat_map _ (fun e => fst (fst e))); [apply seq_NoDup| |].
    + intros a _. apply FinFun.Injective_map_NoDup; [|apply seq_NoDup]. intros i j E. injection E; auto.
    + intros a [[p q] r] _ I. apply in_map_iff in I. destruct I as (i & E & I). injection E as <- <- <-. reflexivity.
  - intros k [[a b] c] _ I. apply in_flat_map in I. destruct I as (p & P & I). apply in_map_iff in I. destruct I as (i & E & I).
    injection E as <- <- <-. apply in_seq in I, P. cbn [fst snd]. lia.
Qed.
Lemma flat_map_snoc {A B} (f : A -> list B) l x : flat_map f (l ++ [x]) = flat_map f l ++ f x.
Proof. rewrite flat_map_app. cbn [flat_map]. rewrite app_nil_r. reflexivity. Qed.
Lemma exps2_S deg : exps2 (S deg) = exps2 deg ++ map (fun i => ((S deg - i)%nat, i)) (seq 0 (S (S deg))).
Proof.
  set (f := fun k => map (fun i => ((k - i)%nat, i)) (seq 0 (S k))).
  change (flat_map f (seq 0 (S (S deg))) = flat_map f (seq 0 (S deg)) ++ f (S deg)). clearbody f.
  rewrite (seq_S (S deg) 0), Nat.add_0_l. apply flat_map_snoc.
Qed.
Lemma length_exps2 deg : (2 * length (exps2 deg) = (deg + 1) * (deg + 2))%nat.
Proof.
  induction deg as [|deg IH]; [reflexivity|]. rewrite exps2_S, app_length, map_length, seq_length. nia.
Qed.
Lemma length_layer3 k : forall n, (n <= S k)%nat ->
  (2 * length (flat_map (fun a => map (fun b => (a, b, (k - a - b)%nat)) (seq 0 (S (k - a)))) (seq 0 n)) = n * (2 * k + 3 - n))%nat.
Proof.
  induction n as [|n IH]; intros H; [reflexivity|]. rewrite (seq_S n 0), Nat.add_0_l, flat_map_snoc, app_length, map_length, seq_length.
  specialize (IH ltac:(lia)). nia.
Qed.
Lemma length_exps3 deg : (6 * length (exps3 deg) = (deg + 1) * (deg + 2) * (deg + 3))%nat.
Proof.
  induction deg as [|deg IH]; [reflexivity|].
  assert (E : exps3 (S deg) = exps3 deg ++ flat_map (fun a => map (fun b => (a, b, (S deg - a - b)%nat)) (seq 0 (S (S deg - a)))) (seq 0 (S (S deg)))).
  { set (f := fun k => flat_map (fun a => map (fun b => (a, b, (k - a - b)%nat)) (seq 0 (S (k - a)))) (seq 0 (S k))).
    change (flat_map f (seq 0 (S (S deg))) = flat_map f (seq 0 (S deg)) ++ f (S deg)). clearbody f.
    rewrite (seq_S (S deg) 0), Nat.add_0_l. apply flat_map_snoc. }
  rewrite E, app_length. pose proof (length_layer3 (S deg) (S (S deg)) ltac:(lia)). nia.
Qed.
Lemma binomial2 deg : is_binomial deg 2 (length (exps2 deg)).
Proof.
  unfold is_binomial. replace (deg + 2)%nat with (S (S deg)) by lia. change (fact 2) with 2%nat.
  change (fact (S (S deg))) with (S (S deg) * (S deg * fact deg))%nat. pose proof (length_exps2 deg). nia.
Qed.
Lemma binomial3 deg : is_binomial deg 3 (length (exps3 deg)).
Proof.
  unfold is_binomial. replace (deg + 3)%nat with (S (S (S deg))) by lia. change (fact 3) with 6%nat.
  change (fact (S (S (S deg)))) with (S (S (S deg)) * (S (S deg) * (S deg * fact deg)))%nat. pose proof (length_exps3 deg). nia.
Qed.
Lemma binomial1 deg : is_binomial deg 1 (S deg).
Proof. unfold is_binomial. rewrite Nat.add_1_r. change (fact 1) with 1%nat. change (fact (S deg)) with (S deg * fact deg)%nat. nia. Qed.
Definition as2 (e : nat * nat) : list nat := [fst e; snd e].
Definition as3 (e : nat * nat * nat) : list nat := [fst (fst e); snd (fst e); snd e].
Lemma enum2 deg : enumerates deg 2 (map as2 (exps2 deg)).
Proof.
  split.
  - apply FinFun.Injective_map_NoDup; [|apply nodup_exps2]. intros [a b] [c d] E. injection E as -> ->. reflexivity.
  - intros l. rewrite in_map_iff. split.
    + intros ([a b] & <- & I). apply in_exps2 in I. cbn [as2 fst snd length list_sum fold_right]. split; [reflexivity|lia].
    + intros (L & S). destruct l as [|a [|b [|c l]]]; cbn [length] in L; try lia. exists (a, b). split; [reflexivity|].
      apply in_exps2. cbn [list_sum fold_right] in S. lia.
Qed.
Lemma enum3 deg : enumerates deg 3 (map as3 (exps3 deg)).
Proof.
  split.
  - apply FinFun.Injective_map_NoDup; [|apply nodup_exps3]. intros [[a b] c] [[a' b'] c'] E. injection E as -> -> ->. reflexivity.
  - intros l. rewrite in_map_iff. split.
    + intros ([[a b] c] & <- & I). apply in_exps3 in I. cbn [as3 fst snd length list_sum fold_right]. split; [reflexivity|lia].
    + intros (L & S). destruct l as [|a [|b [|c [|d l]]]]; cbn [length] in L; try lia. exists (a, b, c). split; [reflexivity|].
      apply in_exps3. cbn [list_sum fold_right] in S. lia.
Qed.
Lemma enum1 deg : enumerates deg 1 (map (fun i => [i]) (seq 0 (S deg))).
Proof.
  split.
  - apply FinFun.Injective_map_NoDup; [|apply seq_NoDup]. intros i j E. injection E; auto.
  - intros l. rewrite in_map_iff. split.
    + intros (i & <- & I). apply in_seq in I. cbn [length list_sum fold_right]. split; [reflexivity|lia].
    + intros (L & S). destruct l as [|a [|b l]]; cbn [length] in L; try lia. exists a. split; [reflexivity|].
      apply in_seq. cbn [list_sum fold_right] in S. lia.
Qed.
Lemma monomial2 e y : monomial (as2 e) y 0 = y 0%nat ^ fst e * y 1%nat ^ snd e.
Proof. cbn [as2 monomial]. ring. Qed.
Lemma monomial3 e y : monomial (as3 e) y 0 = y 0%nat ^ fst (fst e) * y 1%nat ^ snd (fst e) * y 2%nat ^ snd e.
Proof. cbn [as3 monomial]. ring. Qed.

(** ** frames *)
Lemma sig_fold d f : sig d f = fold_right Rplus 0 (map f (seq 0 d)).
Proof.
  induction d as [|d IH]; [reflexivity|]. rewrite seq_S, Nat.add_0_l, map_app, fold_right_app. cbn [sig map fold_right]. rewrite IH.
  generalize (map f (seq 0 d)). intros l. induction l as [|x l IHl]; cbn [fold_right]; [ring|]. rewrite <- IHl. ring.
Qed.
Lemma sig_ext d f g : (forall i, (i < d)%nat -> f i = g i) -> sig d f = sig d g.
Proof. induction d as [|d IH]; intros H; cbn [sig]; [reflexivity|]. rewrite IH, H by (intros; try apply H; lia). reflexivity. Qed.
Lemma sig_scal d c f : sig d (fun i => c * f i) = c * sig d f.
Proof. induction d as [|d IH]; cbn [sig]; [ring|]. rewrite IH. ring. Qed.
Lemma scaling_local d F x i : scaling_point d F x i = local_coord d (f_bar F) (f_axes F) (f_len F) x i.
Proof.
  unfold scaling_point, local_coord. rewrite <- sig_fold, <- sig_scal. apply sig_ext. intros j _. unfold passage, scaling_factor. ring.
Qed.
Lemma phys2ref_local d tr bar x i : phys2ref d tr bar x i = matrix_coord d tr bar x i.
Proof. unfold phys2ref, matrix_coord. apply sig_fold. Qed.
Lemma d_sig d (P : nat -> R) bar x c : dlim (fun t => sig d (fun j => P j * (move x c t j - bar j))) (x c) (if (c <? d)%nat then P c else 0).
Proof.
  induction d as [|d IH]; cbn [sig].
  - apply d_const.
  - assert (D : dlim (fun t => P d * (move x c t d - bar d)) (x c) (if (c =? d)%nat then P c else 0)).
    { unfold move. destruct (Nat.eqb_spec d c) as [->|N].
      - rewrite Nat.eqb_refl. eapply d_eq; [|apply d_mult; [apply d_const|apply d_minus; [apply d_id|apply d_const]]]. cbv beta. ring.
      - replace (c =? d)%nat with false by (symmetry; apply Nat.eqb_neq; lia). apply d_const. }
    eapply d_eq; [|apply d_plus; [exact IH|exact D]]. cbv beta.
    destruct (Nat.ltb_spec c d), (Nat.ltb_spec c (S d)), (Nat.eqb_spec c d); try lia; ring.
Qed.
Lemma d_pow u x l n : dlim u x l -> dlim (fun t => u t ^ n) x (INR n * u x ^ pred n * l).
Proof. intros D. eapply d_eq; [|apply (d_comp u (fun y => y ^ n)); [exact D|apply derivable_pt_lim_pow]]. reflexivity. Qed.
Lemma move_same x c : forall i, move x c (x c) i = x i.
Proof. intros i. unfold move. destruct (Nat.eqb_spec i c) as [->|]; reflexivity. Qed.
