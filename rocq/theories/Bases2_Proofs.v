(** Proofs about the scalar bases: evaluation, gradients, Legendre polynomials. *)
From Coq Require Import List Arith ZArith Reals Lia Lra Factorial.
From Verif Require Import Common Util_Model Tensor_Spec Poly_Spec Poly_Proofs Law2_Proofs Bases_Model Bases_Spec Bases_Proofs.
Import ListNotations.
Open Scope R_scope.

(** ** from values and rows to the statements *)
Lemma lists_from {E} (L : list E) (as_ : E -> list nat) (deg d size : nat) ref eval :
  enumerates deg d (map as_ L) -> length L = size -> is_binomial deg d size ->
  (forall x, eval x = Ok (map (fun e => monomial (as_ e) (ref x) 0) L)) -> lists_monomials deg d size ref eval.
Proof.
  intros HE HL HB H. exists (map as_ L). split; [exact HE|]. split; [rewrite map_length; exact HL|]. split; [exact HB|].
  intros x. rewrite H, map_map. reflexivity.
Qed.
Lemma gradients_from {E} (e0 : E) (L : list E) (d size : nat) (val : (nat -> R) -> E -> R) (grow : (nat -> R) -> E -> list R) eval grad :
  length L = size -> (forall x, eval x = Ok (map (val x) L)) -> (forall x, grad x = Ok (map (grow x) L)) ->
  (forall x e, In e L -> length (grow x e) = d /\ forall c, (c < d)%nat -> dlim (fun t => val (move x c t) e) (x c) (nth c (grow x e) 0)) ->
  gradients_ok d size eval grad.
Proof.
  intros HL HE HG H x. exists (map (grow x) L). split; [apply HG|]. split; [rewrite map_length; exact HL|]. intros j Hj.
  destruct (nth_error L j) as [e|] eqn:EE; [|apply nth_error_None in EE; lia].
  exists (grow x e). split; [apply map_nth_error; exact EE|].
  pose proof (nth_error_In _ _ EE) as HI. destruct (H x e HI) as (H1 & H2). split; [exact H1|]. intros c Hc.
  apply (d_ext (fun t => val (move x c t) e)); [|apply H2; exact Hc]. intros t. unfold function_of. rewrite HE.
  symmetry. apply nth_error_nth. apply map_nth_error. exact EE.
Qed.
Lemma derivatives_from (size : nat) (val der : R -> nat -> R) eval grad :
  (forall x, eval x = Ok (map (val x) (seq 0 size))) -> (forall x, grad x = Ok (map (der x) (seq 0 size))) ->
  (forall x j, (j < size)%nat -> dlim (fun t => val t j) x (der x j)) -> derivatives_ok size eval grad.
Proof.
  intros HE HG H x. exists (map (der x) (seq 0 size)). split; [apply HG|]. split; [rewrite map_length, seq_length; reflexivity|]. intros j Hj.
  assert (EE : nth_error (seq 0 size) j = Some j) by (rewrite (nth_error_nth' _ 0%nat) by (rewrite seq_length; lia); rewrite seq_nth by lia; reflexivity).
  assert (EN : nth j (map (der x) (seq 0 size)) 0 = der x j) by (apply nth_error_nth; apply map_nth_error; exact EE). rewrite EN.
  apply (d_ext (fun t => val t j)); [|apply H; exact Hj]. intros t. unfold function_of. rewrite HE.
  symmetry. apply nth_error_nth. apply map_nth_error. exact EE.
Qed.

Lemma ok2 (a b a' b' : R) : a = a' -> b = b' -> Ok [a; b] = Ok [a'; b'].
Proof. intros -> ->. reflexivity. Qed.
Lemma ok3 (a b c a' b' c' : R) : a = a' -> b = b' -> c = c' -> Ok [a; b; c] = Ok [a'; b'; c'].
Proof. intros -> -> ->. reflexivity. Qed.
Lemma len_zeros n : length (zeros n) = n.
Proof. apply repeat_length. Qed.
Lemma len_rows n d : length (zero_rows n d) = n.
Proof. apply repeat_length. Qed.

(** ** scaled monomials *)
Section Mono.
  Context (deg : nat) (F : frame).
  Notation loc d := (local_coord d (f_bar F) (f_axes F) (f_len F)).
  Lemma d_loc d x i c : (c < d)%nat -> dlim (fun t => scaling_point d F (move x c t) i) (x c) (passage F i c).
  Proof. intros H. eapply d_eq; [|apply (d_sig d (passage F i) (f_bar F) x c)]. apply Nat.ltb_lt in H. rewrite H. reflexivity. Qed.
  Lemma sp_same d x c i : scaling_point d F (move x c (x c)) i = scaling_point d F x i.
  Proof. unfold scaling_point. apply sig_ext. intros j _. rewrite move_same. reflexivity. Qed.
  Lemma size2 : fits deg 2 -> scalar_basis_size deg 2 = length (exps2 deg).
  Proof. intros H. apply scalar_size_spec; [exact H|apply binomial2]. Qed.
  Lemma size3 : fits deg 3 -> scalar_basis_size deg 3 = length (exps3 deg).
  Proof. intros H. apply scalar_size_spec; [exact H|apply binomial3]. Qed.

  Lemma mono2_eval x : fits deg 2 -> mono2_functions deg F x =
    Ok (map (fun e => scaling_point 2 F x 0 ^ fst e * scaling_point 2 F x 1 ^ snd e) (exps2 deg)).
  Proof.
    intros H. unfold mono2_functions. cbv zeta. rewrite loop2_oloop2.
    apply (oloop2_run deg _ (fun a b => scaling_point 2 F x 0 ^ a * scaling_point 2 F x 1 ^ b)).
    - intros a b _. rewrite !ipow_pow. reflexivity.
    - rewrite len_zeros. apply size2, H.
  Qed.
  Lemma mono2_list : fits deg 2 -> lists_monomials deg 2 (scalar_basis_size deg 2) (loc 2) (mono2_functions deg F).
  Proof.
    intros H. rewrite (size2 H). apply (lists_from (exps2 deg) as2); [apply enum2|reflexivity|apply binomial2|].
    intros x. rewrite (mono2_eval x H). f_equal. apply map_ext. intros e. rewrite monomial2, <- !scaling_local. reflexivity.
  Qed.
  Definition row2 (x : nat -> R) (e : nat * nat) : list R :=
    let u := scaling_point 2 F x 0 in let v := scaling_point 2 F x 1 in
    let g0 := INR (fst e) * u ^ pred (fst e) * v ^ snd e in
    let g1 := u ^ fst e * (INR (snd e) * v ^ pred (snd e)) in
    [passage F 0 0 * g0 + passage F 1 0 * g1; passage F 0 1 * g0 + passage F 1 1 * g1].
  Lemma mono2_grad x : fits deg 2 -> mono2_gradients deg F x = Ok (map (row2 x) (exps2 deg)).
  Proof.
    intros H. unfold mono2_gradients. cbv zeta. rewrite loop2_oloop2.
    rewrite (oloop2_run deg _ (fun a b => row2 x (a, b))).
    - do 2 f_equal.
    - intros a b _. unfold row2, new2old. cbn [sig vec2 fst snd]. rewrite !ipow_pow, !dpow_pow. apply ok2; ring.
    - rewrite len_rows. apply size2, H.
  Qed.
  Lemma d_prod2 u v x U V a b : dlim u x U -> dlim v x V ->
    dlim (fun t => u t ^ a * v t ^ b) x (U * (INR a * u x ^ pred a * v x ^ b) + V * (u x ^ a * (INR b * v x ^ pred b))).
  Proof. intros DU DV. eapply d_eq; [|apply d_mult; apply d_pow; eassumption]. cbv beta. ring. Qed.
  Lemma mono2_gradients_ok : fits deg 2 -> gradients_ok 2 (scalar_basis_size deg 2) (mono2_functions deg F) (mono2_gradients deg F).
  Proof.
    intros H. rewrite (size2 H).
    apply (gradients_from (0%nat, 0%nat) (exps2 deg) 2 _ (fun x e => scaling_point 2 F x 0 ^ fst e * scaling_point 2 F x 1 ^ snd e) row2);
      [reflexivity|intros; apply mono2_eval, H|intros; apply mono2_grad, H|].
    intros x [a b] _. split; [reflexivity|]. intros c Hc. cbn [fst snd].
    eapply d_eq; [|apply d_prod2; apply d_loc; exact Hc]. cbv beta. rewrite !sp_same. unfold row2. cbn [fst snd].
    destruct c as [|[|c]]; [| |lia]; reflexivity.
  Qed.

  Lemma mono3_eval x : fits deg 3 -> mono3_functions deg F x =
    Ok (map (fun e => scaling_point 3 F x 0 ^ fst (fst e) * scaling_point 3 F x 1 ^ snd (fst e) * scaling_point 3 F x 2 ^ snd e) (exps3 deg)).
  Proof.
    intros H. unfold mono3_functions. cbv zeta. rewrite loop3_oloop3.
    apply (oloop3_run deg _ (fun a b c => scaling_point 3 F x 0 ^ a * scaling_point 3 F x 1 ^ b * scaling_point 3 F x 2 ^ c)).
    - intros a b c _. rewrite !ipow_pow. reflexivity.
    - rewrite len_zeros. apply size3, H.
  Qed.
  Lemma mono3_list : fits deg 3 -> lists_monomials deg 3 (scalar_basis_size deg 3) (loc 3) (mono3_functions deg F).
  Proof.
    intros H. rewrite (size3 H). apply (lists_from (exps3 deg) as3); [apply enum3|reflexivity|apply binomial3|].
    intros x. rewrite (mono3_eval x H). f_equal. apply map_ext. intros e. rewrite monomial3, <- !scaling_local. reflexivity.
  Qed.
  Definition row3 (x : nat -> R) (e : nat * nat * nat) : list R :=
    let '(a, b, c) := e in
    let u := scaling_point 3 F x 0 in let v := scaling_point 3 F x 1 in let w := scaling_point 3 F x 2 in
    let g0 := INR a * u ^ pred a * v ^ b * w ^ c in
    let g1 := u ^ a * (INR b * v ^ pred b) * w ^ c in
    let g2 := u ^ a * v ^ b * (INR c * w ^ pred c) in
    map (fun k => passage F 0 k * g0 + passage F 1 k * g1 + passage F 2 k * g2) [0; 1; 2]%nat.
  Lemma mono3_grad x : fits deg 3 -> mono3_gradients deg F x = Ok (map (row3 x) (exps3 deg)).
  Proof.
    intros H. unfold mono3_gradients. cbv zeta. rewrite loop3_oloop3.
    rewrite (oloop3_run deg _ (fun a b c => row3 x (a, b, c))).
    - apply f_equal. apply map_ext. intros [[a b] c]. reflexivity.
    - intros a b c _. unfold row3, new2old. cbn [sig vec3 fst snd map]. rewrite !ipow_pow, !dpow_pow.
      apply ok3; ring.
    - rewrite len_rows. apply size3, H.
  Qed.
  Lemma d_prod3 u v w x U V W a b c : dlim u x U -> dlim v x V -> dlim w x W ->
    dlim (fun t => u t ^ a * v t ^ b * w t ^ c) x
      (U * (INR a * u x ^ pred a * v x ^ b * w x ^ c) + V * (u x ^ a * (INR b * v x ^ pred b) * w x ^ c) + W * (u x ^ a * v x ^ b * (INR c * w x ^ pred c))).
  Proof. intros DU DV DW. eapply d_eq; [|apply d_mult; [apply d_mult|]; apply d_pow; eassumption]. cbv beta. ring. Qed.
  Lemma mono3_gradients_ok : fits deg 3 -> gradients_ok 3 (scalar_basis_size deg 3) (mono3_functions deg F) (mono3_gradients deg F).
  Proof.
    intros H. rewrite (size3 H).
    apply (gradients_from (0%nat, 0%nat, 0%nat) (exps3 deg) 3 _
      (fun x e => scaling_point 3 F x 0 ^ fst (fst e) * scaling_point 3 F x 1 ^ snd (fst e) * scaling_point 3 F x 2 ^ snd e) row3);
      [reflexivity|intros; apply mono3_eval, H|intros; apply mono3_grad, H|].
    intros x [[a b] c] _. split; [reflexivity|]. intros k Hk. cbn [fst snd].
    eapply d_eq; [|apply d_prod3; apply d_loc; exact Hk]. cbv beta. rewrite !sp_same. unfold row3. cbn [map].
    destruct k as [|[|[|k]]]; [| | |lia]; reflexivity.
  Qed.
  Lemma mono3f_list : fits deg 2 -> lists_monomials deg 2 (scalar_basis_size deg 2) (loc 3) (mono3f_functions deg F).
  Proof.
    intros H. rewrite (size2 H). apply (lists_from (exps2 deg) as2); [apply enum2|reflexivity|apply binomial2|].
    intros x. unfold mono3f_functions. cbv zeta. rewrite loop2_oloop2.
    rewrite (oloop2_run deg _ (fun a b => scaling_point 3 F x 0 ^ a * scaling_point 3 F x 1 ^ b)).
    - f_equal. apply map_ext. intros e. rewrite monomial2, <- !scaling_local. reflexivity.
    - intros a b _. rewrite !ipow_pow. reflexivity.
    - rewrite len_zeros. apply size2, H.
  Qed.
End Mono.

(** ** loops over one index *)
Lemma fold_vset {A} (g : nat -> A) n : forall a rest, (n <= length rest)%nat ->
  fold_left (fun st k => do r <- st; vset r k (g k)) (seq (length a) n) (Ok (a ++ rest)) = Ok (a ++ map g (seq (length a) n) ++ skipn n rest).
Proof.
  induction n as [|n IH]; intros a rest H; [reflexivity|]. destruct rest as [|r rest]; cbn [length] in H; [lia|].
  cbn [seq fold_left bind map skipn app]. unfold vset at 2. rewrite upd_app.
  replace (a ++ g (length a) :: rest) with ((a ++ [g (length a)]) ++ rest) by (rewrite <- app_assoc; reflexivity).
  replace (S (length a)) with (length (a ++ [g (length a)])) by (rewrite app_length; cbn; lia).
  rewrite IH by lia. rewrite <- app_assoc. reflexivity.
Qed.
Lemma fold_rec (h : nat -> R -> R) (v : nat -> R) n : forall s rest, (1 <= s)%nat -> (n <= length rest)%nat ->
  (forall k, (s <= k < s + n)%nat -> h k (v (k - 1)%nat) = v k) ->
  fold_left (fun st k => do r <- st; do y <- vget r (k - 1); vset r k (h k y)) (seq s n) (Ok (map v (seq 0 s) ++ rest)) =
  Ok (map v (seq 0 (s + n)) ++ skipn n rest).
Proof.
  induction n as [|n IH]; intros s rest Hs H E; [rewrite Nat.add_0_r; reflexivity|].
  destruct rest as [|r rest]; cbn [length] in H; [lia|]. cbn [seq fold_left bind skipn].
  assert (G : vget (map v (seq 0 s) ++ r :: rest) (s - 1) = Ok (v (s - 1)%nat)).
  { unfold vget. rewrite nth_error_app1 by (rewrite map_length, seq_length; lia).
    rewrite (map_nth_error v (s - 1) (seq 0 s) (d := (s - 1)%nat)); [reflexivity|].
    rewrite (nth_error_nth' _ 0%nat) by (rewrite seq_length; lia). rewrite seq_nth by lia. reflexivity. }
  rewrite G. cbn [bind].
  assert (U : upd (map v (seq 0 s) ++ r :: rest) s (h s (v (s - 1)%nat)) = Some (map v (seq 0 s) ++ h s (v (s - 1)%nat) :: rest)).
  { pose proof (upd_app (map v (seq 0 s)) r (h s (v (s - 1)%nat)) rest) as U. rewrite map_length, seq_length in U. exact U. }
  unfold vset at 2. rewrite U. rewrite E by lia.
  replace (map v (seq 0 s) ++ v s :: rest) with (map v (seq 0 (S s)) ++ rest)
    by (rewrite seq_S, Nat.add_0_l, map_app, <- app_assoc; reflexivity).
  rewrite (IH (S s) rest) by (try lia; intros; apply E; lia). do 3 f_equal. f_equal. lia.
Qed.
Lemma skipn_rep {A} (a : A) m : forall n, skipn m (repeat a n) = repeat a (n - m).
Proof. induction m as [|m IH]; intros [|n]; try reflexivity. cbn [repeat skipn]. apply IH. Qed.
Lemma powers_eq deg n x : (deg < n)%nat -> powers deg n x = Ok (map (fun i => x ^ i) (seq 0 (S deg)) ++ repeat 0 (n - S deg)).
Proof.
  intros H. unfold powers, zeros. destruct n as [|n]; [lia|]. cbn [repeat]. unfold vset at 1. cbn [upd bind].
  change (1 :: repeat 0 n) with (map (fun i => x ^ i) (seq 0 1) ++ repeat 0 n).
  rewrite (fold_rec (fun _ y => y * x) (fun i => x ^ i)).
  - change (1 + deg)%nat with (S deg). do 2 f_equal. replace (S n - S deg)%nat with (n - deg)%nat by lia. apply skipn_rep.
  - lia.
  - rewrite repeat_length. lia.
  - intros k Hk. destruct k as [|k]; [lia|]. replace (S k - 1)%nat with k by lia. cbn [pow]. ring.
Qed.
Lemma powers_exact deg x : powers deg (S deg) x = Ok (map (fun i => x ^ i) (seq 0 (S deg))).
Proof. rewrite powers_eq by lia. rewrite Nat.sub_diag. cbn [repeat]. rewrite app_nil_r. reflexivity. Qed.
Lemma vget_seq (v : nat -> R) n rest a : (a < n)%nat -> vget (map v (seq 0 n) ++ rest) a = Ok (v a).
Proof.
  intros H. unfold vget. rewrite nth_error_app1 by (rewrite map_length, seq_length; lia).
  rewrite (map_nth_error v a (seq 0 n) (d := a)); [reflexivity|].
  rewrite (nth_error_nth' _ 0%nat) by (rewrite seq_length; lia). rewrite seq_nth by lia. reflexivity.
Qed.
Lemma dpower_eq x deg rest a : (a <= deg)%nat -> dpower (map (fun i => x ^ i) (seq 0 (S deg)) ++ rest) a = Ok (INR a * x ^ pred a).
Proof.
  intros H. unfold dpower. destruct a as [|a]; [cbn [Nat.eqb pred pow INR]; f_equal; ring|].
  change (S a =? 0)%nat with false. cbv iota. rewrite (vget_seq (fun i => x ^ i)) by lia. cbn [bind]. replace (S a - 1)%nat with a by lia. reflexivity.
Qed.

(** ** one dimension *)
Lemma mono1_eval deg bar h x : mono1_functions deg bar h x = Ok (map (fun i => (2 * (x - bar) / h) ^ i) (seq 0 (S deg))).
Proof. unfold mono1_functions. cbv zeta. apply (powers_exact deg (2 * (x - bar) / h)). Qed.
Lemma mono1_grad deg bar h x : mono1_gradients deg bar h x =
  Ok (map (fun i => INR i * (2 * (x - bar) / h) ^ pred i * (2 / h)) (seq 0 (S deg))).
Proof.
  unfold mono1_gradients. cbv zeta. set (bp := 2 * (x - bar) / h).
  pose proof (fold_vset (fun k => 2 * INR k / h * ipow bp (k - 1)) deg [0] (repeat 0 deg)) as K. cbn [length app] in K.
  change (zeros (S deg)) with (0 :: repeat 0 deg). rewrite K by (rewrite repeat_length; lia).
  rewrite skipn_all2 by (rewrite repeat_length; lia). rewrite app_nil_r. f_equal. cbn [seq map]. f_equal; [cbn [INR]; ring|].
  apply map_ext_in. intros k Hk. apply in_seq in Hk. rewrite ipow_pow. replace (k - 1)%nat with (pred k) by lia. unfold Rdiv. ring.
Qed.
Lemma mono1_derivatives deg bar h : derivatives_ok (S deg) (mono1_functions deg bar h) (mono1_gradients deg bar h).
Proof.
  apply (derivatives_from _ (fun x i => (2 * (x - bar) / h) ^ i) (fun x i => INR i * (2 * (x - bar) / h) ^ pred i * (2 / h)));
    [apply mono1_eval|apply mono1_grad|]. intros x j _.
  assert (D : dlim (fun t => 2 * (t - bar) / h) x (2 / h)).
  { apply (d_ext (fun t => 2 / h * (t - bar))); [intros; unfold Rdiv; ring|].
    eapply d_eq; [|apply d_mult; [apply d_const|apply d_minus; [apply d_id|apply d_const]]]. cbv beta. ring. }
  apply (d_pow (fun t => 2 * (t - bar) / h) x (2 / h) j D).
Qed.
Lemma mono2f_list deg F : lists_monomials deg 1 (S deg) (local_coord 2 (f_bar F) (f_axes F) (f_len F)) (mono2f_functions deg F).
Proof.
  apply (lists_from (seq 0 (S deg)) (fun i => [i])); [apply enum1|apply seq_length|apply binomial1|].
  intros x. unfold mono2f_functions. cbv zeta.
  pose proof (fold_vset (fun i => ipow (scaling_point 2 F x 0) i) (S deg) [] (zeros (S deg))) as K. cbn [length app] in K.
  rewrite K by (rewrite len_zeros; lia). rewrite skipn_all2 by (rewrite len_zeros; lia). rewrite app_nil_r. f_equal.
  apply map_ext. intros i. cbn [monomial]. rewrite ipow_pow, scaling_local. ring.
Qed.

(** ** bases_new *)
Lemma nsize2 deg : new_size2 deg = length (exps2 deg).
Proof. apply new_size2_spec, binomial2. Qed.
Lemma nsize3 deg : new_size3 deg = length (exps3 deg).
Proof. apply new_size3_spec, binomial3. Qed.
Lemma deg_lt2 deg : (deg < new_size2 deg)%nat.
Proof. rewrite nsize2. pose proof (length_exps2 deg). nia. Qed.
Lemma deg_lt3 deg : (deg < new_size3 deg)%nat.
Proof. rewrite nsize3. pose proof (length_exps3 deg). nia. Qed.
Lemma new2_eval d deg tr bar x : new2_functions d deg tr bar x =
  Ok (map (fun e => phys2ref d tr bar x 0 ^ fst e * phys2ref d tr bar x 1 ^ snd e) (exps2 deg)).
Proof.
  unfold new2_functions. cbv zeta. rewrite !powers_eq by apply deg_lt2. cbn [bind].
  apply (oloop2_run deg _ (fun a b => phys2ref d tr bar x 0 ^ a * phys2ref d tr bar x 1 ^ b)).
  - intros a b I. apply in_exps2 in I. rewrite (vget_seq (fun i => phys2ref d tr bar x 0 ^ i)), (vget_seq (fun i => phys2ref d tr bar x 1 ^ i)) by lia. reflexivity.
  - rewrite len_zeros. apply nsize2.
Qed.
Lemma new2_list d deg tr bar : lists_monomials deg 2 (new_size2 deg) (matrix_coord d tr bar) (new2_functions d deg tr bar).
Proof.
  rewrite nsize2. apply (lists_from (exps2 deg) as2); [apply enum2|reflexivity|apply binomial2|].
  intros x. rewrite new2_eval. f_equal. apply map_ext. intros e. rewrite monomial2, <- !phys2ref_local. reflexivity.
Qed.
Lemma d_ref d tr bar x i c : (c < d)%nat -> dlim (fun t => phys2ref d tr bar (move x c t) i) (x c) (tr i c).
Proof. intros H. eapply d_eq; [|apply (d_sig d (tr i) bar x c)]. apply Nat.ltb_lt in H. rewrite H. reflexivity. Qed.
Lemma ref_same d tr bar x c i : phys2ref d tr bar (move x c (x c)) i = phys2ref d tr bar x i.
Proof. unfold phys2ref. apply sig_ext. intros j _. rewrite move_same. reflexivity. Qed.
Definition nrow2 (tr : nat -> nat -> R) (bar x : nat -> R) (e : nat * nat) : list R :=
  let u := phys2ref 2 tr bar x 0 in let v := phys2ref 2 tr bar x 1 in
  map (fun c => INR (fst e) * u ^ pred (fst e) * v ^ snd e * tr 0%nat c + u ^ fst e * (INR (snd e) * v ^ pred (snd e)) * tr 1%nat c) [0; 1]%nat.
Lemma new2_grad deg tr bar x : new2_gradients 2 deg tr bar x = Ok (map (nrow2 tr bar x) (exps2 deg)).
Proof.
  unfold new2_gradients. cbv zeta. rewrite !powers_eq by apply deg_lt2. cbn [bind].
  rewrite (oloop2_run deg _ (fun a b => nrow2 tr bar x (a, b))).
  - do 2 f_equal.
  - intros a b I. apply in_exps2 in I.
    rewrite (vget_seq (fun i => phys2ref 2 tr bar x 0 ^ i)), (vget_seq (fun i => phys2ref 2 tr bar x 1 ^ i)), !dpower_eq by lia.
    cbn [bind]. unfold vset. cbn [repeat upd bind]. unfold row_times, read_all. cbn [fold_right bind seq map sig nth].
    unfold nrow2. cbn [map fst snd]. apply ok2; ring.
  - rewrite len_rows. apply nsize2.
Qed.
Lemma new2_gradients_ok deg tr bar : gradients_ok 2 (new_size2 deg) (new2_functions 2 deg tr bar) (new2_gradients 2 deg tr bar).
Proof.
  rewrite nsize2. apply (gradients_from (0%nat, 0%nat) (exps2 deg) 2 _ (fun x e => phys2ref 2 tr bar x 0 ^ fst e * phys2ref 2 tr bar x 1 ^ snd e) (nrow2 tr bar));
    [reflexivity|intros; apply new2_eval|intros; apply new2_grad|].
  intros x [a b] _. split; [reflexivity|]. intros c Hc. cbn [fst snd].
  eapply d_eq; [|apply d_prod2; apply d_ref; exact Hc]. cbv beta. rewrite !ref_same. unfold nrow2. cbn [fst snd map].
  destruct c as [|[|c]]; [| |lia]; cbn [nth]; ring.
Qed.
(** on a 3D face the third entry of the gradient is never set *)
Lemma fold_put_ub {A B} (f : B -> outcome A) l : fold_left (fun st e => oput st (f e)) l UB = UB.
Proof. induction l as [|e l IH]; [reflexivity|]. exact IH. Qed.
Lemma new3f_grad_ub deg tr bar x : new2_gradients 3 deg tr bar x = UB.
Proof.
  unfold new2_gradients. cbv zeta. rewrite !powers_eq by apply deg_lt2. cbn [bind].
  rewrite oloop2_flat. assert (E : exists l, exps2 deg = (0%nat, 0%nat) :: l) by (exists (flat_map (fun k => map (fun i => ((k - i)%nat, i)) (seq 0 (S k))) (seq 1 deg)); reflexivity).
  destruct E as (l & ->). cbn [fold_left fst snd].
  rewrite (vget_seq (fun i => phys2ref 3 tr bar x 0 ^ i)), (vget_seq (fun i => phys2ref 3 tr bar x 1 ^ i)), !dpower_eq by lia.
  cbn [bind]. unfold vset. cbn [repeat upd bind]. unfold row_times, read_all. cbn [fold_right bind oput].
  unfold ret_of. match goal with |- context [fold_left ?f l UB] => assert (fold_left f l UB = UB) as -> end; [|reflexivity].
  clear. induction l as [|e l IH]; [reflexivity|]. exact IH.
Qed.
Lemma new3_eval deg tr bar x : new3_functions deg tr bar x =
  Ok (map (fun e => phys2ref 3 tr bar x 0 ^ fst (fst e) * phys2ref 3 tr bar x 1 ^ snd (fst e) * phys2ref 3 tr bar x 2 ^ snd e) (exps3 deg)).
Proof.
  unfold new3_functions. cbv zeta. rewrite !powers_eq by apply deg_lt3. cbn [bind].
  apply (oloop3_run deg _ (fun a b c => phys2ref 3 tr bar x 0 ^ a * phys2ref 3 tr bar x 1 ^ b * phys2ref 3 tr bar x 2 ^ c)).
  - intros a b c I. apply in_exps3 in I.
    rewrite (vget_seq (fun i => phys2ref 3 tr bar x 0 ^ i)), (vget_seq (fun i => phys2ref 3 tr bar x 1 ^ i)), (vget_seq (fun i => phys2ref 3 tr bar x 2 ^ i)) by lia. reflexivity.
  - rewrite len_zeros. apply nsize3.
Qed.
Lemma new3_list deg tr bar : lists_monomials deg 3 (new_size3 deg) (matrix_coord 3 tr bar) (new3_functions deg tr bar).
Proof.
  rewrite nsize3. apply (lists_from (exps3 deg) as3); [apply enum3|reflexivity|apply binomial3|].
  intros x. rewrite new3_eval. f_equal. apply map_ext. intros e. rewrite monomial3, <- !phys2ref_local. reflexivity.
Qed.
Definition nrow3 (tr : nat -> nat -> R) (bar x : nat -> R) (e : nat * nat * nat) : list R :=
  let '(a, b, c) := e in
  let u := phys2ref 3 tr bar x 0 in let v := phys2ref 3 tr bar x 1 in let w := phys2ref 3 tr bar x 2 in
  map (fun k => INR a * u ^ pred a * v ^ b * w ^ c * tr 0%nat k + u ^ a * (INR b * v ^ pred b) * w ^ c * tr 1%nat k + u ^ a * v ^ b * (INR c * w ^ pred c) * tr 2%nat k) [0; 1; 2]%nat.
Lemma new3_grad deg tr bar x : new3_gradients deg tr bar x = Ok (map (nrow3 tr bar x) (exps3 deg)).
Proof.
  unfold new3_gradients. cbv zeta. rewrite !powers_eq by apply deg_lt3. cbn [bind].
  rewrite (oloop3_run deg _ (fun a b c => nrow3 tr bar x (a, b, c))).
  - apply f_equal. apply map_ext. intros [[a b] c]. reflexivity.
  - intros a b c I. apply in_exps3 in I.
    rewrite (vget_seq (fun i => phys2ref 3 tr bar x 0 ^ i)), (vget_seq (fun i => phys2ref 3 tr bar x 1 ^ i)), (vget_seq (fun i => phys2ref 3 tr bar x 2 ^ i)), !dpower_eq by lia.
    cbn [bind]. unfold vset. cbn [repeat upd bind]. unfold row_times, read_all. cbn [fold_right bind seq map sig nth].
    unfold nrow3. cbn [map]. apply ok3; ring.
  - rewrite len_rows. apply nsize3.
Qed.
Lemma new3_gradients_ok deg tr bar : gradients_ok 3 (new_size3 deg) (new3_functions deg tr bar) (new3_gradients deg tr bar).
Proof.
  rewrite nsize3. apply (gradients_from (0%nat, 0%nat, 0%nat) (exps3 deg) 3 _
    (fun x e => phys2ref 3 tr bar x 0 ^ fst (fst e) * phys2ref 3 tr bar x 1 ^ snd (fst e) * phys2ref 3 tr bar x 2 ^ snd e) (nrow3 tr bar));
    [reflexivity|intros; apply new3_eval|intros; apply new3_grad|].
  intros x [[a b] c] _. split; [reflexivity|]. intros k Hk. cbn [fst snd].
  eapply d_eq; [|apply d_prod3; apply d_ref; exact Hk]. cbv beta. rewrite !ref_same. unfold nrow3. cbn [map].
  destruct k as [|[|[|k]]]; [| | |lia]; cbn [nth]; ring.
Qed.
(** 1D *)
Lemma new1_eval deg pb bar h s x : new1_functions deg pb bar h s x = Ok (map (fun i => new1_ref pb bar h s x ^ i) (seq 0 (S deg))).
Proof. apply powers_exact. Qed.
Lemma new1_grad deg pb bar h s x : (1 <= deg)%nat ->
  new1_gradients deg pb bar h s x = Ok (map (fun i => s / h * (INR i * new1_ref pb bar h s x ^ pred i)) (seq 0 (S deg))).
Proof.
  intros H. unfold new1_gradients. cbv zeta. set (ep := new1_ref pb bar h s x). destruct deg as [|deg]; [lia|].
  unfold zeros, vset at 1 2. cbn [repeat upd bind].
  replace (0 :: s / h :: repeat 0 deg) with (map (fun i => s / h * (INR i * ep ^ pred i)) (seq 0 2) ++ repeat 0 deg)
    by (cbn [seq map app INR pred pow]; f_equal; [ring|f_equal; ring]).
  rewrite (fold_rec (fun k y => y * INR k * ep / INR (k - 1)) (fun i => s / h * (INR i * ep ^ pred i))).
  - rewrite skipn_all2 by (rewrite repeat_length; lia). rewrite app_nil_r. do 3 f_equal. lia.
  - lia.
  - rewrite repeat_length. lia.
  - intros k Hk. destruct k as [|[|k]]; [lia|lia|]. replace (S (S k) - 1)%nat with (S k) by lia. cbn [pred pow].
    assert (INR (S k) <> 0) by (apply not_0_INR; lia). generalize (s / h). intros q. field. assumption.
Qed.
Lemma new1_grad_0 pb bar h s x : new1_gradients 0 pb bar h s x = UB.
Proof. reflexivity. Qed.
Lemma d_new1 pb bar h s x : dlim (new1_ref pb bar h s) x ((pb - bar) / (h / s * (h / s))).
Proof.
  apply (d_ext (fun t => (pb - bar) / (h / s * (h / s)) * (t - bar))); [intros t; unfold new1_ref, Rdiv; ring|].
  eapply d_eq; [|apply d_mult; [apply d_const|apply d_minus; [apply d_id|apply d_const]]]. cbv beta. ring.
Qed.
Lemma new1_derivatives deg pa pb : (1 <= deg)%nat -> pa < pb ->
  derivatives_ok (S deg) (new1_functions deg pb ((pa + pb) / 2) (pb - pa) 2) (new1_gradients deg pb ((pa + pb) / 2) (pb - pa) 2).
Proof.
  intros Hd Hp. set (bar := (pa + pb) / 2). set (h := pb - pa).
  apply (derivatives_from _ (fun x i => new1_ref pb bar h 2 x ^ i) (fun x i => 2 / h * (INR i * new1_ref pb bar h 2 x ^ pred i)));
    [intros; apply new1_eval|intros; apply new1_grad, Hd|]. intros x j _.
  eapply d_eq; [|apply (d_pow _ x _ j (d_new1 pb bar h 2 x))]. cbv beta. unfold bar, h. field. lra.
Qed.
Lemma new2f_list deg pa pb : lists_monomials deg 1 (S deg) (fun x _ => new2f_ref pa pb x) (new2f_functions deg pa pb).
Proof.
  apply (lists_from (seq 0 (S deg)) (fun i => [i])); [apply enum1|apply seq_length|apply binomial1|].
  intros x. unfold new2f_functions. rewrite powers_exact. f_equal. apply map_ext. intros i. cbn [monomial]. ring.
Qed.

(** ** bases_raw *)
Lemma raw_as_matrix d v bar x i : raw_ref d v bar x i = phys2ref d v bar x i.
Proof. unfold raw_ref, phys2ref. apply sig_ext. intros; ring. Qed.
Lemma raw2_as_new2 d deg v bar x : raw2_functions d deg v bar x = new2_functions d deg v bar x.
Proof. unfold raw2_functions, new2_functions. cbv zeta. rewrite !raw_as_matrix. reflexivity. Qed.
Definition rrow2 (d : nat) (v : nat -> nat -> R) (bar x : nat -> R) (e : nat * nat) : list R :=
  let p := phys2ref d v bar x 0 in let q := phys2ref d v bar x 1 in
  map (fun c => v 0%nat c * (INR (fst e) * p ^ pred (fst e) * q ^ snd e) + v 1%nat c * (p ^ fst e * (INR (snd e) * q ^ pred (snd e)))) (seq 0 d).
Lemma raw2_grad d deg v bar x : raw2_gradients d deg v bar x = Ok (map (rrow2 d v bar x) (exps2 deg)).
Proof.
  unfold raw2_gradients. cbv zeta. rewrite !raw_as_matrix. rewrite !powers_eq by apply deg_lt2. cbn [bind].
  rewrite (oloop2_run deg _ (fun a b => rrow2 d v bar x (a, b))).
  - do 2 f_equal.
  - intros a b I. apply in_exps2 in I.
    rewrite (vget_seq (fun i => phys2ref d v bar x 0 ^ i)), (vget_seq (fun i => phys2ref d v bar x 1 ^ i)), !dpower_eq by lia.
    cbn [bind]. unfold rrow2. cbn [fst snd]. f_equal.
  - rewrite len_rows. apply nsize2.
Qed.
Lemma raw2_gradients_ok d deg v bar : gradients_ok d (new_size2 deg) (raw2_functions d deg v bar) (raw2_gradients d deg v bar).
Proof.
  rewrite nsize2. apply (gradients_from (0%nat, 0%nat) (exps2 deg) d _ (fun x e => phys2ref d v bar x 0 ^ fst e * phys2ref d v bar x 1 ^ snd e) (rrow2 d v bar));
    [reflexivity|intros; rewrite raw2_as_new2; apply new2_eval|intros; apply raw2_grad|].
  intros x [a b] _. split; [unfold rrow2; rewrite map_length, seq_length; reflexivity|]. intros c Hc. cbn [fst snd].
  eapply d_eq; [|apply d_prod2; apply d_ref; exact Hc]. cbv beta. rewrite !ref_same. unfold rrow2. cbn [fst snd].
  match goal with |- _ = nth c (map ?f _) 0 => assert (EE : nth c (map f (seq 0 d)) 0 = f c) end; [|rewrite EE; reflexivity].
  apply nth_error_nth. rewrite (map_nth_error _ c (seq 0 d) (d := c)); [reflexivity|].
  rewrite (nth_error_nth' _ 0%nat) by (rewrite seq_length; lia). rewrite seq_nth by lia. reflexivity.
Qed.
