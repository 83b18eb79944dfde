(** The harmonic enrichment of the plane: values, gradients, sizes. *)
From Coq Require Import List Arith ZArith Reals Lia Lra Bool.
From Verif Require Import Common Tensor_Spec Law2_Proofs Bases_Model Bases_Spec Bases_Proofs Bases2_Proofs Bases3_Proofs Harm_Spec Harm_Model Harm_Proofs.
Import ListNotations.
Open Scope R_scope.

(** ** the sizes kept by the object *)
Definition hsz (k d : nat) : nat := if (d =? 2)%nat then 2 * k + 1 else (k + 1) * (k + 1).
Lemma hsz_ok k d : d = 2%nat \/ d = 3%nat -> harmonic_basis_size k d = Ok (hsz k d).
Proof. intros [-> | ->]; reflexivity. Qed.
Lemma set_ok d fbd pd B : d = 2%nat \/ d = 3%nat -> full_degree B = fbd -> (pd <= fbd)%nat ->
  set_poly_degree d pd B = Ok (mkHB fbd (scalar_basis_size pd d + (hsz fbd d - hsz pd d)) pd (scalar_basis_size pd d) (pd + 1) (hsz fbd d - hsz pd d)).
Proof.
  intros D F H. unfold set_poly_degree. rewrite F. destruct (Nat.ltb_spec fbd pd); [lia|]. rewrite !hsz_ok by exact D. cbn [bind].
  replace (pd + 1 - 1)%nat with pd by lia. reflexivity.
Qed.
Definition state (d fbd pd : nat) : hbasis :=
  mkHB fbd (scalar_basis_size pd d + (hsz fbd d - hsz pd d)) pd (scalar_basis_size pd d) (pd + 1) (hsz fbd d - hsz pd d).
Lemma make_state d fbd : harm_make d fbd = state d fbd fbd.
Proof. unfold harm_make, state. f_equal; lia. Qed.
Lemma set_state d fbd pd0 pd : d = 2%nat \/ d = 3%nat -> set_poly_degree d pd (state d fbd pd0) = Ok (state d fbd (if (pd <=? fbd)%nat then pd else pd0)).
Proof.
  intros D. destruct (Nat.leb_spec pd fbd).
  - apply (set_ok d fbd pd (state d fbd pd0) D eq_refl H).
  - unfold set_poly_degree. cbn [full_degree state]. destruct (Nat.ltb_spec fbd pd); [reflexivity|lia].
Qed.

(** ** copying the tail *)
Lemma copy_tail_app {A} (a b c e : list A) h : length b = h -> length e = h -> copy_tail h (a ++ b) (c ++ e) = Ok (a ++ e).
Proof.
  intros B E. unfold copy_tail. rewrite !app_length, B, E. destruct (Nat.leb_spec h (length a + h)); [|lia]. destruct (Nat.leb_spec h (length c + h)); [|lia]. cbn [andb].
  rewrite !Nat.add_sub. rewrite firstn_app, firstn_all, Nat.sub_diag. cbn [firstn]. rewrite app_nil_r.
  rewrite skipn_app, skipn_all, Nat.sub_diag. reflexivity.
Qed.

(** ** loops writing two entries *)
Lemma vset_at_app {A} (a : list A) x r i y : length a = i -> vset (a ++ x :: r) i y = Ok (a ++ y :: r).
Proof. intros <-. unfold vset. rewrite upd_app. reflexivity. Qed.
Lemma vset2 {A} (a : list A) x1 x2 r i y1 y2 : length a = i -> (do l <- vset (a ++ x1 :: x2 :: r) i y1; vset l (S i) y2) = Ok ((a ++ [y1; y2]) ++ r).
Proof.
  intros H. rewrite (vset_at_app a x1 _ i y1 H). cbn [bind]. change (y1 :: x2 :: r) with ([y1] ++ x2 :: r). rewrite app_assoc.
  rewrite (vset_at_app (a ++ [y1])) by (rewrite app_length; cbn; lia). rewrite <- !app_assoc. reflexivity.
Qed.
Definition pairs {A} (g h : nat -> A) (s k : nat) : list A := flat_map (fun n => [g n; h n]) (seq s k).
Lemma len_pairs {A} (g h : nat -> A) s k : length (pairs g h s k) = (2 * k)%nat.
Proof. unfold pairs. revert s. induction k as [|k IH]; intros s; [reflexivity|]. cbn [seq flat_map app length]. rewrite IH. lia. Qed.
Lemma pairs_S {A} (g h : nat -> A) s k : pairs g h s (S k) = pairs g h s k ++ [g (s + k)%nat; h (s + k)%nat].
Proof. unfold pairs. rewrite seq_S, flat_map_app. reflexivity. Qed.
Lemma pairs_split {A} (g h : nat -> A) s k l : pairs g h s (k + l) = pairs g h s k ++ pairs g h (s + k) l.
Proof. unfold pairs. rewrite seq_app, flat_map_app. reflexivity. Qed.
Lemma pairs_at {A} (g h : nat -> A) p f : (p <= f)%nat -> pairs g h 1 f = pairs g h 1 p ++ pairs g h (S p) (f - p).
Proof. intros H. change (S p) with (1 + p)%nat. rewrite <- pairs_split. f_equal. lia. Qed.
(** one write of a pair at the end of the written part *)
Lemma step_pairs {A} (a0 : A) (g h : nat -> A) i (rest : list A) : (2 <= length rest)%nat ->
  (do l <- vset ((a0 :: pairs g h 1 i) ++ rest) (2 * S i - 1) (g (S i)); vset l (2 * S i) (h (S i))) = Ok ((a0 :: pairs g h 1 (S i)) ++ skipn 2 rest).
Proof.
  intros H. destruct rest as [|r1 [|r2 rest]]; cbn [length] in H; try lia. cbn [skipn]. rewrite pairs_S.
  replace (2 * S i)%nat with (S (2 * i + 1)) by lia. replace (S (2 * i + 1) - 1)%nat with (2 * i + 1)%nat by lia.
  rewrite (vset2 (a0 :: pairs g h 1 i)) by (cbn [length]; rewrite len_pairs; lia). reflexivity.
Qed.
Lemma get_pairs {A} (a0 : A) (g h : nat -> A) i k rest : (1 <= i)%nat -> (i <= k)%nat ->
  vget ((a0 :: pairs g h 1 k) ++ rest) (2 * S i - 3) = Ok (g i) /\ vget ((a0 :: pairs g h 1 k) ++ rest) (2 * S i - 2) = Ok (h i).
Proof.
  intros H1 H2. destruct i as [|i]; [lia|].
  set (p := a0 :: pairs g h 1 i). assert (L : length p = (2 * i + 1)%nat) by (unfold p; cbn [length]; rewrite len_pairs; lia).
  assert (E : (a0 :: pairs g h 1 k) ++ rest = p ++ g (S i) :: h (S i) :: pairs g h (S (S i)) (k - S i) ++ rest).
  { replace k with (i + S (k - S i))%nat at 1 by lia. rewrite pairs_split. unfold p. cbn [app]. rewrite <- app_assoc. reflexivity. }
  rewrite E. unfold vget. split; rewrite nth_error_app2 by lia; rewrite L.
  - replace (2 * S (S i) - 3 - (2 * i + 1))%nat with 0%nat by lia. reflexivity.
  - replace (2 * S (S i) - 2 - (2 * i + 1))%nat with 1%nat by lia. reflexivity.
Qed.

Lemma skipn_skipn {A} x : forall y (l : list A), skipn x (skipn y l) = skipn (x + y) l.
Proof.
  intros y l. revert x. revert y. induction l as [|a l IH]; intros y x; [rewrite !skipn_nil; reflexivity|].
  destruct y as [|y]; [rewrite Nat.add_0_r; reflexivity|]. rewrite Nat.add_succ_r. cbn [skipn]. apply IH.
Qed.
Lemma harm2_loop x y k : forall i rest, (1 <= i)%nat -> (2 * k <= length rest)%nat ->
  fold_left (fun st i => do r <- st;
    do P <- vget r (2 * i - 3); do Q <- vget r (2 * i - 2);
    do r <- vset r (2 * i - 1) (x * P - y * Q);
    vset r (2 * i) (y * P + x * Q)) (seq (S i) k) (Ok ((1 :: pairs (cre x y) (cim x y) 1 i) ++ rest)) =
  Ok ((1 :: pairs (cre x y) (cim x y) 1 (i + k)) ++ skipn (2 * k) rest).
Proof.
  induction k as [|k IH]; intros i rest Hi L; [rewrite Nat.add_0_r; reflexivity|]. cbn [seq fold_left]. cbn [bind].
  destruct (get_pairs 1 (cre x y) (cim x y) i i rest Hi (le_n _)) as (G1 & G2). rewrite G1. cbn [bind]. rewrite G2. cbn [bind].
  replace (x * cre x y i - y * cim x y i) with (cre x y (S i)) by apply cpow_S. replace (y * cre x y i + x * cim x y i) with (cim x y (S i)) by apply cpow_S.
  rewrite (step_pairs 1 (cre x y) (cim x y) i rest) by lia. rewrite IH; [|lia|rewrite skipn_length; lia].
  rewrite skipn_skipn. replace (i + S k)%nat with (S i + k)%nat by lia. replace (2 * S k)%nat with (2 * k + 2)%nat by lia. reflexivity.
Qed.
Lemma three_writes {A} (z a b c : A) n : (do r <- vset (repeat z (S (S (S n)))) 0 a; do r <- vset r 1 b; vset r 2 c) = Ok (a :: b :: c :: repeat z n).
Proof. reflexivity. Qed.
Lemma bind_assoc {A B C} (o : outcome A) (f : A -> outcome B) (g : B -> outcome C) : bind (bind o f) g = bind o (fun a => bind (f a) g).
Proof. destruct o; reflexivity. Qed.
Lemma harm2_eval deg x y : eval_harmonic2 deg x y = Ok (1 :: pairs (cre x y) (cim x y) 1 deg).
Proof.
  unfold eval_harmonic2. rewrite (hsz_ok deg 2) by auto. cbn [bind]. unfold hsz. cbn [Nat.eqb]. destruct deg as [|deg].
  - reflexivity.
  - replace (2 * S deg + 1)%nat with (S (S (S (2 * deg)))) by lia. change (0 <? S deg)%nat with true. cbv iota. rewrite <- bind_assoc.
    unfold zeros. rewrite three_writes. cbn [bind].
    pose proof (harm2_loop x y deg 1 (repeat 0 (2 * deg)) (le_n _) ltac:(rewrite repeat_length; lia)) as K.
    unfold pairs at 1 in K. cbn [seq flat_map app] in K. unfold cre at 1, cim at 1 in K. cbn [cpow fst snd] in K.
    replace (x * 1 - y * 0) with x in K by ring. replace (y * 1 + x * 0) with y in K by ring.
    replace (S deg - 1)%nat with deg by lia. rewrite K. rewrite skipn_all2 by (rewrite repeat_length; lia). rewrite app_nil_r. reflexivity.
Qed.
Definition gre (x y : R) (n : nat) : list R := [INR n * cre x y (pred n); - (INR n * cim x y (pred n))].
Definition gim (x y : R) (n : nat) : list R := [INR n * cim x y (pred n); INR n * cre x y (pred n)].
Lemma harm2_gloop x y deg k : forall i rest, (1 <= i)%nat -> (i + k <= deg)%nat -> (2 * k <= length rest)%nat ->
  fold_left (fun st i => do r <- st;
    do P <- vget (1 :: pairs (cre x y) (cim x y) 1 deg) (2 * i - 3); do Q <- vget (1 :: pairs (cre x y) (cim x y) 1 deg) (2 * i - 2);
    do r <- vset r (2 * i - 1) [1 * (INR i * P); - (1) * (INR i * Q)];
    vset r (2 * i) [1 * (INR i * Q); 1 * (INR i * P)]) (seq (S i) k) (Ok (([0; 0] :: pairs (gre x y) (gim x y) 1 i) ++ rest)) =
  Ok (([0; 0] :: pairs (gre x y) (gim x y) 1 (i + k)) ++ skipn (2 * k) rest).
Proof.
  induction k as [|k IH]; intros i rest Hi Hk L; [rewrite Nat.add_0_r; reflexivity|]. cbn [seq fold_left]. cbn [bind].
  destruct (get_pairs 1 (cre x y) (cim x y) i deg [] Hi ltac:(lia)) as (G1 & G2). rewrite app_nil_r in G1, G2. rewrite G1. cbn [bind]. rewrite G2. cbn [bind].
  replace [1 * (INR (S i) * cre x y i); - (1) * (INR (S i) * cim x y i)] with (gre x y (S i)) by (unfold gre; cbn [pred]; f_equal; [ring|f_equal; ring]).
  replace [1 * (INR (S i) * cim x y i); 1 * (INR (S i) * cre x y i)] with (gim x y (S i)) by (unfold gim; cbn [pred]; f_equal; [ring|f_equal; ring]).
  rewrite (step_pairs [0; 0] (gre x y) (gim x y) i rest) by lia. rewrite IH; [|lia|lia|rewrite skipn_length; lia].
  rewrite skipn_skipn. replace (i + S k)%nat with (S i + k)%nat by lia. replace (2 * S k)%nat with (2 * k + 2)%nat by lia. reflexivity.
Qed.
Lemma g1_re x y : gre x y 1 = [1; 0].
Proof. unfold gre, cre, cim. cbn [pred cpow fst snd INR]. f_equal; [ring|f_equal; ring]. Qed.
Lemma g1_im x y : gim x y 1 = [0; 1].
Proof. unfold gim, cre, cim. cbn [pred cpow fst snd INR]. f_equal; [ring|f_equal; ring]. Qed.
Lemma harm2_grad deg x y : eval_harmonic_gradients2 deg x y = Ok ([0; 0] :: pairs (gre x y) (gim x y) 1 deg).
Proof.
  unfold eval_harmonic_gradients2. rewrite (hsz_ok deg 2) by auto. cbn [bind]. unfold hsz. cbn [Nat.eqb]. destruct deg as [|deg].
  - rewrite harm2_eval. reflexivity.
  - replace (2 * S deg + 1)%nat with (S (S (S (2 * deg)))) by lia. change (0 <? S deg)%nat with true. cbv iota. rewrite <- bind_assoc.
    unfold zero_rows. rewrite three_writes. cbn [bind]. destruct deg as [|deg].
    + cbn [Nat.eqb]. unfold pairs. cbn [seq flat_map app repeat Nat.mul Nat.add]. rewrite g1_re, g1_im. reflexivity.
    + change (S (S deg) =? 1)%nat with false. cbv iota. rewrite harm2_eval. cbn [bind].
      pose proof (harm2_gloop x y (S (S deg)) (S deg) 1 (repeat [0; 0] (2 * S deg)) (le_n _) ltac:(lia) ltac:(rewrite repeat_length; lia)) as K.
      unfold pairs at 3 in K. cbn [seq flat_map app] in K. rewrite g1_re, g1_im in K. 
      replace (S (S deg) - 1)%nat with (S deg) by lia. cbn [repeat]. etransitivity; [exact K|]. rewrite skipn_all2 by (rewrite repeat_length; lia). rewrite app_nil_r. reflexivity.
Qed.

(** ** the whole basis *)
Definition mono2 (F : frame) (x : nat -> R) (e : nat * nat) : R := scaling_point 2 F x 0 ^ fst e * scaling_point 2 F x 1 ^ snd e.
Lemma loop2_prefix {A} deg (f : nat -> nat -> A) (a0 : A) n : (length (exps2 deg) <= n)%nat ->
  ret_of (loop2 deg f (Ok (0%nat, repeat a0 n))) = Ok (map (fun e => f (fst e) (snd e)) (exps2 deg) ++ repeat a0 (n - length (exps2 deg))).
Proof.
  intros H. rewrite loop2_oloop2, oloop2_flat.
  rewrite (fold_ext_in _ (fun st e => put st (f (fst e) (snd e)))) by (intros; apply oput_ok).
  pose proof (fold_put (fun e => f (fst e) (snd e)) (exps2 deg) [] (repeat a0 n) ltac:(rewrite repeat_length; lia)) as K. cbn [length app] in K. rewrite K.
  unfold ret_of. cbn [bind snd]. rewrite skipn_rep. reflexivity.
Qed.
Lemma loop3_prefix {A} deg (f : nat -> nat -> nat -> A) (a0 : A) n : (length (exps3 deg) <= n)%nat ->
  ret_of (loop3 deg f (Ok (0%nat, repeat a0 n))) = Ok (map (fun e => f (fst (fst e)) (snd (fst e)) (snd e)) (exps3 deg) ++ repeat a0 (n - length (exps3 deg))).
Proof.
  intros H. rewrite loop3_oloop3, oloop3_flat.
  rewrite (fold_ext_in _ (fun st e => put st (f (fst (fst e)) (snd (fst e)) (snd e)))) by (intros; apply oput_ok).
  pose proof (fold_put (fun e => f (fst (fst e)) (snd (fst e)) (snd e)) (exps3 deg) [] (repeat a0 n) ltac:(rewrite repeat_length; lia)) as K. cbn [length app] in K. rewrite K.
  unfold ret_of. cbn [bind snd]. rewrite skipn_rep. reflexivity.
Qed.
Section Top2.
  Context (fbd pd : nat) (Hpd : (pd <= fbd)%nat) (Fit : fits pd 2) (bar len : nat -> R) (diam : R).
  Let F := box_frame bar len.
  Let B := state 2 fbd pd.
  Lemma hs2 : (hsz fbd 2 - hsz pd 2 = 2 * (fbd - pd))%nat.
  Proof. unfold hsz. cbn [Nat.eqb]. lia. Qed.
  Lemma top2_eval x : top2_functions B F bar diam x =
    Ok (map (mono2 F x) (exps2 pd) ++ pairs (cre (hep bar diam x 0) (hep bar diam x 1)) (cim (hep bar diam x 0) (hep bar diam x 1)) (S pd) (fbd - pd)).
  Proof.
    unfold top2_functions, B, state, zeros. cbn [poly_degree full_size harm_size full_degree]. cbv zeta. rewrite hs2, (size2 pd Fit).
    rewrite loop2_prefix by lia. cbn [bind]. rewrite (map_ext _ (mono2 F x)) by (intros e; rewrite !ipow_pow; reflexivity).
    replace (length (exps2 pd) + 2 * (fbd - pd) - length (exps2 pd))%nat with (2 * (fbd - pd))%nat by lia.
    destruct (Nat.ltb_spec 0 (2 * (fbd - pd))) as [L|L].
    - rewrite harm2_eval. cbn [bind]. rewrite (pairs_at _ _ pd fbd Hpd).
      match goal with |- copy_tail _ _ (1 :: ?a ++ ?b) = _ => change (1 :: a ++ b) with ((1 :: a) ++ b) end.
      apply copy_tail_app; [apply repeat_length|apply len_pairs].
    - replace (fbd - pd)%nat with 0%nat by lia. reflexivity.
  Qed.
  Definition mrow (x : nat -> R) (e : nat * nat) : list R :=
    let u := scaling_point 2 F x 0 in let v := scaling_point 2 F x 1 in
    [passage F 0 0 * (INR (fst e) * u ^ pred (fst e)) * v ^ snd e; passage F 1 1 * u ^ fst e * (INR (snd e) * v ^ pred (snd e))].
  Lemma top2_grad x : top2_gradients B F bar diam x =
    Ok (map (mrow x) (exps2 pd) ++ pairs (gre (hep bar diam x 0) (hep bar diam x 1)) (gim (hep bar diam x 0) (hep bar diam x 1)) (S pd) (fbd - pd)).
  Proof.
    unfold top2_gradients, B, state, zero_rows. cbn [poly_degree full_size harm_size full_degree]. cbv zeta. rewrite hs2, (size2 pd Fit).
    rewrite loop2_prefix by lia. cbn [bind]. rewrite (map_ext _ (mrow x)) by (intros e; rewrite !ipow_pow, !dpow_pow; reflexivity).
    replace (length (exps2 pd) + 2 * (fbd - pd) - length (exps2 pd))%nat with (2 * (fbd - pd))%nat by lia.
    destruct (Nat.ltb_spec 0 (2 * (fbd - pd))) as [L|L].
    - rewrite harm2_grad. cbn [bind]. rewrite (pairs_at _ _ pd fbd Hpd).
      match goal with |- copy_tail _ _ (?z :: ?a ++ ?b) = _ => change (z :: a ++ b) with ((z :: a) ++ b) end.
      apply copy_tail_app; [apply repeat_length|apply len_pairs].
    - replace (fbd - pd)%nat with 0%nat by lia. reflexivity.
  Qed.
End Top2.
