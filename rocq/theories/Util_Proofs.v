From Coq Require Import List Arith NArith Bool Lia.
From Verif Require Import Common Mesh_Model Mesh_Spec Mesh_Proofs Util_Model Util_Spec.
Import ListNotations.

(** ** polygon store *)
Definition flat (ps : list (list nat)) : list nat := flat_map (fun p => length p :: p) ps.

Lemma add_all_flat ps s : fold_left (fun s p => add_polygon p s) ps s = s ++ flat ps.
Proof.
  revert s. induction ps as [|p ps IH]; intros s; cbn [fold_left flat flat_map]; [now rewrite app_nil_r|].
  rewrite IH. unfold add_polygon. rewrite <- !app_assoc. reflexivity.
Qed.

Lemma iterate_flat ps pre fuel : length ps <= fuel ->
  iterate fuel (pre ++ flat ps) (mkPIt (length pre) (length (pre ++ flat ps))) = Some (Ok ps).
Proof.
  revert pre fuel. induction ps as [|p ps IH]; intros pre fuel Hf.
  - destruct fuel; cbn [iterate]; unfold it_neq, store_end; cbn [m_itor flat flat_map]; rewrite app_nil_r, Nat.eqb_refl; reflexivity.
  - destruct fuel as [|fuel]; [cbn in Hf; lia|]. cbn [iterate]. unfold it_neq, store_end. cbn [m_itor].
    assert (L : length (pre ++ flat (p :: ps)) = length pre + (1 + length p) + length (flat ps)).
    { rewrite app_length. cbn [flat flat_map length app]. fold (flat ps). rewrite app_length. lia. }
    rewrite (proj2 (Nat.eqb_neq (length pre) _)) by lia. cbn [negb].
    assert (G : nth_error (pre ++ flat (p :: ps)) (length pre) = Some (length p)).
    { rewrite nth_error_app2 by lia. rewrite Nat.sub_diag. reflexivity. }
    unfold point_ids, number_of_edges, vget. rewrite G. cbn [bind]. unfold vrange.
    rewrite (proj2 (Nat.leb_le _ _)) by lia. rewrite (proj2 (Nat.leb_le _ _)) by lia. cbn [andb bind].
    unfold it_next. cbn [m_itor m_end]. rewrite (proj2 (Nat.eqb_neq (length pre) _)) by lia. cbn [negb].
    unfold advance. cbn [m_itor m_end]. rewrite (proj2 (Nat.eqb_neq (length pre) _)) by lia. unfold vget. rewrite G. cbn [bind].
    rewrite (proj2 (Nat.leb_le _ _)) by lia. cbn [bind].
    specialize (IH (pre ++ length p :: p) fuel ltac:(cbn in Hf; lia)).
    assert (EQ : (pre ++ length p :: p) ++ flat ps = pre ++ flat (p :: ps)).
    { rewrite <- app_assoc. reflexivity. }
    rewrite EQ in IH. rewrite app_length in IH. cbn [length] in IH.
    replace (length pre + S (length p)) with (length pre + (length p + 1)) in IH by lia. rewrite IH. cbn [bind].
    do 3 f_equal. replace (length pre + (length p + 1) - (length pre + 1)) with (length p) by lia.
    cbn [flat flat_map]. fold (flat ps). rewrite skipn_app. rewrite skipn_all2 by lia.
    replace (length pre + 1 - length pre) with 1 by lia. cbn [skipn app]. rewrite firstn_app, Nat.sub_diag, firstn_all. cbn. apply app_nil_r.
Qed.

(** ** identifiers *)
Lemma mask31_spec v : N.land v mask31 = N.modulo v (2^31).
Proof. change mask31 with (N.ones 31). apply N.land_ones. Qed.
Lemma flag_testbit n : N.testbit flag31 n = N.eqb n 31.
Proof. change flag31 with (2^31)%N. rewrite N.pow2_bits_eqb, N.eqb_sym. reflexivity. Qed.
Lemma mask_testbit n : N.testbit mask31 n = N.ltb n 31.
Proof.
  change mask31 with (N.ones 31). destruct (N.ltb_spec n 31); [apply N.ones_spec_low|apply N.ones_spec_high]; lia.
Qed.
Lemma pident_of_mask v : N.land (pident_of v) mask31 = N.modulo v (2^31).
Proof.
  unfold pident_of. rewrite <- mask31_spec. apply N.bits_inj. intros n. rewrite !N.land_spec, N.lor_spec, N.land_spec, flag_testbit, mask_testbit.
  destruct (N.ltb_spec n 31); destruct (N.eqb_spec n 31); try lia; destruct (N.testbit v n); reflexivity.
Qed.
Lemma pident_of_flag v : N.land (pident_of v) flag31 = flag31.
Proof.
  unfold pident_of. apply N.bits_inj. intros n. rewrite !N.land_spec, N.lor_spec, N.land_spec, flag_testbit, mask_testbit.
  destruct (N.eqb_spec n 31); destruct (N.ltb_spec n 31); try lia; destruct (N.testbit v n); reflexivity.
Qed.
Lemma pident_get_of v : pident_get (pident_of v) = Ok (N.modulo v (2^31)).
Proof. unfold pident_get. rewrite pident_of_flag, pident_of_mask. reflexivity. Qed.
Lemma pident_get_invalid d : pident_get (pident_invalid d) = Throw LogicError.
Proof.
  unfold pident_get, pident_invalid. replace (N.land (N.land d mask31) flag31) with 0%N; [reflexivity|].
  symmetry. apply N.bits_inj. intros n. rewrite !N.land_spec, flag_testbit, mask_testbit, N.bits_0.
  destruct (N.eqb_spec n 31); destruct (N.ltb_spec n 31); try lia; destruct (N.testbit d n); reflexivity.
Qed.

(** ** stabilisation coefficients *)
Section Stab.
  Context {C F T : Type} (cltb : C -> C -> bool) (O : strict_total_order cltb).
  Context (m : mesh C F) (Hs : sorted_unique cltb (m_cells m)).
  Context (same : C -> C -> bool) (Hsame : forall a b, same a b = true <-> a = b).

  Definition view (s : stab (T:=T)) (c : C) (cur nxt : T) : Prop :=
    exists i, stored (m_cells m) i c /\ nth_error (m_stab_coeff s) i = Some cur /\ nth_error (m_stab_coeff_new s) i = Some nxt.

  Lemma view_getValue s c cur nxt : view s c cur nxt -> getValue cltb m c s = Ok cur.
  Proof.
    intros (i & Hi & E & _). unfold getValue. rewrite (lookup_stored cltb O _ _ _ Hs Hi). cbn [bind]. unfold vget. now rewrite E.
  Qed.

  Lemma stored_inj i j c c' : stored (m_cells m) i c -> stored (m_cells m) j c' -> (i = j <-> c = c').
  Proof.
    intros Hi Hj. split; [intros ->; unfold stored in *; congruence|].
    intros <-. pose proof (lookup_stored cltb O _ _ _ Hs Hi) as A. pose proof (lookup_stored cltb O _ _ _ Hs Hj) as B. congruence.
  Qed.

  Lemma view_set (l : list T) i j c c' (v x : T) : stored (m_cells m) i c -> stored (m_cells m) j c' -> length l = length (m_cells m) ->
    nth_error l i = Some x ->
    exists l', upd l j v = Some l' /\ length l' = length l /\ nth_error l' i = Some (if same c' c then v else x).
  Proof.
    intros Hi Hj L E. destruct (upd_some l j v) as [l' U].
    { rewrite L. apply nth_error_Some. unfold stored in Hj. congruence. }
    exists l'. split; [exact U|]. split; [eapply upd_length; eauto|].
    pose proof (stored_inj _ _ _ _ Hj Hi) as J. destruct (same c' c) eqn:S1.
    - apply Hsame in S1. apply J in S1. subst. eapply upd_nth_same; eauto.
    - rewrite (upd_nth_other _ _ _ _ _ U); [exact E|]. intros E'. apply J in E'. apply Hsame in E'. congruence.
  Qed.

  Definition sized (s : stab (T:=T)) := length (m_stab_coeff s) = length (m_cells m) /\ length (m_stab_coeff_new s) = length (m_cells m).

  Definition cell_step (c : C) (o : stab_op (C:=C) (T:=T)) (p : T * T) : T * T :=
    match o with
    | SetValue c' v => (if same c' c then v else fst p, snd p)
    | SetValueNext c' v => (fst p, if same c' c then v else snd p)
    | Update => (snd p, snd p)
    end.

  Lemma stab_step_spec o s : sized s -> about (m_cells m) o ->
    exists s', stab_step cltb m o s = Ok s' /\ sized s' /\
      forall c cur nxt, view s c cur nxt -> view s' c (fst (cell_step c o (cur, nxt))) (snd (cell_step c o (cur, nxt))).
  Proof.
    intros [L1 L2] A. destruct o as [c' v|c' v|]; cbn [stab_step about] in *.
    - destruct (in_stored _ _ A) as [j Hj]. unfold setValue. rewrite (lookup_stored cltb O _ _ _ Hs Hj). cbn [bind].
      destruct (upd_some (m_stab_coeff s) j v) as [l' U]. { rewrite L1. apply nth_error_Some. unfold stored in Hj. congruence. }
      unfold vset. rewrite U. cbn [bind]. eexists. split; [reflexivity|]. split; [split; cbn; [rewrite (upd_length _ _ _ _ U)|]; assumption|].
      intros c cur nxt (i & Hi & E1 & E2). exists i. split; [exact Hi|]. cbn.
      destruct (view_set _ i j c c' v cur Hi Hj L1 E1) as (l'' & U' & _ & E). rewrite U in U'. injection U' as <-. auto.
    - destruct (in_stored _ _ A) as [j Hj]. unfold setValueNext. rewrite (lookup_stored cltb O _ _ _ Hs Hj). cbn [bind].
      destruct (upd_some (m_stab_coeff_new s) j v) as [l' U]. { rewrite L2. apply nth_error_Some. unfold stored in Hj. congruence. }
      unfold vset. rewrite U. cbn [bind]. eexists. split; [reflexivity|]. split; [split; cbn; [|rewrite (upd_length _ _ _ _ U)]; assumption|].
      intros c cur nxt (i & Hi & E1 & E2). exists i. split; [exact Hi|]. cbn.
      destruct (view_set _ i j c c' v nxt Hi Hj L2 E2) as (l'' & U' & _ & E). rewrite U in U'. injection U' as <-. auto.
    - eexists. split; [reflexivity|]. split; [split; assumption|]. intros c cur nxt (i & Hi & E1 & E2). exists i. auto.
  Qed.

  Lemma stab_run_spec ops s : sized s -> Forall (about (m_cells m)) ops ->
    exists s', stab_run cltb m ops s = Ok s' /\ sized s' /\
      forall c p, view s c (fst p) (snd p) ->
        let q := fold_left (fun p o => cell_step c o p) ops p in view s' c (fst q) (snd q).
  Proof.
    revert s. induction ops as [|o ops IH]; intros s Z A; cbn [stab_run fold_left].
    - exists s. auto.
    - inversion A as [|x y A1 A2]; subst. destruct (stab_step_spec o s Z A1) as (s1 & E & Z1 & V).
      rewrite E. cbn [bind]. destruct (IH s1 Z1 A2) as (s2 & E2 & Z2 & V2). exists s2. split; [exact E2|]. split; [exact Z2|].
      intros c p Vp. apply (V2 c (cell_step c o p)). destruct p as [a b]. apply (V c a b). exact Vp.
  Qed.

  Lemma view_make v c : In c (m_cells m) -> view (stab_make m v) c v v.
  Proof.
    intros H. destruct (in_stored _ _ H) as [i Hi]. exists i. split; [exact Hi|]. cbn.
    unfold stored in Hi. rewrite nth_error_map, Hi. auto.
  Qed.
  Lemma sized_make v : sized (stab_make m v).
  Proof. split; cbn; apply map_length. Qed.

  Lemma fold_no_update c ops p : ~ In Update ops ->
    fold_left (fun p o => cell_step c o p) ops p = (last_set same c ops (fst p), last_next same c ops (snd p)).
  Proof.
    revert p. induction ops as [|o ops IH]; intros [a b] N; [reflexivity|]. cbn [fold_left].
    rewrite IH by (intros H; apply N; right; exact H).
    destruct o; cbn; [reflexivity|reflexivity|]. exfalso. apply N. left; reflexivity.
  Qed.
  Lemma fold_next c ops p : snd (fold_left (fun p o => cell_step c o p) ops p) = last_next same c ops (snd p).
  Proof.
    revert p. induction ops as [|o ops IH]; intros [a b]; [reflexivity|]. cbn [fold_left]. rewrite IH.
    destruct o; reflexivity.
  Qed.
End Stab.

(** ** powers *)
Section Pow.
  Context {T : Type} (mul : T -> T -> T) (one : T) (M : monoid mul one).
  Lemma power_add x a b : power mul one x (a + b) = mul (power mul one x a) (power mul one x b).
  Proof.
    destruct M as (A & L & R). induction a as [|a IH]; cbn; [now rewrite L|]. now rewrite IH, A.
  Qed.
  Lemma power_sq x n : power mul one (mul x x) n = power mul one x (2 * n).
  Proof.
    destruct M as (A & L & R). induction n as [|n IH]; [reflexivity|]. cbn [power]. rewrite IH.
    replace (2 * S n) with (S (S (2 * n))) by lia. cbn [power]. now rewrite A.
  Qed.
  Lemma iexp_pow_spec fuel x n : n < fuel -> iexp_pow_fuel mul one fuel x n = Some (power mul one x n).
  Proof.
    revert x n. induction fuel as [|fuel IH]; intros x n H; [lia|]. cbn [iexp_pow_fuel].
    destruct (Nat.eqb_spec n 0) as [->|N]; [reflexivity|].
    pose proof (Nat.div_mod n 2 ltac:(lia)) as D. pose proof (Nat.mod_upper_bound n 2 ltac:(lia)) as B.
    destruct (Nat.eqb_spec (n mod 2) 0) as [E|E].
    - rewrite IH by lia. f_equal. rewrite power_sq. f_equal. lia.
    - assert (D1 : (n - 1) / 2 = n / 2).
      { symmetry. apply (Nat.div_unique _ _ _ 0); lia. }
      rewrite D1, IH by lia. f_equal. rewrite power_sq. rewrite D at 2.
      replace (2 * (n / 2) + n mod 2) with (S (2 * (n / 2))) by lia. reflexivity.
  Qed.
End Pow.

Lemma ipow_loop_spec b e r : ipow_loop b e (wrap64 r) = wrap64 (r * b ^ N.of_nat e).
Proof.
  revert r. induction e as [|e IH]; intros r; cbn [ipow_loop].
  - cbn. now rewrite N.mul_1_r.
  - assert (W : wrap64 (wrap64 r * b) = wrap64 (r * b)) by (unfold wrap64; apply N.mul_mod_idemp_l; discriminate). rewrite W, IH.
    rewrite Nnat.Nat2N.inj_succ, N.pow_succ_r'. f_equal. lia.
Qed.
