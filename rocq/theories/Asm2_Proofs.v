From Coq Require Import List Arith Bool Lia Ring Permutation.
From Verif Require Import Common LinAlg Mesh_Model Asm_Model Asm_Spec Asm_Proofs.
Import ListNotations.

Section Run.
  Context {K : cring}.
  Add Ring Kring : (cth K).
  Local Open Scope k_scope.
  Context {F : Type} (n nb : nat) (dir : nat -> bool) (dn : nat -> nat -> K).
  Context (pos : F -> outcome nat) (isdir : F -> outcome bool) (proj : F -> outcome (nat -> K)).

  Definition face_ok (id : nat) (f : F) : Prop :=
    (id < n)%nat /\ pos f = Ok id /\ isdir f = Ok (dir id) /\ (dir id = true -> proj f = Ok (dn id)).
  Definition tabs (t : tables) : Prop :=
    forall j, (j < n)%nat -> nth_error (compress_table t) j = Some (if dir j then 0%nat else rank dir j).

  Lemma div_mod_lt p a : (p < a * nb)%nat -> (p / nb < a /\ p mod nb < nb /\ 0 < nb)%nat.
  Proof.
    intros H. assert (0 < nb)%nat by (destruct nb; lia). split; [apply Nat.div_lt_upper_bound; lia|]. split; [apply Nat.mod_upper_bound; lia|exact H0].
  Qed.
  Lemma dm_add a k : (k < nb)%nat -> ((a * nb + k) / nb = a /\ (a * nb + k) mod nb = k)%nat.
  Proof.
    intros H. split.
    - symmetry. apply (Nat.div_unique _ _ _ k); lia.
    - symmetry. apply (Nat.mod_unique _ _ a); lia.
  Qed.

  Definition entry (ids : list nat) (p : nat) : assembly_index * K :=
    let id := nth (p / nb) ids 0%nat in
    (mkIdx ((if dir id then 0 else rank dir id) * nb + p mod nb) (negb (dir id)), if dir id then dn id (p mod nb) else 0).

  Lemma build_map_spec (a : asm K) ids fcs : tabs (tab a) -> fbs a = nb -> Forall2 face_ok ids fcs ->
    exists m, build_map a pos isdir proj fcs = Ok m /\ length m = (length ids * nb)%nat /\
      forall p, (p < length m)%nat -> nth_error m p = Some (entry ids p).
  Proof.
    intros T E. induction 1 as [|id f ids fcs (H1 & H2 & H3 & H4) R (m & IH1 & IH2 & IH3)]; cbn [build_map].
    - exists []. split; [reflexivity|]. split; [reflexivity|]. intros p Hp. cbn in Hp. lia.
    - rewrite H2. cbn [bind]. unfold vat. rewrite (T id H1). cbn [bind]. rewrite H3. cbn [bind].
      assert (D : exists d, (if dir id then proj f else Ok (fun _ => 0)) = Ok d /\ forall k, d k = if dir id then dn id k else 0).
      { destruct (dir id); [exists (dn id); rewrite H4 by reflexivity; auto|exists (fun _ => 0); auto]. }
      destruct D as (d & -> & D). cbn [bind]. rewrite IH1. cbn [bind]. rewrite E.
      eexists. split; [reflexivity|]. split; [rewrite app_length, map_length, seq_length, IH2; cbn; lia|].
      rewrite app_length, map_length, seq_length, IH2. intros p Hp.
      destruct (Nat.lt_ge_cases p nb) as [Hl|Hg].
      + rewrite nth_error_app1 by (rewrite map_length, seq_length; exact Hl). rewrite nth_error_map, (nth_error_nth' (seq 0 nb) 0%nat) by (rewrite seq_length; lia).
        rewrite seq_nth by lia. cbn [option_map plus]. unfold entry. rewrite Nat.div_small, Nat.mod_small by lia. cbn [nth]. rewrite D. reflexivity.
      + rewrite nth_error_app2 by (rewrite map_length, seq_length; lia). rewrite map_length, seq_length.
        rewrite IH3 by lia. f_equal. unfold entry.
        assert (DV : (p / nb = S ((p - nb) / nb) /\ p mod nb = (p - nb) mod nb)%nat).
        { assert (0 < nb)%nat by (destruct nb; lia). pose proof (Nat.div_mod (p - nb) nb ltac:(lia)) as X. pose proof (Nat.mod_upper_bound (p - nb) nb ltac:(lia)).
          split; symmetry; [apply (Nat.div_unique _ _ _ ((p - nb) mod nb)); lia|apply (Nat.mod_unique _ _ (S ((p - nb) / nb))); lia]. }
        destruct DV as [-> ->]. reflexivity.
  Qed.

  (** one cell's part of the full system *)
  Definition cell_mat (c : contribution K) (I J : nat) : K :=
    sumn (c_dofs nb c) (fun p => sumn (c_dofs nb c) (fun q => only ((global nb c p =? I) && (global nb c q =? J)) (ment (c_lhs c) p q))).
  Definition cell_rhs (c : contribution K) (I : nat) : K :=
    sumn (c_dofs nb c) (fun p => only (global nb c p =? I) (vent (c_rhs c) p)).
  Definition dval (J : nat) : K := dn (J / nb) (J mod nb).
  Definition elim (M : nat -> nat -> K) (I : nat) : K := sumn (n * nb) (fun J => only (dir (J / nb)) (M I J * dval J)).

  Lemma global_dm (c : contribution K) p : (p < c_dofs nb c)%nat -> (global nb c p / nb = nth (p / nb) (c_faces c) 0 /\ global nb c p mod nb = p mod nb)%nat.
  Proof. intros H. destruct (div_mod_lt p _ H) as (_ & H2 & _). unfold global. apply dm_add. exact H2. Qed.

  Lemma global_lt (c : contribution K) p : (p < c_dofs nb c)%nat -> Forall (fun id => id < n)%nat (c_faces c) -> (global nb c p < n * nb)%nat.
  Proof.
    intros H A. destruct (div_mod_lt p _ H) as (H1 & H2 & H3). unfold global.
    assert (nth (p / nb) (c_faces c) 0 < n)%nat by (apply (proj1 (Forall_forall _ _) A); apply nth_In; exact H1). nia.
  Qed.

  (** matching positions = matching global numbers, for free unknowns *)
  Lemma match_free (c : contribution K) p I : (p < c_dofs nb c)%nat -> (I < n * nb)%nat -> dir (I / nb) = false ->
    (negb (dir (nth (p / nb) (c_faces c) 0)) &&
      ((if dir (nth (p / nb) (c_faces c) 0) then 0 else rank dir (nth (p / nb) (c_faces c) 0)) * nb + p mod nb =? position dir nb I) = (global nb c p =? I))%nat.
  Proof.
    intros Hp HI DI. destruct (global_dm c p Hp) as [G1 G2]. destruct (div_mod_lt p _ Hp) as (P1 & P2 & P3).
    destruct (div_mod_lt I _ HI) as (I1 & I2 & I3). pose proof (Nat.div_mod I nb ltac:(lia)) as EI.
    set (id := nth (p / nb) (c_faces c) 0%nat) in *. unfold global. fold id.
    apply eq_true_iff_eq. rewrite andb_true_iff, negb_true_iff, !Nat.eqb_eq. unfold position. split.
    - intros [D E]. rewrite D in E.
      assert (rank dir id = rank dir (I / nb) /\ p mod nb = I mod nb)%nat as [E1 E2].
      { destruct (dm_add (rank dir id) (p mod nb) P2) as [X1 X2]. destruct (dm_add (rank dir (I / nb)) (I mod nb) I2) as [Y1 Y2].
        rewrite E in X1, X2. split; congruence. }
      apply rank_inj in E1; auto. rewrite E1, E2. lia.
    - intros E. destruct (dm_add id (p mod nb) P2) as [A1 A2]. rewrite E in A1, A2. rewrite <- A1, <- A2, DI. auto.
  Qed.

  Lemma sumn_only_match N (g : nat) (f : nat -> K) : (g < N)%nat -> sumn N (fun J => only (g =? J) (f J)) = f g.
  Proof.
    intros H. rewrite (sumn_single N g); [unfold only; now rewrite Nat.eqb_refl|exact H|].
    intros i Hi N1. unfold only. now rewrite (proj2 (Nat.eqb_neq g i)) by lia.
  Qed.

  Lemma elim_cell (c : contribution K) I : Forall (fun id => id < n)%nat (c_faces c) ->
    elim (cell_mat c) I = sumn (c_dofs nb c) (fun p => only (global nb c p =? I)
      (sumn (c_dofs nb c) (fun q => only (dir (nth (q / nb) (c_faces c) 0%nat)) (ment (c_lhs c) p q * dval (global nb c q))))).
  Proof.
    intros HA. unfold elim, cell_mat.
    transitivity (sumn (c_dofs nb c) (fun p => sumn (c_dofs nb c) (fun q => sumn (n * nb) (fun J =>
       only (global nb c q =? J) (only (global nb c p =? I) (only (dir (J / nb)) (ment (c_lhs c) p q * dval J))))))).
    - transitivity (sumn (n * nb) (fun J => sumn (c_dofs nb c) (fun p => sumn (c_dofs nb c) (fun q =>
         only (global nb c q =? J) (only (global nb c p =? I) (only (dir (J / nb)) (ment (c_lhs c) p q * dval J))))))).
      + apply sumn_ext. intros J HJ. unfold only at 1. destruct (dir (J / nb)) eqn:DJ.
        * rewrite <- sumn_mul_r. apply sumn_ext. intros p Hp. rewrite <- sumn_mul_r. apply sumn_ext. intros q Hq.
          unfold only. destruct (global nb c p =? I)%nat, (global nb c q =? J)%nat; cbn [andb]; ring.
        * symmetry. apply sumn_zero. intros p Hp. apply sumn_zero. intros q Hq. unfold only.
          destruct (global nb c p =? I)%nat, (global nb c q =? J)%nat; reflexivity.
      + rewrite sumn_swap. apply sumn_ext. intros p Hp. apply sumn_swap.
    - apply sumn_ext. intros p Hp. unfold only at 4. destruct (global nb c p =? I)%nat.
      + apply sumn_ext. intros q Hq. rewrite sumn_only_match by (apply global_lt; assumption).
        destruct (global_dm c q Hq) as [-> _]. reflexivity.
      + apply sumn_zero. intros q Hq. apply sumn_zero. intros J HJ. unfold only. destruct (global nb c q =? J)%nat; reflexivity.
  Qed.

  Lemma assemble_spec (a : asm K) c fcs : tabs (tab a) -> fbs a = nb -> Forall2 face_ok (c_faces c) fcs -> fits nb c ->
    vsize (RHS a) = (nb * rank dir n)%nat ->
    exists a', assemble_with pos isdir proj fcs (c_lhs c) (c_rhs c) a = Ok a' /\
      tab a' = tab a /\ fbs a' = nb /\ system_size a' = system_size a /\ use_bnd a' = use_bnd a /\ num_other_faces a' = num_other_faces a /\
      vsize (RHS a') = (nb * rank dir n)%nat /\
      (in_range (nb * rank dir n) (triplets a) -> in_range (nb * rank dir n) (triplets a')) /\
      forall I, (I < n * nb)%nat -> dir (I / nb) = false ->
        (forall J, (J < n * nb)%nat -> dir (J / nb) = false ->
           tsum (triplets a') (position dir nb I) (position dir nb J) =
           tsum (triplets a) (position dir nb I) (position dir nb J) + cell_mat c I J) /\
        vent (RHS a') (position dir nb I) = vent (RHS a) (position dir nb I) + (cell_rhs c I - elim (cell_mat c) I).
  Proof.
    intros T E FA (F1 & F2 & F3) HR. unfold assemble_with.
    destruct (build_map_spec a (c_faces c) fcs T E FA) as (m & -> & Lm & M). cbn [bind]. fold (c_dofs nb c) in Lm.
    assert (HA : Forall (fun id => id < n)%nat (c_faces c)).
    { clear -FA. induction FA as [|x y l l' [H _] _ IH]; constructor; assumption. }
    set (A := fun p => match nth_error m p with Some (x, _) => assem x | None => false end).
    set (G := fun p => match nth_error m p with Some (x, _) => idx x | None => 0%nat end).
    set (D := fun p => match nth_error m p with Some (_, d) => d | None => 0 end).
    assert (AE : forall p, (p < length m)%nat -> A p = negb (dir (nth (p / nb) (c_faces c) 0%nat))) by (intros p Hp; unfold A; rewrite M by exact Hp; reflexivity).
    assert (GE : forall p, (p < length m)%nat -> G p = ((if dir (nth (p / nb) (c_faces c) 0) then 0 else rank dir (nth (p / nb) (c_faces c) 0)) * nb + p mod nb)%nat)
      by (intros p Hp; unfold G; rewrite M by exact Hp; reflexivity).
    assert (DE : forall p, (p < length m)%nat -> D p = if dir (nth (p / nb) (c_faces c) 0%nat) then dn (nth (p / nb) (c_faces c) 0%nat) (p mod nb) else 0)
      by (intros p Hp; unfold D; rewrite M by exact Hp; reflexivity).
    destruct (row_spec (c_lhs c) (c_rhs c) m (nb * rank dir n)) with (is := seq 0 (mrows (c_lhs c))) (ts := triplets a) (R := RHS a) as (ts' & R' & -> & Q1 & Q2 & Q3 & Q4).
    { intros p Hp HAp. fold (A p) in HAp. fold (G p). rewrite AE in HAp by exact Hp. apply negb_true_iff in HAp. rewrite GE, HAp by exact Hp.
      rewrite Lm in Hp. destruct (div_mod_lt p _ Hp) as (P1 & P2 & P3).
      assert (nth (p / nb) (c_faces c) 0 < n)%nat as LT by (apply (proj1 (Forall_forall _ _) HA); apply nth_In; exact P1).
      pose proof (rank_lt dir _ n LT HAp). nia. }
    { lia. } { lia. } { intros i Hi. apply in_seq in Hi. lia. } { exact HR. }
    cbn [bind]. eexists. split; [reflexivity|]. cbn [tab fbs system_size use_bnd num_other_faces RHS triplets fst snd].
    do 6 (split; [first [reflexivity|exact E|exact Q3]|]).
    split; [intros IR t Ht; apply in_app_or in Ht; destruct Ht; [apply IR|apply Q1]; assumption|].
    change (forall p, match nth_error m p with Some (x, _) => assem x | None => false end = A p) with (forall p, A p = A p).
    intros I HI DI. split.
    - intros J HJ DJ. rewrite tsum_app. f_equal. rewrite Q2, suml_map_seq, F1. unfold cell_mat. apply sumn_ext. intros p Hp.
      rewrite Lm. apply sumn_ext. intros q Hq. fold (A p) (A q) (G p) (G q).
      rewrite !AE, !GE, !match_free by (try assumption; lia). reflexivity.
    - rewrite Q4. f_equal. rewrite suml_map_seq, F1, elim_cell by exact HA. unfold cell_rhs. rewrite <- sumn_sub. apply sumn_ext. intros p Hp.
      fold (A p) (G p). rewrite AE, GE, match_free by (try assumption; lia). rewrite Lm.
      unfold only at 1 3 4. destruct (global nb c p =? I)%nat; [|ring]. f_equal. apply sumn_ext. intros q Hq.
      fold (A q) (D q). rewrite AE, DE, negb_involutive by lia. unfold only. destruct (dir (nth (q / nb) (c_faces c) 0%nat)) eqn:DQ; [|reflexivity].
      unfold dval. destruct (global_dm c q Hq) as [-> ->]. reflexivity.
  Qed.

  Lemma elim_add M M' I : elim (fun I J => M I J + M' I J) I = elim M I + elim M' I.
  Proof.
    unfold elim. rewrite <- sumn_add. apply sumn_ext. intros J HJ. unfold only. destruct (dir (J / nb)); ring.
  Qed.
  Lemma elim_ext M M' I : (forall J, (J < n * nb)%nat -> M I J = M' I J) -> elim M I = elim M' I.
  Proof. intros H. apply sumn_ext. intros J HJ. rewrite H by exact HJ. reflexivity. Qed.

  Definition good (cs : list (contribution K)) (a : asm K) : Prop :=
    tabs (tab a) /\ fbs a = nb /\ system_size a = (nb * rank dir n)%nat /\ vsize (RHS a) = (nb * rank dir n)%nat /\
    in_range (nb * rank dir n) (triplets a) /\
    forall I, (I < n * nb)%nat -> dir (I / nb) = false ->
      (forall J, (J < n * nb)%nat -> dir (J / nb) = false -> tsum (triplets a) (position dir nb I) (position dir nb J) = full_mat nb cs I J) /\
      vent (RHS a) (position dir nb I) = full_rhs nb cs I - elim (full_mat nb cs) I.

  Lemma full_mat_snoc cs c I J : full_mat nb (cs ++ [c]) I J = full_mat nb cs I J + cell_mat c I J.
  Proof. unfold full_mat. rewrite map_app, suml_app. cbn [map suml]. fold (cell_mat c I J). ring. Qed.
  Lemma full_rhs_snoc cs c I : full_rhs nb (cs ++ [c]) I = full_rhs nb cs I + cell_rhs c I.
  Proof. unfold full_rhs. rewrite map_app, suml_app. cbn [map suml]. fold (cell_rhs c I). ring. Qed.

  Lemma good_step a cs c fcs : good cs a -> Forall2 face_ok (c_faces c) fcs -> fits nb c ->
    exists a', assemble_with pos isdir proj fcs (c_lhs c) (c_rhs c) a = Ok a' /\ good (cs ++ [c]) a' /\ use_bnd a' = use_bnd a /\
      num_other_faces a' = num_other_faces a /\ tab a' = tab a.
  Proof.
    intros (T & E & S1 & S2 & IR & H) FA FI. destruct (assemble_spec a c fcs T E FA FI S2) as (a' & Q & Q1 & Q2 & Q3 & Q4 & Q5 & Q6 & Q7 & Q8).
    exists a'. split; [exact Q|]. split; [|auto]. split; [rewrite Q1; exact T|]. split; [exact Q2|]. split; [congruence|]. split; [exact Q6|]. split; [auto|].
    intros I HI DI. destruct (H I HI DI) as [H1 H2]. destruct (Q8 I HI DI) as [R1 R2]. split.
    - intros J HJ DJ. rewrite R1, H1, full_mat_snoc by assumption. reflexivity.
    - rewrite R2, H2, full_rhs_snoc. rewrite (elim_ext (full_mat nb (cs ++ [c])) (fun I J => full_mat nb cs I J + cell_mat c I J)) by (intros; apply full_mat_snoc).
      rewrite elim_add. ring.
  Qed.

  (** sums over the assembled system = sums over the free unknowns *)
  Lemma sumn_position (g : nat -> K) N : sumn (nb * rank dir N) g = sumn (N * nb) (fun J => only (free dir nb J) (g (position dir nb J))).
  Proof.
    induction N as [|N IH]; [cbn [rank]; rewrite Nat.mul_0_r; reflexivity|].
    cbn [rank Nat.mul]. rewrite (Nat.add_comm nb), (sumn_app (N * nb) nb), Nat.mul_add_distr_l, sumn_app, IH. f_equal.
    assert (X : forall k, (k < nb)%nat -> only (free dir nb (N * nb + k)) (g (position dir nb (N * nb + k))) = if dir N then 0 else g (rank dir N * nb + k)%nat).
    { intros k Hk. unfold free, position. destruct (dm_add N k Hk) as [-> ->]. unfold only. destruct (dir N); reflexivity. }
    rewrite (sumn_ext nb _ _ X). destruct (dir N); [rewrite Nat.mul_0_r; cbn [sumn]; symmetry; apply sumn_zero; reflexivity|].
    rewrite Nat.mul_1_r. apply sumn_ext. intros k Hk. f_equal. lia.
  Qed.
  Lemma position_lt N I : (I < N * nb)%nat -> dir (I / nb) = false -> (position dir nb I < nb * rank dir N)%nat.
  Proof.
    intros H D. destruct (div_mod_lt I _ H) as (H1 & H2 & H3). unfold position. pose proof (rank_lt dir _ N H1 D). nia.
  Qed.
  Lemma position_surj N k : (k < nb * rank dir N)%nat -> exists I, (I < N * nb)%nat /\ dir (I / nb) = false /\ position dir nb I = k.
  Proof.
    intros H. destruct (div_mod_lt k (rank dir N) ltac:(lia)) as (H1 & H2 & H3). destruct (rank_surj dir N _ H1) as (i & Hi & Di & Ri).
    exists (i * nb + k mod nb)%nat. destruct (dm_add i (k mod nb) H2) as [E1 E2]. split; [nia|]. rewrite E1. split; [exact Di|].
    unfold position. rewrite E1, E2, Ri. pose proof (Nat.div_mod k nb ltac:(lia)). lia.
  Qed.
End Run.

Section Final.
  Context {K : cring}.
  Add Ring Kring2 : (cth K).
  Local Open Scope k_scope.
  Context {F : Type} (faces : list F) (nb : nat) (dir : nat -> bool) (dn : nat -> nat -> K).
  Context (pos : F -> outcome nat) (isdir : F -> outcome bool) (proj : F -> outcome (nat -> K)).
  Let n := length faces.
  Context (HF : forall i f, nth_error faces i = Some f -> face_ok n dir dn pos isdir proj i f).

  Lemma finalize_spec cs (a : asm K) : good n nb dir dn cs a ->
    exists a', finalize a = Ok a' /\ assembled dir n nb (dval nb dn) cs (LHS a') (RHS a') /\ tab a' = tab a /\ fbs a' = fbs a /\ triplets a' = [].
  Proof.
    intros (T & E & S1 & S2 & IR & H). unfold finalize, from_triplets.
    assert (FB : forallb (fun t => (t_row t <? system_size a) && (t_col t <? system_size a))%nat (triplets a) = true).
    { apply forallb_forall. intros t Ht. destruct (IR t Ht). rewrite S1. apply andb_true_iff. rewrite !Nat.ltb_lt. auto. }
    rewrite FB. cbn [bind]. eexists. split; [reflexivity|]. cbn [LHS RHS tab fbs triplets]. split; [|auto].
    constructor; cbn [mrows mcols ment]; auto.
    - intros I J HI HJ FI FJ. unfold free in FI, FJ. apply negb_true_iff in FI, FJ. exact (proj1 (H I HI FI) J HJ FJ).
    - intros I HI FI. unfold free in FI. apply negb_true_iff in FI. rewrite (proj2 (H I HI FI)). f_equal. unfold elim. apply sumn_ext.
      intros J HJ. unfold free, only. destruct (dir (J / nb)); reflexivity.
  Qed.

  Lemma good_make ub : exists a, asm_make isdir ub faces nb = Ok a /\ good n nb dir dn [] a /\ use_bnd a = ub /\ num_other_faces a = rank dir n /\
    tab_ok faces dir n (tab a) /\ num_all_faces a = n /\ num_dirichlet_faces a = (n - rank dir n)%nat.
  Proof.
    destruct (asm_make_spec faces isdir dir (fun i f H => proj1 (proj2 (proj2 (HF i f H)))) K ub nb)
      as (a & Q & T & U & N1 & N2 & N3 & E & S1 & TR & S2 & Z & _).
    fold n in T, N1, N2, N3, S1. exists a. split; [exact Q|]. split; [|auto 10].
    split; [intros j Hj; apply (proj1 (proj2 (proj2 T))); exact Hj|]. split; [exact E|]. split; [exact S1|]. split; [congruence|].
    rewrite TR. split; [intros t []|]. intros I HI DI. split; [intros; reflexivity|]. rewrite Z. cbn. unfold elim.
    rewrite sumn_zero; [ring|]. intros J HJ. unfold only. destruct (dir (J / nb)); [cbn; ring|reflexivity].
  Qed.

  Lemma stored_face_ok ids fcs : Forall2 (fun i f => nth_error faces i = Some f) ids fcs -> Forall2 (face_ok n dir dn pos isdir proj) ids fcs.
  Proof. induction 1; constructor; auto. Qed.

  (** taking the local part of a solution *)
  Lemma take_local_spec (a : asm K) x ids fcs : tabs n dir (tab a) -> fbs a = nb -> (nb * rank dir n <= vsize x)%nat ->
    Forall2 (fun i f => nth_error faces i = Some f) ids fcs ->
    exists l, take_local a pos isdir proj x fcs = Ok l /\ length l = (length ids * nb)%nat /\
      forall p, (p < length ids * nb)%nat ->
        let I := (nth (p / nb) ids 0 * nb + p mod nb)%nat in
        nth p l 0 = if free dir nb I then vent x (position dir nb I) else dval nb dn I.
  Proof.
    intros T E HX FA. induction FA as [|id f ids fcs Hf R (l & IH1 & IH2 & IH3)]; cbn [take_local].
    - exists []. split; [reflexivity|]. split; [reflexivity|]. cbn; intros; lia.
    - destruct (HF id f Hf) as (H1 & H2 & H3 & H4). rewrite H3. cbn [bind].
      match goal with |- context [bind (if dir id then ?u else ?v) _] => assert (BL : exists b, (if dir id then u else v) = Ok b /\ length b = nb /\
               forall k, (k < nb)%nat -> nth k b 0 = if dir id then dn id k else vent x (rank dir id * nb + k)%nat) end.
      { rewrite E. destruct (dir id) eqn:D.
        - rewrite H4 by reflexivity. cbn [bind]. eexists. split; [reflexivity|]. split; [now rewrite map_length, seq_length|].
          intros k Hk. rewrite (nth_indep _ 0 (dn id 0%nat)) by (rewrite map_length, seq_length; exact Hk). rewrite map_nth, seq_nth by exact Hk. reflexivity.
        - rewrite H2. cbn [bind]. unfold vat. rewrite (T id H1), D. cbn [bind].
          pose proof (rank_lt dir id n H1 D). rewrite (proj2 (Nat.leb_le _ _)) by nia.
          eexists. split; [reflexivity|]. split; [now rewrite map_length, seq_length|].
          intros k Hk. rewrite (nth_indep _ 0 (vent x (rank dir id * nb + 0)%nat)) by (rewrite map_length, seq_length; exact Hk).
          rewrite (map_nth (fun i => vent x (rank dir id * nb + i)%nat)), seq_nth by exact Hk. reflexivity. }
      destruct BL as (b & -> & Lb & B). cbn [bind]. rewrite IH1. cbn [bind].
      eexists. split; [reflexivity|]. split; [rewrite app_length; cbn; lia|]. intros p Hp.
      destruct (Nat.lt_ge_cases p nb) as [Hl|Hg].
      + rewrite app_nth1 by lia. rewrite B by exact Hl. rewrite Nat.div_small, Nat.mod_small by exact Hl. cbn [nth].
        unfold free, position, dval. destruct (dm_add nb id p Hl) as [-> ->]. destruct (dir id); reflexivity.
      + rewrite app_nth2 by lia. rewrite Lb, IH3 by (cbn in Hp; lia).
        assert (DV : (p / nb = S ((p - nb) / nb) /\ p mod nb = (p - nb) mod nb)%nat).
        { assert (0 < nb)%nat by (destruct nb; lia). pose proof (Nat.div_mod (p - nb) nb ltac:(lia)) as X. pose proof (Nat.mod_upper_bound (p - nb) nb ltac:(lia)).
          split; symmetry; [apply (Nat.div_unique _ _ _ ((p - nb) mod nb)); lia|apply (Nat.mod_unique _ _ (S ((p - nb) / nb))); lia]. }
        destruct DV as [-> ->]. reflexivity.
  Qed.
End Final.

Section Solve.
  Context {K : cring}.
  Add Ring Kring3 : (cth K).
  Local Open Scope k_scope.

  Lemma assembled_solves dir n nb d cs (A : mat K) b x : assembled dir n nb d cs A b -> vsize x = (nb * rank dir n)%nat ->
    ((forall i, (i < mrows A)%nat -> sumn (mcols A) (fun j => ment A i j * vent x j) = vent b i) <->
     forall I, (I < n * nb)%nat -> free dir nb I = true ->
       sumn (n * nb) (fun J => full_mat nb cs I J * (if free dir nb J then vent x (position dir nb J) else d J)) = full_rhs nb cs I).
  Proof.
    intros [R C Z M B] HX.
    assert (ROW : forall I, (I < n * nb)%nat -> free dir nb I = true ->
      sumn (mcols A) (fun j => ment A (position dir nb I) j * vent x j) =
      sumn (n * nb) (fun J => full_mat nb cs I J * (if free dir nb J then vent x (position dir nb J) else d J))
        - sumn (n * nb) (fun J => if free dir nb J then 0 else full_mat nb cs I J * d J)).
    { intros I HI FI. rewrite C, sumn_position, <- sumn_sub. apply sumn_ext. intros J HJ. unfold only. destruct (free dir nb J) eqn:FJ; [|ring].
      rewrite M by assumption. ring. }
    split.
    - intros H I HI FI. pose proof (ROW I HI FI) as E. rewrite H in E.
      2:{ rewrite R. apply position_lt; [exact HI|]. unfold free in FI. apply negb_true_iff in FI. exact FI. }
      rewrite B in E by assumption. set (s := sumn _ (fun J => if free dir nb J then 0 else _)) in E.
      assert (X : full_rhs nb cs I = (full_rhs nb cs I - s) + s) by ring. rewrite X, E. ring.
    - intros H i Hi. rewrite R in Hi. destruct (position_surj nb dir n i Hi) as (I & HI & DI & <-).
      assert (FI : free dir nb I = true) by (unfold free; rewrite DI; reflexivity). rewrite ROW, H, B by assumption. reflexivity.
  Qed.

  Lemma suml_perm (l l' : list K) : Permutation l l' -> suml l = suml l'.
  Proof. induction 1; cbn; try congruence; ring. Qed.
  Lemma full_perm nb (cs cs' : list (contribution K)) : Permutation cs cs' ->
    (forall I J, full_mat nb cs I J = full_mat nb cs' I J) /\ (forall I, full_rhs nb cs I = full_rhs nb cs' I).
  Proof. intros P. split; intros; apply suml_perm, Permutation_map, P. Qed.
End Solve.
