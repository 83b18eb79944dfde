(** Scattering a local matrix given by a list of entries: the triplets and the additions to the
    right-hand side, and the invariant kept by assembling such contributions one after the other. *)
From Coq Require Import List Arith Bool Lia Ring Permutation.
From Verif Require Import Common LinAlg Mesh_Model Asm_Model Asm_Spec Asm_Proofs Asm2_Proofs Asm3_Proofs VAsm_Model VAsm2_Proofs.
Import ListNotations.

Lemma flat_map_split {A B} (f g : A -> list B) : forall l, Permutation (flat_map (fun x => f x ++ g x) l) (flat_map f l ++ flat_map g l).
Proof.
  induction l as [|x l IH]; [reflexivity|]. cbn [flat_map]. rewrite <- !app_assoc. apply Permutation_app_head.
  etransitivity; [apply Permutation_app_head, IH|]. rewrite !app_assoc. apply Permutation_app_tail. apply Permutation_app_comm.
Qed.
Lemma flat_map_flat_map {A B D} (f : A -> list B) (g : B -> list D) l : flat_map g (flat_map f l) = flat_map (fun x => flat_map g (f x)) l.
Proof. induction l as [|x l IH]; [reflexivity|]. cbn. rewrite flat_map_app, IH. reflexivity. Qed.
Lemma flat_map_map {A B D} (f : A -> B) (g : B -> list D) l : flat_map g (map f l) = flat_map (fun x => g (f x)) l.
Proof. induction l as [|x l IH]; [reflexivity|]. cbn. rewrite IH. reflexivity. Qed.
Lemma flat_map_ext_in {A B} (f g : A -> list B) l : (forall x, In x l -> f x = g x) -> flat_map f l = flat_map g l.
Proof. induction l as [|x l IH]; intros H; [reflexivity|]. cbn. rewrite H by (left; reflexivity). rewrite IH; [reflexivity|]. intros; apply H; right; assumption. Qed.
Lemma perm_filter {A} (p : A -> bool) l l' : Permutation l l' -> Permutation (filter p l) (filter p l').
Proof.
  induction 1 as [|x l l' _ IH|x y l|l l' l'' _ IH1 _ IH2]; cbn; [constructor| | |etransitivity; eassumption].
  - destruct (p x); [constructor|]; exact IH.
  - destruct (p x), (p y); try reflexivity. constructor.
Qed.

Section Loops.
  Context {K : cring}.
  (** a loop whose body only appends *)
  Lemma floop_app {A} (step : A -> list (triplet K) * list (nat * K) -> outcome (list (triplet K) * list (nat * K))) f g : forall l st,
    (forall x st, In x l -> step x st = Ok (fst st ++ f x, snd st ++ g x)) ->
    floop step l st = Ok (fst st ++ flat_map f l, snd st ++ flat_map g l).
  Proof.
    induction l as [|x l IH]; intros st H; cbn [floop flat_map]; [rewrite !app_nil_r; destruct st; reflexivity|].
    rewrite H by (left; reflexivity). cbn [bind]. rewrite IH by (intros; apply H; right; assumption). cbn [fst snd]. rewrite <- !app_assoc. reflexivity.
  Qed.
  Lemma tsum_perm (a b : list (triplet K)) r c : Permutation a b -> tsum a r c = tsum b r c.
  Proof. intros H. unfold tsum. apply suml_perm, Permutation_map, perm_filter, H. Qed.
  Lemma dsum_perm (a b : list (nat * K)) r : Permutation a b -> dsum a r = dsum b r.
  Proof. intros H. unfold dsum. apply suml_perm, Permutation_map, perm_filter, H. Qed.
End Loops.

Section Scat.
  Context {K : cring}.
  Add Ring Kring : (cth K).
  Local Open Scope k_scope.
  Context (n nb : nat) (dir : nat -> bool) (dn : nat -> nat -> K).
  Let sz := (nb * rank dir n)%nat.

  Definition sgood (cs : list (contribution K)) (ts : list (triplet K)) (ds : list (nat * K)) (R : vec K) : Prop :=
    vsize R = sz /\ in_range sz ts /\ (forall d, In d ds -> (fst d < sz)%nat) /\
    forall I, (I < n * nb)%nat -> dir (I / nb) = false ->
      (forall J, (J < n * nb)%nat -> dir (J / nb) = false -> tsum ts (position dir nb I) (position dir nb J) = full_mat nb cs I J) /\
      vent R (position dir nb I) + dsum ds (position dir nb I) = full_rhs nb cs I - elim n nb dir dn (full_mat nb cs) I.

  Lemma sgood_nil : sgood [] [] [] (mkVec sz (fun _ => 0)).
  Proof.
    split; [reflexivity|]. split; [intros t []|]. split; [intros d []|]. intros I HI DI. split; [reflexivity|]. cbn. unfold elim. rewrite sumn_zero; [ring|].
    intros J HJ. unfold only. destruct (dir (J / nb)); [cbn; ring|reflexivity].
  Qed.

  Lemma sgood_final cs ts R : sgood cs ts [] R -> exists L, from_triplets sz ts = Ok L /\ assembled dir n nb (dval nb dn) cs L R.
  Proof.
    intros (S2 & IR & _ & H). rewrite (from_triplets_ok sz ts IR). eexists. split; [reflexivity|].
    constructor; cbn [mrows mcols ment]; auto.
    - intros I J HI HJ FI FJ. unfold free in FI, FJ. apply negb_true_iff in FI, FJ. exact (proj1 (H I HI FI) J HJ FJ).
    - intros I HI FI. unfold free in FI. apply negb_true_iff in FI. pose proof (proj2 (H I HI FI)) as Q. cbn [dsum filter map suml] in Q. unfold dsum in Q. cbn in Q.
      transitivity (vent R (position dir nb I) + 0); [ring|]. etransitivity; [exact Q|]. f_equal. unfold elim. apply sumn_ext.
      intros J HJ. unfold free, only. destruct (dir (J / nb)); reflexivity.
  Qed.
  Lemma sgood_flush cs ts ds R : sgood cs ts ds R -> exists R', add_duos ds R = Ok R' /\ sgood cs ts [] R'.
  Proof.
    intros (S2 & IR & DR & H). destruct (add_duos_spec ds R) as (R' & E & V & Q); [rewrite S2; exact DR|]. exists R'. split; [exact E|].
    split; [congruence|]. split; [exact IR|]. split; [intros d []|]. intros I HI DI. destruct (H I HI DI) as [H1 H2]. split; [exact H1|]. rewrite Q. cbn. rewrite <- H2. ring.
  Qed.
  (** the same additions made to the right-hand side or left pending *)
  Lemma sgood_add cs ts ds R : sgood cs ts ds R <-> sgood cs ts [] (mkVec (vsize R) (fun k => vent R k + dsum ds k)) /\ (forall d, In d ds -> (fst d < sz)%nat).
  Proof.
    unfold sgood. cbn [vsize vent]. split.
    - intros (A & B & D & H). split; [|exact D]. split; [exact A|]. split; [exact B|]. split; [intros d []|]. intros I HI DI. destruct (H I HI DI) as [H1 H2].
      split; [exact H1|]. rewrite <- H2. cbn. ring.
    - intros ((A & B & _ & H) & D). split; [exact A|]. split; [exact B|]. split; [exact D|]. intros I HI DI. destruct (H I HI DI) as [H1 H2].
      split; [exact H1|]. rewrite <- H2. cbn. ring.
  Qed.

  Section One.
    Context (c : contribution K) (HA : Forall (fun id => id < n)%nat (c_faces c)).
    Definition isd (p : nat) : bool := dir (nth (p / nb) (c_faces c) 0%nat).
    (** the position of a local unknown in the system, if it is an unknown there *)
    Definition lab (p : nat) : option nat := if isd p then None else Some (position dir nb (global nb c p)).
    Definition ent : Type := nat * nat * K.
    Definition ep (e : ent) : nat := fst (fst e). Definition eq' (e : ent) : nat := snd (fst e). Definition ev (e : ent) : K := snd e.
    Definition inb (e : ent) : Prop := (ep e < c_dofs nb c /\ eq' e < c_dofs nb c)%nat.
    Definition t_of (e : ent) : list (triplet K) :=
      match lab (ep e), lab (eq' e) with Some i, Some j => [mkTr i j (ev e)] | _, _ => [] end.
    Definition d_of (e : ent) : list (nat * K) :=
      match lab (ep e), lab (eq' e) with Some i, None => [(i, - (ev e * dval nb dn (global nb c (eq' e))))] | _, _ => [] end.
    Definition g_of (e : nat * K) : list (nat * K) := match lab (fst e) with Some i => [(i, snd e)] | None => [] end.

    Lemma isd_global p : (p < c_dofs nb c)%nat -> isd p = dir (global nb c p / nb).
    Proof. intros H. destruct (global_dm nb c p H) as [-> _]. reflexivity. Qed.
    Lemma lab_match p I : (p < c_dofs nb c)%nat -> (I < n * nb)%nat -> dir (I / nb) = false ->
      match lab p with Some i => (i =? position dir nb I)%nat | None => false end = (global nb c p =? I)%nat.
    Proof.
      intros Hp HI DI. rewrite <- (match_free n nb dir c p I Hp HI DI). unfold lab, isd. destruct (global_dm nb c p Hp) as [E1 E2].
      destruct (dir (nth (p / nb) (c_faces c) 0%nat)) eqn:D; [reflexivity|]. cbn [negb andb]. unfold position at 1. rewrite E1, E2. reflexivity.
    Qed.
    Lemma lab_lt p i : (p < c_dofs nb c)%nat -> lab p = Some i -> (i < sz)%nat.
    Proof.
      intros Hp. unfold lab. destruct (isd p) eqn:D; [discriminate|]. intros [= <-]. apply position_lt; [apply global_lt; assumption|]. rewrite <- isd_global; assumption.
    Qed.
    Lemma t_of_tsum e I J : inb e -> (I < n * nb)%nat -> (J < n * nb)%nat -> dir (I / nb) = false -> dir (J / nb) = false ->
      tsum (t_of e) (position dir nb I) (position dir nb J) = only ((global nb c (ep e) =? I) && (global nb c (eq' e) =? J))%nat (ev e).
    Proof.
      intros [Hp Hq] HI HJ DI DJ. rewrite <- (lab_match _ I Hp HI DI), <- (lab_match _ J Hq HJ DJ). unfold t_of.
      destruct (lab (ep e)) as [i|]; [|reflexivity]. destruct (lab (eq' e)) as [j|]; [rewrite tsum_one; reflexivity|]. rewrite andb_false_r. reflexivity.
    Qed.
    Lemma d_of_dsum e I : inb e -> (I < n * nb)%nat -> dir (I / nb) = false ->
      dsum (d_of e) (position dir nb I) = - only (global nb c (ep e) =? I)%nat (only (dir (global nb c (eq' e) / nb)) (ev e * dval nb dn (global nb c (eq' e)))).
    Proof.
      intros [Hp Hq] HI DI. rewrite <- (lab_match _ I Hp HI DI), <- isd_global by exact Hq. unfold d_of. unfold lab at 2. destruct (lab (ep e)) as [i|]; [|cbn; ring].
      destruct (isd (eq' e)); [rewrite dsum_one; unfold only; destruct (i =? position dir nb I)%nat; ring|]. unfold only. cbn. destruct (i =? position dir nb I)%nat; ring.
    Qed.
    Lemma g_of_dsum p v I : (p < c_dofs nb c)%nat -> (I < n * nb)%nat -> dir (I / nb) = false ->
      dsum (g_of (p, v)) (position dir nb I) = only (global nb c p =? I)%nat v.
    Proof.
      intros Hp HI DI. rewrite <- (lab_match _ I Hp HI DI). unfold g_of. cbn [fst snd]. destruct (lab p); [apply dsum_one|reflexivity].
    Qed.

    (** the entries [E] make up the matrix, the entries [G] the right-hand side *)
    Definition entries (E : list ent) : Prop := Forall inb E /\ forall p q, (p < c_dofs nb c)%nat -> (q < c_dofs nb c)%nat ->
      ment (c_lhs c) p q = suml (map (fun e => only ((ep e =? p) && (eq' e =? q))%nat (ev e)) E).
    Definition rentries (G : list (nat * K)) : Prop := Forall (fun e => fst e < c_dofs nb c)%nat G /\ forall p, (p < c_dofs nb c)%nat ->
      vent (c_rhs c) p = suml (map (fun e => only (fst e =? p)%nat (snd e)) G).

    Lemma swap2 D (w : nat -> nat -> K) : forall E, Forall (fun e => ep e < D /\ eq' e < D)%nat E ->
      sumn D (fun p => sumn D (fun q => w p q * suml (map (fun e => only ((ep e =? p) && (eq' e =? q))%nat (ev e)) E))) = suml (map (fun e => w (ep e) (eq' e) * ev e) E).
    Proof.
      induction 1 as [|e E [Hp Hq] _ IH]; cbn [map suml].
      - apply sumn_zero. intros p _. apply sumn_zero. intros q _. ring.
      - rewrite <- IH. clear IH. transitivity (sumn D (fun p => only (ep e =? p)%nat (sumn D (fun q => only (eq' e =? q)%nat (w p q * ev e))) +
            sumn D (fun q => w p q * suml (map (fun e => only ((ep e =? p) && (eq' e =? q))%nat (ev e)) E)))).
        + apply sumn_ext. intros p _. rewrite <- sumn_only, <- sumn_add. apply sumn_ext. intros q _. unfold only. destruct (ep e =? p)%nat, (eq' e =? q)%nat; cbn [andb]; ring.
        + rewrite sumn_add. f_equal. rewrite sumn_only_match by exact Hp. apply (sumn_only_match D (eq' e) (fun q => w (ep e) q * ev e)). exact Hq.
    Qed.
    Lemma swap1 D (w : nat -> K) : forall G, Forall (fun e => fst e < D)%nat G ->
      sumn D (fun p => w p * suml (map (fun e => only (fst e =? p)%nat (snd e)) G)) = suml (map (fun e => w (fst e) * snd e) G).
    Proof.
      induction 1 as [|e G Hp _ IH]; cbn [map suml].
      - apply sumn_zero. intros p _. ring.
      - rewrite <- IH. clear IH. transitivity (sumn D (fun p => only (fst e =? p)%nat (w p * snd e) + w p * suml (map (fun e => only (fst e =? p)%nat (snd e)) G))).
        + apply sumn_ext. intros p _. unfold only. destruct (fst e =? p)%nat; ring.
        + rewrite sumn_add. f_equal. apply (sumn_only_match D (fst e) (fun p => w p * snd e)). exact Hp.
    Qed.
    Let ind (b : bool) : K := only b 1.
    Lemma only_ind b x : only b x = ind b * x.
    Proof. unfold ind, only. destruct b; ring. Qed.

    Lemma cell_mat_entries E I J : entries E -> cell_mat nb c I J = suml (map (fun e => only ((global nb c (ep e) =? I) && (global nb c (eq' e) =? J))%nat (ev e)) E).
    Proof.
      intros [B H]. unfold cell_mat. transitivity (sumn (c_dofs nb c) (fun p => sumn (c_dofs nb c) (fun q =>
          ind ((global nb c p =? I) && (global nb c q =? J))%nat * suml (map (fun e => only ((ep e =? p) && (eq' e =? q))%nat (ev e)) E)))).
      - apply sumn_ext. intros p Hp. apply sumn_ext. intros q Hq. rewrite only_ind, H by assumption. reflexivity.
      - rewrite (swap2 _ (fun p q => ind ((global nb c p =? I) && (global nb c q =? J))%nat) E B). f_equal. apply map_ext. intros e. rewrite (only_ind _ (ev e)). reflexivity.
    Qed.
    Lemma elim_entries E I : entries E -> elim n nb dir dn (cell_mat nb c) I =
      suml (map (fun e => only (global nb c (ep e) =? I)%nat (only (dir (global nb c (eq' e) / nb)) (ev e * dval nb dn (global nb c (eq' e))))) E).
    Proof.
      intros [B H]. rewrite elim_cell by exact HA. transitivity (sumn (c_dofs nb c) (fun p => sumn (c_dofs nb c) (fun q =>
          ind (global nb c p =? I)%nat * ind (dir (global nb c q / nb)) * dval nb dn (global nb c q) * suml (map (fun e => only ((ep e =? p) && (eq' e =? q))%nat (ev e)) E)))).
      - apply sumn_ext. intros p Hp. rewrite <- sumn_only. apply sumn_ext. intros q Hq. rewrite <- H by assumption. rewrite <- (isd_global q Hq). unfold isd.
        rewrite !(only_ind _ (ment _ _ _ * _)), !(only_ind (_ =? _)%nat (_ * _)). ring.
      - rewrite (swap2 _ (fun p q => ind (global nb c p =? I)%nat * ind (dir (global nb c q / nb)) * dval nb dn (global nb c q)) E B). f_equal. apply map_ext. intros e.
        rewrite (only_ind (dir _)), (only_ind (_ =? _)%nat (_ * _)). ring.
    Qed.
    Lemma cell_rhs_entries G I : rentries G -> cell_rhs nb c I = suml (map (fun e => only (global nb c (fst e) =? I)%nat (snd e)) G).
    Proof.
      intros [B H]. unfold cell_rhs. transitivity (sumn (c_dofs nb c) (fun p => ind (global nb c p =? I)%nat * suml (map (fun e => only (fst e =? p)%nat (snd e)) G))).
      - apply sumn_ext. intros p Hp. rewrite only_ind, H by assumption. reflexivity.
      - rewrite (swap1 _ (fun p => ind (global nb c p =? I)%nat) G B). f_equal. apply map_ext. intros e. rewrite (only_ind _ (snd e)). reflexivity.
    Qed.

    Lemma tsum_t_of E I J : Forall inb E -> (I < n * nb)%nat -> (J < n * nb)%nat -> dir (I / nb) = false -> dir (J / nb) = false ->
      tsum (flat_map t_of E) (position dir nb I) (position dir nb J) = suml (map (fun e => only ((global nb c (ep e) =? I) && (global nb c (eq' e) =? J))%nat (ev e)) E).
    Proof. intros B HI HJ DI DJ. induction B as [|e E B0 _ IH]; [reflexivity|]. cbn [flat_map map suml]. rewrite tsum_app, IH, t_of_tsum by assumption. reflexivity. Qed.
    Lemma dsum_d_of E I : Forall inb E -> (I < n * nb)%nat -> dir (I / nb) = false ->
      dsum (flat_map d_of E) (position dir nb I) = - suml (map (fun e => only (global nb c (ep e) =? I)%nat (only (dir (global nb c (eq' e) / nb)) (ev e * dval nb dn (global nb c (eq' e))))) E).
    Proof. intros B HI DI. induction B as [|e E B0 _ IH]; [cbn; ring|]. cbn [flat_map map suml]. rewrite dsum_app, IH, d_of_dsum by assumption. ring. Qed.
    Lemma dsum_g_of G I : Forall (fun e => fst e < c_dofs nb c)%nat G -> (I < n * nb)%nat -> dir (I / nb) = false ->
      dsum (flat_map g_of G) (position dir nb I) = suml (map (fun e => only (global nb c (fst e) =? I)%nat (snd e)) G).
    Proof. intros B HI DI. induction B as [|[p v] G B0 _ IH]; [reflexivity|]. cbn [flat_map map suml]. rewrite dsum_app, IH, g_of_dsum by assumption. reflexivity. Qed.

    Lemma sgood_step cs ts ds R E G ts' ds' : sgood cs ts ds R -> entries E -> rentries G ->
      Permutation ts' (flat_map t_of E) -> Permutation ds' (flat_map d_of E ++ flat_map g_of G) ->
      sgood (cs ++ [c]) (ts ++ ts') (ds ++ ds') R.
    Proof.
      intros (S2 & IR & DR & H) EE GG PT PD. split; [exact S2|]. split; [|split].
      - intros t Ht. apply in_app_or in Ht. destruct Ht as [Ht|Ht]; [apply IR; exact Ht|]. apply (Permutation_in _ PT) in Ht. apply in_flat_map in Ht. destruct Ht as (e & He & Ht).
        pose proof (proj1 (Forall_forall _ _) (proj1 EE) e He) as [B1 B2]. unfold t_of in Ht. destruct (lab (ep e)) as [i|] eqn:L1; [|destruct Ht]. destruct (lab (eq' e)) as [j|] eqn:L2; [|destruct Ht].
        destruct Ht as [<-|[]]. cbn. split; [apply (lab_lt (ep e))|apply (lab_lt (eq' e))]; assumption.
      - intros d Hd. apply in_app_or in Hd. destruct Hd as [Hd|Hd]; [apply DR; exact Hd|]. apply (Permutation_in _ PD) in Hd. apply in_app_or in Hd. destruct Hd as [Hd|Hd]; apply in_flat_map in Hd; destruct Hd as (e & He & Hd).
        + pose proof (proj1 (Forall_forall _ _) (proj1 EE) e He) as [B1 B2]. unfold d_of in Hd. destruct (lab (ep e)) as [i|] eqn:L1; [|destruct Hd]. destruct (lab (eq' e)) as [j|] eqn:L2; [destruct Hd|].
          destruct Hd as [<-|[]]. cbn. apply (lab_lt (ep e)); assumption.
        + pose proof (proj1 (Forall_forall _ _) (proj1 GG) e He) as B1. unfold g_of in Hd. destruct (lab (fst e)) as [i|] eqn:L1; [|destruct Hd].
          destruct Hd as [<-|[]]. cbn. apply (lab_lt (fst e)); assumption.
      - intros I HI DI. destruct (H I HI DI) as [H1 H2]. split.
        + intros J HJ DJ. rewrite tsum_app, H1, full_mat_snoc, (cell_mat_entries E) by assumption. f_equal. rewrite (tsum_perm _ _ _ _ PT). apply tsum_t_of; auto. apply (proj1 EE).
        + rewrite dsum_app, full_rhs_snoc. rewrite (elim_ext n nb dir dn (full_mat nb (cs ++ [c])) (fun I J => full_mat nb cs I J + cell_mat nb c I J)) by (intros; apply full_mat_snoc).
          rewrite elim_add, (elim_entries E), (cell_rhs_entries G), (dsum_perm _ _ _ PD), dsum_app, dsum_d_of, dsum_g_of by (try assumption; first [apply (proj1 EE)|apply (proj1 GG)]).
          match goal with |- ?a + (?b + (?x + ?y)) = _ => transitivity ((a + b) + (x + y)); [ring|] end. rewrite H2. ring.
    Qed.
  End One.

  (** all entries of a matrix and of a vector *)
  Definition all_entries (r q : nat) (M : nat -> nat -> K) : list ent := flat_map (fun i => map (fun j => (i, j, M i j)) (seq 0 q)) (seq 0 r).
  Lemma suml_flat {A} (f : A -> list K) l : suml (flat_map f l) = suml (map (fun x => suml (f x)) l).
  Proof. induction l as [|x l IH]; [reflexivity|]. cbn. rewrite suml_app, IH. reflexivity. Qed.
  Lemma map_flat {A B D} (h : B -> D) (f : A -> list B) l : map h (flat_map f l) = flat_map (fun x => map h (f x)) l.
  Proof. induction l as [|x l IH]; [reflexivity|]. cbn. rewrite map_app, IH. reflexivity. Qed.
  Lemma all_entries_sum r s M p q : suml (map (fun e => only ((ep e =? p) && (eq' e =? q))%nat (ev e)) (all_entries r s M)) = only ((p <? r) && (q <? s))%nat (M p q).
  Proof.
    unfold all_entries. rewrite map_flat, suml_flat, suml_map_seq.
    transitivity (sumn r (fun i => only (i =? p)%nat (sumn s (fun j => only (j =? q)%nat (M i j))))).
    { apply sumn_ext. intros i _. rewrite map_map, suml_map_seq, <- sumn_only. apply sumn_ext. intros j _. unfold ep, eq', ev. cbn. unfold only. destruct (i =? p)%nat, (j =? q)%nat; reflexivity. }
    destruct (Nat.ltb_spec p r) as [Hp|Hp]; cbn [andb].
    - transitivity (sumn r (fun i => only (p =? i)%nat (sumn s (fun j => only (j =? q)%nat (M i j))))); [apply sumn_ext; intros i _; rewrite Nat.eqb_sym; reflexivity|].
      rewrite sumn_only_match by exact Hp. destruct (Nat.ltb_spec q s) as [Hq|Hq].
      + transitivity (sumn s (fun j => only (q =? j)%nat (M p j))); [apply sumn_ext; intros i _; rewrite Nat.eqb_sym; reflexivity|]. rewrite sumn_only_match by exact Hq. reflexivity.
      + apply sumn_zero. intros j Hj. rewrite (proj2 (Nat.eqb_neq j q)) by lia. reflexivity.
    - apply sumn_zero. intros i Hi. rewrite (proj2 (Nat.eqb_neq i p)) by lia. reflexivity.
  Qed.
  Definition all_rentries (r : nat) (v : nat -> K) : list (nat * K) := map (fun i => (i, v i)) (seq 0 r).
  Lemma all_rentries_sum r v p : suml (map (fun e => only (fst e =? p)%nat (snd e)) (all_rentries r v)) = only (p <? r)%nat (v p).
  Proof.
    unfold all_rentries. rewrite map_map, suml_map_seq. cbn [fst snd]. destruct (Nat.ltb_spec p r) as [Hp|Hp].
    - transitivity (sumn r (fun i => only (p =? i)%nat (v i))); [apply sumn_ext; intros i _; rewrite Nat.eqb_sym; reflexivity|]. rewrite sumn_only_match by exact Hp. reflexivity.
    - apply sumn_zero. intros i Hi. rewrite (proj2 (Nat.eqb_neq i p)) by lia. reflexivity.
  Qed.
  Lemma fits_entries c : fits nb c -> entries c (all_entries (mrows (c_lhs c)) (mcols (c_lhs c)) (ment (c_lhs c))) /\ rentries c (all_rentries (vsize (c_rhs c)) (vent (c_rhs c))).
  Proof.
    intros (F1 & F2 & F3). rewrite F1, F2, F3. split; split.
    - apply Forall_forall. intros e He. apply in_flat_map in He. destruct He as (i & Hi & He). apply in_map_iff in He. destruct He as (j & <- & Hj). apply in_seq in Hi, Hj. unfold inb, ep, eq'. cbn. lia.
    - intros p q Hp Hq. rewrite all_entries_sum. apply Nat.ltb_lt in Hp, Hq. rewrite Hp, Hq. reflexivity.
    - apply Forall_forall. intros e He. apply in_map_iff in He. destruct He as (j & <- & Hj). apply in_seq in Hj. cbn. lia.
    - intros p Hp. rewrite all_rentries_sum. apply Nat.ltb_lt in Hp. rewrite Hp. reflexivity.
  Qed.
End Scat.
