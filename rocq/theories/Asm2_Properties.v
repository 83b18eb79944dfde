(** C46, C56, C57: discontinuous Galerkin assembly, Neumann and Robin terms, basic assembler. *)
From Coq Require Import List Arith Bool Lia Permutation ZArith.
From Verif Require Import Common LinAlg Mesh_Model Mesh_Spec Mesh_Proofs Elem_Model Elem_Proofs Mesh_Properties
  BC_Model BC_Spec BC_Proofs BC_Properties Cond_Spec Cond_Properties Asm_Model Asm_Spec Asm_Proofs Asm2_Proofs Asm3_Proofs Asm_Properties.
Import ListNotations.

(** ** C56: Neumann and Robin terms *)
Section BCTerms.
  Context {K : cring} {C F Sc P V : Type} (cltb : C -> C -> bool) (fltb : F -> F -> bool) (faces_of : C -> list F).
  Context (smul : Sc -> V -> V) (one : Sc) (project : F -> (P -> V) -> nat -> K) (load : F -> (P -> V) -> nat -> K) (mass : F -> nat -> nat -> K).

  (** a single-face contribution *)
  Definition face_term (nb i : nat) (M : nat -> nat -> K) (v : nat -> K) : contribution K := mkC [i] (mkMat nb nb M) (mkVec nb v).
  (** One contribution for each face where the last registration of kind [k] prescribes a function:
      the load of that function (times the last factor) and the matrix [M]. *)
  Definition bc_terms (m : mesh C F) (ops : list (bc_op Sc P V)) (nb : nat) (k : kind) (M : F -> nat -> nat -> K) : list (contribution K) :=
    flat_map (fun i =>
      match nth_error (m_faces m) i, nth_error (m_binfo m) i with
      | Some f, Some d => match last_reg k d ops None with
          | Some (mkReg _ _ _ _ (Some fn)) => [face_term nb i (M f) (load f (fun p => smul (last_factor ops one) (fn p)))]
          | _ => [] end
      | _, _ => []
      end) (seq 0 (length (m_faces m))).
  (** the calls a user can make on the assembler between construction and finalize *)
  Inductive asm_call := Assemble (cl : C) (l : mat K) (r : vec K) | ImposeNeumann | ImposeRobin.
  Definition asm_do (m : mesh C F) (bnd : bc Sc P V) (c : asm_call) (a : asm K) : outcome (asm K) :=
    match c with
    | Assemble cl l r => diffusion_assemble_bnd fltb faces_of smul project m bnd cl l r a
    | ImposeNeumann => impose_neumann fltb smul load m bnd a
    | ImposeRobin => impose_robin fltb smul load mass m bnd a
    end.
  Definition asm_session (m : mesh C F) (bnd : bc Sc P V) (nb : nat) (calls : list asm_call) : outcome (asm K) :=
    do a <- diffusion_asm_bnd fltb m bnd nb; do a <- floop (asm_do m bnd) calls a; finalize a.
  (** the contributions of a call *)
  Definition adds (m : mesh C F) (ops : list (bc_op Sc P V)) (nb : nat) (c : asm_call) (cs : list (contribution K)) : Prop :=
    match c with
    | Assemble cl l r => exists c, cs = [c] /\ contributes (m_faces m) faces_of nb (cl, l, r) c
    | ImposeNeumann => cs = bc_terms m ops nb Neumann (fun _ _ _ => c0) /\ bc_terms m ops nb Neumann (fun _ _ _ => c0) <> []
    | ImposeRobin => cs = bc_terms m ops nb Robin mass
    end.
  (** no face carries two of Dirichlet, Neumann, Robin *)
  Definition compatible (m : mesh C F) (ops : list (bc_op Sc P V)) : Prop :=
    forall d k k', In d (m_binfo m) -> k <> Contact -> k' <> Contact ->
      last_reg k d ops None <> None -> last_reg k' d ops None <> None -> k = k'.

  Section Reached.
    Context (O : strict_total_order fltb) (m : mesh C F) (ops : list (bc_op Sc P V)) (bnd : bc Sc P V) (nb : nat).
    Context (W : wf_mesh cltb fltb faces_of m) (R : reached fltb one m ops bnd).
    Let dir := dirichlet_face m ops.
    Let n := length (m_faces m).
    Context (dn : nat -> nat -> K).
    Let kinv : kinv4 m ops bnd one.
    Proof.
      destruct (bc_reach cltb fltb faces_of O m W one ops) as (s & E & I). unfold reached in R. rewrite R in E. injection E as <-. exact I.
    Qed.

    Lemma q_all i d : nth_error (m_binfo m) i = Some d ->
      q_set P V (b_dir bnd) i = Ok (is_some (last_reg Dirichlet d ops None)) /\
      q_set P V (b_neu bnd) i = Ok (is_some (last_reg Neumann d ops None)) /\
      q_set P V (b_rob bnd) i = Ok (is_some (last_reg Robin d ops None)) /\
      (forall k, k = Neumann \/ k = Robin -> match last_reg k d ops None with
         | Some r => exists fn, r_func r = Some fn /\ q_func Sc P V smul (b_factor bnd) (kst_of k bnd) i = Ok (fun p => smul (last_factor ops one) (fn p))
         | None => True end).
    Proof.
      intros Hd. assert (G : forall k, q_set P V (kst_of k bnd) i = Ok (is_some (last_reg k d ops None))).
      { intros k. pose proof (q_spec m k ops _ i d (kinv4_of m k _ _ _ kinv) Hd) as Q. destruct (last_reg k d ops None); cbn [is_some]; tauto. }
      split; [apply (G Dirichlet)|]. split; [apply (G Neumann)|]. split; [apply (G Robin)|]. intros k Hk.
      assert (k <> Contact) as NC by (destruct Hk; subst; discriminate).
      pose proof (q_func_spec smul m k ops _ i d (b_factor bnd) (kinv4_of m k _ _ _ kinv) NC Hd) as Q. pose proof kinv as (_ & _ & _ & _ & IF).
      destruct (last_reg k d ops None); [|exact Logic.I]. destruct Q as (fn & Q1 & Q2). exists fn. split; [exact Q1|]. rewrite Q2, IF. reflexivity.
    Qed.

    (** a loop over the boundary faces whose body adds one term per face of kind [k] *)
    Lemma bc_loop (step : F -> asm K -> outcome (asm K)) k (M : F -> nat -> nat -> K) :
      k = Neumann \/ k = Robin ->
      (forall i f d a cs, nth_error (m_faces m) i = Some f -> nth_error (m_binfo m) i = Some d -> good n nb dir dn cs a ->
        match last_reg k d ops None with
        | Some (mkReg _ _ _ _ (Some fn)) => exists a', step f a = Ok a' /\ use_bnd a' = use_bnd a /\
             good n nb dir dn (cs ++ [face_term nb i (M f) (load f (fun p => smul (last_factor ops one) (fn p)))]) a'
        | _ => step f a = Ok a
        end) ->
      forall a cs, good n nb dir dn cs a ->
      exists a', floop step (select bd_is_b (m_faces m) (m_binfo m)) a = Ok a' /\ use_bnd a' = use_bnd a /\ good n nb dir dn (cs ++ bc_terms m ops nb k M) a'.
    Proof.
      intros HK HS a cs G. unfold bc_terms.
      assert (GEN : forall fs ds base, (forall j f, nth_error fs j = Some f -> nth_error (m_faces m) (base + j) = Some f) ->
        (forall j d, nth_error ds j = Some d -> nth_error (m_binfo m) (base + j) = Some d) -> length ds = length fs ->
        forall a cs, good n nb dir dn cs a ->
        exists a', floop step (select bd_is_b fs ds) a = Ok a' /\ use_bnd a' = use_bnd a /\ good n nb dir dn (cs ++ flat_map (fun i =>
          match nth_error (m_faces m) i, nth_error (m_binfo m) i with
          | Some f, Some d => match last_reg k d ops None with
              | Some (mkReg _ _ _ _ (Some fn)) => [face_term nb i (M f) (load f (fun p => smul (last_factor ops one) (fn p)))]
              | _ => [] end
          | _, _ => []
          end) (seq base (length fs))) a').
      { induction fs as [|f fs IH]; intros [|d ds] base H1 H2 HL a0 cs0 G0; try discriminate.
        - exists a0. cbn. rewrite app_nil_r. auto.
        - pose proof (H1 0 f eq_refl) as E1. pose proof (H2 0 d eq_refl) as E2. rewrite Nat.add_0_r in E1, E2.
          cbn [length seq flat_map]. rewrite E1, E2. specialize (HS base f d a0 cs0 E1 E2 G0).
          assert (NX : forall j g, nth_error fs j = Some g -> nth_error (m_faces m) (S base + j) = Some g) by (intros j g Hj; specialize (H1 (S j) g Hj); rewrite Nat.add_succ_r in H1; exact H1).
          assert (NY : forall j g, nth_error ds j = Some g -> nth_error (m_binfo m) (S base + j) = Some g) by (intros j g Hj; specialize (H2 (S j) g Hj); rewrite Nat.add_succ_r in H2; exact H2).
          assert (NL : length ds = length fs) by (cbn in HL; lia).
          unfold select. cbn [combine filter snd].
          assert (NB : bd_is_b d = false -> last_reg k d ops None = None).
          { intros B. pose proof (last_reg_some_iff k d ops None) as L. cbn in L. assert (T0 : times k d ops = 0).
            { unfold times. clear -B. induction ops as [|o l IHl]; [reflexivity|]. cbn [filter]. unfold says at 1. rewrite B. cbn. exact IHl. }
            rewrite T0 in L. cbn in L. destruct (last_reg k d ops None); [discriminate|reflexivity]. }
          destruct (bd_is_b d) eqn:B.
          + cbn [map fst floop]. destruct (last_reg k d ops None) as [[t id [fn|]]|] eqn:LR.
            * destruct HS as (a1 & -> & U1 & G1). cbn [bind]. destruct (IH ds (S base) NX NY NL a1 _ G1) as (a2 & E & U2 & G2). unfold select in E. rewrite E.
              exists a2. split; [reflexivity|]. split; [congruence|]. rewrite <- app_assoc in G2. exact G2.
            * rewrite HS. cbn [bind]. destruct (IH ds (S base) NX NY NL a0 _ G0) as (a2 & E & U2 & G2). unfold select in E. rewrite E. exists a2. cbn [app]. auto.
            * rewrite HS. cbn [bind]. destruct (IH ds (S base) NX NY NL a0 _ G0) as (a2 & E & U2 & G2). unfold select in E. rewrite E. exists a2. cbn [app]. auto.
          + rewrite NB by reflexivity. destruct (IH ds (S base) NX NY NL a0 _ G0) as (a2 & E & U2 & G2). unfold select in E. rewrite E. exists a2. cbn [app]. auto. }
      apply GEN; auto. apply (wf_binfo _ _ _ _ W).
    Qed.

    Lemma dir_none i f d : nth_error (m_faces m) i = Some f -> nth_error (m_binfo m) i = Some d -> last_reg Dirichlet d ops None = None ->
      i < n /\ dir i = false.
    Proof. intros H Hd E. split; [apply nth_error_Some; congruence|]. unfold dir, dirichlet_face. rewrite Hd, E. reflexivity. Qed.

    Context (CO : compatible m ops).
    Lemma others_none i d k k' : nth_error (m_binfo m) i = Some d -> k <> Contact -> k' <> Contact -> k <> k' -> last_reg k d ops None <> None -> last_reg k' d ops None = None.
    Proof.
      intros Hd H H' N E. destruct (last_reg k' d ops None) eqn:E'; [|reflexivity]. exfalso. apply N, (CO d); auto; [eapply nth_error_In; exact Hd|congruence].
    Qed.

    Lemma neumann_step_spec i f d a cs : nth_error (m_faces m) i = Some f -> nth_error (m_binfo m) i = Some d -> good n nb dir dn cs a ->
        match last_reg Neumann d ops None with
        | Some (mkReg _ _ _ _ (Some fn)) => exists a', neumann_step fltb smul load m bnd f a = Ok a' /\ use_bnd a' = use_bnd a /\
             good n nb dir dn (cs ++ [face_term nb i (fun _ _ => c0) (load f (fun p => smul (last_factor ops one) (fn p)))]) a'
        | _ => neumann_step fltb smul load m bnd f a = Ok a
        end.
    Proof.
      intros Hf Hd G. destruct (q_all i d Hd) as (Q1 & Q2 & Q3 & Q4). unfold neumann_step.
      rewrite (lookup_stored fltb O _ _ _ (wf_faces _ _ _ _ W) Hf). cbn [bind]. rewrite Q2. cbn [bind].
      pose proof (fun k' H1 H2 => others_none i d Neumann k' Hd ltac:(discriminate) H1 H2) as ON.
      specialize (Q4 Neumann (or_introl eq_refl)). cbn [kst_of] in Q4.
      destruct (last_reg Neumann d ops None) as [[t id fn]|] eqn:LN; [|reflexivity]. destruct Q4 as (fn' & E1 & Q4). cbn in E1. subst fn.
      cbn [is_some]. rewrite Q1, Q3, (ON Dirichlet), (ON Robin) by discriminate. cbn [is_some bind].
      destruct (dir_none i f d Hf Hd) as [Hn Di]; [apply ON; discriminate|].
      destruct (good_face n nb dir dn a cs i (fun _ _ => c0) (load f (fun p => smul (last_factor ops one) (fn' p))) G Hn Di) as (RR & E & _ & G').
      destruct G as (T & FB & _). unfold vat. rewrite (T i Hn), Di. cbn [bind]. rewrite Q4. cbn [bind]. rewrite FB, E. cbn [bind].
      eexists. split; [reflexivity|]. split; [reflexivity|]. apply G'. reflexivity.
    Qed.
    Lemma robin_step_spec i f d a cs : nth_error (m_faces m) i = Some f -> nth_error (m_binfo m) i = Some d -> good n nb dir dn cs a ->
        match last_reg Robin d ops None with
        | Some (mkReg _ _ _ _ (Some fn)) => exists a', robin_step fltb smul load mass m bnd f a = Ok a' /\ use_bnd a' = use_bnd a /\
             good n nb dir dn (cs ++ [face_term nb i (mass f) (load f (fun p => smul (last_factor ops one) (fn p)))]) a'
        | _ => robin_step fltb smul load mass m bnd f a = Ok a
        end.
    Proof.
      intros Hf Hd G. destruct (q_all i d Hd) as (Q1 & Q2 & Q3 & Q4). unfold robin_step.
      rewrite (lookup_stored fltb O _ _ _ (wf_faces _ _ _ _ W) Hf). cbn [bind]. rewrite Q3. cbn [bind].
      pose proof (fun k' H1 H2 => others_none i d Robin k' Hd ltac:(discriminate) H1 H2) as ON.
      specialize (Q4 Robin (or_intror eq_refl)). cbn [kst_of] in Q4.
      destruct (last_reg Robin d ops None) as [[t id fn]|] eqn:LN; [|reflexivity]. destruct Q4 as (fn' & E1 & Q4). cbn in E1. subst fn.
      cbn [is_some]. rewrite Q1, Q2, (ON Dirichlet), (ON Neumann) by discriminate. cbn [is_some bind].
      destruct (dir_none i f d Hf Hd) as [Hn Di]; [apply ON; discriminate|].
      destruct (good_face n nb dir dn a cs i (mass f) (load f (fun p => smul (last_factor ops one) (fn' p))) G Hn Di) as (RR & E & G' & _).
      destruct G as (T & FB & _). unfold vat. rewrite (T i Hn), Di. cbn [bind]. rewrite Q4. cbn [bind]. rewrite FB, E. cbn [bind].
      eexists. split; [reflexivity|]. split; [reflexivity|]. exact G'.
    Qed.

    Lemma bc_terms_counted k M : k = Neumann \/ k = Robin -> bc_terms m ops nb k M <> [] -> 0 < BC_Spec.nb_faces bnd k.
    Proof.
      intros HK NE. rewrite (C14_counters cltb fltb faces_of one O m ops bnd W R k).
      destruct (bc_terms m ops nb k M) as [|c l] eqn:E; [contradiction|]. assert (HI : In c (bc_terms m ops nb k M)) by (rewrite E; left; reflexivity).
      unfold bc_terms in HI. apply in_flat_map in HI. destruct HI as (i & _ & HI). destruct (nth_error (m_faces m) i); [|contradiction].
      destruct (nth_error (m_binfo m) i) as [d|] eqn:Hd; [|contradiction]. destruct (last_reg k d ops None) as [r|] eqn:LR; [|contradiction].
      pose proof (last_reg_some_iff k d ops None) as L. cbn in L. rewrite LR in L. cbn in L.
      assert (times k d ops <> 0) by (intros Z; rewrite Z in L; discriminate).
      apply nth_error_In in Hd. clear -Hd H. induction (m_binfo m) as [|x l IH]; [contradiction|]. cbn. destruct Hd as [->|Hd]; [lia|]. specialize (IH Hd). unfold list_sum in IH. lia.
    Qed.

    Lemma no_terms_loop : BC_Spec.nb_faces bnd Robin = 0 -> bc_terms m ops nb Robin mass = [].
    Proof.
      intros Z. destruct (bc_terms m ops nb Robin mass) eqn:E; [reflexivity|]. exfalso. pose proof (bc_terms_counted Robin mass (or_intror eq_refl)) as P0. rewrite E in P0. specialize (P0 ltac:(discriminate)). lia.
    Qed.
  End Reached.

  (** C56: whatever is assembled and in whatever order, the Neumann and Robin calls add exactly the
      face terms of the conditions registered, and the final system is the full system with the
      Dirichlet unknowns eliminated. *)
  Theorem C56_boundary_terms : strict_total_order fltb -> forall (m : mesh C F) ops bnd nb calls css, wf_mesh cltb fltb faces_of m ->
    reached fltb one m ops bnd -> compatible m ops -> Forall2 (adds m ops nb) calls css ->
    exists a, asm_session m bnd nb calls = Ok a /\
      assembled (dirichlet_face m ops) (length (m_faces m)) nb (dirichlet_value smul one project m ops nb) (concat css) (LHS a) (RHS a).
  Proof.
    intros O m ops bnd nb calls css W R CO HC.
    set (value := fun f : F => match proj_bnd fltb smul project m bnd f with Ok g => g | _ => fun _ => c0 end).
    set (dn := fun i k : nat => match nth_error (m_faces m) i with Some f => value f k | None => c0 : K end).
    assert (FO : forall i f, nth_error (m_faces m) i = Some f -> face_ok (length (m_faces m)) (dirichlet_face m ops) dn (offset F fltb (m_faces m)) (isdir_bnd fltb m bnd) (proj_bnd fltb smul project m bnd) i f).
    { intros i f H. split; [apply nth_error_Some; congruence|]. split; [apply (pos_ok cltb fltb faces_of O m W i f H)|].
      pose proof (isdir_bnd_at cltb fltb faces_of smul one project O m ops bnd W R i f H) as ID. split; [exact ID|]. intros D.
      rewrite (proj_bnd_dir cltb fltb faces_of smul one project O m ops bnd W R f (nth_error_In _ _ H)) by congruence.
      f_equal. unfold dn, value. rewrite H. reflexivity. }
    destruct (good_make (m_faces m) nb (dirichlet_face m ops) dn _ _ _ FO true) as (a0 & E0 & G0 & U0 & _).
    assert (RUN : forall calls css, Forall2 (adds m ops nb) calls css -> forall a past, good (length (m_faces m)) nb (dirichlet_face m ops) dn past a -> use_bnd a = true ->
      exists a', floop (asm_do m bnd) calls a = Ok a' /\ good (length (m_faces m)) nb (dirichlet_face m ops) dn (past ++ concat css) a').
    { clear E0 G0 U0 a0 HC calls css. induction 1 as [|call cs calls css HC HR IH]; intros a past G U; cbn [floop concat].
      - exists a. rewrite app_nil_r. auto.
      - assert (ST : exists a', asm_do m bnd call a = Ok a' /\ use_bnd a' = true /\ good (length (m_faces m)) nb (dirichlet_face m ops) dn (past ++ cs) a').
        { destruct call as [cl l r| |]; cbn [asm_do adds] in *.
          - destruct HC as (c & -> & NF & <- & <- & FI). unfold diffusion_assemble_bnd. rewrite U. cbn [negb].
            destruct (good_step (length (m_faces m)) nb (dirichlet_face m ops) dn (offset F fltb (m_faces m)) (isdir_bnd fltb m bnd) (proj_bnd fltb smul project m bnd) a past c (faces_of cl) G) as (a1 & E1 & G1 & U1 & _);
              [apply (stored_face_ok (m_faces m) (dirichlet_face m ops) dn); [exact FO|exact NF]|exact FI|].
            exists a1. split; [exact E1|]. split; [congruence|exact G1].
          - destruct HC as [-> NE]. unfold impose_neumann. rewrite U. cbn [negb].
            pose proof (bc_terms_counted O m ops bnd nb W R Neumann _ (or_introl eq_refl) NE) as PC. cbn [BC_Spec.nb_faces] in PC.
            rewrite (proj2 (Nat.ltb_lt _ _) PC). rewrite (boundary_faces_correct fltb O m (wf_faces _ _ _ _ W) (wf_binfo _ _ _ _ W)). cbn [bind].
            destruct (bc_loop m ops nb W dn (neumann_step fltb smul load m bnd) Neumann (fun _ _ _ => c0) (or_introl eq_refl)
               (fun i f d a cs => neumann_step_spec O m ops bnd nb W R dn CO i f d a cs) a past G) as (a' & E1 & U1 & G1).
            exists a'. split; [exact E1|]. split; [congruence|exact G1].
          - subst cs. unfold impose_robin. rewrite U. cbn [negb]. destruct (Nat.ltb_spec 0 (nb_faces_robin Sc P V bnd)) as [PC|PC].
            + rewrite (boundary_faces_correct fltb O m (wf_faces _ _ _ _ W) (wf_binfo _ _ _ _ W)). cbn [bind].
              destruct (bc_loop m ops nb W dn (robin_step fltb smul load mass m bnd) Robin mass (or_intror eq_refl)
                 (fun i f d a cs => robin_step_spec O m ops bnd nb W R dn CO i f d a cs) a past G) as (a' & E1 & U1 & G1).
              exists a'. split; [exact E1|]. split; [congruence|exact G1].
            + exists a. split; [reflexivity|]. split; [exact U|]. rewrite (no_terms_loop O m ops bnd nb W R), app_nil_r; [exact G|]. cbn [BC_Spec.nb_faces]. lia. }
        destruct ST as (a1 & -> & U1 & G1). cbn [bind]. destruct (IH a1 _ G1 U1) as (a2 & E2 & G2). exists a2. split; [exact E2|]. rewrite app_assoc. exact G2. }
    destruct (RUN calls css HC a0 [] G0 U0) as (a1 & E1 & G1).
    destruct (finalize_spec (m_faces m) nb (dirichlet_face m ops) dn (concat css) a1 G1) as (a2 & E2 & [A1 A2 A3 A4 A5] & _).
    exists a2. unfold asm_session, diffusion_asm_bnd. rewrite E0. cbn [bind]. rewrite E1. cbn [bind]. split; [exact E2|].
    constructor; auto. intros I HI FI. rewrite A5 by assumption. f_equal. apply sumn_ext. intros J HJ. destruct (free (dirichlet_face m ops) nb J) eqn:FJ; [reflexivity|].
    f_equal. rewrite <- (value_same cltb fltb faces_of smul one project O m ops bnd W R nb J); [reflexivity|]. unfold free in FJ. apply negb_false_iff in FJ. exact FJ.
  Qed.

  (** C56: imposing Neumann conditions when no face has one is rejected, and so is imposing any
      condition through an assembler built without boundary conditions. *)
  Theorem C56_rejected : strict_total_order fltb -> forall (m : mesh C F) ops bnd (a : asm K), wf_mesh cltb fltb faces_of m -> reached fltb one m ops bnd ->
    (use_bnd a = false -> impose_neumann fltb smul load m bnd a = Throw InvalidArgument /\ impose_robin fltb smul load mass m bnd a = Throw InvalidArgument) /\
    ((forall d, In d (m_binfo m) -> last_reg Neumann d ops None = None) -> impose_neumann fltb smul load m bnd a = Throw InvalidArgument).
  Proof.
    intros O m ops bnd a W R. unfold impose_neumann, impose_robin. split; [intros ->; auto|]. intros H. destruct (use_bnd a); [|reflexivity]. cbn [negb].
    pose proof (C14_counters cltb fltb faces_of one O m ops bnd W R Neumann) as N. cbn [BC_Spec.nb_faces] in N.
    assert (Z : list_sum (map (fun d => times Neumann d ops) (m_binfo m)) = 0).
    { clear -H. induction (m_binfo m) as [|d l IH]; [reflexivity|]. cbn. unfold list_sum in IH. rewrite IH by (intros; apply H; right; assumption).
      pose proof (last_reg_some_iff Neumann d ops None) as L. cbn in L. rewrite (H d (or_introl eq_refl)) in L. cbn in L. symmetry in L. apply negb_false_iff, Nat.eqb_eq in L. lia. }
    rewrite Z in N. rewrite N. reflexivity.
  Qed.

  (** C56: if some face carries a Neumann condition and another one (Dirichlet or Robin), imposing
      the Neumann conditions fails; the same for Robin. *)
  Lemma floop_ok_each {A B} (f : A -> B -> outcome B) : forall l a r x, floop f l a = Ok r -> In x l -> exists a', is_ok (f x a') = true.
  Proof.
    induction l as [|y l IH]; intros a r x H HI; [contradiction|]. cbn [floop] in H. destruct (f y a) as [a1| |] eqn:E; try discriminate. cbn [bind] in H.
    destruct HI as [->|HI]; [exists a; rewrite E; reflexivity|]. exact (IH a1 r x H HI).
  Qed.
  Lemma in_select i f d (m : mesh C F) : nth_error (m_faces m) i = Some f -> nth_error (m_binfo m) i = Some d -> bd_is_b d = true ->
    In f (select bd_is_b (m_faces m) (m_binfo m)).
  Proof.
    unfold select. revert i. generalize (m_binfo m). induction (m_faces m) as [|g fs IH]; intros [|e ds] [|i]; cbn; try discriminate.
    - intros [= ->] [= ->] B. cbn. rewrite B. left. reflexivity.
    - intros H1 H2 B. specialize (IH ds i H1 H2 B). destruct (bd_is_b e); [right|]; exact IH.
  Qed.
  Theorem C56_conflict_rejected : strict_total_order fltb -> forall (m : mesh C F) ops bnd (a : asm K) d k, wf_mesh cltb fltb faces_of m -> reached fltb one m ops bnd ->
    In d (m_binfo m) ->
    (last_reg Neumann d ops None <> None -> k = Dirichlet \/ k = Robin -> last_reg k d ops None <> None -> is_ok (impose_neumann fltb smul load m bnd a) = false) /\
    (last_reg Robin d ops None <> None -> k = Dirichlet \/ k = Neumann -> last_reg k d ops None <> None -> is_ok (impose_robin fltb smul load mass m bnd a) = false).
  Proof.
    intros O m ops bnd a d k W R HI. destruct (in_stored _ _ HI) as [i Hd]. pose proof (stored_lt _ _ _ Hd) as Hi. rewrite (wf_binfo _ _ _ _ W) in Hi.
    destruct (nth_error_some _ _ Hi) as [f Hf]. destruct (q_all O m ops bnd 0 W R (fun _ _ => c0) i d Hd) as (Q1 & Q2 & Q3 & _).
    assert (BB : forall k, last_reg k d ops None <> None -> bd_is_b d = true).
    { intros k' L. destruct (bd_is_b d) eqn:B; [reflexivity|]. exfalso. apply L.
      pose proof (last_reg_some_iff k' d ops None) as LS. cbn in LS. assert (T0 : times k' d ops = 0).
      { unfold times. clear -B. induction ops as [|o l IHl]; [reflexivity|]. cbn [filter]. unfold says at 1. rewrite B. cbn. exact IHl. }
      rewrite T0 in LS. cbn in LS. destruct (last_reg k' d ops None); [discriminate|reflexivity]. }
    assert (NST : forall a', last_reg Neumann d ops None <> None -> k = Dirichlet \/ k = Robin -> last_reg k d ops None <> None -> is_ok (neumann_step fltb smul load m bnd f a') = false).
    { intros a' LN HK LK. unfold neumann_step. rewrite (lookup_stored fltb O _ _ _ (wf_faces _ _ _ _ W) Hf). cbn [bind]. rewrite Q2, Q1, Q3.
      destruct (last_reg Neumann d ops None); [|congruence]. cbn [is_some bind]. destruct (last_reg Dirichlet d ops None) eqn:LD; cbn [is_some]; [reflexivity|].
      destruct (last_reg Robin d ops None) eqn:LR; cbn [is_some]; [reflexivity|]. destruct HK; subst k; congruence. }
    assert (RST : forall a', last_reg Robin d ops None <> None -> k = Dirichlet \/ k = Neumann -> last_reg k d ops None <> None -> is_ok (robin_step fltb smul load mass m bnd f a') = false).
    { intros a' LN HK LK. unfold robin_step. rewrite (lookup_stored fltb O _ _ _ (wf_faces _ _ _ _ W) Hf). cbn [bind]. rewrite Q2, Q1, Q3.
      destruct (last_reg Robin d ops None); [|congruence]. cbn [is_some bind]. destruct (last_reg Neumann d ops None) eqn:LD; cbn [is_some bind].
      - destruct (q_type P V (b_neu bnd) i) as [t| |]; cbn [bind]; try reflexivity. destruct (t =? NEUMANN); reflexivity.
      - destruct (last_reg Dirichlet d ops None) eqn:LR; cbn [is_some].
        + destruct (q_type P V (b_dir bnd) i) as [t| |]; cbn [bind]; try reflexivity. destruct (t =? DIRICHLET); reflexivity.
        + destruct HK; subst k; congruence. }
    assert (PC : forall k, last_reg k d ops None <> None -> 0 < BC_Spec.nb_faces bnd k).
    { intros k' L. rewrite (C14_counters cltb fltb faces_of one O m ops bnd W R k'). pose proof (last_reg_some_iff k' d ops None) as L2. cbn in L2.
      destruct (last_reg k' d ops None) as [r|] eqn:LR; [|congruence]. cbn in L2. assert (times k' d ops <> 0) by (intros Z; rewrite Z in L2; discriminate).
      clear -HI H. induction (m_binfo m) as [|x l IH]; [contradiction|]. cbn. destruct HI as [->|Hd]; [lia|]. specialize (IH Hd). unfold list_sum in IH. lia. }
    split; intros L HK LK.
    - unfold impose_neumann. destruct (use_bnd a); [|reflexivity]. cbn [negb]. pose proof (PC _ L) as PC1. cbn [BC_Spec.nb_faces] in PC1. rewrite (proj2 (Nat.ltb_lt _ _) PC1).
      rewrite (boundary_faces_correct fltb O m (wf_faces _ _ _ _ W) (wf_binfo _ _ _ _ W)). cbn [bind]. destruct (floop _ _ a) eqn:E; [|reflexivity|reflexivity].
      destruct (floop_ok_each _ _ _ _ f E (in_select i f d m Hf Hd (BB _ L))) as [a' X]. rewrite NST in X by assumption. discriminate.
    - unfold impose_robin. destruct (use_bnd a); [|reflexivity]. cbn [negb]. pose proof (PC _ L) as PC1. cbn [BC_Spec.nb_faces] in PC1. rewrite (proj2 (Nat.ltb_lt _ _) PC1).
      rewrite (boundary_faces_correct fltb O m (wf_faces _ _ _ _ W) (wf_binfo _ _ _ _ W)). cbn [bind]. destruct (floop _ _ a) eqn:E; [|reflexivity|reflexivity].
      destruct (floop_ok_each _ _ _ _ f E (in_select i f d m Hf Hd (BB _ L))) as [a' X]. rewrite RST in X by assumption. discriminate.
  Qed.
End BCTerms.

(** ** C57: basic_condensed_assembler *)
Section Basic.
  Context {K : cring} {C F : Type} (cltb : C -> C -> bool) (fltb : F -> F -> bool) (faces_of : C -> list F).

  (** face [i] is on the boundary and not internal *)
  Definition outer (m : mesh C F) (i : nat) : bool :=
    match nth_error (m_binfo m) i with Some d => bd_is_b d && negb (bd_is_int d) | None => false end.
  Definition listed (df : list bool) (i : nat) : bool := match nth_error df i with Some b => b | None => false end.

  Definition basic_run (make : outcome (basm K)) (m : mesh C F) (calls : list (C * mat K * vec K)) : outcome (basm K) :=
    do b <- make;
    do b <- floop (fun call b => let '(cl, l, r) := call in basic_assemble fltb faces_of m cl l r b) calls b;
    basic_finalize b.

  Lemma rank_count_occ df : rank (listed df) (length df) = length df - count_occ bool_dec df true.
  Proof.
    pose proof (rank_count (fun b : bool => b) df) as E. unfold listed. rewrite E. clear E.
    induction df as [|[] l IH]; [reflexivity| |]; cbn [filter length count_occ negb].
    - destruct (bool_dec true true); [cbn; lia|congruence].
    - destruct (bool_dec false true); [congruence|]. cbn [length]. rewrite IH.
      pose proof (count_occ_bound bool_dec true l). lia.
  Qed.

  Section Given.
    Context (O : strict_total_order fltb) (m : mesh C F) (W : wf_mesh cltb fltb faces_of m) (df : list bool) (HL : length df = length (m_faces m)).
    Let dir := listed df.
    Let n := length (m_faces m).

    Lemma basic_isdir i f : nth_error (m_faces m) i = Some f -> basic_is_dirichlet fltb m df f = Ok (dir i).
    Proof.
      intros H. assert (Hi : i < length (m_faces m)) by (apply nth_error_Some; congruence). unfold basic_is_dirichlet.
      destruct (Nat.eqb_spec (length df) 0); [lia|]. rewrite (lookup_stored fltb O _ _ _ (wf_faces _ _ _ _ W) H). cbn [bind]. unfold vget, dir, listed.
      destruct (nth_error_some df i) as [x E]; [lia|]. rewrite E. reflexivity.
    Qed.

    Lemma basic_make_good nb : exists b : basm K, basic_make fltb m nb df = Ok b /\ bgood n nb dir [] b /\
       numbering dir n (rank dir n) (tab (b_asm b)) /\ num_other_faces (b_asm b) = rank dir n /\ system_size (b_asm b) = nb * rank dir n /\ dirichlet_faces b = df.
    Proof.
      unfold basic_make.
      destruct (asm_make_spec (m_faces m) (basic_is_dirichlet fltb m df) dir basic_isdir K false nb) as (a & Q & T & U & N1 & N2 & N3 & E & S1 & TR & S2 & Z & M1 & M2).
      fold n in N1, N2, N3, S1, T.
      unfold asm_make in Q. destruct (count_if_spec (m_faces m) (basic_is_dirichlet fltb m df) dir (m_faces m) 0) as (c & EC & EN); [exact basic_isdir|].
      rewrite EC in Q. cbn [bind] in Q. cbn in EN. fold n in EN, Q |- *.
      assert (CC : n - count_occ bool_dec df true = n - c).
      { pose proof (rank_count_occ df) as X. rewrite HL in X. fold n in X. change (listed df) with dir in X. rewrite <- X. lia. }
      rewrite CC. destruct (number_faces _ _ _ _ _) as [t| |]; try discriminate. cbn [bind] in Q |- *. injection Q as Q. 
      eexists. split; [reflexivity|]. cbn [b_asm dirichlet_faces tab num_other_faces system_size].
      assert (ET : t = tab a) by (rewrite <- Q; reflexivity). assert (EO : n - c = rank dir n) by (rewrite <- N2, <- Q; reflexivity).
      split; [|split; [rewrite ET; apply tab_ok_numbering; exact T|rewrite EO; auto]].
      split.
      - split; [intros j Hj; cbn; rewrite ET; apply (proj1 (proj2 (proj2 T))); exact Hj|]. split; [reflexivity|]. cbn [b_asm system_size RHS vsize triplets]. rewrite EO.
        split; [reflexivity|]. split; [reflexivity|]. split; [intros x []|]. intros I HI DI. split; [reflexivity|]. rewrite elim_zero. cbn.
        destruct K as [kc k0 k1 ka km ks ko kth]; cbn. symmetry. destruct kth. rewrite Rsub_def. apply Ropp_def.
      - intros i Hi. cbn [dirichlet_faces]. unfold dir, listed. destruct (nth_error_some df i) as [x Ex]; [lia|]. rewrite Ex. reflexivity.
    Qed.

    Lemma basic_run_good nb : forall (calls : list (C * mat K * vec K)) cs, Forall2 (contributes (m_faces m) faces_of nb) calls cs ->
      forall past b, bgood n nb dir past b ->
      exists b', floop (fun call b => let '(cl, l, r) := call in basic_assemble fltb faces_of m cl l r b) calls b = Ok b' /\ bgood n nb dir (past ++ cs) b' /\
         dirichlet_faces b' = dirichlet_faces b /\ tab (b_asm b') = tab (b_asm b).
    Proof.
      induction 1 as [|call c calls cs HC R IH]; intros past b G; cbn [floop].
      - exists b. rewrite app_nil_r. auto.
      - destruct call as [[cl l] r]. destruct HC as (NF & <- & <- & FI). destruct G as [G HB]. pose proof G as (T & E & _).
        unfold basic_assemble at 1. rewrite (fmap_forall2 _ (faces_of cl) (c_faces c)).
        2:{ clear -NF O W. induction NF; constructor; auto. apply lookup_stored; [exact O|exact (wf_faces _ _ _ _ W)|assumption]. }
        cbn [bind].
        destruct (basic_rows_good n nb dir c b HB T E) with (cs := past) as (st & -> & G1).
        { clear -NF. induction NF; constructor; auto. apply nth_error_Some. congruence. }
        { exact FI. } { exact G. }
        cbn [bind]. destruct (IH (past ++ [c]) (mkBAsm (with_sys (b_asm b) (fst st) (snd st)) (dirichlet_faces b))) as (b2 & -> & G2 & D2 & T2); [split; assumption|].
        exists b2. rewrite <- app_assoc in G2. auto.
    Qed.

    Lemma basic_full nb (calls : list (C * mat K * vec K)) cs : Forall2 (contributes (m_faces m) faces_of nb) calls cs ->
      exists b, basic_run (basic_make fltb m nb df) m calls = Ok b /\
        assembled dir n nb (fun _ => c0) cs (LHS (b_asm b)) (RHS (b_asm b)) /\ fbs (b_asm b) = nb /\ dirichlet_faces b = df /\ tabs n dir (tab (b_asm b)).
    Proof.
      intros HC. unfold basic_run. destruct (basic_make_good nb) as (b0 & -> & G0 & _ & _ & _ & D0). cbn [bind].
      destruct (basic_run_good nb calls cs HC [] b0 G0) as (b1 & -> & (G1 & _) & D1 & T1). cbn [bind app] in *. unfold basic_finalize.
      destruct (finalize_spec (m_faces m) nb dir (fun _ _ => c0) cs (b_asm b1) G1) as (a2 & -> & AS & T2 & FB & _). cbn [bind].
      eexists. split; [reflexivity|]. cbn [b_asm dirichlet_faces]. split; [exact AS|]. split; [destruct G1 as (_ & E & _); congruence|]. split; [congruence|].
      rewrite T2. apply G1.
    Qed.

    Lemma basic_local nb (b : basm K) x ids cl : fbs (b_asm b) = nb -> dirichlet_faces b = df -> tabs n dir (tab (b_asm b)) -> nb * rank dir n <= vsize x ->
      numbered (m_faces m) ids (faces_of cl) ->
      exists l, basic_take_local fltb faces_of m cl x b = Ok l /\ length l = length ids * nb /\
        forall p, p < length ids * nb -> let I := nth (p / nb) ids 0 * nb + p mod nb in
          nth p l c0 = if free dir nb I then vent x (position dir nb I) else c0.
    Proof.
      intros E D T HX HN. unfold basic_take_local. rewrite (fmap_forall2 _ (faces_of cl) ids).
      2:{ clear -HN O W. induction HN; constructor; auto. apply lookup_stored; [exact O|exact (wf_faces _ _ _ _ W)|assumption]. }
      cbn [bind]. assert (HA : Forall (fun i => i < n) ids) by (clear -HN; induction HN; constructor; auto; apply nth_error_Some; congruence).
      clear HN. cbv zeta.
      assert (G : exists bs, fmap (basic_block b x) ids = Ok bs /\ length (concat bs) = length ids * nb /\
        forall p, p < length ids * nb -> nth p (concat bs) c0 = (if free dir nb (nth (p / nb) ids 0 * nb + p mod nb) then vent x (position dir nb (nth (p / nb) ids 0 * nb + p mod nb)) else c0)).
      2:{ destruct G as (bs & -> & G1 & G2). cbn [bind]. exists (concat bs). auto. }
      induction HA as [|id ids Hid HA (bs & IH1 & IH2 & IH3)].
      - exists []. cbn. split; [reflexivity|]. split; [reflexivity|]. intros; lia.
      - cbn [fmap]. assert (BL : exists k, basic_block b x id = Ok k /\ length k = nb /\ forall i, i < nb -> nth i k c0 = if dir id then c0 else vent x (rank dir id * nb + i)).
        { unfold basic_block. rewrite D. unfold vget, dir, listed in *. destruct (nth_error_some df id) as [bb Eb]; [fold n in HL; lia|]. rewrite Eb. cbn [bind]. rewrite E.
          destruct bb.
          - exists (repeat c0 nb). split; [reflexivity|]. split; [apply repeat_length|]. intros i Hi. apply nth_repeat.
          - unfold vat. pose proof (T id Hid) as T'. cbv beta in T'. rewrite Eb in T'. rewrite T'. cbn [bind]. 
            set (dd := fun i => match nth_error df i with Some b => b | None => false end) in *.
            assert (Dd : dd id = false) by (unfold dd; rewrite Eb; reflexivity). pose proof (rank_lt dd id n Hid Dd).
            rewrite (proj2 (Nat.leb_le _ _)) by nia. eexists. split; [reflexivity|]. split; [now rewrite map_length, seq_length|].
            intros i Hi. rewrite (nth_indep _ c0 (vent x (rank dd id * nb + 0))) by (rewrite map_length, seq_length; exact Hi).
            rewrite (map_nth (fun i => vent x (rank dd id * nb + i))), seq_nth by exact Hi. reflexivity. }
        destruct BL as (k & -> & Lk & B). cbn [bind]. rewrite IH1. cbn [bind]. exists (k :: bs). split; [reflexivity|]. cbn [concat].
        split; [rewrite app_length; cbn; lia|]. intros p Hp. destruct (Nat.lt_ge_cases p nb) as [Hl|Hg].
        + rewrite app_nth1 by lia. rewrite B by exact Hl. rewrite Nat.div_small, Nat.mod_small by exact Hl. cbn [nth].
          unfold free, position. destruct (dm_add nb id p Hl) as [-> ->]. destruct (dir id); reflexivity.
        + rewrite app_nth2 by lia. rewrite Lk, IH3 by (cbn in Hp; lia).
          assert (DV : (p / nb = S ((p - nb) / nb) /\ p mod nb = (p - nb) mod nb)%nat).
          { assert (0 < nb)%nat by (destruct nb; lia). pose proof (Nat.div_mod (p - nb) nb ltac:(lia)) as X. pose proof (Nat.mod_upper_bound (p - nb) nb ltac:(lia)).
            split; symmetry; [apply (Nat.div_unique _ _ _ ((p - nb) mod nb)); lia|apply (Nat.mod_unique _ _ (S ((p - nb) / nb))); lia]. }
          destruct DV as [-> ->]. reflexivity.
    Qed.
  End Given.

  Lemma outer_list (O : strict_total_order fltb) (m : mesh C F) : wf_mesh cltb fltb faces_of m ->
    exists df, fmap (outer_face fltb m) (m_faces m) = Ok df /\ length df = length (m_faces m) /\ forall i, i < length (m_faces m) -> listed df i = outer m i.
  Proof.
    intros W. exists (map (fun d => bd_is_b d && negb (bd_is_int d)) (m_binfo m)). split; [|split].
    - apply fmap_forall2.
      assert (G : forall fs ds base, (forall j f, nth_error fs j = Some f -> nth_error (m_faces m) (base + j) = Some f) ->
        (forall j d, nth_error ds j = Some d -> nth_error (m_binfo m) (base + j) = Some d) -> length ds = length fs ->
        Forall2 (fun b a => outer_face fltb m a = Ok b) (map (fun d => bd_is_b d && negb (bd_is_int d)) ds) fs).
      { induction fs as [|f fs IH]; intros [|d ds] base H1 H2 HL; try discriminate; constructor.
        - pose proof (H1 0 f eq_refl) as E1. pose proof (H2 0 d eq_refl) as E2. rewrite Nat.add_0_r in E1, E2. unfold outer_face.
          rewrite (lookup_stored fltb O _ _ _ (wf_faces _ _ _ _ W) E1). cbn [bind]. unfold vat. rewrite E2. reflexivity.
        - apply (IH ds (S base)); [| |cbn in HL; lia]; intros j x Hj; [specialize (H1 (S j) x Hj); rewrite Nat.add_succ_r in H1; exact H1|specialize (H2 (S j) x Hj); rewrite Nat.add_succ_r in H2; exact H2]. }
      apply (G (m_faces m) (m_binfo m) 0); auto. apply (wf_binfo _ _ _ _ W).
    - rewrite map_length. apply (wf_binfo _ _ _ _ W).
    - intros i Hi. unfold listed, outer. rewrite nth_error_map. destruct (nth_error (m_binfo m) i); reflexivity.
  Qed.

  Lemma rank_agree dir dir' N : (forall i, i < N -> dir i = dir' i) -> forall k, k <= N -> rank dir k = rank dir' k.
  Proof. intros H. induction k as [|k IH]; intros Hk; [reflexivity|]. cbn [rank]. rewrite IH, H by lia. reflexivity. Qed.
  Lemma assembled_agree dir dir' N nb (d : nat -> K) cs A b : (forall i, i < N -> dir i = dir' i) -> assembled dir N nb d cs A b -> assembled dir' N nb d cs A b.
  Proof.
    intros H [A1 A2 A3 A4 A5]. pose proof (rank_agree dir dir' N H) as RA.
    assert (FS : forall I, I < N * nb -> free dir nb I = free dir' nb I) by (intros I HI; unfold free; rewrite H; [reflexivity|apply (div_mod_lt nb I _ HI)]).
    assert (PS : forall I, I < N * nb -> position dir nb I = position dir' nb I) by (intros I HI; unfold position; rewrite RA; [reflexivity|pose proof (div_mod_lt nb I _ HI); lia]).
    rewrite RA in A1, A2, A3 by lia. constructor; auto.
    - intros I J HI HJ FI FJ. rewrite <- !PS by assumption. apply A4; auto; rewrite FS; auto.
    - intros I HI FI. rewrite <- PS, A5 by (rewrite ?FS; auto). f_equal. apply sumn_ext. intros J HJ. rewrite FS by exact HJ. reflexivity.
  Qed.

  (** C57: built from the mesh, the assembler treats exactly the boundary faces that are not internal
      as homogeneous Dirichlet faces. *)
  Theorem C57_basic_assembly : strict_total_order fltb -> forall (m : mesh C F) nb calls cs, wf_mesh cltb fltb faces_of m ->
    Forall2 (contributes (m_faces m) faces_of nb) calls cs ->
    exists b, basic_run (basic_asm fltb m nb) m calls = Ok b /\
      assembled (outer m) (length (m_faces m)) nb (fun _ => c0) cs (LHS (b_asm b)) (RHS (b_asm b)).
  Proof.
    intros O m nb calls cs W HC. destruct (outer_list O m W) as (df & E & HL & HD). unfold basic_asm. unfold basic_run. rewrite E. cbn [bind].
    destruct (basic_full O m W df HL nb calls cs HC) as (b & EB & A & _). unfold basic_run in EB. exists b. split; [exact EB|].
    apply (assembled_agree (listed df)); assumption.
  Qed.
  (** C57: built with a vector of flags, one per face, it treats exactly the flagged faces so. *)
  Theorem C57_basic_assembly_flags : strict_total_order fltb -> forall (m : mesh C F) nb flags calls cs, wf_mesh cltb fltb faces_of m ->
    length flags = length (m_faces m) -> Forall2 (contributes (m_faces m) faces_of nb) calls cs ->
    exists b, basic_run (basic_asm_vec fltb m nb flags) m calls = Ok b /\
      assembled (fun i => nth i flags false) (length (m_faces m)) nb (fun _ => c0) cs (LHS (b_asm b)) (RHS (b_asm b)).
  Proof.
    intros O m nb flags calls cs W HL HC. destruct (basic_full O m W flags HL nb calls cs HC) as (b & EB & A & _). exists b. split; [exact EB|].
    apply (assembled_agree (listed flags)); [|assumption]. intros i Hi. unfold listed. rewrite <- HL in Hi. rewrite (nth_error_nth' flags false Hi). reflexivity.
  Qed.
  (** C57: the local part of a solution is zero on Dirichlet faces and the global entry elsewhere. *)
  Theorem C57_basic_take_local : strict_total_order fltb -> forall (m : mesh C F) nb flags calls cs b x cl ids, wf_mesh cltb fltb faces_of m ->
    length flags = length (m_faces m) -> Forall2 (contributes (m_faces m) faces_of nb) calls cs -> basic_run (basic_asm_vec fltb m nb flags) m calls = Ok b ->
    vsize x = vsize (RHS (b_asm b)) -> numbered (m_faces m) ids (faces_of cl) ->
    exists l, basic_take_local fltb faces_of m cl x b = Ok l /\ length l = length ids * nb /\
      forall p, p < length ids * nb -> let I := nth (p / nb) ids 0 * nb + p mod nb in
        let dir i := nth i flags false in
        nth p l c0 = if free dir nb I then vent x (position dir nb I) else c0.
  Proof.
    intros O m nb flags calls cs b x cl ids W HL HC EB HX HN. destruct (basic_full O m W flags HL nb calls cs HC) as (b' & EB' & A & FB & D & T).
    unfold basic_asm_vec in EB. rewrite EB in EB'. injection EB' as <-.
    destruct (basic_local O m W flags HL nb b x ids cl FB D T) as (l & L1 & L2 & L3); [rewrite HX; destruct A as [_ _ -> _ _]; reflexivity|exact HN|].
    exists l. split; [exact L1|]. split; [exact L2|]. intros p Hp. cbv zeta. pose proof (L3 p Hp) as Q. cbv zeta in Q. rewrite Q.
    assert (X : forall i, listed flags i = nth i flags false).
    { intros i. unfold listed. destruct (nth_error flags i) eqn:E; [symmetry; apply nth_error_nth; exact E|symmetry; apply nth_overflow; apply nth_error_None; exact E]. }
    unfold free, position. rewrite X. rewrite (rank_agree (listed flags) (fun i => nth i flags false) _ (fun i _ => X i) _ (le_n _)). reflexivity.
  Qed.

  (** C29 for this assembler. *)
  Theorem C29_numbering_basic : strict_total_order fltb -> forall (m : mesh C F) nb flags, wf_mesh cltb fltb faces_of m -> length flags = length (m_faces m) ->
    exists b : basm K, basic_asm_vec fltb m nb flags = Ok b /\
      let total := length (filter negb flags) in
      numbering (fun i => nth i flags false) (length (m_faces m)) total (tab (b_asm b)) /\
      num_assembled_faces (b_asm b) = total /\ system_size (b_asm b) = nb * total.
  Proof.
    intros O m nb flags W HL. destruct (basic_make_good O m W flags HL nb) as (b & E & _ & N & N1 & N2 & _). exists b. split; [exact E|]. cbv zeta.
    pose proof (rank_count (fun b : bool => b) flags) as RC.
    assert (RE : rank (listed flags) (length (m_faces m)) = length (filter negb flags)).
    { rewrite <- HL. unfold listed. rewrite RC. clear. induction flags as [|[] l IH]; cbn; auto. }
    rewrite RE in N, N1, N2. split; [|split; [exact N1|exact N2]].
    assert (X : forall i, listed flags i = nth i flags false).
    { intros i. unfold listed. destruct (nth_error flags i) eqn:E'; [symmetry; apply nth_error_nth; exact E'|symmetry; apply nth_overflow; apply nth_error_None; exact E']. }
    destruct N as [F1 F2 F3 F4]. constructor.
    - intros i Hi D. rewrite <- X in D. eauto.
    - intros k Hk. destruct (F2 k Hk) as (i & H1 & H2 & H3). exists i. rewrite <- X. auto.
    - exact F3.
    - intros i j k l Hij D1 D2. rewrite <- X in D1, D2. eauto.
  Qed.

  (** C57 fails for an empty vector of flags on a mesh with boundary faces: the constructor falls
      back on the mesh boundary without counting it, and assembling reads outside the vector. *)
  Theorem C57_empty_flags_refuted : forall (m : mesh C F) nb (b : basm K) cl l r, wf_mesh cltb fltb faces_of m -> strict_total_order fltb ->
    basic_asm_vec fltb m nb [] = Ok b -> In cl (m_cells m) -> faces_of cl <> [] ->
    basic_assemble fltb faces_of m cl l r b = UB.
  Proof.
    intros m nb b cl l r W O HB HI NE. unfold basic_asm_vec, basic_make in HB. destruct (number_faces _ _ _ _ _); try discriminate. cbn [bind] in HB.
    injection HB as <-. unfold basic_assemble.
    assert (exists ids, fmap (lookup F fltb (m_faces m)) (faces_of cl) = Ok ids /\ length ids = length (faces_of cl)) as (ids & -> & L).
    { pose proof (wf_stored _ _ _ _ W cl HI) as ST. clear -O W ST. induction (faces_of cl) as [|f l IH]; [exists []; auto|].
      destruct IH as (ids & E & L); [intros x Hx; apply ST; right; exact Hx|]. destruct (in_stored _ _ (ST f (or_introl eq_refl))) as [i Hi].
      exists (i :: ids). cbn [fmap]. rewrite (lookup_stored fltb O _ _ _ (wf_faces _ _ _ _ W) Hi). cbn [bind]. rewrite E. cbn. auto. }
    cbn [bind]. destruct (faces_of cl) as [|f fs]; [contradiction|]. cbn in L. destruct ids as [|i ids]; [discriminate|].
    cbn [length seq floop]. unfold basic_row at 1. cbn [vget nth_error bind dirichlet_faces]. unfold vget. destruct i; reflexivity.
  Qed.
End Basic.

(** ** C46: discontinuous Galerkin *)
Section DG.
  Context {K : cring} {C F : Type} (cltb : C -> C -> bool) (fltb : F -> F -> bool) (faces_of : C -> list F).
  Local Open Scope k_scope.
  Add Ring Kring : (cth K).

  (** the local entry a call contributes to cells [c], [d], if it concerns them *)
  Definition dg_entry (cells : list C) (call : dg_call) (c d i j : nat) (x : K) : Prop :=
    match call with
    | DgPair p q A => exists cp cq, nth_error cells cp = Some p /\ nth_error cells cq = Some q /\ x = only ((cp =? c) && (cq =? d))%nat (ment A i j)
    | DgCell p A b => exists cp, nth_error cells cp = Some p /\ x = only ((cp =? c) && (cp =? d))%nat (ment A i j)
    end.
  Definition dg_load (cells : list C) (call : dg_call) (c i : nat) (x : K) : Prop :=
    match call with
    | DgPair p q A => x = 0
    | DgCell p A b => exists cp, nth_error cells cp = Some p /\ x = only (cp =? c)%nat (vent b i)
    end.
  Definition dg_call_ok (cells : list C) (cbs : nat) (call : @dg_call K C) : Prop :=
    match call with
    | DgPair p q A => In p cells /\ In q cells
    | DgCell p A b => In p cells /\ vsize b = cbs
    end.

  Lemma sum_block cbs (g : nat -> K) o c i : (i < cbs)%nat -> sumn cbs (fun k => only (cbs * o + k =? cbs * c + i)%nat (g k)) = only (o =? c)%nat (g i).
  Proof.
    intros Hi. destruct (Nat.eqb_spec o c) as [->|N].
    - rewrite (sumn_single cbs i); [unfold only; now rewrite Nat.eqb_refl|exact Hi|].
      intros k Hk NK. unfold only. rewrite (proj2 (Nat.eqb_neq _ _)) by lia. reflexivity.
    - apply sumn_zero. intros k Hk. unfold only. rewrite (proj2 (Nat.eqb_neq _ _)); [reflexivity|]. intros E.
      destruct (dm_add cbs o k Hk) as [X _]. destruct (dm_add cbs c i Hi) as [Y _]. rewrite (Nat.mul_comm o), E, (Nat.mul_comm cbs c) in X. congruence.
  Qed.
  Lemma sum_block2 cbs (A : nat -> nat -> K) oi oj c d i j : (i < cbs)%nat -> (j < cbs)%nat ->
    sumn cbs (fun k => sumn cbs (fun l => only ((cbs * oi + k =? cbs * c + i) && (cbs * oj + l =? cbs * d + j))%nat (A k l))) = only ((oi =? c) && (oj =? d))%nat (A i j).
  Proof.
    intros Hi Hj. transitivity (sumn cbs (fun k => only (cbs * oi + k =? cbs * c + i)%nat (only (oj =? d)%nat (A k j)))).
    - apply sumn_ext. intros k Hk. rewrite <- (sum_block cbs (A k) oj d j Hj), <- sumn_only. apply sumn_ext. intros l Hl. unfold only.
      destruct (cbs * oi + k =? cbs * c + i)%nat; reflexivity.
    - rewrite (sum_block cbs (fun k => only (oj =? d)%nat (A k j))) by exact Hi. unfold only. destruct (oi =? c)%nat; reflexivity.
  Qed.

  (** C46: after any sequence of calls, entry (cbs*c+i, cbs*d+j) of the matrix is the sum of the
      entries (i,j) of the local matrices assembled for (c,d), and the right-hand side likewise. *)
  Theorem C46_dg_assembly : strict_total_order cltb -> forall (m : mesh C F) cbs calls, wf_mesh cltb fltb faces_of m ->
    Forall (dg_call_ok (m_cells m) cbs) calls ->
    exists s, dg_run cltb m cbs calls = Ok s /\
      mrows (dg_LHS s) = (cbs * length (m_cells m))%nat /\ mcols (dg_LHS s) = (cbs * length (m_cells m))%nat /\ vsize (dg_RHS s) = (cbs * length (m_cells m))%nat /\
      forall c d i j, (c < length (m_cells m))%nat -> (d < length (m_cells m))%nat -> (i < cbs)%nat -> (j < cbs)%nat ->
        (exists xs, Forall2 (fun call x => dg_entry (m_cells m) call c d i j x) calls xs /\ ment (dg_LHS s) (cbs * c + i) (cbs * d + j) = suml xs) /\
        (exists ys, Forall2 (fun call y => dg_load (m_cells m) call c i y) calls ys /\ vent (dg_RHS s) (cbs * c + i) = suml ys).
  Proof.
    intros O m cbs calls W HC. set (N := (cbs * length (m_cells m))%nat).
    assert (RUN : forall calls, Forall (dg_call_ok (m_cells m) cbs) calls -> forall s, dg_cbs s = cbs -> dg_syssz s = N -> in_range N (dg_trip s) -> vsize (dg_RHS s) = N ->
      exists s', floop (dg_step cltb m) calls s = Ok s' /\ dg_cbs s' = cbs /\ dg_syssz s' = N /\ in_range N (dg_trip s') /\ vsize (dg_RHS s') = N /\
      forall c d i j, (i < cbs)%nat -> (j < cbs)%nat ->
        (exists xs, Forall2 (fun call x => dg_entry (m_cells m) call c d i j x) calls xs /\ tsum (dg_trip s') (cbs * c + i) (cbs * d + j) = tsum (dg_trip s) (cbs * c + i) (cbs * d + j) + suml xs) /\
        (exists ys, Forall2 (fun call y => dg_load (m_cells m) call c i y) calls ys /\ vent (dg_RHS s') (cbs * c + i)%nat = vent (dg_RHS s) (cbs * c + i)%nat + suml ys)).
    { clear HC calls. induction 1 as [|call calls HC HR IH]; intros s E1 E2 IR ER; cbn [floop].
      - exists s. split; [reflexivity|]. split; [exact E1|]. split; [exact E2|]. split; [exact IR|]. split; [exact ER|].
        intros. split; exists []; (split; [constructor|]); cbn; ring.
      - assert (ST : exists s1, dg_step cltb m call s = Ok s1 /\ dg_cbs s1 = cbs /\ dg_syssz s1 = N /\ in_range N (dg_trip s1) /\ vsize (dg_RHS s1) = N /\
           forall c d i j, (i < cbs)%nat -> (j < cbs)%nat ->
           (exists x, dg_entry (m_cells m) call c d i j x /\ tsum (dg_trip s1) (cbs * c + i) (cbs * d + j) = tsum (dg_trip s) (cbs * c + i) (cbs * d + j) + x) /\
           (exists y, dg_load (m_cells m) call c i y /\ vent (dg_RHS s1) (cbs * c + i)%nat = vent (dg_RHS s) (cbs * c + i)%nat + y)).
        { destruct call as [p q A|p A b]; cbn [dg_step dg_call_ok] in *.
          - destruct HC as [Hp Hq]. destruct (in_stored _ _ Hp) as [cp Ep]. destruct (in_stored _ _ Hq) as [cq Eq].
            unfold dg_assemble_pair. rewrite (offset_stored cltb O _ _ _ (wf_cells _ _ _ _ W) Ep), (offset_stored cltb O _ _ _ (wf_cells _ _ _ _ W) Eq). cbn [bind].
            eexists. split; [reflexivity|]. cbn [dg_cbs dg_syssz dg_trip dg_RHS]. rewrite E1. split; [reflexivity|]. split; [exact E2|].
            pose proof (stored_lt _ _ _ Ep). pose proof (stored_lt _ _ _ Eq).
            split; [apply push_block_range; [exact IR|unfold N; nia|unfold N; nia]|]. split; [exact ER|]. intros c d i j Hi Hj. split.
            + eexists. split; [exists cp, cq; split; [exact Ep|]; split; [exact Eq|reflexivity]|]. rewrite push_block_tsum, sum_block2 by assumption. reflexivity.
            + exists 0. split; [reflexivity|ring].
          - destruct HC as [Hp Hb]. destruct (in_stored _ _ Hp) as [cp Ep]. pose proof (stored_lt _ _ _ Ep).
            unfold dg_assemble_cell. rewrite (offset_stored cltb O _ _ _ (wf_cells _ _ _ _ W) Ep). cbn [bind]. rewrite E1, Hb, Nat.eqb_refl.
            destruct (add_block_ok (cbs * cp) cbs (vent b) (dg_RHS s)) as (R & -> & R1 & R2); [rewrite ER; unfold N; nia|]. cbn [bind].
            eexists. split; [reflexivity|]. cbn [dg_cbs dg_syssz dg_trip dg_RHS]. split; [reflexivity|]. split; [exact E2|].
            split; [apply push_block_range; [exact IR|unfold N; nia|unfold N; nia]|]. split; [congruence|]. intros c d i j Hi Hj. split.
            + eexists. split; [exists cp; split; [exact Ep|reflexivity]|]. rewrite push_block_tsum, sum_block2 by assumption. reflexivity.
            + eexists. split; [exists cp; split; [exact Ep|reflexivity]|]. rewrite R2, sum_block by assumption. reflexivity. }
        destruct ST as (s1 & -> & F1 & F2 & F3 & F4 & F5). cbn [bind]. destruct (IH s1 F1 F2 F3 F4) as (s2 & -> & G1 & G2 & G3 & G4 & G5).
        exists s2. split; [reflexivity|]. do 4 (split; [assumption|]). intros c d i j Hi Hj. destruct (F5 c d i j Hi Hj) as ((x & X1 & X2) & (y & Y1 & Y2)).
        destruct (G5 c d i j Hi Hj) as ((xs & XS1 & XS2) & (ys & YS1 & YS2)). split.
        + exists (x :: xs). split; [constructor; assumption|]. rewrite XS2, X2. cbn. ring.
        + exists (y :: ys). split; [constructor; assumption|]. rewrite YS2, Y2. cbn. ring. }
    destruct (RUN calls HC (dg_make m cbs)) as (s & E & S1 & S2 & S3 & S4 & S5); [reflexivity|reflexivity|intros t []|reflexivity|].
    unfold dg_run. rewrite E. cbn [bind]. unfold dg_finalize. rewrite S2, from_triplets_ok by exact S3. cbn [bind]. eexists. split; [reflexivity|].
    cbn [dg_LHS dg_RHS mrows mcols]. do 3 (split; [first [reflexivity|exact S4]|]). intros c d i j _ _ Hi Hj.
    destruct (S5 c d i j Hi Hj) as ((xs & X1 & X2) & (ys & Y1 & Y2)). split; [exists xs|exists ys]; (split; [assumption|]).
    - cbn [ment]. rewrite X2. cbn. ring.
    - rewrite Y2. cbn. ring.
  Qed.

  (** C46: assembling for a cell that is not in the mesh reports an error or leaves the domain of
      the offset function; see C52 for the offset of foreign cells. *)

  (** C46 for the eigenvalue assembler: pairs go to gK only, cells to gM only. *)
  Definition dge_entry (cells : list C) (call : dge_call) (c d i j : nat) (x y : K) : Prop :=
    match call with
    | DgeK p q A => exists cp cq, nth_error cells cp = Some p /\ nth_error cells cq = Some q /\ x = only ((cp =? c) && (cq =? d))%nat (ment A i j) /\ y = 0
    | DgeM p A => exists cp, nth_error cells cp = Some p /\ y = only ((cp =? c) && (cp =? d))%nat (ment A i j) /\ x = 0
    end.
  Theorem C46_dg_eigen_assembly : strict_total_order cltb -> forall (m : mesh C F) cbs calls, wf_mesh cltb fltb faces_of m ->
    Forall (fun call : @dge_call K C => match call with DgeK p q _ => In p (m_cells m) /\ In q (m_cells m) | DgeM p _ => In p (m_cells m) end) calls ->
    exists s, dge_run cltb m cbs calls = Ok s /\
      mrows (gK s) = (cbs * length (m_cells m))%nat /\ mcols (gK s) = (cbs * length (m_cells m))%nat /\
      mrows (gM s) = (cbs * length (m_cells m))%nat /\ mcols (gM s) = (cbs * length (m_cells m))%nat /\
      forall c d i j, (c < length (m_cells m))%nat -> (d < length (m_cells m))%nat -> (i < cbs)%nat -> (j < cbs)%nat ->
        exists xys, Forall2 (fun call xy => dge_entry (m_cells m) call c d i j (fst xy) (snd xy)) calls xys /\
          ment (gK s) (cbs * c + i) (cbs * d + j) = suml (map fst xys) /\ ment (gM s) (cbs * c + i) (cbs * d + j) = suml (map snd xys).
  Proof.
    intros O m cbs calls W HC. set (N := (cbs * length (m_cells m))%nat).
    set (okc := fun call : @dge_call K C => match call with DgeK p q _ => In p (m_cells m) /\ In q (m_cells m) | DgeM p _ => In p (m_cells m) end) in *.
    assert (RUN : forall calls, Forall okc calls -> forall s, dge_cbs s = cbs -> dge_syssz s = N -> in_range N (tr_K s) -> in_range N (tr_M s) ->
      exists s', floop (dge_step cltb m) calls s = Ok s' /\ dge_cbs s' = cbs /\ dge_syssz s' = N /\ in_range N (tr_K s') /\ in_range N (tr_M s') /\
      forall c d i j, (i < cbs)%nat -> (j < cbs)%nat ->
        exists xys, Forall2 (fun call xy => dge_entry (m_cells m) call c d i j (fst xy) (snd xy)) calls xys /\
          tsum (tr_K s') (cbs * c + i) (cbs * d + j) = tsum (tr_K s) (cbs * c + i) (cbs * d + j) + suml (map fst xys) /\
          tsum (tr_M s') (cbs * c + i) (cbs * d + j) = tsum (tr_M s) (cbs * c + i) (cbs * d + j) + suml (map snd xys)).
    { clear HC calls. induction 1 as [|call calls HC HR IH]; intros s E1 E2 IR IM; cbn [floop].
      - exists s. split; [reflexivity|]. do 4 (split; [assumption|]). intros. exists []. split; [constructor|]. cbn. split; ring.
      - assert (ST : exists s1, dge_step cltb m call s = Ok s1 /\ dge_cbs s1 = cbs /\ dge_syssz s1 = N /\ in_range N (tr_K s1) /\ in_range N (tr_M s1) /\
           forall c d i j, (i < cbs)%nat -> (j < cbs)%nat -> exists x y, dge_entry (m_cells m) call c d i j x y /\
             tsum (tr_K s1) (cbs * c + i) (cbs * d + j) = tsum (tr_K s) (cbs * c + i) (cbs * d + j) + x /\
             tsum (tr_M s1) (cbs * c + i) (cbs * d + j) = tsum (tr_M s) (cbs * c + i) (cbs * d + j) + y).
        { destruct call as [p q A|p A]; cbn [dge_step okc] in *.
          - destruct HC as [Hp Hq]. destruct (in_stored _ _ Hp) as [cp Ep]. destruct (in_stored _ _ Hq) as [cq Eq].
            rewrite (offset_stored cltb O _ _ _ (wf_cells _ _ _ _ W) Ep), (offset_stored cltb O _ _ _ (wf_cells _ _ _ _ W) Eq). cbn [bind].
            eexists. split; [reflexivity|]. cbn [dge_cbs dge_syssz tr_K tr_M]. rewrite E1. split; [reflexivity|]. split; [exact E2|].
            pose proof (stored_lt _ _ _ Ep). pose proof (stored_lt _ _ _ Eq).
            split; [apply push_block_range; [exact IR|unfold N; nia|unfold N; nia]|]. split; [exact IM|]. intros c d i j Hi Hj.
            do 2 eexists. split; [exists cp, cq; split; [exact Ep|]; split; [exact Eq|split; reflexivity]|]. rewrite push_block_tsum, sum_block2 by assumption. split; [reflexivity|ring].
          - destruct (in_stored _ _ HC) as [cp Ep]. pose proof (stored_lt _ _ _ Ep).
            rewrite (offset_stored cltb O _ _ _ (wf_cells _ _ _ _ W) Ep). cbn [bind].
            eexists. split; [reflexivity|]. cbn [dge_cbs dge_syssz tr_K tr_M]. rewrite E1. split; [reflexivity|]. split; [exact E2|].
            split; [exact IR|]. split; [apply push_block_range; [exact IM|unfold N; nia|unfold N; nia]|]. intros c d i j Hi Hj.
            do 2 eexists. split; [exists cp; split; [exact Ep|split; reflexivity]|]. rewrite push_block_tsum, sum_block2 by assumption. split; [ring|reflexivity]. }
        destruct ST as (s1 & -> & F1 & F2 & F3 & F4 & F5). cbn [bind]. destruct (IH s1 F1 F2 F3 F4) as (s2 & -> & G1 & G2 & G3 & G4 & G5).
        exists s2. split; [reflexivity|]. do 4 (split; [assumption|]). intros c d i j Hi Hj. destruct (F5 c d i j Hi Hj) as (x & y & X1 & X2 & X3).
        destruct (G5 c d i j Hi Hj) as (xys & XS1 & XS2 & XS3). exists ((x, y) :: xys). split; [constructor; assumption|]. rewrite XS2, XS3, X2, X3. cbn. split; ring. }
    destruct (RUN calls HC (dge_make m cbs)) as (s & E & S1 & S2 & S3 & S4 & S5); [reflexivity|reflexivity|intros t []|intros t []|].
    unfold dge_run. rewrite E. cbn [bind]. rewrite S2, !from_triplets_ok by assumption. cbn [bind]. eexists. split; [reflexivity|].
    cbn [gK gM mrows mcols]. do 4 (split; [reflexivity|]). intros c d i j _ _ Hi Hj.
    destruct (S5 c d i j Hi Hj) as (xys & X1 & X2 & X3). exists xys. split; [exact X1|]. cbn [ment]. rewrite X2, X3. cbn. split; ring.
  Qed.
End DG.

(** ** Non-vacuity *)
Definition ex_session : list (@asm_call Zring (list nat)) := [ImposeRobin; Assemble [0;1;2] ex_lm ex_lv; ImposeNeumann; Assemble [1;2;3] ex_lm ex_lv].
Definition ex_load (f : list nat) (g : nat -> nat) (k : nat) : Zring := Z.of_nat (g (list_sum f) + k) : Zring.
Definition ex_mass (f : list nat) (i j : nat) : Zring := Z.of_nat (100 * list_sum f + i + j) : Zring.
Definition ex_css : list (list (contribution Zring)) :=
  [bc_terms Nat.mul 1 ex_load ex_mesh ex_bops 1 Robin ex_mass; [mkC [0;2;1] ex_lm ex_lv];
   bc_terms Nat.mul 1 ex_load ex_mesh ex_bops 1 Neumann (fun _ _ _ => c0); [mkC [2;4;3] ex_lm ex_lv]].
Example C56_hypotheses_met :
  compatible ex_mesh ex_bops /\ Forall2 (adds tri_faces Nat.mul 1 ex_load ex_mass ex_mesh ex_bops 1) ex_session ex_css /\
  map (@length _) ex_css = [1; 1; 1; 1] /\
  match bc_run _ _ nat nat nat lex_ltb ex_mesh ex_bops (bc_make _ _ nat nat nat 1 ex_mesh) with
  | Ok bnd => reached lex_ltb 1 ex_mesh ex_bops bnd /\
     match asm_session lex_ltb tri_faces Nat.mul ex_project ex_load ex_mass ex_mesh bnd 1 ex_session with
     | Ok a => map (fun i => map (ment (LHS a) i) [0;1;2]) [0;1;2] = [[13; 3; 2]; [21; 23; 22]; [11; 13; 512]]%Z /\ map (vent (RHS a)) [0;1;2] = [-123; 13; 20]%Z
     | _ => False end
  | _ => False end.
Proof.
  split; [|split; [|split]].
  - intros d k k' HI NC NC'. cbn in HI. intuition subst; destruct k, k'; try reflexivity; cbn in *; congruence.
  - pose proof ex_contributes as X. inversion X as [|? ? ? ? X1 X2]; subst. inversion X2 as [|? ? ? ? X3 X4]; subst.
    unfold ex_session, ex_css. apply Forall2_cons; [reflexivity|]. apply Forall2_cons; [eexists; split; [reflexivity|exact X1]|].
    apply Forall2_cons; [split; [reflexivity|vm_compute; discriminate]|]. apply Forall2_cons; [eexists; split; [reflexivity|exact X3]|]. apply Forall2_nil.
  - vm_compute. reflexivity.
  - vm_compute. auto.
Qed.
Example C57_hypotheses_met :
  match basic_run lex_ltb tri_faces (basic_asm lex_ltb ex_mesh 1) ex_mesh ex_calls with
  | Ok b => (mrows (LHS (b_asm b)), ment (LHS (b_asm b)) 0 0, vent (RHS (b_asm b)) 0) = (1, 13%Z, 3%Z) | _ => False end /\
  match basic_run lex_ltb tri_faces (basic_asm_vec lex_ltb ex_mesh 1 [true; false; false; true; false]) ex_mesh ex_calls with
  | Ok b => (mrows (LHS (b_asm b)), map (vent (RHS (b_asm b))) [0;1;2]) = (3, [3; 3; 2]%Z) /\
       basic_take_local lex_ltb tri_faces ex_mesh [0;1;2] (mkVec (K := Zring) 3 (fun i => Z.of_nat (i + 5))) b = Ok [0; 6; 5]%Z
  | _ => False end /\
  is_ok (basic_asm_vec (K := Zring) lex_ltb ex_mesh 1 []) = true.
Proof. vm_compute. auto. Qed.
Example C46_hypotheses_met :
  let calls := [DgCell [0;1;2] (mkMat (K := Zring) 2 2 (fun i j => Z.of_nat (i + 2 * j + 1))) (mkVec (K := Zring) 2 (fun i => Z.of_nat (i + 1)));
                DgPair [1;2;3] [0;1;2] (mkMat (K := Zring) 2 2 (fun i j => Z.of_nat (i + 2 * j + 11)));
                DgCell [0;1;2] (mkMat (K := Zring) 2 2 (fun i j => Z.of_nat (100 * (i + 2 * j + 1)))) (mkVec (K := Zring) 2 (fun i => Z.of_nat (i + 10)))] in
  Forall (dg_call_ok (m_cells ex_mesh) 2) calls /\
  match dg_run lex_ltb ex_mesh 2 calls with
  | Ok s => map (fun i => map (ment (dg_LHS s) i) [0;1;2;3]) [0;1;2;3] = [[101; 303; 0; 0]; [202; 404; 0; 0]; [11; 13; 0; 0]; [12; 14; 0; 0]]%Z /\
            map (vent (dg_RHS s)) [0;1;2;3] = [11; 13; 0; 0]%Z
  | _ => False end.
Proof. split; [repeat constructor; cbn; tauto|]. vm_compute. auto. Qed.

Print Assumptions C56_boundary_terms.
Print Assumptions C56_rejected.
Print Assumptions C56_conflict_rejected.
Print Assumptions C29_numbering_basic.
Print Assumptions C57_basic_assembly.
Print Assumptions C57_basic_assembly_flags.
Print Assumptions C57_basic_take_local.
Print Assumptions C57_empty_flags_refuted.
Print Assumptions C46_dg_assembly.
Print Assumptions C46_dg_eigen_assembly.
