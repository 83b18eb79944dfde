(** Proofs for VAsm_Properties: from registered boundary conditions to the face tables, the Neumann
    loop, whole sessions. *)
From Coq Require Import List Arith Bool Lia Permutation ZArith.
From Verif Require Import Common LinAlg Mesh_Model Mesh_Spec Mesh_Proofs Elem_Model Elem_Proofs Mesh_Properties
  BC_Model BC_Spec BC_Proofs BC_Properties Cond_Spec Cond_Properties Degree_Model Asm_Model Asm_Spec Asm_Proofs Asm2_Proofs Asm3_Proofs Asm_Properties
  VAsm_Model VAsm_Spec VAsm_Runs VAsm_Proofs VAsm2_Proofs.
Import ListNotations.

(** ** Loops over the boundary faces *)
Lemma nth_combine {A B} : forall (l : list A) (l' : list B) i x y, nth_error (combine l l') i = Some (x, y) <-> nth_error l i = Some x /\ nth_error l' i = Some y.
Proof.
  induction l as [|a l IH]; intros [|b l'] [|i] x y; cbn; try (split; [discriminate|intros [? ?]; discriminate]).
  - split; [intros [= -> ->]; auto|intros [[= ->] [= ->]]; reflexivity].
  - apply IH.
Qed.
Section BndLoop.
  Context {C F Sc P V St : Type}.
  Lemma bnd_loop (m : mesh C F) (G : nat -> St -> Prop) (step : F -> St -> outcome St) : length (m_binfo m) = length (m_faces m) ->
    (forall i f d s, nth_error (m_faces m) i = Some f -> nth_error (m_binfo m) i = Some d -> G i s ->
       if bd_is_b d then exists s', step f s = Ok s' /\ G (S i) s' else G (S i) s) ->
    forall s, G 0 s -> exists s', floop step (select bd_is_b (m_faces m) (m_binfo m)) s = Ok s' /\ G (length (m_faces m)) s'.
  Proof.
    intros HL HS.
    assert (GEN : forall fs ds base, (forall j f, nth_error fs j = Some f -> nth_error (m_faces m) (base + j) = Some f) ->
        (forall j d, nth_error ds j = Some d -> nth_error (m_binfo m) (base + j) = Some d) -> length ds = length fs ->
        forall s, G base s -> exists s', floop step (select bd_is_b fs ds) s = Ok s' /\ G (base + length fs) s').
    { induction fs as [|f fs IH]; intros [|d ds] base H1 H2 HN s0 G0; try discriminate.
      - exists s0. cbn. rewrite Nat.add_0_r. auto.
      - pose proof (H1 0 f eq_refl) as E1. pose proof (H2 0 d eq_refl) as E2. rewrite Nat.add_0_r in E1, E2. specialize (HS base f d s0 E1 E2 G0).
        assert (NX : forall j g, nth_error fs j = Some g -> nth_error (m_faces m) (S base + j) = Some g) by (intros j g Hj; specialize (H1 (S j) g Hj); rewrite Nat.add_succ_r in H1; exact H1).
        assert (NY : forall j g, nth_error ds j = Some g -> nth_error (m_binfo m) (S base + j) = Some g) by (intros j g Hj; specialize (H2 (S j) g Hj); rewrite Nat.add_succ_r in H2; exact H2).
        assert (NL : length ds = length fs) by (cbn in HN; lia). cbn [length]. rewrite <- Nat.add_succ_comm. unfold select. cbn [combine filter snd].
        destruct (bd_is_b d); [cbn [map fst floop]; destruct HS as (s1 & -> & G1); cbn [bind]; exact (IH ds (S base) NX NY NL s1 G1)|exact (IH ds (S base) NX NY NL s0 HS)]. }
    intros s G0. apply (GEN (m_faces m) (m_binfo m) 0); auto.
  Qed.
  Lemma last_reg_inner k d (ops : list (bc_op Sc P V)) : bd_is_b d = false -> last_reg k d ops None = None.
  Proof.
    intros B. pose proof (last_reg_some_iff k d ops None) as L. cbn in L. assert (T0 : times k d ops = 0).
    { unfold times. induction ops as [|o l IHl]; [reflexivity|]. cbn [filter]. unfold says at 1. rewrite B. cbn. apply IHl.
      pose proof (last_reg_some_iff k d l None) as L'. exact L'. }
    rewrite T0 in L. cbn in L. destruct (last_reg k d ops None); [discriminate|reflexivity].
  Qed.
  Lemma floop_throw {A S0} (step : A -> S0 -> outcome S0) (Inv : S0 -> Prop) e l : (forall x s, In x l -> Inv s -> step x s = Throw e \/ exists s', step x s = Ok s' /\ Inv s') ->
    (exists x, In x l /\ forall s, Inv s -> step x s = Throw e) -> forall s, Inv s -> floop step l s = Throw e.
  Proof.
    intros H1 (y & Hy & H2). induction l as [|x l IH]; [destruct Hy|]. intros s I. cbn [floop]. destruct Hy as [->|Hy]; [rewrite H2 by exact I; reflexivity|].
    destruct (H1 x s (or_introl eq_refl) I) as [->|(s' & -> & I')]; [reflexivity|]. cbn [bind]. apply IH; auto. intros z s0 Hz. apply H1. right. exact Hz.
  Qed.
End BndLoop.

Section Main.
  Context {K : cring} {C F Sc P V : Type} (cltb : C -> C -> bool) (fltb : F -> F -> bool) (faces_of : C -> list F).
  Context (smul : Sc -> V -> V) (one : Sc) (dim : nat) (sbs : nat -> nat) (project load : F -> nat -> (P -> V) -> nat -> K).

  Section Reached.
    Context (O : strict_total_order fltb) (m : mesh C F) (ops : list (bc_op Sc P V)) (bnd : bc Sc P V).
    Context (W : wf_mesh cltb fltb faces_of m) (R : reached fltb one m ops bnd) (D : dim = 2 \/ dim = 3) (SU : supported dim m ops).
    Context (deg : list degree_info) (LD : length deg = length (m_faces m)) (DU : dirichlet_has_unknowns m ops deg).
    Context (sol : option (list (vec K))) (LS : match sol with Some l => map vsize l = sizes dim sbs deg | None => True end).
    Let kinv : kinv4 m ops bnd one.
    Proof. destruct (bc_reach cltb fltb faces_of O m W one ops) as (s & E & I). unfold reached in R. rewrite R in E. injection E as <-. exact I. Qed.

    Definition incr_at (i k : nat) : K :=
      match sol with
      | None => given_at smul one project m ops deg i k
      | Some l => csub (given_at smul one project m ops deg i k) (match nth_error l i with Some v => vent v k | None => c0 end)
      end.
    Lemma binfo_at i f : nth_error (m_faces m) i = Some f -> exists b, nth_error (m_binfo m) i = Some b.
    Proof. intros H. destruct (nth_error (m_binfo m) i) as [b|] eqn:E; [eauto|]. apply nth_error_None in E. rewrite (wf_binfo _ _ _ _ W) in E. assert (i < length (m_faces m)) by (apply nth_error_Some; congruence). lia. Qed.

    Lemma face_state_ok i f d : nth_error (m_faces m) i = Some f -> nth_error deg i = Some d ->
      lookup F fltb (m_faces m) f = Ok i /\ face_st smul dim sbs project bnd (fixed_at dim m ops) incr_at sol i f d.
    Proof.
      intros Hf Ed. split; [apply (lookup_stored fltb O _ _ _ (wf_faces _ _ _ _ W) Hf)|]. destruct (binfo_at i f Hf) as [b Hb].
      pose proof (q_spec m Dirichlet ops _ i b (kinv4_of m Dirichlet _ _ _ kinv) Hb) as QS.
      pose proof (q_func_spec smul m Dirichlet ops _ i b (b_factor bnd) (kinv4_of m Dirichlet _ _ _ kinv) ltac:(discriminate) Hb) as QF.
      pose proof kinv as (_ & _ & _ & _ & IF). cbn [kst_of] in QS, QF.
      assert (CE : condition m ops i = last_reg Dirichlet b ops None) by (unfold condition; rewrite Hb; reflexivity).
      destruct (last_reg Dirichlet b ops None) as [[t id fn]|] eqn:LR.
      - destruct QS as (Q1 & Q2 & _). destruct QF as (fn' & E & QF). cbn in E. subst fn. cbn in Q2. rewrite IF in QF.
        destruct sol as [l|] eqn:ES.
        + assert (Hi : i < length deg) by (apply nth_error_Some; congruence). assert (Ll : length l = length deg) by (rewrite <- (map_length vsize l), LS; apply map_length).
          destruct (nth_error l i) as [v|] eqn:Ev; [|apply nth_error_None in Ev; lia].
          assert (VS : vsize v = di_dofs dim sbs d).
          { pose proof (f_equal (fun x => nth_error x i) LS) as X. cbn beta in X. unfold sizes in X. rewrite !nth_error_map, Ev, Ed in X. injection X as X. exact X. }
          apply (fs_dir smul dim sbs project bnd (fixed_at dim m ops) incr_at (Some l) i f d t (fun p => smul (last_factor ops one) (fn' p)) (Some (vent v)) Q1 Q2); auto.
          * apply (SU i _ CE).
          * rewrite IF. exact QF.
          * apply (DU i d Ed). rewrite CE. discriminate.
          * intros k. unfold fixed_at. rewrite CE. reflexivity.
          * unfold sol_at, vget. rewrite Ev. cbn [bind]. rewrite VS, Nat.eqb_refl. reflexivity.
          * intros k. unfold incr_at. rewrite ES. unfold given_at. rewrite CE, Hf, Ed, Ev. reflexivity.
        + apply (fs_dir smul dim sbs project bnd (fixed_at dim m ops) incr_at None i f d t (fun p => smul (last_factor ops one) (fn' p)) None Q1 Q2); auto.
          * apply (SU i _ CE).
          * rewrite IF. exact QF.
          * apply (DU i d Ed). rewrite CE. discriminate.
          * intros k. unfold fixed_at. rewrite CE. reflexivity.
          * intros k. unfold incr_at. rewrite ES. unfold given_at. rewrite CE, Hf, Ed. reflexivity.
      - destruct QS as (Q1 & _). apply fs_free; [exact Q1|]. intros k. unfold fixed_at. rewrite CE. reflexivity.
    Qed.

    (** the Neumann loop *)
    Definition neu_term (i : nat) : list (contribution K) :=
      match nth_error (m_faces m) i, nth_error (m_binfo m) i, nth_error deg i with
      | Some f, Some b, Some d =>
        match last_reg Neumann b ops None with
        | Some (mkReg _ _ _ _ (Some fn)) => [neu_c dim sbs deg i (load f (di_degree d) (fun p => smul (last_factor ops one) (fn p)))]
        | _ => [] end
      | _, _, _ => [] end.
    Lemma neumann_terms_eq : neumann_terms smul one load m ops deg (sizes dim sbs deg) = flat_map neu_term (seq 0 (length (m_faces m))).
    Proof. reflexivity. Qed.
    Lemma no_neumann : nb_faces_neumann Sc P V bnd = 0 -> neumann_terms smul one load m ops deg (sizes dim sbs deg) = [].
    Proof.
      intros Z. pose proof (C14_counters cltb fltb faces_of one O m ops bnd W R Neumann) as CN. cbn [BC_Spec.nb_faces] in CN. rewrite Z in CN.
      assert (NN : forall i b, nth_error (m_binfo m) i = Some b -> last_reg Neumann b ops None = None).
      { intros i b Hb. pose proof (last_reg_some_iff Neumann b ops None) as L. cbn in L.
        assert (T0 : times Neumann b ops = 0). { apply nth_error_In in Hb. clear -Hb CN. induction (m_binfo m) as [|x l IH]; [contradiction|]. cbn in CN. destruct Hb as [->|Hb]; [lia|]. apply IH; [|exact Hb]. unfold list_sum. lia. }
        rewrite T0 in L. cbn in L. destruct (last_reg Neumann b ops None); [discriminate|reflexivity]. }
      rewrite neumann_terms_eq. generalize (seq 0 (length (m_faces m))). induction l as [|i l IH]; [reflexivity|]. cbn [flat_map]. rewrite IH, app_nil_r. unfold neu_term.
      destruct (nth_error (m_faces m) i); [|reflexivity]. destruct (nth_error (m_binfo m) i) as [b|] eqn:Hb; [|reflexivity]. rewrite (NN i b Hb). destruct (nth_error deg i); reflexivity.
    Qed.
    Lemma counter_pos i b : nth_error (m_binfo m) i = Some b -> last_reg Neumann b ops None <> None -> 0 < nb_faces_neumann Sc P V bnd.
    Proof.
      intros Hb LR. pose proof (C14_counters cltb fltb faces_of one O m ops bnd W R Neumann) as CN. cbn [BC_Spec.nb_faces] in CN. rewrite CN.
      assert (T0 : times Neumann b ops <> 0). { intros T0. pose proof (last_reg_some_iff Neumann b ops None) as L. cbn in L. rewrite T0 in L. cbn in L. destruct (last_reg Neumann b ops None); [discriminate|congruence]. }
      apply nth_error_In in Hb. clear -Hb T0. induction (m_binfo m) as [|x l IH]; [contradiction|]. cbn. destruct Hb as [->|Hb]; [lia|]. specialize (IH Hb). unfold list_sum in IH. lia.
    Qed.
    Definition good cs a := vgood dim sbs deg (fixed_at dim m ops) incr_at cs a.
    Section Apart.
    Context (NA : neumann_apart m ops).
    Lemma neu_facts i f b d : nth_error (m_faces m) i = Some f -> nth_error (m_binfo m) i = Some b -> nth_error deg i = Some d ->
      match last_reg Neumann b ops None with
      | Some r => exists fn, r_func r = Some fn /\ q_set P V (b_neu bnd) i = Ok true /\ q_func Sc P V smul (b_factor bnd) (b_neu bnd) i = Ok (fun p => smul (last_factor ops one) (fn p)) /\
          q_set P V (b_dir bnd) i = Ok false
      | None => q_set P V (b_neu bnd) i = Ok false
      end.
    Proof.
      intros Hf Hb Ed. pose proof (q_spec m Neumann ops _ i b (kinv4_of m Neumann _ _ _ kinv) Hb) as QS.
      pose proof (q_func_spec smul m Neumann ops _ i b (b_factor bnd) (kinv4_of m Neumann _ _ _ kinv) ltac:(discriminate) Hb) as QF.
      pose proof (q_spec m Dirichlet ops _ i b (kinv4_of m Dirichlet _ _ _ kinv) Hb) as QD.
      pose proof kinv as (_ & _ & _ & _ & IF). cbn [kst_of] in QS, QF, QD. specialize (NA i b Hb). unfold condition in NA. rewrite Hb in NA.
      destruct (last_reg Neumann b ops None) as [r|]; [|tauto]. rewrite NA in QD by discriminate. destruct QF as (fn & E & QF). rewrite <- IF. exists fn. tauto.
    Qed.
    Lemma bfaces : boundary_faces C F fltb m = Ok (select bd_is_b (m_faces m) (m_binfo m)).
    Proof. apply (boundary_faces_correct fltb O m (wf_faces _ _ _ _ W) (wf_binfo _ _ _ _ W)). Qed.
    Lemma neu_next (G : list (contribution K) -> vasm K -> Prop) step cs :
      (forall cs a i f d g, G cs a -> nth_error (m_faces m) i = Some f -> nth_error deg i = Some d ->
        q_set P V (b_neu bnd) i = Ok true -> q_func Sc P V smul (b_factor bnd) (b_neu bnd) i = Ok g -> q_set P V (b_dir bnd) i = Ok false ->
        exists a', step f a = Ok a' /\ G (cs ++ [neu_c dim sbs deg i (load f (di_degree d) g)]) a') ->
      (forall cs a i f d, G cs a -> nth_error (m_faces m) i = Some f -> nth_error deg i = Some d -> q_set P V (b_neu bnd) i = Ok false -> step f a = Ok a) ->
      forall a, G cs a -> exists a', floop step (select bd_is_b (m_faces m) (m_binfo m)) a = Ok a' /\ G (cs ++ neumann_terms smul one load m ops deg (sizes dim sbs deg)) a'.
    Proof.
      intros H1 H2 a G0. rewrite neumann_terms_eq.
      apply (bnd_loop m (fun i a => G (cs ++ flat_map neu_term (seq 0 i)) a) step (wf_binfo _ _ _ _ W)); [|rewrite app_nil_r; exact G0].
      intros i f b s Hf Hb Gs. assert (Hi : i < length deg) by (rewrite LD; apply nth_error_Some; congruence).
      destruct (nth_error deg i) as [d|] eqn:Ed; [|apply nth_error_None in Ed; lia]. pose proof (neu_facts i f b d Hf Hb Ed) as NF.
      rewrite seq_S, flat_map_app, app_assoc. cbn [Nat.add flat_map]. rewrite app_nil_r. assert (NT : neu_term i = match last_reg Neumann b ops None with Some (mkReg _ _ _ _ (Some fn)) => [neu_c dim sbs deg i (load f (di_degree d) (fun p => smul (last_factor ops one) (fn p)))] | _ => [] end) by (unfold neu_term; rewrite Hf, Hb, Ed; reflexivity). rewrite NT.
      destruct (last_reg Neumann b ops None) as [[t id fo]|] eqn:LR.
      - destruct (bd_is_b b) eqn:B; [|rewrite (last_reg_inner Neumann b ops B) in LR; discriminate].
        destruct NF as (fn & E & Q1 & Q2 & Q3). cbn in E. subst fo. exact (H1 _ s i f d _ Gs Hf Ed Q1 Q2 Q3).
      - rewrite app_nil_r. destruct (bd_is_b b); [|exact Gs]. exists s. split; [exact (H2 _ s i f d Gs Hf Ed NF)|exact Gs].
    Qed.
    Lemma prim_neumann_ok cs a : good cs a -> exists a', prim_neumann fltb smul dim sbs load m bnd a = Ok a' /\ good (cs ++ neumann_terms smul one load m ops deg (sizes dim sbs deg)) a'.
    Proof.
      intros G. unfold prim_neumann. destruct (Nat.ltb_spec 0 (nb_faces_neumann Sc P V bnd)) as [H|H].
      - rewrite bfaces. cbn [bind]. apply (neu_next good); [| |exact G].
        + intros cs0 a0 i f d g. apply (prim_neumann_free fltb smul dim sbs project D m bnd deg (fixed_at dim m ops) incr_at sol LD face_state_ok load).
        + intros cs0 a0 i f d G0 Hf Ed Q. destruct (face_state_ok i f d Hf Ed) as [LK _]. unfold prim_neumann_step. rewrite LK. cbn [bind].
          destruct G0 as (TA & _). pose proof (tab_nth dim sbs deg (fixed_at dim m ops) a0 i TA ltac:(apply nth_error_Some; congruence)) as TN. destruct TA as (T1 & _).
          unfold vget. rewrite T1, Ed, TN. cbn [bind]. rewrite Q. reflexivity.
      - exists a. split; [reflexivity|]. rewrite no_neumann by lia. rewrite app_nil_r. exact G.
    Qed.
    Lemma mech_neumann_ok cs a : good cs a /\ v_duos a = [] ->
      exists a', mech_neumann fltb smul dim sbs load m bnd a = Ok a' /\ good (cs ++ neumann_terms smul one load m ops deg (sizes dim sbs deg)) a' /\ v_duos a' = [].
    Proof.
      intros G. unfold mech_neumann. destruct (Nat.ltb_spec 0 (nb_faces_neumann Sc P V bnd)) as [H|H].
      - rewrite bfaces. cbn [bind]. apply (neu_next (fun cs a => good cs a /\ v_duos a = [])); [| |exact G].
        + intros cs0 a0 i f d g [G0 D0]. apply (mech_neumann_free fltb smul dim sbs project D m bnd deg (fixed_at dim m ops) incr_at sol LD face_state_ok load); assumption.
        + intros cs0 a0 i f d G0 Hf Ed Q. destruct (face_state_ok i f d Hf Ed) as [LK _]. unfold mech_neumann_step. rewrite LK. cbn [bind]. rewrite Q. reflexivity.
      - exists a. split; [reflexivity|]. rewrite no_neumann by lia. rewrite app_nil_r. exact G.
    Qed.
    End Apart.
    (** faces with both conditions, the Dirichlet condition prescribing all components *)
    Section Clash.
    Context (CL : forall i b r, nth_error (m_binfo m) i = Some b -> last_reg Neumann b ops None <> None -> condition m ops i = Some r -> r_type r = DIRICHLET \/ r_type r = CLAMPED).
    Context (i0 : nat) (b0 : bdesc) (Hb0 : nth_error (m_binfo m) i0 = Some b0) (HN0 : last_reg Neumann b0 ops None <> None) (HC0 : condition m ops i0 <> None).
    Let G a := exists cs, good cs a.
    Lemma clash_step step (GP : vasm K -> Prop) : (forall a, GP a -> exists cs, good cs a) ->
      (forall a i f d g, GP a -> nth_error (m_faces m) i = Some f -> nth_error deg i = Some d ->
        q_set P V (b_neu bnd) i = Ok true -> q_func Sc P V smul (b_factor bnd) (b_neu bnd) i = Ok g -> q_set P V (b_dir bnd) i = Ok false ->
        exists a', step f a = Ok a' /\ GP a') ->
      (forall a i f d, GP a -> nth_error (m_faces m) i = Some f -> nth_error deg i = Some d -> q_set P V (b_neu bnd) i = Ok false -> step f a = Ok a) ->
      (forall a i f d g t, GP a -> nth_error (m_faces m) i = Some f -> nth_error deg i = Some d ->
        q_set P V (b_neu bnd) i = Ok true -> q_func Sc P V smul (b_factor bnd) (b_neu bnd) i = Ok g -> q_set P V (b_dir bnd) i = Ok true -> q_type P V (b_dir bnd) i = Ok t ->
        t = DIRICHLET \/ t = CLAMPED -> step f a = Throw InvalidArgument) ->
      forall a, GP a -> floop step (select bd_is_b (m_faces m) (m_binfo m)) a = Throw InvalidArgument.
    Proof.
      intros H0 H1 H2 H3 a Ga.
      assert (NI : forall i b, nth_error (m_binfo m) i = Some b -> exists f d, nth_error (m_faces m) i = Some f /\ nth_error deg i = Some d).
      { intros i b Hb. assert (i < length (m_faces m)) by (rewrite <- (wf_binfo _ _ _ _ W); apply nth_error_Some; congruence).
        destruct (nth_error (m_faces m) i) eqn:E1; [|apply nth_error_None in E1; lia]. destruct (nth_error deg i) eqn:E2; [eauto|apply nth_error_None in E2; lia]. }
      assert (SEL : forall x, In x (select bd_is_b (m_faces m) (m_binfo m)) <-> exists i b, nth_error (m_faces m) i = Some x /\ nth_error (m_binfo m) i = Some b /\ bd_is_b b = true).
      { intros x. unfold select. rewrite in_map_iff. split.
        - intros ((x' & b) & <- & Hin). apply filter_In in Hin. destruct Hin as [Hin B]. apply In_nth_error in Hin. destruct Hin as [i Hi].
          exists i, b. apply nth_combine in Hi. cbn [fst]. tauto.
        - intros (i & b & E1 & E2 & B). exists (x, b). split; [reflexivity|]. apply filter_In. split; [|exact B]. apply nth_error_In with i. apply nth_combine; auto. }
      assert (FACT : forall i b f d, nth_error (m_binfo m) i = Some b -> nth_error (m_faces m) i = Some f -> nth_error deg i = Some d -> last_reg Neumann b ops None <> None ->
        exists g, q_set P V (b_neu bnd) i = Ok true /\ q_func Sc P V smul (b_factor bnd) (b_neu bnd) i = Ok g /\
          match condition m ops i with Some r => q_set P V (b_dir bnd) i = Ok true /\ q_type P V (b_dir bnd) i = Ok (r_type r) | None => q_set P V (b_dir bnd) i = Ok false end).
      { intros i b f d Hb Hf Ed LN. pose proof (q_spec m Neumann ops _ i b (kinv4_of m Neumann _ _ _ kinv) Hb) as QS.
        pose proof (q_func_spec smul m Neumann ops _ i b (b_factor bnd) (kinv4_of m Neumann _ _ _ kinv) ltac:(discriminate) Hb) as QF.
        pose proof (q_spec m Dirichlet ops _ i b (kinv4_of m Dirichlet _ _ _ kinv) Hb) as QD. cbn [kst_of] in QS, QF, QD. unfold condition. rewrite Hb.
        destruct (last_reg Neumann b ops None) as [r|]; [|congruence]. destruct QF as (fn & E & QF). eexists. split; [tauto|]. split; [exact QF|].
        destruct (last_reg Dirichlet b ops None); tauto. }
      apply (floop_throw step GP InvalidArgument); [| |exact Ga].
      - intros x s Hx Gs. apply SEL in Hx. destruct Hx as (i & b & Hf & Hb & B). destruct (NI i b Hb) as (f & d & Hf' & Ed). assert (f = x) by congruence. subst f.
        destruct (last_reg Neumann b ops None) as [r|] eqn:LN.
        + assert (LN' : last_reg Neumann b ops None <> None) by congruence. destruct (FACT i b x d Hb Hf Ed LN') as (g & Q1 & Q2 & Q3).
          destruct (condition m ops i) as [r'|] eqn:CO; [left|right].
          * destruct Q3 as [Q3 Q4]. exact (H3 s i x d g (r_type r') Gs Hf Ed Q1 Q2 Q3 Q4 (CL i b r' Hb LN' CO)).
          * exact (H1 s i x d g Gs Hf Ed Q1 Q2 Q3).
        + right. exists s. split; [|exact Gs]. apply (H2 s i x d Gs Hf Ed).
          pose proof (q_spec m Neumann ops _ i b (kinv4_of m Neumann _ _ _ kinv) Hb) as QS. cbn [kst_of] in QS. rewrite LN in QS. tauto.
      - destruct (NI i0 b0 Hb0) as (f & d & Hf & Ed). exists f. split.
        + apply SEL. exists i0, b0. split; [exact Hf|]. split; [exact Hb0|]. destruct (bd_is_b b0) eqn:B; [reflexivity|]. exfalso. apply HN0. apply last_reg_inner. exact B.
        + intros s Gs. destruct (FACT i0 b0 f d Hb0 Hf Ed HN0) as (g & Q1 & Q2 & Q3). destruct (condition m ops i0) as [r'|] eqn:CO; [|congruence].
          destruct Q3 as [Q3 Q4]. exact (H3 s i0 f d g (r_type r') Gs Hf Ed Q1 Q2 Q3 Q4 (CL i0 b0 r' Hb0 HN0 CO)).
    Qed.
    Lemma clash_prim a cs : good cs a -> prim_neumann fltb smul dim sbs load m bnd a = Throw InvalidArgument.
    Proof.
      intros G0. unfold prim_neumann. rewrite (proj2 (Nat.ltb_lt _ _) (counter_pos i0 b0 Hb0 HN0)), bfaces. cbn [bind].
      assert (HD : forall a i f d, (exists cs, good cs a) -> nth_error (m_faces m) i = Some f -> nth_error deg i = Some d ->
        lookup F fltb (m_faces m) f = Ok i /\ v_deg a = deg /\ exists off, nth_error (v_tab a) i = Some off).
      { intros a0 i f d (cs0 & TA & _) Hf Ed. split; [apply (face_state_ok i f d Hf Ed)|]. split; [apply (proj1 TA)|].
        rewrite (tab_nth dim sbs deg (fixed_at dim m ops) a0 i TA) by (apply nth_error_Some; congruence). eauto. }
      apply (clash_step _ (fun a => exists cs, good cs a)); [auto| | | |eauto].
      - intros a0 i f d g (cs0 & G1) Hf Ed Q1 Q2 Q3. destruct (prim_neumann_free fltb smul dim sbs project D m bnd deg (fixed_at dim m ops) incr_at sol LD face_state_ok load cs0 a0 i f d g G1 Hf Ed Q1 Q2 Q3) as (a1 & E & G2). eauto.
      - intros a0 i f d G1 Hf Ed Q. destruct (HD a0 i f d G1 Hf Ed) as (LK & VD & off & TB). unfold prim_neumann_step, vget. rewrite LK. cbn [bind]. rewrite VD, Ed, TB. cbn [bind]. rewrite Q. reflexivity.
      - intros a0 i f d g t G1 Hf Ed Q1 Q2 Q3 Q4 HT. destruct (HD a0 i f d G1 Hf Ed) as (LK & VD & off & TB). unfold prim_neumann_step, vget. rewrite LK. cbn [bind]. rewrite VD, Ed, TB. cbn [bind].
        rewrite Q1. cbn [bind negb]. rewrite Q2. cbn [bind]. rewrite Q3. cbn [bind]. rewrite Q4. cbn [bind]. destruct HT as [->| ->]; reflexivity.
    Qed.
    Lemma clash_mech a cs : good cs a -> v_duos a = [] -> mech_neumann fltb smul dim sbs load m bnd a = Throw InvalidArgument.
    Proof.
      intros G0 D0. unfold mech_neumann. rewrite (proj2 (Nat.ltb_lt _ _) (counter_pos i0 b0 Hb0 HN0)), bfaces. cbn [bind].
      apply (clash_step _ (fun a => exists cs, good cs a /\ v_duos a = [])); [intros a0 (cs0 & G1 & _); eauto| | | |eauto].
      - intros a0 i f d g (cs0 & G1 & D1) Hf Ed Q1 Q2 Q3. destruct (mech_neumann_free fltb smul dim sbs project D m bnd deg (fixed_at dim m ops) incr_at sol LD face_state_ok load cs0 a0 i f d g G1 D1 Hf Ed Q1 Q2 Q3) as (a1 & E & G2 & D2). eauto.
      - intros a0 i f d G1 Hf Ed Q. destruct (face_state_ok i f d Hf Ed) as [LK _]. unfold mech_neumann_step. rewrite LK. cbn [bind]. rewrite Q. reflexivity.
      - intros a0 i f d g t (cs0 & (TA & _) & _) Hf Ed Q1 Q2 Q3 Q4 HT. destruct (face_state_ok i f d Hf Ed) as [LK _]. unfold mech_neumann_step, vget, vat. rewrite LK. cbn [bind]. rewrite Q1. cbn [bind negb].
        rewrite (tab_nth dim sbs deg (fixed_at dim m ops) a0 i TA) by (apply nth_error_Some; congruence). cbn [bind]. rewrite (proj1 TA), Ed. cbn [bind]. rewrite Q2. cbn [bind]. rewrite Q3. cbn [bind]. rewrite Q4. cbn [bind].
        destruct HT as [->| ->]; reflexivity.
    Qed.
    End Clash.
    Lemma prim_calls : forall calls css, Forall2 (vadds faces_of smul one dim sbs load m ops deg) calls css -> cells_only calls \/ neumann_apart m ops ->
      forall past a, good past a -> exists a', floop (prim_do fltb faces_of smul dim sbs project load m bnd sol) calls a = Ok a' /\ good (past ++ concat css) a'.
    Proof.
      induction 1 as [|c cs calls css H HR IH]; intros NA past a G; cbn [floop concat].
      - exists a. rewrite app_nil_r. auto.
      - assert (exists a1, prim_do fltb faces_of smul dim sbs project load m bnd sol c a = Ok a1 /\ good (past ++ cs) a1) as (a1 & E & G1).
        { destruct c as [cl l r|]; cbn [prim_do vadds] in *.
          - destruct H as (c & -> & Hc). apply (prim_step fltb faces_of smul dim sbs project D m bnd deg (fixed_at dim m ops) incr_at sol LD face_state_ok); assumption.
          - subst cs. destruct NA as [NA|NA]; [exfalso; apply NA; left; reflexivity|]. apply prim_neumann_ok; assumption. }
        rewrite E. cbn [bind]. rewrite app_assoc. apply IH; [|exact G1]. destruct NA as [NA|NA]; [left|right; exact NA]. intros X. apply NA. right. exact X.
    Qed.
    Lemma mech_calls : forall calls css, Forall2 (vadds faces_of smul one dim sbs load m ops deg) calls css -> cells_only calls \/ neumann_apart m ops ->
      forall past a, good past a /\ v_duos a = [] -> exists a', floop (mech_do fltb faces_of smul dim sbs project load m bnd sol) calls a = Ok a' /\ good (past ++ concat css) a' /\ v_duos a' = [].
    Proof.
      induction 1 as [|c cs calls css H HR IH]; intros NA past a G; cbn [floop concat].
      - exists a. rewrite app_nil_r. auto.
      - assert (exists a1, mech_do fltb faces_of smul dim sbs project load m bnd sol c a = Ok a1 /\ good (past ++ cs) a1 /\ v_duos a1 = []) as (a1 & E & G1).
        { destruct c as [cl l r|]; cbn [mech_do vadds] in *.
          - destruct H as (c & -> & Hc). destruct G as [G DD]. apply (mech_step fltb faces_of smul dim sbs project D m bnd deg (fixed_at dim m ops) incr_at sol LD face_state_ok); assumption.
          - subst cs. destruct NA as [NA|NA]; [exfalso; apply NA; left; reflexivity|]. apply mech_neumann_ok; assumption. }
        rewrite E. cbn [bind]. rewrite app_assoc. apply IH; [|exact G1]. destruct NA as [NA|NA]; [left|right; exact NA]. intros X. apply NA. right. exact X.
    Qed.
    Definition settled (a : vasm K) : Prop := tabs_ok dim sbs deg (fixed_at dim m ops) a /\ v_trip a = [] /\ v_duos a = [].
    Definition result (cs : list (contribution K)) (a : vasm K) : Prop :=
      assembled (fixed dim m ops (sizes dim sbs deg)) (list_sum (sizes dim sbs deg)) 1 (fun I => incr_at (fst (locate (sizes dim sbs deg) I)) (snd (locate (sizes dim sbs deg) I))) cs (v_LHS a) (v_RHS a).
    Lemma prim_session_ok calls css a : Forall2 (vadds faces_of smul one dim sbs load m ops deg) calls css -> cells_only calls \/ neumann_apart m ops -> good [] a ->
      exists a', prim_session fltb faces_of smul dim sbs project load m bnd sol calls a = Ok a' /\ settled a' /\ result (concat css) a'.
    Proof.
      intros H NA G. destruct (prim_calls calls css H NA [] a G) as (a1 & E & G1). unfold prim_session. rewrite E. cbn [bind].
      destruct (prim_final dim sbs deg _ _ _ _ G1) as (a2 & E2 & T & TR & DUO & A). exists a2. split; [exact E2|]. split; [split; auto|exact A].
    Qed.
    Lemma mech_session_ok calls css a : Forall2 (vadds faces_of smul one dim sbs load m ops deg) calls css -> cells_only calls \/ neumann_apart m ops -> good [] a -> v_duos a = [] ->
      exists a', mech_session fltb faces_of smul dim sbs project load m bnd sol calls a = Ok a' /\ settled a' /\ result (concat css) a'.
    Proof.
      intros H NA G DD. destruct (mech_calls calls css H NA [] a (conj G DD)) as (a1 & E & G1 & D1). unfold mech_session. rewrite E. cbn [bind].
      destruct (mech_final dim sbs deg _ _ _ _ G1 D1) as (a2 & E2 & T & TR & DUO & A). exists a2. split; [exact E2|]. split; [split; auto|exact A].
    Qed.
    (** after finalize, clearing gives back an empty system *)
    Lemma settled_prim a : settled a -> good [] (prim_initialize a).
    Proof. intros (T & T1 & T2). apply vgood_nil; auto; try (destruct T as (? & ? & ?); auto; reflexivity). Qed.
    Lemma settled_mech a : settled a -> vsize (v_RHS a) = v_size a -> good [] (zero_rhs a) /\ v_duos (zero_rhs a) = [].
    Proof. intros (T & T1 & T2) VS. split; [|exact T2]. apply vgood_nil; auto; destruct T as (? & ? & ?); auto. cbn. congruence. Qed.
    Lemma good_settled a : good [] a -> v_trip a = [] -> v_duos a = [] -> settled a.
    Proof. intros (T & _) A B. split; auto. Qed.
    Lemma contact_ok : contact_plain m ops deg -> forall i d, nth_error deg i = Some d -> has_unknowns d = true ->
      q_set P V (b_con bnd) i = Ok false \/ q_set P V (b_con bnd) i = Ok true /\ q_type P V (b_con bnd) i = Ok SIGNORINI_FACE /\ q_set P V (b_dir bnd) i = Ok false.
    Proof.
      intros CP i d Ed HU. assert (Hi : i < length (m_faces m)) by (rewrite <- LD; apply nth_error_Some; congruence).
      destruct (nth_error (m_faces m) i) as [f|] eqn:Hf; [|apply nth_error_None in Hf; lia]. destruct (binfo_at i f Hf) as [b Hb].
      pose proof (q_spec m Contact ops _ i b (kinv4_of m Contact _ _ _ kinv) Hb) as QS. pose proof (q_spec m Dirichlet ops _ i b (kinv4_of m Dirichlet _ _ _ kinv) Hb) as QD. cbn [kst_of] in QS, QD.
      specialize (CP i b d). destruct (last_reg Contact b ops None) as [r|] eqn:LR; [|left; tauto]. right.
      destruct (CP r Hb Ed HU eq_refl) as [C1 C2]. unfold condition in C2. rewrite Hb in C2. rewrite C2 in QD. rewrite C1 in QS. tauto.
    Qed.
  End Reached.

End Main.
