(** Properties of the scalar primal assembler (C132-C135) and of the Stokes assemblers (C136-C139). *)
From Coq Require Import List Arith Bool Lia Ring Permutation ZArith.
From Verif Require Import Common LinAlg Mesh_Model Mesh_Spec Mesh_Proofs Elem_Model Elem_Proofs Mesh_Properties
  BC_Model BC_Spec BC_Proofs BC_Properties Cond_Spec Cond_Properties Degree_Model Asm_Model Asm_Spec Asm_Proofs Asm2_Proofs Asm3_Proofs Asm_Properties Asm2_Properties
  VAsm_Model VAsm_Spec VAsm_Runs VAsm_Proofs VAsm2_Proofs VAsm3_Proofs VAsm_Properties SAsm_Model SAsm_Spec Scat_Proofs SAsm_Proofs.
Import ListNotations.

(** ** scalar_primal_hho_assembler *)
Section Scalar.
  Context {K : cring} {C F Sc P V : Type} (cltb : C -> C -> bool) (fltb : F -> F -> bool) (faces_of : C -> list F).
  Context (smul : Sc -> V -> V) (one : Sc) (project load : F -> (P -> V) -> nat -> K) (mass : F -> nat -> nat -> K).

  Definition sp_do (m : mesh C F) (bnd : bc Sc P V) (c : sp_call K C) (a : spasm K) : outcome (spasm K) :=
    match c with
    | SAssemble cl l r => sp_assemble fltb faces_of smul project m bnd cl l r a
    | SNeumann => sp_neumann fltb smul load m bnd a
    | SRobin => sp_robin fltb smul load mass m bnd a
    end.
  (** initialize, any calls, finalize *)
  Definition sp_round (m : mesh C F) (bnd : bc Sc P V) (calls : list (sp_call K C)) (a : spasm K) : outcome (spasm K) :=
    do a <- floop (sp_do m bnd) calls (sp_initialize a); sp_finalize a.
  (** one assembler, any number of rounds *)
  Definition sp_run (m : mesh C F) (bnd : bc Sc P V) (nb : nat) (rounds : list (list (sp_call K C))) : outcome (spasm K) :=
    do a <- sp_make m nb bnd; floop (sp_round m bnd) rounds a.
  (** the contributions of a call *)
  Definition sp_adds (m : mesh C F) (ops : list (bc_op Sc P V)) (nb : nat) (c : sp_call K C) (cs : list (contribution K)) : Prop :=
    match c with
    | SAssemble cl l r => exists c, cs = [c] /\ contributes (m_faces m) faces_of nb (cl, l, r) c
    | SNeumann => cs = bc_terms smul one load m ops nb Neumann (fun _ _ _ => c0)
    | SRobin => cs = bc_terms smul one load m ops nb Robin mass
    end.
  (** boundary terms are imposed only if no face carries two kinds of conditions *)
  Definition sp_allowed (m : mesh C F) (ops : list (bc_op Sc P V)) (calls : list (sp_call K C)) : Prop :=
    Forall is_assemble calls \/ compatible m ops.

  Section Reached.
    Context (O : strict_total_order fltb) (m : mesh C F) (ops : list (bc_op Sc P V)) (bnd : bc Sc P V) (nb : nat).
    Context (W : wf_mesh cltb fltb faces_of m) (R : reached fltb one m ops bnd).
    Let inv := spinv smul one project m ops nb.
    Let dir := dirichlet_face m ops.
    Let n := length (m_faces m).

    Lemma sp_do_ok calls css : Forall2 (sp_adds m ops nb) calls css -> sp_allowed m ops calls -> forall a cs, inv cs a ->
      exists a', floop (sp_do m bnd) calls a = Ok a' /\ inv (cs ++ concat css) a'.
    Proof.
      induction 1 as [|call c calls css HC HR IH]; intros AL a cs G; cbn [floop concat]; [exists a; rewrite app_nil_r; auto|].
      assert (ST : exists a', sp_do m bnd call a = Ok a' /\ inv (cs ++ c) a').
      { destruct call as [cl l r| |]; cbn [sp_adds sp_do] in *.
        - destruct HC as (c' & -> & H). pose proof H as (_ & <- & <- & _). apply (sp_assemble_ok cltb fltb faces_of smul one project load mass O m ops bnd nb W R a cs cl c' G H).
        - subst c. destruct AL as [AL|CO]; [inversion AL; contradiction|]. apply (sp_neumann_ok cltb fltb faces_of smul one project load O m ops bnd nb W R CO a cs G).
        - subst c. destruct AL as [AL|CO]; [inversion AL; contradiction|]. apply (sp_robin_ok cltb fltb faces_of smul one project load mass O m ops bnd nb W R CO a cs G). }
      destruct ST as (a1 & -> & G1). cbn [bind]. destruct (IH) with (a := a1) (cs := cs ++ c) as (a2 & E2 & G2); [|exact G1|].
      { destruct AL as [AL|CO]; [left; inversion AL; assumption|right; exact CO]. }
      exists a2. split; [exact E2|]. rewrite app_assoc. exact G2.
    Qed.
    Lemma sp_round_ok calls css : Forall2 (sp_adds m ops nb) calls css -> sp_allowed m ops calls -> forall a : spasm K, spidle m ops nb a ->
      exists a', sp_round m bnd calls a = Ok a' /\ spidle m ops nb a' /\ assembled dir n nb (dirichlet_value smul one project m ops nb) (concat css) (sp_LHS a') (sp_RHS a').
    Proof.
      intros H AL a G. pose proof (sp_init_ok smul one project m ops nb a G) as G0.
      destruct (sp_do_ok calls css H AL _ _ G0) as (a1 & E1 & T & FB & SZ & G1). cbn [app] in G1. unfold sp_round. rewrite E1. cbn [bind]. unfold sp_finalize.
      destruct (sgood_flush _ _ _ _ _ _ _ _ G1) as (R' & ER & G2). destruct (sgood_final _ _ _ _ _ _ _ G2) as (L & EL & AS).
      rewrite SZ. rewrite EL. cbn [bind]. rewrite ER. cbn [bind]. eexists. split; [reflexivity|]. split; [|exact AS]. repeat split; assumption.
    Qed.
    Lemma sp_rounds_ok rounds csss : Forall2 (fun calls css => Forall2 (sp_adds m ops nb) calls css /\ sp_allowed m ops calls) rounds csss -> forall a : spasm K, spidle m ops nb a ->
      exists a', floop (sp_round m bnd) rounds a = Ok a' /\ spidle m ops nb a'.
    Proof.
      induction 1 as [|calls css rounds csss [H AL] _ IH]; intros a G; cbn [floop]; [exists a; auto|].
      destruct (sp_round_ok calls css H AL a G) as (a1 & -> & G1 & _). cbn [bind]. apply IH. exact G1.
    Qed.
    Lemma sp_run_ok rounds csss : registered_once m ops -> Forall2 (fun calls css => Forall2 (sp_adds m ops nb) calls css /\ sp_allowed m ops calls) rounds csss ->
      exists a, sp_run m bnd nb rounds = Ok a /\ spidle m ops nb a.
    Proof.
      intros RO H. destruct (sp_make_ok (K := K) cltb fltb faces_of smul one project load mass O m ops bnd nb W R RO) as (a0 & E0 & G0).
      destruct (sp_rounds_ok rounds csss H a0 G0) as (a & E & G). exists a. split; [|exact G]. unfold sp_run. rewrite E0. exact E.
    Qed.
  End Reached.

  (** a history of rounds, and the contributions made in each *)
  Definition sp_history (m : mesh C F) (ops : list (bc_op Sc P V)) (nb : nat) (rounds : list (list (sp_call K C))) (csss : list (list (list (contribution K)))) : Prop :=
    Forall2 (fun calls css => Forall2 (sp_adds m ops nb) calls css /\ sp_allowed m ops calls) rounds csss.

  (** ** C132: whatever was assembled before, a round of initialize, calls in any order and finalize
      yields the full system of that round with the Dirichlet unknowns eliminated. *)
  Theorem C132_primal_rounds : strict_total_order fltb -> forall (m : mesh C F) (ops : list (bc_op Sc P V)) bnd nb rounds csss calls css, wf_mesh cltb fltb faces_of m -> reached fltb one m ops bnd ->
    registered_once m ops -> sp_history m ops nb rounds csss -> Forall2 (sp_adds m ops nb) calls css -> sp_allowed m ops calls ->
    exists a, sp_run m bnd nb (rounds ++ [calls]) = Ok a /\
      assembled (dirichlet_face m ops) (length (m_faces m)) nb (dirichlet_value smul one project m ops nb) (concat css) (sp_LHS a) (sp_RHS a).
  Proof.
    intros O m ops bnd nb rounds csss calls css W R RO HR HC AL. destruct (sp_run_ok O m ops bnd nb W R rounds csss RO HR) as (a0 & E0 & G0).
    destruct (sp_round_ok O m ops bnd nb W R calls css HC AL a0 G0) as (a & E & _ & AS). exists a. split; [|exact AS].
    unfold sp_run in E0 |- *. destruct (sp_make m nb bnd) as [a1| |]; try discriminate. cbn [bind] in E0 |- *.
    rewrite VAsm2_Proofs.floop_app, E0. cbn [bind floop]. rewrite E. reflexivity.
  Qed.

  (** ** C133: the number of unknowns is taken from a counter that counts a face once per
      registration: the size is right exactly if no face is covered twice. *)
  Theorem C133_size_partial : strict_total_order fltb -> forall (m : mesh C F) (ops : list (bc_op Sc P V)) bnd nb, wf_mesh cltb fltb faces_of m -> reached fltb one m ops bnd ->
    let covered := list_sum (map (fun d => times Dirichlet d ops) (m_binfo m)) in
    let unknowns := nb * rank (dirichlet_face m ops) (length (m_faces m)) in
    covered <= length (m_faces m) ->
    exists a, sp_make (K := K) m nb bnd = Ok a /\ sp_size a = nb * (length (m_faces m) - covered) /\ vsize (sp_RHS a) = sp_size a /\
      sp_tab a = map (rank (dirichlet_face m ops)) (seq 0 (length (m_faces m))) /\
      sp_size a <= unknowns /\ (registered_once m ops -> sp_size a = unknowns) /\ (0 < nb -> sp_size a = unknowns -> registered_once m ops).
  Proof.
    intros O m ops bnd nb W R covered unknowns LE. pose proof (C14_counters cltb fltb faces_of one O m ops bnd W R Dirichlet) as CN. cbn [BC_Spec.nb_faces] in CN. fold covered in CN.
    destruct (count_rank cltb fltb faces_of one O m ops bnd W R) as (C1 & C2 & C3). rewrite CN in C1, C3.
    destruct (sp_make_size (K := K) cltb fltb faces_of smul one project load mass O m ops bnd nb W R) as (a & E & Q1 & Q2 & Q3 & Q4 & Q5 & Q6); [rewrite CN; exact LE|]. rewrite CN in Q3.
    exists a. split; [exact E|]. split; [exact Q3|]. split; [rewrite Q6; reflexivity|]. split; [exact Q1|].
    rewrite Q3. unfold unknowns. split; [apply Nat.mul_le_mono_l; lia|]. split.
    - intros RO. pose proof (proj2 C3 RO). f_equal. lia.
    - intros NB EQ. apply C3. apply Nat.mul_cancel_l in EQ; lia.
  Qed.

  (** ** C134: reading a solution back *)
  Theorem C134_take_local : strict_total_order fltb -> forall (m : mesh C F) (ops : list (bc_op Sc P V)) bnd nb rounds csss a x cl ids, wf_mesh cltb fltb faces_of m -> reached fltb one m ops bnd ->
    registered_once m ops -> sp_history m ops nb rounds csss -> sp_run m bnd nb rounds = Ok a ->
    numbered (m_faces m) ids (faces_of cl) -> nb * rank (dirichlet_face m ops) (length (m_faces m)) <= vsize x ->
    sp_take_local fltb faces_of smul project m bnd cl x a =
      Ok (map (completed (dirichlet_face m ops) nb (dirichlet_value smul one project m ops nb) x) (unknowns_of_faces nb ids)).
  Proof.
    intros O m ops bnd nb rounds csss a x cl ids W R RO HR E NF VX. destruct (sp_run_ok O m ops bnd nb W R rounds csss RO HR) as (a0 & E0 & G0). rewrite E in E0. injection E0 as <-.
    apply (sp_take_local_ok cltb fltb faces_of smul one project load mass O m ops bnd nb W R a x cl ids G0 VX NF).
  Qed.
  Theorem C134_expand : strict_total_order fltb -> forall (m : mesh C F) (ops : list (bc_op Sc P V)) bnd nb rounds csss a x, wf_mesh cltb fltb faces_of m -> reached fltb one m ops bnd ->
    registered_once m ops -> sp_history m ops nb rounds csss -> sp_run m bnd nb rounds = Ok a ->
    nb * rank (dirichlet_face m ops) (length (m_faces m)) <= vsize x ->
    exists r, sp_expand fltb smul project m bnd x a = Ok r /\ vsize r = length (m_faces m) * nb /\
      forall I, I < length (m_faces m) * nb -> vent r I = completed (dirichlet_face m ops) nb (dirichlet_value smul one project m ops nb) x I.
  Proof.
    intros O m ops bnd nb rounds csss a x W R RO HR E VX. destruct (sp_run_ok O m ops bnd nb W R rounds csss RO HR) as (a0 & E0 & G0). rewrite E in E0. injection E0 as <-.
    apply (sp_expand_ok cltb fltb faces_of smul one project load mass O m ops bnd nb W R a x G0 VX).
  Qed.

  (** ** C135: imposing Neumann conditions where a Dirichlet or a Robin condition stands is rejected,
      and the same for Robin; where no face has such a condition, the calls change nothing. *)
  Theorem C135_conflict_rejected : strict_total_order fltb -> forall (m : mesh C F) (ops : list (bc_op Sc P V)) bnd (a : spasm K) d k, wf_mesh cltb fltb faces_of m -> reached fltb one m ops bnd ->
    In d (m_binfo m) ->
    (last_reg Neumann d ops None <> None -> k = Dirichlet \/ k = Robin -> last_reg k d ops None <> None -> is_ok (sp_neumann fltb smul load m bnd a) = false) /\
    (last_reg Robin d ops None <> None -> k = Dirichlet \/ k = Neumann -> last_reg k d ops None <> None -> is_ok (sp_robin fltb smul load mass m bnd a) = false).
  Proof.
    intros O m ops bnd a d k W R HI. destruct (in_stored _ _ HI) as [i Hd]. pose proof (stored_lt _ _ _ Hd) as Hi. rewrite (wf_binfo _ _ _ _ W) in Hi.
    destruct (nth_error_some _ _ Hi) as [f Hf]. destruct (q_all cltb fltb faces_of smul one O m ops bnd 0 W R (fun _ _ => c0 : K) i d Hd) as (Q1 & Q2 & Q3 & _).
    assert (BB : forall k, last_reg k d ops None <> None -> bd_is_b d = true).
    { intros k' L. destruct (bd_is_b d) eqn:B; [reflexivity|]. exfalso. apply L. apply (last_reg_inner k' d ops B). }
    assert (NST : forall a', last_reg Neumann d ops None <> None -> k = Dirichlet \/ k = Robin -> last_reg k d ops None <> None -> is_ok (sp_neumann_step fltb smul load m bnd f a') = false).
    { intros a' LN HK LK. unfold sp_neumann_step. rewrite (lookup_stored fltb O _ _ _ (wf_faces _ _ _ _ W) Hf). cbn [bind]. rewrite Q2, Q1, Q3.
      destruct (last_reg Neumann d ops None); [|congruence]. cbn [is_some bind negb]. destruct (last_reg Dirichlet d ops None) eqn:LD; cbn [is_some]; [reflexivity|].
      destruct (last_reg Robin d ops None) eqn:LR; cbn [is_some]; [reflexivity|]. destruct HK; subst k; congruence. }
    assert (RST : forall a', last_reg Robin d ops None <> None -> k = Dirichlet \/ k = Neumann -> last_reg k d ops None <> None -> is_ok (sp_robin_step fltb smul load mass m bnd f a') = false).
    { intros a' LN HK LK. unfold sp_robin_step. rewrite (lookup_stored fltb O _ _ _ (wf_faces _ _ _ _ W) Hf). cbn [bind]. rewrite Q2, Q1, Q3.
      destruct (last_reg Robin d ops None); [|congruence]. cbn [is_some bind negb]. destruct (last_reg Neumann d ops None) eqn:LD; cbn [is_some bind].
      - destruct (q_type P V (b_neu bnd) i) as [t| |]; cbn [bind]; try reflexivity. destruct (t =? NEUMANN); reflexivity.
      - destruct (last_reg Dirichlet d ops None) eqn:LR; cbn [is_some].
        + destruct (q_type P V (b_dir bnd) i) as [t| |]; cbn [bind]; try reflexivity. destruct (t =? DIRICHLET); reflexivity.
        + destruct HK; subst k; congruence. }
    assert (PC : forall k, last_reg k d ops None <> None -> 0 < BC_Spec.nb_faces bnd k).
    { intros k' L. rewrite (C14_counters cltb fltb faces_of one O m ops bnd W R k'). pose proof (last_reg_some_iff k' d ops None) as L2. cbn in L2.
      destruct (last_reg k' d ops None) as [r|] eqn:LR; [|congruence]. cbn in L2. assert (times k' d ops <> 0) by (intros Z; rewrite Z in L2; discriminate).
      clear -HI H. induction (m_binfo m) as [|x l IH]; [contradiction|]. cbn. destruct HI as [->|Hd]; [lia|]. specialize (IH Hd). unfold list_sum in IH. lia. }
    split; intros L HK LK.
    - unfold sp_neumann. pose proof (PC _ L) as PC1. cbn [BC_Spec.nb_faces] in PC1. rewrite (proj2 (Nat.ltb_lt _ _) PC1).
      rewrite (boundary_faces_correct fltb O m (wf_faces _ _ _ _ W) (wf_binfo _ _ _ _ W)). cbn [bind]. destruct (floop _ _ a) eqn:E; [|reflexivity|reflexivity].
      destruct (floop_ok_each _ _ _ _ f E (in_select i f d m Hf Hd (BB _ L))) as [a' X]. rewrite NST in X by assumption. discriminate.
    - unfold sp_robin. pose proof (PC _ L) as PC1. cbn [BC_Spec.nb_faces] in PC1. rewrite (proj2 (Nat.ltb_lt _ _) PC1).
      rewrite (boundary_faces_correct fltb O m (wf_faces _ _ _ _ W) (wf_binfo _ _ _ _ W)). cbn [bind]. destruct (floop _ _ a) eqn:E; [|reflexivity|reflexivity].
      destruct (floop_ok_each _ _ _ _ f E (in_select i f d m Hf Hd (BB _ L))) as [a' X]. rewrite RST in X by assumption. discriminate.
  Qed.
  Theorem C135_nothing_to_impose : strict_total_order fltb -> forall (m : mesh C F) (ops : list (bc_op Sc P V)) bnd (a : spasm K), wf_mesh cltb fltb faces_of m -> reached fltb one m ops bnd ->
    ((forall d, In d (m_binfo m) -> last_reg Neumann d ops None = None) -> sp_neumann fltb smul load m bnd a = Ok a) /\
    ((forall d, In d (m_binfo m) -> last_reg Robin d ops None = None) -> sp_robin fltb smul load mass m bnd a = Ok a).
  Proof.
    intros O m ops bnd a W R.
    assert (Z : forall k, (forall d, In d (m_binfo m) -> last_reg k d ops None = None) -> BC_Spec.nb_faces bnd k = 0).
    { intros k H. rewrite (C14_counters cltb fltb faces_of one O m ops bnd W R k). clear -H. induction (m_binfo m) as [|d l IH]; [reflexivity|]. cbn. unfold list_sum in IH. rewrite IH by (intros; apply H; right; assumption).
      pose proof (last_reg_some_iff k d ops None) as L. cbn in L. rewrite (H d (or_introl eq_refl)) in L. cbn in L. symmetry in L. apply negb_false_iff, Nat.eqb_eq in L. lia. }
    split; intros H; apply Z in H; cbn [BC_Spec.nb_faces] in H; unfold sp_neumann, sp_robin; rewrite H; reflexivity.
  Qed.
End Scalar.

(** ** Concrete cases: two triangles, one unknown per face, values in Z *)
Definition ex_sp_round : list (sp_call Zring (list nat)) := [SRobin; SAssemble [0;1;2] ex_lm ex_lv; SNeumann; SAssemble [1;2;3] ex_lm ex_lv].
Definition ex_sp_run (ops : list (bc_op nat nat nat)) rounds := sp_run lex_ltb tri_faces Nat.mul ex_project ex_load ex_mass ex_mesh (ex_bc ops) 1 rounds.
(** two rounds; the second one counts *)
Example C132_hypotheses_met :
  registered_once ex_mesh ex_bops /\ compatible ex_mesh ex_bops /\ reached lex_ltb 1 ex_mesh ex_bops (ex_bc ex_bops) /\
  sp_history tri_faces Nat.mul 1 ex_load ex_mass ex_mesh ex_bops 1 [[SAssemble [1;2;3] ex_lm ex_lv]; ex_sp_round] [[[mkC [2;4;3] ex_lm ex_lv]]; ex_css] /\
  match ex_sp_run ex_bops [[SAssemble [1;2;3] ex_lm ex_lv]; ex_sp_round] with
  | Ok a => map (fun i => map (ment (sp_LHS a) i) [0;1;2]) [0;1;2] = [[13; 3; 2]; [21; 23; 22]; [11; 13; 512]]%Z /\ map (vent (sp_RHS a)) [0;1;2] = [-123; 13; 20]%Z /\
      match sp_take_local lex_ltb tri_faces Nat.mul ex_project ex_mesh (ex_bc ex_bops) [0;1;2] (mkVec (K := Zring) 3 (fun i => Z.of_nat (i + 5))) a with
      | Ok l => l = [2; 5; 8]%Z | _ => False end /\
      match sp_expand lex_ltb Nat.mul ex_project ex_mesh (ex_bc ex_bops) (mkVec (K := Zring) 3 (fun i => Z.of_nat (i + 5))) a with
      | Ok r => map (vent r) (seq 0 5) = [2; 8; 5; 6; 7]%Z | _ => False end
  | _ => False end.
Proof.
  assert (CO : compatible ex_mesh ex_bops) by exact (proj1 C56_hypotheses_met).
  split; [intros d HI; cbn in HI; repeat (destruct HI as [<-|HI]; [vm_compute; lia|]); destruct HI|]. split; [exact CO|]. split; [vm_compute; reflexivity|]. split.
  - pose proof ex_contributes as X. inversion X as [|? ? ? ? X1 X2]; subst. inversion X2 as [|? ? ? ? X3 X4]; subst.
    constructor; [split; [constructor; [eexists; split; [reflexivity|exact X3]|constructor]|right; exact CO]|]. constructor; [|constructor]. split; [|right; exact CO].
    unfold ex_sp_round, ex_css. apply Forall2_cons; [reflexivity|]. apply Forall2_cons; [eexists; split; [reflexivity|exact X1]|].
    apply Forall2_cons; [reflexivity|]. apply Forall2_cons; [eexists; split; [reflexivity|exact X3]|]. apply Forall2_nil.
  - vm_compute. auto.
Qed.

(** ** C133: one boundary covered by two registrations *)
(** The last face loses its place in the system: the matrix entries of the second cell lie outside. *)
Definition ex_twice : list (bc_op nat nat nat) := [AddDirichlet DIRICHLET 0 (fun p => p); AddDirichlet DIRICHLET 0 (fun p => p + 1)].
Theorem C133_double_registration_refuted :
  strict_total_order lex_ltb /\ wf_mesh lex_ltb lex_ltb tri_faces ex_mesh /\ reached lex_ltb 1 ex_mesh ex_twice (ex_bc ex_twice) /\
  rank (dirichlet_face ex_mesh ex_twice) (length (m_faces ex_mesh)) = 4 /\
  match sp_make (K := Zring) ex_mesh 1 (ex_bc ex_twice) with Ok a => sp_size a = 3 | _ => False end /\
  ex_sp_run ex_twice [[SAssemble [1;2;3] ex_lm ex_lv]] = UB.
Proof. split; [exact lex_ltb_sto|]. split; [exact ex_wf|]. repeat split; vm_compute; reflexivity. Qed.
Example C133_hypotheses_met : list_sum (map (fun d => times Dirichlet d ex_twice) (m_binfo ex_mesh)) = 2 /\ 2 <= length (m_faces ex_mesh).
Proof. vm_compute. lia. Qed.
(** ** C135 *)
Example C135_hypotheses_met :
  let ops := ex_bops ++ [AddNeumann NEUMANN 0 (fun p => p)] in
  reached lex_ltb 1 ex_mesh ops (ex_bc ops) /\ (exists d, In d (m_binfo ex_mesh) /\ last_reg Neumann d ops None <> None /\ last_reg Dirichlet d ops None <> None) /\
  ex_sp_run ops [[SNeumann]] = Throw InvalidArgument /\
  is_ok (ex_sp_run ex_twice []) = true.
Proof.
  cbv zeta. split; [vm_compute; reflexivity|]. split; [|split; vm_compute; reflexivity]. exists (nth 0 (m_binfo ex_mesh) bd_default).
  split; [left; reflexivity|]. split; vm_compute; discriminate.
Qed.

Print Assumptions C132_primal_rounds.
Print Assumptions C133_size_partial.
Print Assumptions C133_double_registration_refuted.
Print Assumptions C134_take_local.
Print Assumptions C134_expand.
Print Assumptions C135_conflict_rejected.
Print Assumptions C135_nothing_to_impose.
