(** Properties of stokes_assembler and stokes_assembler_alg (C136-C139). *)
From Coq Require Import List Arith Bool Lia Ring Permutation ZArith.
From Verif Require Import Common LinAlg Mesh_Model Mesh_Spec Mesh_Proofs Elem_Model Elem_Proofs Mesh_Properties
  BC_Model BC_Spec BC_Proofs BC_Properties Cond_Spec Cond_Properties Degree_Model Asm_Model Asm_Spec Asm_Proofs Asm2_Proofs Asm3_Proofs Asm_Properties Asm2_Properties
  VAsm_Model VAsm_Spec VAsm_Runs VAsm_Proofs VAsm2_Proofs VAsm3_Proofs VAsm_Properties SAsm_Model SAsm_Spec Scat_Proofs SAsm_Proofs St_Proofs.
Import ListNotations.

(** one call: the cell, the velocity block, the divergence block, the load *)
Definition st_call (K : cring) (C : Type) : Type := C * mat K * mat K * vec K.
(** which of the two members is called in a round of stokes_assembler *)
Inductive st_kind := Plain | Alg.
(** a phase of stokes_assembler_alg *)
Inductive alg_phase {K : cring} {C : Type} := Lhs (calls : list (C * mat K * mat K)) | Rhs (calls : list (C * vec K)).
Arguments alg_phase : clear implicits.

Section Stokes.
  Context {K : cring} {C F Sc P V : Type} (cltb : C -> C -> bool) (fltb : F -> F -> bool) (faces_of : C -> list F).
  Context (smul : Sc -> V -> V) (one : Sc) (dim : nat) (sbs : nat -> nat) (cA cB k : nat).
  Context (vproject : nat -> F -> (P -> V) -> nat -> K) (mult : C -> nat -> K).
  Let fA := (dim * sbs k)%nat.
  Add Ring Kst : (cth K).

  (** initialize, calls of one kind, finalize *)
  Definition st_do (m : mesh C F) (bnd : bc Sc P V) (kd : st_kind) (c : st_call K C) (a : stokes K) : outcome (stokes K) :=
    let '(cl, A, B, v) := c in
    match kd with
    | Plain => st_assemble cltb fltb faces_of smul dim sbs cA cB k vproject mult m bnd cl A B v a
    | Alg => st_assemble_alg cltb fltb faces_of smul dim sbs cA cB k vproject mult m bnd cl A B v a
    end.
  Definition st_round (m : mesh C F) (bnd : bc Sc P V) (r : st_kind * list (st_call K C)) (a : stokes K) : outcome (stokes K) :=
    do a <- floop (st_do m bnd (fst r)) (snd r) (st_initialize a); st_finalize a.
  Definition st_run (m : mesh C F) (bnd : bc Sc P V) (rounds : list (st_kind * list (st_call K C))) : outcome (stokes K) :=
    do a <- st_make fltb dim sbs cA cB k m bnd; floop (st_round m bnd) rounds a.
  (** stokes_assembler_alg: each phase from initialize to finalize *)
  Definition alg_do (m : mesh C F) (bnd : bc Sc P V) (p : alg_phase K C) (a : stokes K) : outcome (stokes K) :=
    match p with
    | Lhs calls => do a <- floop (fun c a => let '(cl, A, B) := c in alg_assemble_lhs cltb fltb faces_of smul dim sbs cA cB k vproject mult m bnd cl A B a) calls (alg_initialize_lhs a); alg_finalize_lhs a
    | Rhs calls => do a <- floop (fun c a => alg_assemble_rhs cltb fltb faces_of smul dim sbs cA k vproject m bnd (fst c) (snd c) a) calls (alg_initialize_rhs a); Ok (alg_finalize_rhs a)
    end.
  Definition alg_run (m : mesh C F) (bnd : bc Sc P V) (phases : list (alg_phase K C)) : outcome (stokes K) :=
    do a <- st_make fltb dim sbs cA cB k m bnd; floop (alg_do m bnd) phases a.

  (** ** Specification *)
  (** a call contributes [c]; assemble uses the cell part of the load only, assemble_alg all of it *)
  Definition st_adds (m : mesh C F) (kd : st_kind) (call : st_call K C) (c : contribution K) : Prop :=
    let '(cl, A, B, v) := call in
    stokes_contributes cA fA cB m faces_of mult cl A B v (fun n => match kd with Plain => cA | Alg => n end) c.
  Definition lhs_adds (m : mesh C F) (call : C * mat K * mat K) (c : contribution K) : Prop :=
    let '(cl, A, B) := call in stokes_contributes cA fA cB m faces_of mult cl A B (mkVec 0 (fun _ => c0)) (fun _ => 0) c.
  Definition rhs_adds (m : mesh C F) (call : C * vec K) (c : contribution K) : Prop := load_contributes cA fA m faces_of (fst call) (snd call) c.
  Definition phase_ok (m : mesh C F) (p : alg_phase K C) : Prop :=
    match p with Lhs calls => exists cs, Forall2 (lhs_adds m) calls cs | Rhs calls => exists cs, Forall2 (rhs_adds m) calls cs end.
  Section Mesh.
    Context (m : mesh C F) (ops : list (bc_op Sc P V)).
    Let nc := length (m_cells m).
    Let nf := length (m_faces m).
    (** the number of unknowns of all cells and faces; the prescribed ones; their values: coefficient
        [i] of the projection on face [j] (quadrature raised by [odi]) of the function last registered
        there, times the last factor *)
    Definition st_all : nat := all_unknowns cA fA cB nc nf.
    Definition st_fixed (I : nat) : bool := on_face cA fA nc nf (dirichlet_face m ops) I.
    Definition data_at (odi j i : nat) : K :=
      match nth_error (m_faces m) j, nth_error (m_binfo m) j with
      | Some f, Some d => match last_reg Dirichlet d ops None with
          | Some (mkReg _ _ _ _ (Some fn)) => vproject odi f (fun p => smul (last_factor ops one) (fn p)) i
          | _ => c0 end
      | _, _ => c0
      end.
    Definition st_given (odi I : nat) : K := face_value cA fA nc nf (data_at odi) I.
    (** the full system of the contributions [cs], the prescribed unknowns eliminated *)
    Definition st_system (odi : nat) (cs : list (contribution K)) (a : stokes K) : Prop :=
      assembled st_fixed st_all 1 (st_given odi) cs (st_LHS a) (st_RHS a).
    (** the value of unknown [I] in a solution, completed by the prescribed values *)
    Definition st_value (odi : nat) (x : vec K) (I : nat) : K := completed st_fixed 1 (st_given odi) x I.
  End Mesh.
  Definition odi_of (kd : st_kind) : nat := match kd with Plain => k | Alg => 2 end.
  (** what every theorem assumes *)
  Record st_setting (m : mesh C F) (ops : list (bc_op Sc P V)) (bnd : bc Sc P V) : Prop := {
    ss_c : strict_total_order cltb; ss_f : strict_total_order fltb;
    ss_m : wf_mesh cltb fltb faces_of m; ss_b : reached fltb one m ops bnd;
    ss_d : dim = 2 \/ dim = 3; ss_t : supported dim m ops }.
  Definition st_history (m : mesh C F) (rounds : list (st_kind * list (st_call K C))) (css : list (list (contribution K))) : Prop :=
    Forall2 (fun r cs => Forall2 (st_adds m (fst r)) (snd r) cs) rounds css.

  (** ** Proofs *)
  Section Reached.
    Context (m : mesh C F) (ops : list (bc_op Sc P V)) (bnd : bc Sc P V) (ST : st_setting m ops bnd).
    Let idle := stidle (K := K) dim sbs cA cB k m ops.
    Let inv := stinv smul one dim sbs cA cB k vproject m ops.
    Lemma st_do_ok kd calls cs0 : Forall2 (st_adds m kd) calls cs0 -> forall a cs, inv (odi_of kd) cs a ->
      exists a', floop (st_do m bnd kd) calls a = Ok a' /\ inv (odi_of kd) (cs ++ cs0) a'.
    Proof.
      destruct ST as [OC O W R _ _]. induction 1 as [|[[[cl A] B] v] c calls cs0 HC HR IH]; intros a cs G; cbn [floop]; [exists a; rewrite app_nil_r; auto|].
      assert (S1 : exists a', st_do m bnd kd (cl, A, B, v) a = Ok a' /\ inv (odi_of kd) (cs ++ [c]) a').
      { destruct kd; cbn [st_do odi_of st_adds] in *.
        - exact (st_assemble_ok cltb fltb faces_of smul one dim sbs cA cB k vproject mult OC O m ops bnd W R a cs cl A B v c G HC).
        - exact (st_assemble_alg_ok cltb fltb faces_of smul one dim sbs cA cB k vproject mult OC O m ops bnd W R a cs cl A B v c G HC). }
      destruct S1 as (a1 & -> & G1). cbn [bind]. destruct (IH a1 _ G1) as (a2 & E2 & G2). exists a2. split; [exact E2|]. rewrite <- app_assoc in G2. exact G2.
    Qed.
    Lemma st_round_ok kd calls cs : Forall2 (st_adds m kd) calls cs -> forall a, idle a -> exists a', st_round m bnd (kd, calls) a = Ok a' /\ idle a' /\ st_system m ops (odi_of kd) cs a'.
    Proof.
      intros H a G. destruct (st_do_ok kd calls cs H _ [] (st_init_ok smul one dim sbs cA cB k vproject m ops (odi_of kd) a G)) as (a1 & E1 & G1). cbn [app] in G1.
      unfold st_round. cbn [fst snd]. rewrite E1. cbn [bind]. exact (st_finalize_ok smul one dim sbs cA cB k vproject m ops (odi_of kd) cs a1 G1).
    Qed.
    Lemma st_rounds_ok rounds css : st_history m rounds css -> forall a, idle a -> exists a', floop (st_round m bnd) rounds a = Ok a' /\ idle a'.
    Proof.
      induction 1 as [|[kd calls] cs rounds css H _ IH]; intros a G; cbn [floop]; [exists a; auto|]. destruct (st_round_ok kd calls cs H a G) as (a1 & -> & G1 & _). cbn [bind]. apply IH. exact G1.
    Qed.
    Lemma st_run_ok rounds css : st_history m rounds css -> exists a, st_run m bnd rounds = Ok a /\ idle a.
    Proof.
      intros H. destruct ST as [OC O W R D T]. destruct (st_make_ok (K := K) cltb fltb faces_of smul one dim sbs cA cB k vproject O m ops bnd W R D T) as (a0 & E0 & B0 & T0).
      destruct (st_rounds_ok rounds css H a0 (conj B0 T0)) as (a & E & G). exists a. split; [|exact G]. unfold st_run. rewrite E0. exact E.
    Qed.
    Lemma st_run_last rounds css kd calls cs : st_history m rounds css -> Forall2 (st_adds m kd) calls cs -> exists a, st_run m bnd (rounds ++ [(kd, calls)]) = Ok a /\ idle a /\ st_system m ops (odi_of kd) cs a.
    Proof.
      intros HR HC. destruct (st_run_ok rounds css HR) as (a0 & E0 & G0). destruct (st_round_ok kd calls cs HC a0 G0) as (a & E & G & AS). exists a. split; [|auto].
      unfold st_run in E0 |- *. destruct (st_make fltb dim sbs cA cB k m bnd) as [a1| |]; try discriminate. cbn [bind] in E0 |- *. rewrite VAsm2_Proofs.floop_app, E0. cbn [bind floop]. rewrite E. reflexivity.
    Qed.
    (** stokes_assembler_alg *)
    Lemma alg_lhs_ok calls cs0 : Forall2 (lhs_adds m) calls cs0 -> forall a cs, linv smul one dim sbs cA cB k vproject m ops cs a -> exists a',
      floop (fun c a => let '(cl, A, B) := c in alg_assemble_lhs cltb fltb faces_of smul dim sbs cA cB k vproject mult m bnd cl A B a) calls a = Ok a' /\ linv smul one dim sbs cA cB k vproject m ops (cs ++ cs0) a'.
    Proof.
      destruct ST as [OC O W R _ _]. induction 1 as [|[[cl A] B] c calls cs0 HC HR IH]; intros a cs G; cbn [floop]; [exists a; rewrite app_nil_r; auto|].
      destruct (alg_assemble_lhs_ok cltb fltb faces_of smul one dim sbs cA cB k vproject mult OC O m ops bnd W R a cs cl A B c G HC) as (a1 & -> & G1). cbn [bind].
      destruct (IH a1 _ G1) as (a2 & E2 & G2). exists a2. split; [exact E2|]. rewrite <- app_assoc in G2. exact G2.
    Qed.
    Lemma alg_rhs_ok calls cs0 : Forall2 (rhs_adds m) calls cs0 -> forall a cs, rinv smul one dim sbs cA cB k vproject m ops cs a -> exists a',
      floop (fun c a => alg_assemble_rhs cltb fltb faces_of smul dim sbs cA k vproject m bnd (fst c) (snd c) a) calls a = Ok a' /\ rinv smul one dim sbs cA cB k vproject m ops (cs ++ cs0) a' /\ st_LHS a' = st_LHS a /\ st_DIR a' = st_DIR a.
    Proof.
      destruct ST as [OC O W R _ _]. induction 1 as [|[cl v] c calls cs0 HC HR IH]; intros a cs G; cbn [floop fst snd]; [exists a; rewrite app_nil_r; auto|].
      destruct (alg_assemble_rhs_ok cltb fltb faces_of smul one dim sbs cA cB k vproject OC O m ops bnd W R a cs cl v c G HC) as (a1 & -> & G1 & L1 & D1). cbn [bind].
      destruct (IH a1 _ G1) as (a2 & E2 & G2 & L2 & D2). exists a2. split; [exact E2|]. rewrite <- app_assoc in G2. split; [exact G2|]. split; congruence.
    Qed.
    (** after the left-hand side of [cs] was finalized *)
    Let dir := on_face cA fA (length (m_cells m)) (length (m_faces m)) (dirichlet_face m ops).
    Let N := all_unknowns cA fA cB (length (m_cells m)) (length (m_faces m)).
    Let dn (I _ : nat) : K := st_val smul one dim sbs cA k vproject m ops 2 I.
    Definition ldone (cs : list (contribution K)) (a : stokes K) : Prop :=
      exists ts, from_triplets (1 * rank dir N) ts = Ok (st_LHS a) /\ sgood N 1 dir dn cs ts [] (st_DIR a).
    Lemma alg_lhs_phase calls cs a : Forall2 (lhs_adds m) calls cs -> idle a -> exists a', alg_do m bnd (Lhs calls) a = Ok a' /\ idle a' /\ ldone cs a'.
    Proof.
      intros H (B & T). assert (G0 : linv smul one dim sbs cA cB k vproject m ops [] (alg_initialize_lhs a)).
      { split; [exact B|]. cbn [alg_initialize_lhs with_st st_trip st_DIR]. rewrite T. destruct B as (_ & _ & ->). apply sgood_nil. }
      destruct (alg_lhs_ok calls cs H _ _ G0) as (a1 & E1 & B1 & G1). cbn [app] in G1. cbn [alg_do]. rewrite E1. cbn [bind]. unfold alg_finalize_lhs, st_finalize.
      destruct (sgood_final _ _ _ _ _ _ _ G1) as (L & EL & _). pose proof B1 as (_ & _ & SZ). rewrite SZ. rewrite EL. cbn [bind]. eexists. split; [reflexivity|]. split; [split; [exact B1|reflexivity]|].
      exists (st_trip a1). split; [exact EL|exact G1].
    Qed.
    Lemma alg_rhs_phase calls cs a : Forall2 (rhs_adds m) calls cs -> idle a -> exists a', alg_do m bnd (Rhs calls) a = Ok a' /\ idle a' /\
      (forall csL, ldone csL a -> ldone csL a' /\ st_system m ops 2 (csL ++ cs) a').
    Proof.
      intros H (B & T). assert (G0 : rinv smul one dim sbs cA cB k vproject m ops [] (alg_initialize_rhs a)).
      { split; [exact B|]. split; [exact T|]. cbn [alg_initialize_rhs with_st st_RHS]. destruct B as (_ & _ & ->). apply sgood_nil. }
      destruct (alg_rhs_ok calls cs H _ _ G0) as (a1 & E1 & (B1 & T1 & G1) & L1 & D1). cbn [app] in G1. cbn [alg_do]. rewrite E1. cbn [bind]. eexists. split; [reflexivity|]. split; [split; [exact B1|exact T1]|].
      intros csL (ts & EL & GL). cbn [alg_initialize_rhs with_st st_LHS st_DIR] in L1, D1. split.
      - exists ts. cbn [alg_finalize_rhs with_st st_LHS st_DIR]. rewrite L1, D1. auto.
      - pose proof (sgood_sum _ _ _ _ _ _ _ _ _ _ GL G1) as GS. rewrite app_nil_r in GS. destruct (sgood_final _ _ _ _ _ _ _ GS) as (L & EL' & AS). rewrite EL in EL'. injection EL' as <-.
        unfold st_system. cbn [alg_finalize_rhs with_st st_LHS st_RHS]. pose proof B1 as (_ & _ & SZ). destruct AS as [Q1 Q2 Q3 Q4 Q5]. constructor; rewrite ?L1; try assumption.
        intros I HI FI. cbn [vent]. rewrite D1. cbn [vent] in Q5. pose proof (Q5 I HI FI) as Q6.
        etransitivity; [|etransitivity; [exact Q6|]].
        + apply (Radd_comm (cth K)).
        + f_equal. apply sumn_ext. intros J _. unfold dval. rewrite div1. reflexivity.
    Qed.
    Lemma alg_phases_ok phases : Forall (phase_ok m) phases -> forall a, idle a -> exists a', floop (alg_do m bnd) phases a = Ok a' /\ idle a'.
    Proof.
      induction 1 as [|p phases HP _ IH]; intros a G; cbn [floop]; [exists a; auto|].
      assert (S1 : exists a', alg_do m bnd p a = Ok a' /\ idle a').
      { destruct p as [calls|calls]; destruct HP as [cs H]; [destruct (alg_lhs_phase calls cs a H G) as (a1 & E & G1 & _)|destruct (alg_rhs_phase calls cs a H G) as (a1 & E & G1 & _)]; eauto. }
      destruct S1 as (a1 & -> & G1). cbn [bind]. apply IH. exact G1.
    Qed.
    Lemma alg_rhs_phases rs : Forall (phase_ok m) (map Rhs rs) -> forall csL a, idle a -> ldone csL a -> exists a', floop (alg_do m bnd) (map Rhs rs) a = Ok a' /\ idle a' /\ ldone csL a'.
    Proof.
      induction rs as [|calls rs IH]; intros H csL a G L; cbn [map floop]; [exists a; auto|]. inversion H as [|? ? HC0 HR]; subst. destruct HC0 as [cs HC].
      destruct (alg_rhs_phase calls cs a HC G) as (a1 & -> & G1 & L1). cbn [bind]. apply (IH HR csL a1 G1). apply L1. exact L.
    Qed.
  End Reached.

  (** ** C136: whatever was assembled before, a round of initialize, calls of one kind in any order
      and finalize yields the full saddle-point system of that round, the unknowns of the Dirichlet
      faces eliminated. *)
  Theorem C136_stokes_rounds : forall (m : mesh C F) (ops : list (bc_op Sc P V)) bnd rounds css kd calls cs, st_setting m ops bnd -> st_history m rounds css -> Forall2 (st_adds m kd) calls cs ->
    exists a, st_run m bnd (rounds ++ [(kd, calls)]) = Ok a /\ st_system m ops (odi_of kd) cs a.
  Proof.
    intros m ops bnd rounds css kd calls cs ST HR HC. destruct (st_run_last m ops bnd ST rounds css kd calls cs HR HC) as (a & E & _ & AS). eauto.
  Qed.
  (** The size of the system. *)
  Theorem C136_size : forall (m : mesh C F) (ops : list (bc_op Sc P V)) bnd rounds css, st_setting m ops bnd -> st_history m rounds css ->
    exists a, st_run m bnd rounds = Ok a /\ st_size a = rank (st_fixed m ops) (st_all m) /\
      st_size a = length (m_cells m) * (cA + cB) + rank (dirichlet_face m ops) (length (m_faces m)) * fA + 1.
  Proof.
    intros m ops bnd rounds css ST HR. destruct (st_run_ok m ops bnd ST rounds css HR) as (a & E & (_ & _ & SZ) & _). exists a. split; [exact E|]. rewrite Nat.mul_1_l in SZ. split; [exact SZ|].
    rewrite SZ. etransitivity; [apply (rank_total cA fA cB)|]. lia.
  Qed.

  (** ** C137: reading a solution back *)
  Theorem C137_take : forall (m : mesh C F) (ops : list (bc_op Sc P V)) bnd rounds css a x i cl ids, st_setting m ops bnd -> st_history m rounds css -> st_run m bnd rounds = Ok a ->
    vsize x = st_size a -> nth_error (m_cells m) i = Some cl -> numbered (m_faces m) ids (faces_of cl) ->
    take_velocity cltb fltb faces_of smul dim sbs cA k vproject m bnd cl x a = Ok (map (st_value m ops 2 x) (velocity_unknowns cA fA (length (m_cells m)) i ids)) /\
    forall odi, take_pressure cltb dim sbs cA cB k m cl x a = Ok (map (st_value m ops odi x) (pressure_unknowns cA fA cB (length (m_cells m)) (length (m_faces m)) i)).
  Proof.
    intros m ops bnd rounds css a x i cl ids ST HR E VX Hi NF. destruct (st_run_ok m ops bnd ST rounds css HR) as (a' & E' & B & _). rewrite E in E'. injection E' as <-.
    pose proof B as (_ & _ & SZ). rewrite Nat.mul_1_l in SZ. destruct ST as [OC O W R D T]. split.
    - apply (take_velocity_ok cltb fltb faces_of smul one dim sbs cA cB k vproject OC O m ops bnd W R a x i cl ids B); [rewrite VX, SZ; apply le_n|exact Hi|exact NF].
    - intros odi. apply (take_pressure_ok cltb fltb faces_of smul one dim sbs cA cB k vproject OC m ops W odi a x i cl B); [rewrite VX, SZ; apply le_n|exact Hi].
  Qed.
  (** A vector solves the assembled system iff, completed, it satisfies the rows of the full system
      that are not prescribed. *)
  Theorem C137_solutions : forall (m : mesh C F) (ops : list (bc_op Sc P V)) bnd rounds css kd calls cs a x, st_setting m ops bnd -> st_history m rounds css -> Forall2 (st_adds m kd) calls cs ->
    st_run m bnd (rounds ++ [(kd, calls)]) = Ok a -> vsize x = vsize (st_RHS a) ->
    (solves (st_LHS a) x (st_RHS a) <-> forall I, I < st_all m -> st_fixed m ops I = false ->
      sumn (st_all m) (fun J => cmul (full_mat 1 cs I J) (st_value m ops (odi_of kd) x J)) = full_rhs 1 cs I).
  Proof.
    intros m ops bnd rounds css kd calls cs a x ST HR HC E VX. destruct (st_run_last m ops bnd ST rounds css kd calls cs HR HC) as (a' & E' & _ & AS). rewrite E in E'. injection E' as <-.
    rewrite (C30_solutions K _ _ _ _ _ _ _ x AS VX). rewrite Nat.mul_1_r. split; intros H I HI FI; (etransitivity; [|apply H; [exact HI|]]); try reflexivity.
    - rewrite free1. fold (st_fixed m ops I). rewrite FI. reflexivity.
    - rewrite free1 in FI. apply negb_true_iff in FI. exact FI.
  Qed.
  (** The pressures read back from a solution have zero mean over the assembled cells. *)
  Theorem C137_zero_mean : forall (m : mesh C F) (ops : list (bc_op Sc P V)) bnd rounds css kd calls cs a x ps, st_setting m ops bnd -> st_history m rounds css -> Forall2 (st_adds m kd) calls cs ->
    st_run m bnd (rounds ++ [(kd, calls)]) = Ok a -> vsize x = vsize (st_RHS a) -> solves (st_LHS a) x (st_RHS a) ->
    Forall2 (fun call p => let '(cl, _, _, _) := call in take_pressure cltb dim sbs cA cB k m cl x a = Ok p) calls ps ->
    suml (map (fun q => let '((cl, _, _, _), p) := q in sumn cB (fun i => cmul (mult cl i) (nth i p c0))) (combine calls ps)) = c0.
  Proof.
    intros m ops bnd rounds css kd calls cs a x ps ST HR HC E VX SO HP. pose proof (C137_solutions m ops bnd rounds css kd calls cs a x ST HR HC E VX) as SE.
    destruct (st_run_last m ops bnd ST rounds css kd calls cs HR HC) as (a' & E' & (B & _) & AS). rewrite E in E'. injection E' as <-.
    pose proof (as_size _ _ _ _ _ _ _ AS) as SZ. rewrite Nat.mul_1_l in SZ. destruct ST as [OC O W R D T].
    set (nc := length (m_cells m)) in *. set (nf := length (m_faces m)) in *. set (mu := multiplier cA fA cB nc nf).
    assert (FM : st_fixed m ops mu = false).
    { unfold st_fixed, on_face. fold nc nf. unfold mu, multiplier. rewrite fou_rest. reflexivity. }
    assert (HM : mu < st_all m) by (unfold st_all, all_unknowns; fold nc nf mu; lia).
    pose proof (proj1 SE SO mu HM FM) as ROW.
    assert (Z : forall kd calls cs ps, Forall2 (st_adds m kd) calls cs -> Forall2 (fun call p => let '(cl, _, _, _) := call in take_pressure cltb dim sbs cA cB k m cl x a = Ok p) calls ps ->
       suml (map (fun q => let '((cl, _, _, _), p) := q in sumn cB (fun i => cmul (mult cl i) (nth i p c0))) (combine calls ps)) = sumn (st_all m) (fun J => cmul (full_mat 1 cs mu J) (st_value m ops (odi_of kd) x J)) /\ full_rhs 1 cs mu = c0).
    { clear -OC W B VX SZ O. intros kd0 calls0 cs0 ps0 HC. revert ps0. induction HC as [|[[[cl A] Bm] v] c calls0 cs0 HC _ IH]; intros ps0 HP.
      - inversion HP; subst. cbn. split; [|reflexivity]. symmetry. apply sumn_zero. intros J _. unfold full_mat. cbn. ring.
      - inversion HP as [|? p ? ps1 HP1 HP2]; subst. destruct (IH ps1 HP2) as [IH1 IH2]. clear IH. cbn [combine map suml].
        destruct HC as (i & ids & Hi & NF & -> & A1 & A2 & B1 & B2 & HV). cbv zeta in *.
        set (r := match kd0 with Plain => cA | Alg => cA + length ids * fA end).
        change (mkC _ _ _) with (cell_con dim sbs cA cB k mult m i ids cl A Bm v r). set (c := cell_con dim sbs cA cB k mult m i ids cl A Bm v r).
        split.
        + rewrite IH1. rewrite (take_pressure_ok cltb fltb faces_of smul one dim sbs cA cB k vproject OC m ops W (odi_of kd0) a x i cl B) in HP1; [|rewrite VX, SZ; apply le_n|exact Hi]. injection HP1 as <-.
          transitivity (cadd (sumn (st_all m) (fun J => cmul (full_mat 1 [c] mu J) (st_value m ops (odi_of kd0) x J))) (sumn (st_all m) (fun J => cmul (full_mat 1 cs0 mu J) (st_value m ops (odi_of kd0) x J)))).
          * f_equal. pose proof (mult_row faces_of dim sbs cA cB k mult m i ids cl A Bm v r (st_value m ops (odi_of kd0) x) Hi NF) as MR. rewrite Nat.mul_1_r in MR. etransitivity; [|symmetry; exact MR].
            apply sumn_ext. intros q Hq. f_equal. unfold pressure_unknowns. rewrite (nth_indep _ c0 (st_value m ops (odi_of kd0) x 0)) by (rewrite map_length, seq_length; exact Hq). rewrite map_nth, seq_nth by exact Hq. reflexivity.
          * rewrite <- sumn_add. apply sumn_ext. intros J _. change (c :: cs0) with ([c] ++ cs0). rewrite full_mat_app. symmetry. apply (Rdistr_l (cth K)).
        + change (c :: cs0) with ([c] ++ cs0). rewrite full_rhs_app, IH2. rewrite (Radd_comm (cth K)), (Radd_0_l (cth K)). unfold full_rhs. cbn [map suml]. rewrite (Radd_comm (cth K)), (Radd_0_l (cth K)).
          apply sumn_zero. intros q Hq. unfold only. destruct (global 1 c q =? mu) eqn:G; [|reflexivity]. cbn [c cell_con c_rhs padded vent].
          destruct (q <? r) eqn:LT; [|reflexivity]. exfalso. apply Nat.ltb_lt in LT. apply Nat.eqb_eq in G. assert (PA : q < cA + length ids * fA) by (unfold r in LT; destruct kd0; lia).
          unfold c in G. rewrite (global_v dim sbs cA cB k mult m i ids cl A Bm v r) in G by exact PA. 
          pose proof (vu_lt faces_of dim sbs cA cB k m i ids cl Hi NF _ (nth_In _ 0 (eq_ind_r (fun n => q < n) PA (vu_length dim sbs cA k m i ids)))) as Q. apply (Nat.lt_irrefl (nc * cA + nf * fA)). eapply Nat.le_lt_trans; [|exact Q]. etransitivity; [|apply Nat.eq_le_incl; symmetry; exact G]. unfold mu, multiplier. lia. }
    destruct (Z kd calls cs ps HC HP) as [Z1 Z2]. rewrite Z1, ROW. exact Z2.
  Qed.
  (** A face that is not prescribed starts at the place [global_face_offset] reports. *)
  Theorem C137_face_offset : forall (m : mesh C F) (ops : list (bc_op Sc P V)) bnd rounds css a f j, st_setting m ops bnd -> st_history m rounds css -> st_run m bnd rounds = Ok a ->
    nth_error (m_faces m) j = Some f -> dirichlet_face m ops j = false ->
    global_face_offset fltb dim sbs cA k m f a = Ok (rank (st_fixed m ops) (length (m_cells m) * cA + j * fA)).
  Proof.
    intros m ops bnd rounds css a f j ST HR E Hf Dj. destruct (st_run_ok m ops bnd ST rounds css HR) as (a' & E' & B & _). rewrite E in E'. injection E' as <-. destruct ST as [OC O W R D T].
    exact (face_offset_ok cltb fltb faces_of dim sbs cA cB k O m ops W a f j B Hf Dj).
  Qed.

  (** ** C138: stokes_assembler_alg.  Whatever was done before: after the left-hand side has been
      assembled, every assembly of right-hand sides yields the full system of the last left-hand side
      and these loads. *)
  Theorem C138_split_assembly : forall (m : mesh C F) (ops : list (bc_op Sc P V)) bnd phases lcalls lcs rs rcalls rcs, st_setting m ops bnd -> Forall (phase_ok m) phases ->
    Forall2 (lhs_adds m) lcalls lcs -> Forall (phase_ok m) (map Rhs rs) -> Forall2 (rhs_adds m) rcalls rcs ->
    exists a, alg_run m bnd (phases ++ [Lhs lcalls] ++ map Rhs rs ++ [Rhs rcalls]) = Ok a /\ st_system m ops 2 (lcs ++ rcs) a.
  Proof.
    intros m ops bnd phases lcalls lcs rs rcalls rcs ST HP HL HR HC. pose proof ST as [OC O W R D T].
    destruct (st_make_ok (K := K) cltb fltb faces_of smul one dim sbs cA cB k vproject O m ops bnd W R D T) as (a0 & E0 & B0 & T0).
    destruct (alg_phases_ok m ops bnd ST phases HP a0 (conj B0 T0)) as (a1 & E1 & G1).
    destruct (alg_lhs_phase m ops bnd ST lcalls lcs a1 HL G1) as (a2 & E2 & G2 & L2).
    destruct (alg_rhs_phases m ops bnd ST rs HR lcs a2 G2 L2) as (a3 & E3 & G3 & L3).
    destruct (alg_rhs_phase m ops bnd ST rcalls rcs a3 HC G3) as (a4 & E4 & G4 & L4).
    exists a4. split; [|apply L4; exact L3]. unfold alg_run. rewrite E0. cbn [bind]. rewrite VAsm2_Proofs.floop_app, E1. cbn [bind app floop]. rewrite E2. cbn [bind]. rewrite VAsm2_Proofs.floop_app, E3. cbn [bind floop]. rewrite E4. reflexivity.
  Qed.
  (** The velocities and pressures are read back as in C137. *)
  Theorem C138_take : forall (m : mesh C F) (ops : list (bc_op Sc P V)) bnd phases a x i cl ids, st_setting m ops bnd -> Forall (phase_ok m) phases -> alg_run m bnd phases = Ok a ->
    vsize x = st_size a -> nth_error (m_cells m) i = Some cl -> numbered (m_faces m) ids (faces_of cl) ->
    take_velocity cltb fltb faces_of smul dim sbs cA k vproject m bnd cl x a = Ok (map (st_value m ops 2 x) (velocity_unknowns cA fA (length (m_cells m)) i ids)) /\
    take_pressure cltb dim sbs cA cB k m cl x a = Ok (map (st_value m ops 2 x) (pressure_unknowns cA fA cB (length (m_cells m)) (length (m_faces m)) i)).
  Proof.
    intros m ops bnd phases a x i cl ids ST HP E VX Hi NF. pose proof ST as [OC O W R D T].
    destruct (st_make_ok (K := K) cltb fltb faces_of smul one dim sbs cA cB k vproject O m ops bnd W R D T) as (a0 & E0 & B0 & T0).
    destruct (alg_phases_ok m ops bnd ST phases HP a0 (conj B0 T0)) as (a1 & E1 & B & _). unfold alg_run in E. rewrite E0 in E. cbn [bind] in E. rewrite E1 in E. injection E as <-.
    pose proof B as (_ & _ & SZ). rewrite Nat.mul_1_l in SZ. split.
    - apply (take_velocity_ok cltb fltb faces_of smul one dim sbs cA cB k vproject OC O m ops bnd W R a1 x i cl ids B); [rewrite VX, SZ; apply le_n|exact Hi|exact NF].
    - apply (take_pressure_ok cltb fltb faces_of smul one dim sbs cA cB k vproject OC m ops W 2 a1 x i cl B); [rewrite VX, SZ; apply le_n|exact Hi].
  Qed.

  (** ** C139: the kinds of Dirichlet conditions *)
  (** An unknown is prescribed when the condition in force on its face imposes its component; the
      value is zero where the face is clamped. *)
  Section Meant.
    Context (m : mesh C F) (ops : list (bc_op Sc P V)).
    Let nc := length (m_cells m).
    Let nf := length (m_faces m).
    Definition meant_fixed (I : nat) : bool := match face_of_unknown cA fA nc nf I with Some (j, i) => fixed_at dim m ops j i | None => false end.
    Definition meant_at (odi j i : nat) : K :=
      match condition m ops j with Some r => if r_type r =? CLAMPED then c0 else data_at m ops odi j i | None => data_at m ops odi j i end.
    Definition meant_given (odi I : nat) : K := face_value cA fA nc nf (meant_at odi) I.
  End Meant.
  Lemma assembled_ext n nb dir dir' (d d' : nat -> K) cs A b : (forall I, dir I = dir' I) -> (forall I, d I = d' I) -> assembled dir n nb d cs A b -> assembled dir' n nb d' cs A b.
  Proof.
    intros HD Hd [Q1 Q2 Q3 Q4 Q5]. assert (RK : forall I, rank dir I = rank dir' I) by (intros I; apply rank_ext; auto).
    assert (FR : forall I, free dir' nb I = free dir nb I) by (intros I; unfold free; rewrite HD; reflexivity).
    assert (PO : forall I, position dir' nb I = position dir nb I) by (intros I; unfold position; rewrite RK; reflexivity).
    constructor; rewrite <- ?RK; try assumption.
    - intros I J HI HJ FI FJ. rewrite !PO. rewrite FR in FI, FJ. auto.
    - intros I HI FI. rewrite PO. rewrite FR in FI. rewrite (Q5 I HI FI). f_equal. apply sumn_ext. intros J _. rewrite FR, Hd. reflexivity.
  Qed.
  (** When every condition in force is a plain DIRICHLET one, this is what is assembled. *)
  Theorem C139_condition_types_partial : forall (m : mesh C F) (ops : list (bc_op Sc P V)) bnd, st_setting m ops bnd -> (forall i r, condition m ops i = Some r -> r_type r = DIRICHLET) ->
    (forall rounds css kd calls cs, st_history m rounds css -> Forall2 (st_adds m kd) calls cs ->
       exists a, st_run m bnd (rounds ++ [(kd, calls)]) = Ok a /\ assembled (meant_fixed m ops) (st_all m) 1 (meant_given m ops (odi_of kd)) cs (st_LHS a) (st_RHS a)) /\
    (forall phases lcalls lcs rcalls rcs, Forall (phase_ok m) phases -> Forall2 (lhs_adds m) lcalls lcs -> Forall2 (rhs_adds m) rcalls rcs ->
       exists a, alg_run m bnd (phases ++ [Lhs lcalls; Rhs rcalls]) = Ok a /\ assembled (meant_fixed m ops) (st_all m) 1 (meant_given m ops 2) (lcs ++ rcs) (st_LHS a) (st_RHS a)).
  Proof.
    intros m ops bnd ST HT.
    assert (H1 : forall I, st_fixed m ops I = meant_fixed m ops I).
    { intros I. unfold st_fixed, meant_fixed, on_face. destruct (face_of_unknown _ _ _ _ I) as [[j i]|]; [|reflexivity]. unfold fixed_at, dirichlet_face. pose proof (HT j) as Hj. unfold condition in *.
      destruct (nth_error (m_binfo m) j) as [d|]; [|reflexivity]. destruct (last_reg Dirichlet d ops None) as [r|]; [|reflexivity]. rewrite (Hj r eq_refl). reflexivity. }
    assert (H2 : forall odi I, st_given m ops odi I = meant_given m ops odi I).
    { intros odi I. unfold st_given, meant_given, face_value. destruct (face_of_unknown _ _ _ _ I) as [[j i]|]; [|reflexivity]. unfold meant_at. pose proof (HT j) as Hj.
      destruct (condition m ops j) as [r|]; [|reflexivity]. rewrite (Hj r eq_refl). reflexivity. }
    split.
    - intros rounds css kd calls cs HR HC. destruct (C136_stokes_rounds m ops bnd rounds css kd calls cs ST HR HC) as (a & E & AS). exists a. split; [exact E|]. exact (assembled_ext _ _ _ _ _ _ _ _ _ H1 (H2 _) AS).
    - intros phases lcalls lcs rcalls rcs HP HL HC. destruct (C138_split_assembly m ops bnd phases lcalls lcs [] rcalls rcs ST HP HL (Forall_nil _) HC) as (a & E & AS). exists a. split; [exact E|]. exact (assembled_ext _ _ _ _ _ _ _ _ _ H1 (H2 _) AS).
  Qed.

  (** ** C140: what is read back from a solution satisfies the equations *)
  (** [y] gives on each cell the velocity and pressure read back; the multiplier is the last unknown *)
  Definition read_back (m : mesh C F) (bnd : bc Sc P V) (x : vec K) (a : stokes K) (y : nat -> K) : Prop :=
    (forall i cl ids, nth_error (m_cells m) i = Some cl -> numbered (m_faces m) ids (faces_of cl) ->
       take_velocity cltb fltb faces_of smul dim sbs cA k vproject m bnd cl x a = Ok (map y (velocity_unknowns cA fA (length (m_cells m)) i ids)) /\
       take_pressure cltb dim sbs cA cB k m cl x a = Ok (map y (pressure_unknowns cA fA cB (length (m_cells m)) (length (m_faces m)) i))) /\
    y (multiplier cA fA cB (length (m_cells m)) (length (m_faces m))) = vent x (st_size a - 1).
  (** the equations of the unknowns that are not prescribed *)
  Definition satisfies (m : mesh C F) (ops : list (bc_op Sc P V)) (cs : list (contribution K)) (y : nat -> K) : Prop :=
    forall I, I < st_all m -> st_fixed m ops I = false -> sumn (st_all m) (fun J => cmul (full_mat 1 cs I J) (y J)) = full_rhs 1 cs I.
  Lemma multiplier_free (m : mesh C F) (ops : list (bc_op Sc P V)) : st_fixed m ops (multiplier cA fA cB (length (m_cells m)) (length (m_faces m))) = false.
  Proof. unfold st_fixed, on_face, multiplier. rewrite fou_rest. reflexivity. Qed.
  Lemma multiplier_last (m : mesh C F) (ops : list (bc_op Sc P V)) odi (x : vec K) (a : stokes K) : st_size a = rank (st_fixed m ops) (st_all m) ->
    st_value m ops odi x (multiplier cA fA cB (length (m_cells m)) (length (m_faces m))) = vent x (st_size a - 1).
  Proof.
    intros ->. set (mu := multiplier _ _ _ _ _). assert (MF : st_fixed m ops mu = false) by apply multiplier_free. unfold st_value, completed. rewrite free1, MF. cbn [negb]. rewrite position1. f_equal.
    unfold st_all, all_unknowns. fold mu. rewrite Nat.add_1_r. cbn [rank]. rewrite MF. lia.
  Qed.
  (** With assemble_alg, and with assemble whenever the two projections of the prescribed data agree
      (quadrature raised by the face degree when assembling, by two when reading back). *)
  Theorem C140_read_back_partial : forall (m : mesh C F) (ops : list (bc_op Sc P V)) bnd rounds css kd calls cs a x, st_setting m ops bnd -> st_history m rounds css -> Forall2 (st_adds m kd) calls cs ->
    st_run m bnd (rounds ++ [(kd, calls)]) = Ok a -> vsize x = vsize (st_RHS a) ->
    kd = Alg \/ (forall f g i, vproject k f g i = vproject 2 f g i) ->
    exists y, read_back m bnd x a y /\ (solves (st_LHS a) x (st_RHS a) <-> satisfies m ops cs y).
  Proof.
    intros m ops bnd rounds css kd calls cs a x ST HR HC E VX HK. exists (st_value m ops 2 x).
    assert (EV : forall J, st_value m ops (odi_of kd) x J = st_value m ops 2 x J).
    { destruct HK as [->|HK]; [reflexivity|]. destruct kd; [|reflexivity]. intros J. cbn [odi_of]. unfold st_value, completed. destruct (free _ 1 J); [reflexivity|]. unfold st_given, face_value.
      destruct (face_of_unknown _ _ _ _ J) as [[j i]|]; [|reflexivity]. unfold data_at. destruct (nth_error (m_faces m) j), (nth_error (m_binfo m) j); try reflexivity.
      destruct (last_reg _ _ _ _) as [[? ? [fn|]]|]; try reflexivity. apply HK. }
    assert (HH : st_history m (rounds ++ [(kd, calls)]) (css ++ [cs])) by (apply Forall2_app; [exact HR|constructor; [exact HC|constructor]]).
    destruct (st_run_last m ops bnd ST rounds css kd calls cs HR HC) as (a' & E' & ((_ & _ & SZ) & _) & AS). rewrite E in E'. injection E' as <-.
    rewrite Nat.mul_1_l in SZ. pose proof (as_size _ _ _ _ _ _ _ AS) as VS. rewrite Nat.mul_1_l in VS.
    split.
    - split; [|exact (multiplier_last m ops 2 x a SZ)]. intros i cl ids Hi NF.
      destruct (C137_take m ops bnd _ _ a x i cl ids ST HH E) as [T1 T2]; [rewrite VX, VS; symmetry; exact SZ|exact Hi|exact NF|]. split; [exact T1|apply T2].
    - rewrite (C137_solutions m ops bnd rounds css kd calls cs a x ST HR HC E VX). unfold satisfies. split; intros H I HI FI; rewrite <- (H I HI FI); apply sumn_ext; intros J _; rewrite EV; reflexivity.
  Qed.
  (** The same for stokes_assembler_alg, unconditionally. *)
  Theorem C138_read_back : forall (m : mesh C F) (ops : list (bc_op Sc P V)) bnd phases lcalls lcs rs rcalls rcs x a, st_setting m ops bnd -> Forall (phase_ok m) phases ->
    Forall2 (lhs_adds m) lcalls lcs -> Forall (phase_ok m) (map Rhs rs) -> Forall2 (rhs_adds m) rcalls rcs ->
    alg_run m bnd (phases ++ [Lhs lcalls] ++ map Rhs rs ++ [Rhs rcalls]) = Ok a -> vsize x = vsize (st_RHS a) ->
    exists y, read_back m bnd x a y /\ (solves (st_LHS a) x (st_RHS a) <-> satisfies m ops (lcs ++ rcs) y).
  Proof.
    intros m ops bnd phases lcalls lcs rs rcalls rcs x a ST HP HL HR HC E VX. exists (st_value m ops 2 x).
    assert (HA : Forall (phase_ok m) (phases ++ [Lhs lcalls] ++ map Rhs rs ++ [Rhs rcalls])).
    { apply Forall_app. split; [exact HP|]. constructor; [eexists; exact HL|]. apply Forall_app. split; [exact HR|]. constructor; [eexists; exact HC|constructor]. }
    destruct (C138_split_assembly m ops bnd phases lcalls lcs rs rcalls rcs ST HP HL HR HC) as (a' & E' & AS). rewrite E in E'. injection E' as <-.
    pose proof (as_size _ _ _ _ _ _ _ AS) as VS. rewrite Nat.mul_1_l in VS.
    assert (SZ : st_size a = rank (st_fixed m ops) (st_all m)).
    { pose proof ST as [OC O W R D T]. destruct (st_make_ok (K := K) cltb fltb faces_of smul one dim sbs cA cB k vproject O m ops bnd W R D T) as (a0 & E0 & B0 & T0).
      destruct (alg_phases_ok m ops bnd ST _ HA a0 (conj B0 T0)) as (a1 & E1 & (_ & _ & SZ) & _). unfold alg_run in E. rewrite E0 in E. cbn [bind] in E. rewrite E1 in E. injection E as <-. rewrite Nat.mul_1_l in SZ. exact SZ. }
    split.
    - split; [|exact (multiplier_last m ops 2 x a SZ)]. intros i cl ids Hi NF. apply (C138_take m ops bnd _ a x i cl ids ST HA E); [rewrite VX, VS; symmetry; exact SZ|exact Hi|exact NF].
    - rewrite (C30_solutions K _ _ _ _ _ _ _ x AS VX). rewrite Nat.mul_1_r. unfold satisfies. split; intros H I HI FI; (etransitivity; [|apply H; [exact HI|]]); try reflexivity.
      + rewrite free1. fold (st_fixed m ops I). rewrite FI. reflexivity.
      + rewrite free1 in FI. apply negb_true_iff in FI. exact FI.
  Qed.
End Stokes.

(** ** Concrete cases: two triangles, two velocity unknowns per cell, two per face, one pressure
    unknown per cell, values in Z *)
Definition ex_st_project (odi : nat) (f : list nat) (g : nat -> nat) (i : nat) : Zring := Z.of_nat (g (list_sum f) + 100 * odi + i) : Zring.
Definition ex_st_mult (cl : list nat) (i : nat) : Zring := Z.of_nat (list_sum cl + i) : Zring.
Definition ex_A : mat Zring := mkMat 8 8 (fun i j => Z.of_nat (10 * i + j + 1) : Zring).
Definition ex_B : mat Zring := mkMat 1 8 (fun _ j => Z.of_nat (j + 3) : Zring).
Definition ex_v : vec Zring := mkVec 8 (fun i => Z.of_nat (i + 1) : Zring).
Definition ex_st_run (ops : list (bc_op nat nat nat)) rounds := st_run (K := Zring) lex_ltb lex_ltb tri_faces Nat.mul 2 ex_sbs 2 1 0 ex_st_project ex_st_mult ex_mesh (ex_bc ops) rounds.
Definition ex_alg_run (ops : list (bc_op nat nat nat)) phases := alg_run (K := Zring) lex_ltb lex_ltb tri_faces Nat.mul 2 ex_sbs 2 1 0 ex_st_project ex_st_mult ex_mesh (ex_bc ops) phases.
Definition ex_st_setting ops := st_setting (Sc := nat) (P := nat) (V := nat) lex_ltb lex_ltb tri_faces 1 2 ex_mesh ops (ex_bc ops).
Definition ex_vu (i : nat) : list nat := velocity_unknowns 2 2 2 i (nth i [[0;2;1]; [2;4;3]] []).
Definition ex_pu (i : nat) : list nat := pressure_unknowns 2 2 1 2 5 i ++ [multiplier 2 2 1 2 5].
Definition ex_cl (i : nat) : list nat := nth i [[0;1;2]; [1;2;3]] [].
(** the contribution of cell [i], [r] entries of the load *)
Definition ex_con (A B : mat Zring) (v : vec Zring) (i r : nat) : contribution Zring := mkC (ex_vu i ++ ex_pu i) (saddle 8 1 A B (ex_st_mult (ex_cl i))) (padded 10 r v).
Definition ex_load_con (i : nat) : contribution Zring := mkC (ex_vu i) (mkMat 8 8 (fun _ _ => c0)) ex_v.
Definition ex_st_ops : list (bc_op nat nat nat) := [AddDirichlet DIRICHLET 0 (fun p => p + 3); AddNeumann NEUMANN 1 (fun p => p); AddDirichlet DIRICHLET 3 (fun p => p); SetFactor 2].
Ltac ex_sts := split; [exact lex_ltb_sto|exact lex_ltb_sto|exact ex_wf|vm_compute; reflexivity|auto|apply ex_supported; repeat constructor; vm_compute; tauto].
Lemma ex_st_adds i kd A B v : i < 2 -> mrows A = 8 -> mcols A = 8 -> mrows B = 1 -> mcols B = 8 -> vsize v = 8 ->
  st_adds tri_faces 2 ex_sbs 2 1 0 ex_st_mult ex_mesh kd (ex_cl i, A, B, v) (ex_con A B v i (match kd with Plain => 2 | Alg => 8 end)).
Proof.
  intros Hi HA1 HA2 HB1 HB2 HV. exists i, (nth i [[0;2;1]; [2;4;3]] []). destruct i as [|[|]]; [| |lia]; (split; [reflexivity|]); (split; [repeat constructor|]); cbv zeta; (split; [destruct kd; reflexivity|]);
    (split; [exact HA1|]; split; [exact HA2|]; split; [exact HB1|]; split; [exact HB2|]; rewrite HV; destruct kd; cbn; lia).
Qed.
Lemma ex_lhs_adds i : i < 2 -> lhs_adds tri_faces 2 ex_sbs 2 1 0 ex_st_mult ex_mesh (ex_cl i, ex_A, ex_B) (ex_con ex_A ex_B (mkVec 0 (fun _ => c0)) i 0).
Proof.
  intros Hi. exists i, (nth i [[0;2;1]; [2;4;3]] []). destruct i as [|[|]]; [| |lia]; (split; [reflexivity|]); (split; [repeat constructor|]); cbv zeta; (split; [reflexivity|]); repeat split; apply le_n.
Qed.
Lemma ex_rhs_adds i : i < 2 -> rhs_adds tri_faces 2 ex_sbs 2 0 ex_mesh (ex_cl i, ex_v) (ex_load_con i).
Proof.
  intros Hi. exists i, (nth i [[0;2;1]; [2;4;3]] []). destruct i as [|[|]]; [| |lia]; (split; [reflexivity|]); (split; [repeat constructor|]); cbv zeta; (split; [reflexivity|]); reflexivity.
Qed.
Definition ex_st_call (i : nat) : st_call Zring (list nat) := (ex_cl i, ex_A, ex_B, ex_v).
Definition ex_st_kinds (kd : st_kind) : list (contribution Zring) := map (fun i => ex_con ex_A ex_B ex_v i (match kd with Plain => 2 | Alg => 8 end)) [1; 0].
Lemma ex_st_calls kd : Forall2 (st_adds tri_faces 2 ex_sbs 2 1 0 ex_st_mult ex_mesh kd) (map ex_st_call [1; 0]) (ex_st_kinds kd).
Proof. constructor; [|constructor; [|constructor]]; apply ex_st_adds; auto. Qed.
(** two rounds of different kinds *)
Example C136_hypotheses_met :
  ex_st_setting ex_st_ops /\ (forall i r, condition ex_mesh ex_st_ops i = Some r -> r_type r = DIRICHLET) /\
  st_history tri_faces 2 ex_sbs 2 1 0 ex_st_mult ex_mesh [(Alg, map ex_st_call [1; 0]); (Plain, map ex_st_call [1; 0])] [ex_st_kinds Alg; ex_st_kinds Plain] /\
  match ex_st_run ex_st_ops [(Alg, map ex_st_call [1; 0]); (Plain, map ex_st_call [1; 0])] with
  | Ok a => st_size a = 13 /\ map (ment (st_LHS a) 0) (seq 0 13) = [1; 2; 0; 0; 5; 6; 0; 0; 0; 0; 3; 0; 0]%Z /\ map (vent (st_RHS a)) (seq 0 13) = [-127; -386; 1; 2; -1168; -1428; 0; 0; 0; 0; -180; 0; 0]%Z
  | _ => False end.
Proof.
  split; [ex_sts|]. split; [intros i r H; pose proof (ex_condition _ _ _ H) as L; do 5 (destruct i as [|i]; [vm_compute in H; try discriminate; injection H as <-; reflexivity|]); lia|].
  split; [repeat (constructor; [apply ex_st_calls|]); constructor|]. vm_compute. auto.
Qed.

(** a left-hand side, then two right-hand sides *)
Example C138_hypotheses_met :
  Forall (phase_ok tri_faces 2 ex_sbs 2 1 0 ex_st_mult ex_mesh) [Rhs [(ex_cl 1, ex_v)]; Lhs [(ex_cl 0, ex_A, ex_B)]] /\
  Forall2 (lhs_adds tri_faces 2 ex_sbs 2 1 0 ex_st_mult ex_mesh) (map (fun i => (ex_cl i, ex_A, ex_B)) [0; 1]) (map (fun i => ex_con ex_A ex_B (mkVec 0 (fun _ => c0)) i 0) [0; 1]) /\
  Forall2 (rhs_adds tri_faces 2 ex_sbs 2 0 ex_mesh) (map (fun i => (ex_cl i, ex_v)) [1; 0]) (map ex_load_con [1; 0]) /\
  match ex_alg_run ex_st_ops [Rhs [(ex_cl 1, ex_v)]; Lhs [(ex_cl 0, ex_A, ex_B)]; Lhs (map (fun i => (ex_cl i, ex_A, ex_B)) [0; 1]); Rhs [(ex_cl 0, ex_v)]; Rhs (map (fun i => (ex_cl i, ex_v)) [1; 0])] with
  | Ok a => map (vent (st_RHS a)) (seq 0 13) = [-4527; -12786; 1; 2; -37560; -45818; 7; 8; 5; 6; -6180; 0; 0]%Z /\
      take_velocity lex_ltb lex_ltb tri_faces Nat.mul 2 ex_sbs 2 0 ex_st_project ex_mesh (ex_bc ex_st_ops) (ex_cl 0) (mkVec (K := Zring) 13 (fun i => Z.of_nat i)) a = Ok [0; 1; 208; 209; 4; 5; 204; 205]%Z /\
      take_pressure lex_ltb 2 ex_sbs 2 1 0 ex_mesh (ex_cl 0) (mkVec (K := Zring) 13 (fun i => Z.of_nat i)) a = Ok [10]%Z
  | _ => False end.
Proof.
  split; [constructor; [eexists; constructor; [exact (ex_rhs_adds 1 ltac:(lia))|constructor]|constructor; [eexists; constructor; [exact (ex_lhs_adds 0 ltac:(lia))|constructor]|constructor]]|].
  split; [constructor; [apply ex_lhs_adds; lia|constructor; [apply ex_lhs_adds; lia|constructor]]|]. split; [constructor; [apply ex_rhs_adds; lia|constructor; [apply ex_rhs_adds; lia|constructor]]|].
  vm_compute. auto.
Qed.
(** finalize_rhs adds the prescribed values again each time it is called: one call for each
    initialize_rhs is needed *)
Example C138_finalize_rhs_twice :
  match ex_alg_run ex_st_ops [Lhs [(ex_cl 0, ex_A, ex_B)]; Rhs []] with
  | Ok a => vent (st_RHS a) 0 = (-4528)%Z /\ vent (st_RHS (alg_finalize_rhs a)) 0 = (-9056)%Z
  | _ => False end.
Proof. vm_compute. auto. Qed.

(** ** C139: a condition on one component, and a clamped face *)
Definition ex_one (t : nat) : list (bc_op nat nat nat) := [AddDirichlet t 0 (fun p => p + 3)].
Definition ex_meant (ops : list (bc_op nat nat nat)) odi cs (a : stokes Zring) : Prop :=
  assembled (meant_fixed 2 ex_sbs 2 0 ex_mesh ops) (st_all 2 ex_sbs 2 1 0 ex_mesh) 1 (meant_given Nat.mul 1 2 ex_sbs 2 0 ex_st_project ex_mesh ops odi) cs (st_LHS a) (st_RHS a).
Lemma ex_size_refutes ops odi cs o : match o with Ok a => negb (mrows (st_LHS a) =? 1 * rank (meant_fixed 2 ex_sbs 2 0 ex_mesh ops) (st_all 2 ex_sbs 2 1 0 ex_mesh)) | _ => false end = true -> exists a, o = Ok a /\ ~ ex_meant ops odi cs a.
Proof. destruct o as [a|e|]; try discriminate. intros H. exists a. split; [reflexivity|]. intros [Q _ _ _ _]. rewrite Q, Nat.eqb_refl in H. discriminate. Qed.
Definition ex_row_wrong (ops : list (bc_op nat nat nat)) odi cs (I : nat) (o : outcome (stokes Zring)) : bool :=
  let N := st_all 2 ex_sbs 2 1 0 ex_mesh in let dir := meant_fixed 2 ex_sbs 2 0 ex_mesh ops in
  match o with
  | Ok a => (I <? N * 1) && free dir 1 I && negb (Z.eqb (vent (st_RHS a) (position dir 1 I))
      (csub (full_rhs 1 cs I) (sumn (N * 1) (fun J => if free dir 1 J then c0 else cmul (full_mat 1 cs I J) (meant_given Nat.mul 1 2 ex_sbs 2 0 ex_st_project ex_mesh ops odi J)))))
  | _ => false
  end.
Lemma ex_row_refutes ops odi cs I o : ex_row_wrong ops odi cs I o = true -> exists a, o = Ok a /\ ~ ex_meant ops odi cs a.
Proof.
  unfold ex_row_wrong. destruct o as [a|e|]; try discriminate. intros H. apply andb_prop in H. destruct H as [H H3]. apply andb_prop in H. destruct H as [H1 H2].
  exists a. split; [reflexivity|]. intros [_ _ _ _ A]. apply Nat.ltb_lt in H1. rewrite (A I H1 H2) in H3. rewrite Z.eqb_refl in H3. discriminate.
Qed.
(** Both components are eliminated when only the first one is prescribed, and a clamped face gets the
    values of the registered function. *)
Theorem C139_condition_types_refuted :
  ex_st_setting (ex_one DX) /\ ex_st_setting (ex_one CLAMPED) /\
  (exists a, ex_st_run (ex_one DX) [(Alg, map ex_st_call [1; 0])] = Ok a /\ ~ ex_meant (ex_one DX) 2 (ex_st_kinds Alg) a) /\
  (exists a, ex_st_run (ex_one CLAMPED) [(Alg, map ex_st_call [1; 0])] = Ok a /\ ~ ex_meant (ex_one CLAMPED) 2 (ex_st_kinds Alg) a).
Proof.
  split; [ex_sts|]. split; [ex_sts|]. split; [apply ex_size_refutes; vm_compute; reflexivity|]. apply (ex_row_refutes _ _ _ 0). vm_compute. reflexivity.
Qed.

(** ** C140: assemble, then take_velocity, with projections that depend on the quadrature *)
Definition ex_A1 : mat Zring := mkMat (K := Zring) 8 8 (fun i j => if (i =? 0) && ((j =? 0) || (j =? 2)) then 1%Z else 0%Z).
Definition ex_B0 : mat Zring := mkMat (K := Zring) 1 8 (fun _ _ => 0%Z).
Definition ex_v1 : vec Zring := mkVec (K := Zring) 8 (fun i => if i =? 0 then 7%Z else 0%Z).
Definition ex_x (b : Z) : vec Zring := mkVec (K := Zring) 15 (fun i => if i =? 0 then b else 0%Z).
Definition ex_c1 : list (contribution Zring) := [ex_con ex_A1 ex_B0 ex_v1 0 2].
Definition ex_solved (o : outcome (stokes Zring)) : bool :=
  match o with
  | Ok a => (vsize (st_RHS a) =? 15) && (mrows (st_LHS a) =? 15) && (mcols (st_LHS a) =? 15) && (st_size a =? 15) &&
      forallb (fun i => Z.eqb (sumn (K := Zring) 15 (fun j => cmul (ment (st_LHS a) i j) (vent (ex_x 3) j))) (vent (st_RHS a) i)) (seq 0 15)
  | _ => false end.
Lemma ex_is_solved o : ex_solved o = true -> exists a, o = Ok a /\ vsize (ex_x 3) = vsize (st_RHS a) /\ vsize (ex_x 3) = st_size a /\ solves (st_LHS a) (ex_x 3) (st_RHS a).
Proof.
  unfold ex_solved. destruct o as [a|e|]; try discriminate. intros H. apply andb_prop in H. destruct H as [H H5]. apply andb_prop in H. destruct H as [H H4]. apply andb_prop in H. destruct H as [H H3]. apply andb_prop in H. destruct H as [H1 H2].
  apply Nat.eqb_eq in H1, H2, H3, H4. exists a. split; [reflexivity|]. split; [symmetry; exact H1|]. split; [symmetry; exact H4|]. split; [exact H3|]. split; [rewrite H1; exact H2|].
  rewrite H2, H3. intros i Hi. rewrite forallb_forall in H5. apply Z.eqb_eq. apply (H5 i). apply in_seq. lia.
Qed.
Theorem C140_read_back_refuted :
  ex_st_setting (ex_one DIRICHLET) /\ Forall2 (st_adds tri_faces 2 ex_sbs 2 1 0 ex_st_mult ex_mesh Plain) [(ex_cl 0, ex_A1, ex_B0, ex_v1)] ex_c1 /\
  exists a x, ex_st_run (ex_one DIRICHLET) [(Plain, [(ex_cl 0, ex_A1, ex_B0, ex_v1)])] = Ok a /\ vsize x = vsize (st_RHS a) /\ solves (st_LHS a) x (st_RHS a) /\
    forall y, read_back lex_ltb lex_ltb tri_faces Nat.mul 2 ex_sbs 2 1 0 ex_st_project ex_mesh (ex_bc (ex_one DIRICHLET)) x a y ->
      ~ satisfies 2 ex_sbs 2 1 0 ex_mesh (ex_one DIRICHLET) ex_c1 y.
Proof.
  assert (ST : ex_st_setting (ex_one DIRICHLET)) by ex_sts. split; [exact ST|].
  assert (HC : Forall2 (st_adds tri_faces 2 ex_sbs 2 1 0 ex_st_mult ex_mesh Plain) [(ex_cl 0, ex_A1, ex_B0, ex_v1)] ex_c1) by (constructor; [apply ex_st_adds; auto|constructor]). split; [exact HC|].
  destruct (ex_is_solved (ex_st_run (ex_one DIRICHLET) [(Plain, [(ex_cl 0, ex_A1, ex_B0, ex_v1)])])) as (a & E & V1 & V2 & SO); [vm_compute; reflexivity|].
  exists a, (ex_x 3). split; [exact E|]. split; [exact V1|]. split; [exact SO|]. intros y [RB _] SA.
  assert (NF : numbered (m_faces ex_mesh) [0;2;1] (tri_faces (ex_cl 0))) by (repeat constructor).
  destruct (RB 0 (ex_cl 0) [0;2;1] eq_refl NF) as [T _].
  assert (HH : st_history tri_faces 2 ex_sbs 2 1 0 ex_st_mult ex_mesh [(Plain, [(ex_cl 0, ex_A1, ex_B0, ex_v1)])] [ex_c1]) by (constructor; [exact HC|constructor]).
  destruct (C137_take lex_ltb lex_ltb tri_faces Nat.mul 1 2 ex_sbs 2 1 0 ex_st_project ex_st_mult ex_mesh _ _ _ _ a (ex_x 3) 0 (ex_cl 0) [0;2;1] ST HH E V2 eq_refl NF) as [T' _].
  rewrite T in T'. injection T' as T0 _ T4 _ _ _ _ _. specialize (SA 0 ltac:(vm_compute; lia) eq_refl).
  assert (FM : forall J, J < 17 -> full_mat 1 ex_c1 0 J = if (J =? 0) || (J =? 4) then LinAlg.c1 else c0) by (intros J HJ; do 17 (destruct J as [|J]; [vm_compute; reflexivity|]); lia).
  rewrite (sumn_ext (st_all 2 ex_sbs 2 1 0 ex_mesh) _ (fun J => if (J =? 0) || (J =? 4) then y J else c0)) in SA.
  2:{ intros J HJ. rewrite FM by exact HJ. destruct ((J =? 0) || (J =? 4)); cbn; [destruct (y J); reflexivity|reflexivity]. }
  change (st_all 2 ex_sbs 2 1 0 ex_mesh) with 17 in SA. cbn [sumn Nat.eqb orb] in SA. rewrite T0, T4 in SA. vm_compute in SA. discriminate.
Qed.

Print Assumptions C136_stokes_rounds.
Print Assumptions C136_size.
Print Assumptions C137_take.
Print Assumptions C137_solutions.
Print Assumptions C137_zero_mean.
Print Assumptions C137_face_offset.
Print Assumptions C138_split_assembly.
Print Assumptions C138_take.
Print Assumptions C138_read_back.
Print Assumptions C139_condition_types_partial.
Print Assumptions C139_condition_types_refuted.
Print Assumptions C140_read_back_partial.
Print Assumptions C140_read_back_refuted.
