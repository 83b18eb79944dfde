(** C126-C131: the assemblers for vector-valued face unknowns (assembler_mechanics,
    vector_primal_hho_assembler, vector_mechanics_hho_assembler). *)
From Coq Require Import List Arith Bool Lia Permutation ZArith.
From Verif Require Import Common LinAlg Mesh_Model Mesh_Spec Mesh_Proofs Elem_Model Elem_Proofs Mesh_Properties
  BC_Model BC_Spec BC_Proofs BC_Properties Cond_Spec Cond_Properties Degree_Model Asm_Model Asm_Spec Asm_Proofs Asm2_Proofs Asm3_Proofs Asm_Properties
  VAsm_Model VAsm_Spec VAsm_Runs VAsm_Proofs VAsm2_Proofs VAsm3_Proofs.
Import ListNotations.

Lemma nth_error_all {A} : forall l l' : list A, (forall i, nth_error l i = nth_error l' i) -> l = l'.
Proof.
  induction l as [|a l IH]; intros [|b l'] H; [reflexivity|specialize (H 0); discriminate|specialize (H 0); discriminate|].
  f_equal; [specialize (H 0); injection H as H; exact H|]. apply IH. intros i. exact (H (S i)).
Qed.

Section Main.
  Context {K : cring} {C F Sc P V : Type} (cltb : C -> C -> bool) (fltb : F -> F -> bool) (faces_of : C -> list F).
  Context (smul : Sc -> V -> V) (one : Sc) (dim : nat) (sbs : nat -> nat) (project load : F -> nat -> (P -> V) -> nat -> K).
  Let ses_m := mech_session (K := K) fltb faces_of smul dim sbs project load.
  Let ses_p := prim_session (K := K) fltb faces_of smul dim sbs project load.
  Let adds := vadds (K := K) faces_of smul one dim sbs load.

  (** The mesh is well formed, the boundary conditions are those after the calls [ops], they make sense
      in the dimension of the mesh, and there is one degree per face. *)
  Record setting (m : mesh C F) (ops : list (bc_op Sc P V)) (bnd : bc Sc P V) (deg : list degree_info) : Prop := {
    st_order : strict_total_order fltb;
    st_mesh : wf_mesh cltb fltb faces_of m;
    st_bc : reached fltb one m ops bnd;
    st_dim : dim = 2 \/ dim = 3;
    st_types : supported dim m ops;
    st_degrees : length deg = length (m_faces m);
    st_unknowns : dirichlet_has_unknowns m ops deg }.
  Lemma uniform_unknowns (m : mesh C F) k (ops : list (bc_op Sc P V)) : dirichlet_has_unknowns m ops (uniform m k).
  Proof. intros i d E _. apply nth_error_In, repeat_spec in E. subst d. reflexivity. Qed.

  (** *** constructors *)
  Lemma mech_made m ops bnd k sol : setting m ops bnd (uniform m k) -> match sol with Some l => map vsize l = sizes dim sbs (uniform m k) | None => True end ->
    exists a, mech_make (K := K) dim sbs m k bnd = Ok a /\ good smul one dim sbs project m ops (uniform m k) sol [] a /\ v_duos a = [] /\ v_total a = list_sum (sizes dim sbs (uniform m k)) /\ v_deg a = uniform m k.
  Proof.
    intros [O W R D SU LD DU] LS.
    destruct (mech_make_spec fltb smul dim sbs project D m bnd (uniform m k) (fixed_at dim m ops) (incr_at smul one project m ops (uniform m k) sol) sol LD
      (face_state_ok cltb fltb faces_of smul one dim sbs project O m ops bnd W R D SU (uniform m k) LD DU sol LS) k eq_refl) as (a & E & G & D1 & T).
    exists a. split; [exact E|]. split; [exact G|]. split; [exact D1|]. split; [exact T|]. destruct G as ((T1 & _) & _). exact T1.
  Qed.
  Lemma prim_made m ops bnd deg sol : setting m ops bnd deg -> contact_plain m ops deg -> match sol with Some l => map vsize l = sizes dim sbs deg | None => True end ->
    exists a, prim_make (K := K) dim sbs m deg bnd = Ok a /\ good smul one dim sbs project m ops deg sol [] a /\ v_duos a = [] /\ v_total a = list_sum (sizes dim sbs deg) /\ v_deg a = deg.
  Proof.
    intros [O W R D SU LD DU] CP LS.
    destruct (prim_make_spec fltb smul dim sbs project D m bnd deg (fixed_at dim m ops) (incr_at smul one project m ops deg sol) sol LD
      (face_state_ok cltb fltb faces_of smul one dim sbs project O m ops bnd W R D SU deg LD DU sol LS)
      (contact_ok cltb fltb faces_of smul one dim project load O m ops bnd W R D deg LD CP)) as (a & E & G & D1 & T).
    exists a. split; [exact E|]. split; [exact G|]. split; [exact D1|]. split; [exact T|]. destruct G as ((T1 & _) & _). exact T1.
  Qed.

  (** ** C126: the numbering *)
  (** [numbers a]: the system has one row per unknown that is not prescribed, and the first number of
      a face is the number of such unknowns on the faces before it. *)
  Definition numbers (m : mesh C F) (ops : list (bc_op Sc P V)) (deg : list degree_info) (a : vasm K) : Prop :=
    let ns := sizes dim sbs deg in let dir := fixed dim m ops ns in
    v_total a = list_sum ns /\ v_size a = rank dir (list_sum ns) /\
    length (v_tab a) = length (m_faces m) /\ (forall i, i < length (m_faces m) -> nth i (v_tab a) 0 = rank dir (start ns i)) /\
    mrows (v_LHS a) = v_size a /\ mcols (v_LHS a) = v_size a /\ vsize (v_RHS a) = v_size a.
  Lemma numbers_of m ops deg a : length deg = length (m_faces m) -> settled dim sbs m ops deg a -> v_total a = list_sum (sizes dim sbs deg) ->
    mrows (v_LHS a) = v_size a -> mcols (v_LHS a) = v_size a -> vsize (v_RHS a) = v_size a -> numbers m ops deg a.
  Proof.
    intros LD (T & _) TT L1 L2 L3. pose proof T as (T1 & T2 & T3). split; [exact TT|]. split; [exact T3|]. split; [rewrite T2, map_length, seq_length; exact LD|]. split; [|auto].
    intros i Hi. rewrite <- LD in Hi. apply nth_error_nth. exact (tab_nth dim sbs deg (fixed_at dim m ops) a i T Hi).
  Qed.
  Theorem C126_numbering : forall m ops bnd,
    (forall k, setting m ops bnd (uniform m k) -> exists a, mech_make (K := K) dim sbs m k bnd = Ok a /\ numbers m ops (uniform m k) a) /\
    (forall deg, setting m ops bnd deg -> contact_plain m ops deg -> exists a, prim_make (K := K) dim sbs m deg bnd = Ok a /\ numbers m ops deg a).
  Proof.
    intros m ops bnd. split.
    - intros k S0. destruct (mech_made m ops bnd k None S0 I) as (a & E & G & D1 & T & _). exists a. split; [exact E|]. unfold mech_make in E.
      destruct (number_from _ _ _) as [r|e|] eqn:EN; cbn [bind] in E; try discriminate. injection E as E. subst a.
      apply numbers_of; [apply (st_degrees _ _ _ _ S0)|split; [exact (proj1 G)|split; reflexivity]|exact T|reflexivity|reflexivity|reflexivity].
    - intros deg S0 CP. destruct (prim_made m ops bnd deg None S0 CP I) as (a & E & G & D1 & T & _). exists a. split; [exact E|]. unfold prim_make in E.
      destruct (number_from _ _ _) as [r|e|] eqn:EN; cbn [bind] in E; try discriminate. injection E as E. subst a.
      apply numbers_of; [apply (st_degrees _ _ _ _ S0)|split; [exact (proj1 G)|split; reflexivity]|exact T|reflexivity|reflexivity|reflexivity].
  Qed.

  (** C126: a Dirichlet condition whose type makes no sense in the dimension is rejected by the
      constructors: prescribing z in two dimensions is an invalid argument, an unknown type a logic error. *)
  Definition rejection (t : nat) : exn := if (t =? DZ) || (t =? DXDZ) || (t =? DYDZ) then InvalidArgument else LogicError.
  Lemma number_from_throw (free : nat -> outcome nat) : forall ids off, (forall i, In i ids -> (exists n, free i = Ok n) \/ (exists e, free i = Throw e)) ->
    (exists i, In i ids /\ exists e, free i = Throw e) -> exists i e, In i ids /\ free i = Throw e /\ number_from free ids off = Throw e.
  Proof.
    induction ids as [|i ids IH]; intros off H (j & Hj & e & Ej); [destruct Hj|]. cbn [number_from].
    destruct (H i (or_introl eq_refl)) as [(n & En)|(e' & Ee)].
    - rewrite En. cbn [bind]. assert (Hj' : In j ids) by (destruct Hj as [->|Hj]; [congruence|exact Hj]).
      destruct (IH (off + n) (fun i Hi => H i (or_intror Hi)) (ex_intro _ j (conj Hj' (ex_intro _ e Ej)))) as (i' & e' & A & B & D). exists i', e'. rewrite D. cbn. auto.
    - exists i, e'. rewrite Ee. cbn. auto.
  Qed.
  Theorem C126_bad_type_rejected : strict_total_order fltb -> forall (m : mesh C F) (ops : list (bc_op Sc P V)) bnd k i r, wf_mesh cltb fltb faces_of m -> reached fltb one m ops bnd -> dim = 2 \/ dim = 3 ->
    condition m ops i = Some r -> ~ known dim (r_type r) -> r_type r <> NOTHING ->
    exists (i' : nat) (r' : registration P V), condition m ops i' = Some r' /\ ~ known dim (r_type r') /\ mech_make (K := K) dim sbs m k bnd = Throw (rejection (r_type r')).
  Proof.
    intros O m ops bnd k i r W R D Cn Kn NN.
    assert (kinv : kinv4 m ops bnd one) by (destruct (bc_reach cltb fltb faces_of O m W one ops) as (s & E & I); unfold reached in R; rewrite R in E; injection E as <-; exact I).
    assert (KD : forall t, known dim t \/ ~ known dim t).
    { intros t. unfold known. destruct (in_dec Nat.eq_dec t [DIRICHLET; CLAMPED; DX; DY; DXDY]); [tauto|]. destruct (in_dec Nat.eq_dec t [DZ; DXDZ; DYDZ]); destruct D as [->| ->]; intuition discriminate. }
    set (free := fun id => do c <- dirichlet_imposed_dofs dim sbs bnd id k; Ok (dim * sbs k - c)).
    assert (FR : forall j, j < length (m_faces m) ->
        match condition m ops j with
        | Some r => (~ known dim (r_type r) /\ r_type r <> NOTHING) /\ free j = Throw (rejection (r_type r)) \/ (known dim (r_type r) \/ r_type r = NOTHING) /\ exists n, free j = Ok n
        | None => exists n, free j = Ok n end).
    { intros j Hj. destruct (nth_error (m_binfo m) j) as [b|] eqn:Hb; [|apply nth_error_None in Hb; rewrite (wf_binfo _ _ _ _ W) in Hb; lia].
      pose proof (q_spec m Dirichlet ops _ j b (kinv4_of m Dirichlet _ _ _ kinv) Hb) as QS. cbn [kst_of] in QS. unfold condition, free, dirichlet_imposed_dofs. rewrite Hb.
      destruct (last_reg Dirichlet b ops None) as [r0|].
      - destruct QS as (Q1 & Q2 & _). rewrite Q1. cbn [bind]. rewrite Q2. cbn [bind].
        destruct (KD (r_type r0)) as [K0|K0].
        + right. split; [auto|]. destruct (imposed_known dim (r_type r0) (sbs k) D K0) as (c & E & _). rewrite E. cbn [bind]. eauto.
        + destruct (Nat.eq_dec (r_type r0) NOTHING) as [->|N0]; [right; split; [auto|]; cbn; eauto|]. left. split; [auto|]. rewrite (imposed_unknown dim _ _ D K0 N0). reflexivity.
      - destruct QS as (Q1 & _). rewrite Q1. cbn [bind]. eauto. }
    assert (Hi : i < length (m_faces m)). { rewrite <- (wf_binfo _ _ _ _ W). apply nth_error_Some. unfold condition in Cn. destruct (nth_error (m_binfo m) i); discriminate. }
    destruct (number_from_throw free (seq 0 (length (m_faces m))) 0) as (i' & e & Hi' & E' & T).
    - intros j Hj. apply in_seq in Hj. specialize (FR j ltac:(lia)). destruct (condition m ops j) as [r0|]; [|left; exact FR]. destruct FR as [(_ & E)|(_ & n & E)]; eauto.
    - exists i. split; [apply in_seq; lia|]. specialize (FR i Hi). rewrite Cn in FR. destruct FR as [(_ & E)|([E|E] & _)]; [eauto|contradiction|contradiction].
    - apply in_seq in Hi'. specialize (FR i' ltac:(lia)). destruct (condition m ops i') as [r'|] eqn:C'; [|destruct FR as (n & E); congruence].
      exists i', r'. split; [exact C'|]. destruct FR as [((K' & _) & E)|(_ & n & E)]; [|congruence]. split; [exact K'|].
      unfold mech_make. fold free. rewrite T. cbn [bind]. congruence.
  Qed.

  (** ** C127: the assembled system *)
  (** Calls that only assemble cells, in any order and number, then finalize: the system is the full
      system of all components of all faces with the prescribed ones eliminated. *)
  Definition full_system (m : mesh C F) (ops : list (bc_op Sc P V)) (deg : list degree_info) (cs : list (contribution K)) (a : vasm K) : Prop :=
    assembled (fixed dim m ops (sizes dim sbs deg)) (list_sum (sizes dim sbs deg)) 1 (given smul one project m ops deg (sizes dim sbs deg)) cs (v_LHS a) (v_RHS a).
  Lemma mech_linear m ops bnd k calls css : setting m ops bnd (uniform m k) -> Forall2 (adds m ops (uniform m k)) calls css -> cells_only calls \/ neumann_apart m ops ->
    exists a0 a, mech_make dim sbs m k bnd = Ok a0 /\ ses_m m bnd None calls a0 = Ok a /\ settled dim sbs m ops (uniform m k) a /\ full_system m ops (uniform m k) (concat css) a.
  Proof.
    intros S0 H NA. destruct (mech_made m ops bnd k None S0 I) as (a & E & G & D1 & _). destruct S0 as [O W R D SU LD DU].
    destruct (mech_session_ok cltb fltb faces_of smul one dim sbs project load O m ops bnd W R D SU (uniform m k) LD DU None I calls css a H NA G D1) as (a' & E' & ST & A).
    exists a, a'. auto.
  Qed.
  Lemma prim_linear m ops bnd deg calls css : setting m ops bnd deg -> contact_plain m ops deg -> Forall2 (adds m ops deg) calls css -> cells_only calls \/ neumann_apart m ops ->
    exists a0 a, prim_make dim sbs m deg bnd = Ok a0 /\ ses_p m bnd None calls a0 = Ok a /\ settled dim sbs m ops deg a /\ full_system m ops deg (concat css) a.
  Proof.
    intros S0 CP H NA. destruct (prim_made m ops bnd deg None S0 CP I) as (a & E & G & D1 & _). destruct S0 as [O W R D SU LD DU].
    destruct (prim_session_ok cltb fltb faces_of smul one dim sbs project load O m ops bnd W R D SU deg LD DU None I calls css a H NA G) as (a' & E' & ST & A).
    exists a, a'. auto.
  Qed.
  Theorem C127_assembly_mechanics : forall m ops bnd k calls css, setting m ops bnd (uniform m k) -> cells_only calls -> Forall2 (adds m ops (uniform m k)) calls css ->
    exists a, (do a <- mech_make dim sbs m k bnd; ses_m m bnd None calls a) = Ok a /\ full_system m ops (uniform m k) (concat css) a.
  Proof. intros m ops bnd k calls css S0 CO H. destruct (mech_linear m ops bnd k calls css S0 H (or_introl CO)) as (a0 & a & E0 & E & _ & A). exists a. rewrite E0. auto. Qed.
  Theorem C127_assembly_primal : forall m ops bnd deg calls css, setting m ops bnd deg -> contact_plain m ops deg -> cells_only calls -> Forall2 (adds m ops deg) calls css ->
    exists a, (do a <- prim_make dim sbs m deg bnd; ses_p m bnd None calls a) = Ok a /\ full_system m ops deg (concat css) a.
  Proof. intros m ops bnd deg calls css S0 CP CO H. destruct (prim_linear m ops bnd deg calls css S0 CP H (or_introl CO)) as (a0 & a & E0 & E & _ & A). exists a. rewrite E0. auto. Qed.
  (** Consequence: the face values belonging to a solution of the system satisfy every equation of a
      component that is not prescribed. *)
  Theorem C127_solutions : forall m ops deg cs a x, full_system m ops deg cs a -> vsize x = vsize (v_RHS a) ->
    (solves (v_LHS a) x (v_RHS a) <->
     forall I, I < list_sum (sizes dim sbs deg) -> fixed dim m ops (sizes dim sbs deg) I = false ->
       sumn (list_sum (sizes dim sbs deg)) (fun J => cmul (full_mat 1 cs I J) (value smul one dim sbs project m ops deg x J)) = full_rhs 1 cs I).
  Proof.
    intros m ops deg cs a x A VX. rewrite (C30_solutions _ _ _ _ _ _ _ _ x A VX). unfold free, value, position. rewrite Nat.mul_1_r.
    assert (EX : forall J, (if negb (fixed dim m ops (sizes dim sbs deg) (J / 1)) then vent x (rank (fixed dim m ops (sizes dim sbs deg)) (J / 1) * 1 + J mod 1) else given smul one project m ops deg (sizes dim sbs deg) J) =
      (if fixed dim m ops (sizes dim sbs deg) J then given smul one project m ops deg (sizes dim sbs deg) J else vent x (rank (fixed dim m ops (sizes dim sbs deg)) J))).
    { intros J. rewrite Nat.div_1_r, Nat.mod_1_r, Nat.mul_1_r, Nat.add_0_r. destruct (fixed dim m ops (sizes dim sbs deg) J); reflexivity. }
    split; intros H I HI FI; (rewrite Nat.div_1_r in * || idtac).
    - rewrite <- (H I HI) by (rewrite Nat.div_1_r, FI; reflexivity). apply sumn_ext. intros J _. rewrite EX. reflexivity.
    - apply negb_true_iff in FI. rewrite <- (H I HI FI). apply sumn_ext. intros J _. rewrite EX. reflexivity.
  Qed.

  (** ** C128: reading a solution back *)
  Theorem C128_take_local : forall m ops bnd deg calls css x cl ids, setting m ops bnd deg -> cells_only calls \/ neumann_apart m ops -> Forall2 (adds m ops deg) calls css ->
    numbered (m_faces m) ids (faces_of cl) -> rank (fixed dim m ops (sizes dim sbs deg)) (list_sum (sizes dim sbs deg)) <= vsize x ->
    (forall k a, deg = uniform m k -> (do a <- mech_make dim sbs m k bnd; ses_m m bnd None calls a) = Ok a ->
       take_local_v fltb faces_of smul dim sbs project m bnd x None cl a = Ok (map (value smul one dim sbs project m ops deg x) (unknowns (sizes dim sbs deg) ids))) /\
    (forall a, contact_plain m ops deg -> (do a <- prim_make dim sbs m deg bnd; ses_p m bnd None calls a) = Ok a ->
       take_local_v fltb faces_of smul dim sbs project m bnd x None cl a = Ok (map (value smul one dim sbs project m ops deg x) (unknowns (sizes dim sbs deg) ids))).
  Proof.
    intros m ops bnd deg calls css x cl ids S0 NA H NI VX.
    assert (GEN : forall a, settled dim sbs m ops deg a -> take_local_v fltb faces_of smul dim sbs project m bnd x None cl a = Ok (map (value smul one dim sbs project m ops deg x) (unknowns (sizes dim sbs deg) ids))).
    { intros a (T & _). destruct S0 as [O W R D SU LD DU].
      apply (take_local_v_spec fltb faces_of smul dim sbs project D m bnd deg (fixed_at dim m ops) (incr_at smul one project m ops deg None) None LD
        (face_state_ok cltb fltb faces_of smul one dim sbs project O m ops bnd W R D SU deg LD DU None I) a x cl ids T VX NI). }
    split.
    - intros k a -> E. destruct (mech_linear m ops bnd k calls css S0 H NA) as (a0 & a1 & E0 & E1 & ST & _). rewrite E0 in E. cbn [bind] in E. rewrite E1 in E. injection E as <-. auto.
    - intros a CP E. destruct (prim_linear m ops bnd deg calls css S0 CP H NA) as (a0 & a1 & E0 & E1 & ST & _). rewrite E0 in E. cbn [bind] in E. rewrite E1 in E. injection E as <-. auto.
  Qed.
  Theorem C128_expand : forall m ops bnd deg calls css x, setting m ops bnd deg -> cells_only calls \/ neumann_apart m ops -> Forall2 (adds m ops deg) calls css ->
    rank (fixed dim m ops (sizes dim sbs deg)) (list_sum (sizes dim sbs deg)) <= vsize x ->
    (forall k a, deg = uniform m k -> (do a <- mech_make dim sbs m k bnd; ses_m m bnd None calls a) = Ok a ->
       exists r, mech_expand fltb smul dim sbs project m k bnd x None a = Ok r /\ vsize r = list_sum (sizes dim sbs deg) /\
         forall I, I < list_sum (sizes dim sbs deg) -> vent r I = value smul one dim sbs project m ops deg x I) /\
    (forall a, contact_plain m ops deg -> (do a <- prim_make dim sbs m deg bnd; ses_p m bnd None calls a) = Ok a ->
       prim_expand fltb smul dim sbs project m bnd x None a = Ok (map (value smul one dim sbs project m ops deg x) (seq 0 (list_sum (sizes dim sbs deg))))).
  Proof.
    intros m ops bnd deg calls css x S0 NA H VX. pose proof S0 as [O W R D SU LD DU]. split.
    - intros k a -> E. destruct (mech_linear m ops bnd k calls css S0 H NA) as (a0 & a1 & E0 & E1 & (T & _) & _). rewrite E0 in E. cbn [bind] in E. rewrite E1 in E. injection E as <-.
      apply (mech_expand_spec fltb smul dim sbs project D m bnd (uniform m k) (fixed_at dim m ops) (incr_at smul one project m ops (uniform m k) None) None LD
        (face_state_ok cltb fltb faces_of smul one dim sbs project O m ops bnd W R D SU (uniform m k) LD DU None I) a1 x k T VX eq_refl).
    - intros a CP E. destruct (prim_linear m ops bnd deg calls css S0 CP H NA) as (a0 & a1 & E0 & E1 & (T & _) & _). rewrite E0 in E. cbn [bind] in E. rewrite E1 in E. injection E as <-.
      apply (prim_expand_spec fltb smul dim sbs project D m bnd deg (fixed_at dim m ops) (incr_at smul one project m ops deg None) None LD
        (face_state_ok cltb fltb faces_of smul one dim sbs project O m ops bnd W R D SU deg LD DU None I) a1 x T VX).
  Qed.

  (** ** C129: Newton iterations *)
  (** Any number of iterations with the same assembler, each with its own current face values: the
      system of the last one is the full system for the correction, the prescribed components being
      corrected by the prescribed value minus the current one; nothing of earlier iterations is left. *)
  Definition correction_system (m : mesh C F) (ops : list (bc_op Sc P V)) (deg : list degree_info) (sol : list (vec K)) (cs : list (contribution K)) (a : vasm K) : Prop :=
    assembled (fixed dim m ops (sizes dim sbs deg)) (list_sum (sizes dim sbs deg)) 1
      (fun I => csub (given smul one project m ops deg (sizes dim sbs deg) I) (current sol (sizes dim sbs deg) I)) cs (v_LHS a) (v_RHS a).
  Definition iteration (m : mesh C F) (ops : list (bc_op Sc P V)) (deg : list degree_info) (it : list (vec K) * list (vcall K C)) (css : list (list (contribution K))) : Prop :=
    map vsize (fst it) = sizes dim sbs deg /\ (cells_only (snd it) \/ neumann_apart m ops) /\ Forall2 (adds m ops deg) (snd it) css.
  Lemma result_correction (m : mesh C F) (ops : list (bc_op Sc P V)) deg sol cs a : result smul one dim sbs project m ops deg (Some sol) cs a -> correction_system m ops deg sol cs a.
  Proof. intros A. exact A. Qed.
  Lemma prim_iterate m ops bnd deg : setting m ops bnd deg -> forall its csss, Forall2 (iteration m ops deg) its csss -> forall a, settled dim sbs m ops deg a ->
    exists a', prim_newton fltb faces_of smul dim sbs project load m bnd its a = Ok a' /\ settled dim sbs m ops deg a' /\
      forall its0 it csss0 css, its = its0 ++ [it] -> csss = csss0 ++ [css] -> correction_system m ops deg (fst it) (concat css) a'.
  Proof.
    intros [O W R D SU LD DU]. unfold prim_newton. induction its as [|it its IH] using rev_ind; intros csss H a ST.
    - inversion H; subst. exists a. split; [reflexivity|]. split; [exact ST|]. intros its0 it csss0 css E. destruct its0; discriminate.
    - apply Forall2_app_inv_l in H. destruct H as (c1 & c2 & H1 & H2 & ->). inversion H2 as [|? css ? ? HI HN]; subst. inversion HN; subst. clear H2 HN.
      destruct (IH c1 H1 a ST) as (a1 & E1 & ST1 & _). rewrite floop_app, E1. cbn [bind floop]. destruct HI as (LS & NA & HC).
      destruct (prim_session_ok cltb fltb faces_of smul one dim sbs project load O m ops bnd W R D SU deg LD DU (Some (fst it)) LS (snd it) css (prim_initialize a1) HC NA
        (settled_prim smul one dim sbs project m ops deg (Some (fst it)) a1 ST1)) as (a2 & E2 & ST2 & A). rewrite E2. cbn [bind]. exists a2. split; [reflexivity|]. split; [exact ST2|].
      intros its0 it0 csss0 css0 EI EC. apply app_inj_tail in EI, EC. destruct EI as [_ <-], EC as [_ <-]. exact (result_correction _ _ _ _ _ _ A).
  Qed.
  Lemma result_size (m : mesh C F) (ops : list (bc_op Sc P V)) deg sol cs a : settled dim sbs m ops deg a -> result smul one dim sbs project m ops deg sol cs a -> vsize (v_RHS a) = v_size a.
  Proof. intros ((_ & _ & T3) & _) A. destruct A as [_ _ Z _ _]. rewrite Z, T3. cbn. apply Nat.add_0_r. Qed.
  Lemma mech_iterate m ops bnd deg : setting m ops bnd deg -> forall its csss, Forall2 (iteration m ops deg) its csss -> forall a, settled dim sbs m ops deg a -> vsize (v_RHS a) = v_size a ->
    exists a', mech_newton fltb faces_of smul dim sbs project load m bnd its a = Ok a' /\ (settled dim sbs m ops deg a' /\ vsize (v_RHS a') = v_size a') /\
      forall its0 it csss0 css, its = its0 ++ [it] -> csss = csss0 ++ [css] -> correction_system m ops deg (fst it) (concat css) a'.
  Proof.
    intros [O W R D SU LD DU]. unfold mech_newton. induction its as [|it its IH] using rev_ind; intros csss H a ST VS.
    - inversion H; subst. exists a. split; [reflexivity|]. split; [auto|]. intros its0 it csss0 css E. destruct its0; discriminate.
    - apply Forall2_app_inv_l in H. destruct H as (c1 & c2 & H1 & H2 & ->). inversion H2 as [|? css ? ? HI HN]; subst. inversion HN; subst. clear H2 HN.
      destruct (IH c1 H1 a ST VS) as (a1 & E1 & (ST1 & VS1) & _). rewrite floop_app, E1. cbn [bind floop]. destruct HI as (LS & NA & HC).
      destruct (settled_mech smul one dim sbs project m ops deg (Some (fst it)) a1 ST1 VS1) as [G1 D1].
      destruct (mech_session_ok cltb fltb faces_of smul one dim sbs project load O m ops bnd W R D SU deg LD DU (Some (fst it)) LS (snd it) css (zero_rhs a1) HC NA G1 D1) as (a2 & E2 & ST2 & A).
      rewrite E2. cbn [bind]. exists a2. split; [reflexivity|]. split; [split; [exact ST2|exact (result_size _ _ _ _ _ _ ST2 A)]|].
      intros its0 it0 csss0 css0 EI EC. apply app_inj_tail in EI, EC. destruct EI as [_ <-], EC as [_ <-]. exact (result_correction _ _ _ _ _ _ A).
  Qed.
  Lemma mech_made_settled m ops bnd k : setting m ops bnd (uniform m k) -> exists a, mech_make (K := K) dim sbs m k bnd = Ok a /\ settled dim sbs m ops (uniform m k) a /\ vsize (v_RHS a) = v_size a.
  Proof.
    intros S0. destruct (mech_made m ops bnd k None S0 I) as (a & E & G & D1 & T & _). exists a. split; [exact E|]. unfold mech_make in E.
    destruct (number_from _ _ _) as [r|e|] eqn:EN; cbn [bind] in E; try discriminate. injection E as E. subst a. split; [|reflexivity]. split; [exact (proj1 G)|split; reflexivity].
  Qed.
  Lemma prim_made_settled m ops bnd deg : setting m ops bnd deg -> contact_plain m ops deg -> exists a, prim_make (K := K) dim sbs m deg bnd = Ok a /\ settled dim sbs m ops deg a.
  Proof.
    intros S0 CP. destruct (prim_made m ops bnd deg None S0 CP I) as (a & E & G & D1 & T & _). exists a. split; [exact E|]. unfold prim_make in E.
    destruct (number_from _ _ _) as [r|e|] eqn:EN; cbn [bind] in E; try discriminate. injection E as E. subst a. split; [exact (proj1 G)|split; reflexivity].
  Qed.
  Theorem C129_newton_systems : forall m ops bnd deg its csss it css, setting m ops bnd deg -> Forall2 (iteration m ops deg) its csss -> iteration m ops deg it css ->
    (forall k, deg = uniform m k -> exists a, (do a <- mech_make dim sbs m k bnd; mech_newton fltb faces_of smul dim sbs project load m bnd (its ++ [it]) a) = Ok a /\ correction_system m ops deg (fst it) (concat css) a) /\
    (contact_plain m ops deg -> exists a, (do a <- prim_make dim sbs m deg bnd; prim_newton fltb faces_of smul dim sbs project load m bnd (its ++ [it]) a) = Ok a /\ correction_system m ops deg (fst it) (concat css) a).
  Proof.
    intros m ops bnd deg its csss it css S0 HS H1. assert (HA : Forall2 (iteration m ops deg) (its ++ [it]) (csss ++ [css])) by (apply Forall2_app; [exact HS|constructor; [exact H1|constructor]]). split.
    - intros k ->. destruct (mech_made_settled m ops bnd k S0) as (a & E & ST & VS). destruct (mech_iterate m ops bnd (uniform m k) S0 _ _ HA a ST VS) as (a' & E' & _ & A).
      exists a'. rewrite E. cbn [bind]. split; [exact E'|]. exact (A its it csss css eq_refl eq_refl).
    - intros CP. destruct (prim_made_settled m ops bnd deg S0 CP) as (a & E & ST). destruct (prim_iterate m ops bnd deg S0 _ _ HA a ST) as (a' & E' & _ & A).
      exists a'. rewrite E. cbn [bind]. split; [exact E'|]. exact (A its it csss css eq_refl eq_refl).
  Qed.

  (** C129: the correction read for a cell after such iterations; added to the current values it gives,
      in every prescribed component, the prescribed value. *)
  Definition reads_correction (m : mesh C F) (ops : list (bc_op Sc P V)) (bnd : bc Sc P V) (deg : list degree_info) (sol : list (vec K)) (x : vec K) (cl : C) (ids : list nat) (a : vasm K) : Prop :=
    take_local_v fltb faces_of smul dim sbs project m bnd x (Some sol) cl a = Ok (map (increment smul one dim sbs project m ops deg sol x) (unknowns (sizes dim sbs deg) ids)).
  Theorem C129_correction : forall m ops bnd deg its csss sol x cl ids, setting m ops bnd deg -> Forall2 (iteration m ops deg) its csss ->
    map vsize sol = sizes dim sbs deg -> numbered (m_faces m) ids (faces_of cl) -> rank (fixed dim m ops (sizes dim sbs deg)) (list_sum (sizes dim sbs deg)) <= vsize x ->
    (forall k a, deg = uniform m k -> (do a <- mech_make dim sbs m k bnd; mech_newton fltb faces_of smul dim sbs project load m bnd its a) = Ok a ->
       reads_correction m ops bnd deg sol x cl ids a /\
       exists r, mech_expand fltb smul dim sbs project m k bnd x (Some sol) a = Ok r /\ vsize r = list_sum (sizes dim sbs deg) /\
         forall I, I < list_sum (sizes dim sbs deg) -> vent r I = increment smul one dim sbs project m ops deg sol x I) /\
    (forall a, contact_plain m ops deg -> (do a <- prim_make dim sbs m deg bnd; prim_newton fltb faces_of smul dim sbs project load m bnd its a) = Ok a ->
       reads_correction m ops bnd deg sol x cl ids a /\
       prim_expand fltb smul dim sbs project m bnd x (Some sol) a = Ok (map (increment smul one dim sbs project m ops deg sol x) (seq 0 (list_sum (sizes dim sbs deg))))).
  Proof.
    intros m ops bnd deg its csss sol x cl ids S0 HS LS NI VX. pose proof S0 as [O W R D SU LD DU].
    assert (RC : forall a, settled dim sbs m ops deg a -> reads_correction m ops bnd deg sol x cl ids a).
    { intros a (T & _). apply (take_local_v_spec fltb faces_of smul dim sbs project D m bnd deg (fixed_at dim m ops) (incr_at smul one project m ops deg (Some sol)) (Some sol) LD
        (face_state_ok cltb fltb faces_of smul one dim sbs project O m ops bnd W R D SU deg LD DU (Some sol) LS) a x cl ids T VX NI). }
    split.
    - intros k a -> E. destruct (mech_made_settled m ops bnd k S0) as (a0 & E0 & ST & VS). rewrite E0 in E. cbn [bind] in E.
      destruct (mech_iterate m ops bnd (uniform m k) S0 _ _ HS a0 ST VS) as (a' & E' & (ST' & _) & _). rewrite E' in E. injection E as <-. split; [auto|].
      apply (mech_expand_spec fltb smul dim sbs project D m bnd (uniform m k) (fixed_at dim m ops) (incr_at smul one project m ops (uniform m k) (Some sol)) (Some sol) LD
        (face_state_ok cltb fltb faces_of smul one dim sbs project O m ops bnd W R D SU (uniform m k) LD DU (Some sol) LS) a' x k (proj1 ST') VX eq_refl).
    - intros a CP E. destruct (prim_made_settled m ops bnd deg S0 CP) as (a0 & E0 & ST). rewrite E0 in E. cbn [bind] in E.
      destruct (prim_iterate m ops bnd deg S0 _ _ HS a0 ST) as (a' & E' & ST' & _). rewrite E' in E. injection E as <-. split; [auto|].
      apply (prim_expand_spec fltb smul dim sbs project D m bnd deg (fixed_at dim m ops) (incr_at smul one project m ops deg (Some sol)) (Some sol) LD
        (face_state_ok cltb fltb faces_of smul one dim sbs project O m ops bnd W R D SU deg LD DU (Some sol) LS) a' x (proj1 ST') VX).
  Qed.
  Theorem C129_prescribed_values_reached : forall (m : mesh C F) (ops : list (bc_op Sc P V)) deg sol (x : vec K) I, fixed dim m ops (sizes dim sbs deg) I = true ->
    cadd (current sol (sizes dim sbs deg) I) (increment smul one dim sbs project m ops deg sol x I) = given smul one project m ops deg (sizes dim sbs deg) I.
  Proof. intros m ops deg sol x I H. unfold increment. rewrite H. destruct (cth K). rewrite Rsub_def, Radd_comm, <- Radd_assoc, (Radd_comm (copp _)), Ropp_def, Radd_comm, Radd_0_l. reflexivity. Qed.

  (** ** C130: Neumann loads *)
  (** When no face has both a Neumann and a Dirichlet condition, the loads are added to the equations
      of the face.  (Faces with both: see the refutations below.) *)
  Theorem C130_neumann_partial : forall m ops bnd deg calls css, setting m ops bnd deg -> neumann_apart m ops -> Forall2 (adds m ops deg) calls css ->
    (forall k, deg = uniform m k -> exists a, (do a <- mech_make dim sbs m k bnd; ses_m m bnd None calls a) = Ok a /\ full_system m ops deg (concat css) a) /\
    (contact_plain m ops deg -> exists a, (do a <- prim_make dim sbs m deg bnd; ses_p m bnd None calls a) = Ok a /\ full_system m ops deg (concat css) a).
  Proof.
    intros m ops bnd deg calls css S0 NA H. split.
    - intros k ->. destruct (mech_linear m ops bnd k calls css S0 H (or_intror NA)) as (a0 & a & E0 & E & _ & A). exists a. rewrite E0. auto.
    - intros CP. destruct (prim_linear m ops bnd deg calls css S0 CP H (or_intror NA)) as (a0 & a & E0 & E & _ & A). exists a. rewrite E0. auto.
  Qed.
  (** C130: if every face with both kinds of conditions is prescribed entirely and there is one such
      face, imposing the Neumann conditions is rejected. *)
  Theorem C130_entirely_prescribed_rejected : forall m ops bnd deg calls css i b, setting m ops bnd deg -> cells_only calls -> Forall2 (adds m ops deg) calls css ->
    (forall i b r, nth_error (m_binfo m) i = Some b -> last_reg Neumann b ops None <> None -> condition m ops i = Some r -> r_type r = DIRICHLET \/ r_type r = CLAMPED) ->
    nth_error (m_binfo m) i = Some b -> last_reg Neumann b ops None <> None -> condition m ops i <> None ->
    (forall k, deg = uniform m k -> (do a <- mech_make dim sbs m k bnd; ses_m m bnd None (calls ++ [VNeumann]) a) = Throw InvalidArgument) /\
    (contact_plain m ops deg -> (do a <- prim_make dim sbs m deg bnd; ses_p m bnd None (calls ++ [VNeumann]) a) = Throw InvalidArgument).
  Proof.
    intros m ops bnd deg calls css i b S0 CO H CL Hb HN HC. pose proof S0 as [O W R D SU LD DU]. split.
    - intros k ->. destruct (mech_made m ops bnd k None S0 I) as (a & E & G & D1 & _). rewrite E. cbn [bind]. unfold ses_m, mech_session.
      destruct (mech_calls cltb fltb faces_of smul one dim sbs project load O m ops bnd W R D SU (uniform m k) LD DU None I calls css H (or_introl CO) [] a (conj G D1)) as (a1 & E1 & G1 & D2).
      rewrite floop_app, E1. cbn [bind floop mech_do].
      rewrite (clash_mech cltb fltb faces_of smul one dim sbs project load O m ops bnd W R D SU (uniform m k) LD DU None I CL i b Hb HN HC a1 _ G1 D2). reflexivity.
    - intros CP. destruct (prim_made m ops bnd deg None S0 CP I) as (a & E & G & D1 & _). rewrite E. cbn [bind]. unfold ses_p, prim_session.
      destruct (prim_calls cltb fltb faces_of smul one dim sbs project load O m ops bnd W R D SU deg LD DU None I calls css H (or_introl CO) [] a G) as (a1 & E1 & G1).
      rewrite floop_app, E1. cbn [bind floop prim_do].
      rewrite (clash_prim cltb fltb faces_of smul one dim sbs project load O m ops bnd W R D SU deg LD DU None I CL i b Hb HN HC a1 _ G1). reflexivity.
  Qed.

  (** ** C131: contact faces *)
  (** The constructor from a degree: degree k+1 on the faces registered as SIGNORINI_FACE, k elsewhere;
      SIGNORINI_CELL is rejected. *)
  Definition contact_degree (ops : list (bc_op Sc P V)) (k : nat) (b : bdesc) : degree_info :=
    match last_reg Contact b ops None with
    | Some r => if r_type r =? SIGNORINI_FACE then di_make (k + 1) else di_make k
    | None => di_make k
    end.
  Theorem C131_contact_degrees : strict_total_order fltb -> forall m ops bnd k, wf_mesh cltb fltb faces_of m -> reached fltb one m ops bnd ->
    ((forall b r, In b (m_binfo m) -> last_reg Contact b ops None = Some r -> r_type r <> SIGNORINI_CELL) ->
       prim_make_hdi (K := K) fltb dim sbs m k bnd = prim_make dim sbs m (map (contact_degree ops k) (m_binfo m)) bnd) /\
    ((exists b r, In b (m_binfo m) /\ last_reg Contact b ops None = Some r /\ r_type r = SIGNORINI_CELL) ->
       prim_make_hdi (K := K) fltb dim sbs m k bnd = Throw InvalidArgument).
  Proof.
    intros O m ops bnd k W R.
    assert (kinv : kinv4 m ops bnd one) by (destruct (bc_reach cltb fltb faces_of O m W one ops) as (s & E & I); unfold reached in R; rewrite R in E; injection E as <-; exact I).
    assert (HL := wf_binfo _ _ _ _ W : length (m_binfo m) = length (m_faces m)).
    assert (LK : forall i f, nth_error (m_faces m) i = Some f -> lookup F fltb (m_faces m) f = Ok i) by (intros i f Hf; apply (lookup_stored fltb O _ _ _ (wf_faces _ _ _ _ W) Hf)).
    assert (QT : forall i b, nth_error (m_binfo m) i = Some b -> q_type P V (b_con bnd) i = Ok (match last_reg Contact b ops None with Some r => r_type r | None => default_type Contact end)).
    { intros i b Hb. pose proof (q_spec m Contact ops _ i b (kinv4_of m Contact _ _ _ kinv) Hb) as QS. cbn [kst_of] in QS. destruct (last_reg Contact b ops None); tauto. }
    split.
    - intros NC. unfold prim_make_hdi, select_faces_degree. rewrite (boundary_faces_correct fltb O m (wf_faces _ _ _ _ W) HL). cbn [bind].
      destruct (bnd_loop m (fun i deg => length deg = length (m_faces m) /\ forall j b, nth_error (m_binfo m) j = Some b -> nth_error deg j = Some (if j <? i then contact_degree ops k b else di_make k))
        (select_step fltb m k bnd) HL) with (s := repeat (di_make k) (length (m_faces m))) as (deg & E & L & Q).
      + intros i f b deg Hf Hb [L Q].
        assert (SAME : contact_degree ops k b = di_make k -> forall j b', nth_error (m_binfo m) j = Some b' -> nth_error deg j = Some (if j <? S i then contact_degree ops k b' else di_make k)).
        { intros CD j b' Hb'. rewrite (Q j b' Hb'). destruct (Nat.ltb_spec j i), (Nat.ltb_spec j (S i)); try lia; try reflexivity. assert (j = i) by lia. subst j. congruence. }
        destruct (bd_is_b b) eqn:B.
        * unfold select_step. rewrite (LK i f Hf). cbn [bind]. rewrite (QT i b Hb). cbn [bind].
          destruct (last_reg Contact b ops None) as [r|] eqn:LR.
          -- destruct (Nat.eqb_spec (r_type r) SIGNORINI_FACE) as [T|T].
             ++ assert (Hi : i < length deg) by (rewrite L; apply nth_error_Some; congruence). unfold vset. destruct (upd_some deg i (di_make (k + 1)) Hi) as (deg' & EU). rewrite EU. exists deg'. split; [reflexivity|]. split; [rewrite (upd_length _ _ _ _ EU); exact L|].
                intros j b' Hb'. destruct (Nat.eq_dec j i) as [->|NE].
                ** rewrite (upd_nth_same _ _ _ _ EU), (proj2 (Nat.ltb_lt i (S i))) by lia. unfold contact_degree. assert (b' = b) by congruence. subst b'. rewrite LR, T. reflexivity.
                ** rewrite (upd_nth_other _ _ _ _ _ EU) by auto. rewrite (Q j b' Hb'). destruct (Nat.ltb_spec j i), (Nat.ltb_spec j (S i)); try lia; reflexivity.
             ++ rewrite (proj2 (Nat.eqb_neq _ _) (NC b r (nth_error_In _ _ Hb) LR)). exists deg. split; [reflexivity|]. split; [exact L|]. apply SAME. unfold contact_degree. rewrite LR, (proj2 (Nat.eqb_neq _ _) T). reflexivity.
          -- cbn. exists deg. split; [reflexivity|]. split; [exact L|]. apply SAME. unfold contact_degree. rewrite LR. reflexivity.
        * split; [exact L|]. apply SAME. unfold contact_degree. rewrite (last_reg_inner Contact b ops B). reflexivity.
      + split; [apply repeat_length|]. intros j b Hb. rewrite nth_error_repeat; [reflexivity|]. rewrite <- HL. apply nth_error_Some. congruence.
      + rewrite E. cbn [bind]. f_equal. apply nth_error_all. intros j. rewrite nth_error_map. destruct (nth_error (m_binfo m) j) as [b|] eqn:Hb; cbn [option_map].
        * rewrite (Q j b Hb). assert (j < length (m_faces m)) by (rewrite <- HL; apply nth_error_Some; congruence). rewrite (proj2 (Nat.ltb_lt _ _)) by assumption. reflexivity.
        * apply nth_error_None. apply nth_error_None in Hb. lia.
    - intros (b & r & Hb & LR & T). apply In_nth_error in Hb. destruct Hb as [i Hb]. unfold prim_make_hdi, select_faces_degree. rewrite (boundary_faces_correct fltb O m (wf_faces _ _ _ _ W) HL). cbn [bind].
      assert (SEL : forall x, In x (select bd_is_b (m_faces m) (m_binfo m)) <-> exists i b, nth_error (m_faces m) i = Some x /\ nth_error (m_binfo m) i = Some b /\ bd_is_b b = true).
      { intros x. unfold select. rewrite in_map_iff. split.
        - intros ((x' & b') & <- & Hin). apply filter_In in Hin. destruct Hin as [Hin B]. apply In_nth_error in Hin. destruct Hin as [j Hj]. exists j, b'. apply nth_combine in Hj. cbn [fst]. tauto.
        - intros (j & b' & E1 & E2 & B). exists (x, b'). split; [reflexivity|]. apply filter_In. split; [|exact B]. apply nth_error_In with j. apply nth_combine; auto. }
      rewrite (floop_throw (select_step fltb m k bnd) (fun deg => length deg = length (m_faces m)) InvalidArgument); [reflexivity| | |apply repeat_length].
      + intros x deg Hx L. apply SEL in Hx. destruct Hx as (j & b' & Hf & Hb' & B). unfold select_step. rewrite (LK j x Hf). cbn [bind]. rewrite (QT j b' Hb'). cbn [bind].
        destruct (_ =? SIGNORINI_FACE); [right|].
        * assert (Hj : j < length deg) by (rewrite L; apply nth_error_Some; congruence). unfold vset. destruct (upd_some deg j (di_make (k + 1)) Hj) as (deg' & EU). rewrite EU. exists deg'. split; [reflexivity|]. rewrite (upd_length _ _ _ _ EU). exact L.
        * destruct (_ =? SIGNORINI_CELL); [left; reflexivity|right; eauto].
      + assert (Hi : i < length (m_faces m)) by (rewrite <- HL; apply nth_error_Some; congruence). destruct (nth_error (m_faces m) i) as [f|] eqn:Hf; [|apply nth_error_None in Hf; lia].
        exists f. split; [apply SEL; exists i, b; split; [exact Hf|]; split; [exact Hb|]; destruct (bd_is_b b) eqn:B; [reflexivity|rewrite (last_reg_inner Contact b ops B) in LR; discriminate]|].
        intros deg _. unfold select_step. rewrite (LK i f Hf). cbn [bind]. rewrite (QT i b Hb). cbn [bind]. rewrite LR, T. reflexivity.
  Qed.
End Main.

(** ** Concrete cases: two triangles, one scalar function per face, values in Z *)
Definition ex_sbs (k : nat) : nat := k + 1.
Definition ex_vproject (f : list nat) (deg : nat) (g : nat -> nat) (k : nat) : Zring := Z.of_nat (g (list_sum f) + deg + k) : Zring.
Definition ex_vload (f : list nat) (deg : nat) (g : nat -> nat) (k : nat) : Zring := Z.of_nat (10 * g (list_sum f) + deg + k + 1) : Zring.
Definition ex_vlm (n : nat) : mat Zring := mkMat n n (fun i j => Z.of_nat (10 * i + j + 1) : Zring).
Definition ex_vlv (n : nat) : vec Zring := mkVec n (fun i => Z.of_nat (i + 1) : Zring).
Definition ex_vcalls (n : nat) : list (vcall Zring (list nat)) := [VAssemble [0;1;2] (ex_vlm n) (ex_vlv n); VAssemble [1;2;3] (ex_vlm n) (ex_vlv n)].
Definition ex_vcss (dim : nat) : list (list (contribution Zring)) :=
  let ns := sizes dim ex_sbs (uniform ex_mesh 0) in [[mkC (unknowns ns [0;2;1]) (ex_vlm (3 * dim)) (ex_vlv (3 * dim))]; [mkC (unknowns ns [2;4;3]) (ex_vlm (3 * dim)) (ex_vlv (3 * dim))]].
Definition ex_bc (ops : list (bc_op nat nat nat)) : bc nat nat nat :=
  match bc_run _ _ nat nat nat lex_ltb ex_mesh ops (bc_make _ _ nat nat nat 1 ex_mesh) with Ok b => b | _ => bc_make _ _ nat nat nat 1 ex_mesh end.
(** x prescribed on one face, another one clamped, a load on a third *)
Definition ex_vops : list (bc_op nat nat nat) := [AddDirichlet DX 0 (fun p => p + 3); AddNeumann NEUMANN 1 (fun p => p + 1); AddDirichlet CLAMPED 3 (fun p => p); SetFactor 2].
Definition ex_setting (dim : nat) (ops : list (bc_op nat nat nat)) (deg : list degree_info) : Prop := setting lex_ltb lex_ltb tri_faces 1 dim ex_mesh ops (ex_bc ops) deg.
Lemma ex_condition (ops : list (bc_op nat nat nat)) i r : condition ex_mesh ops i = Some r -> i < 5.
Proof. unfold condition. intros H. destruct (Nat.lt_ge_cases i 5) as [L|L]; [exact L|]. rewrite (proj2 (nth_error_None (m_binfo ex_mesh) i)) in H by exact L. discriminate. Qed.
Lemma ex_supported dim (ops : list (bc_op nat nat nat)) : Forall (fun i => match condition ex_mesh ops i with Some r => known dim (r_type r) | None => True end) (seq 0 5) -> supported dim ex_mesh ops.
Proof. intros H i r E. rewrite Forall_forall in H. specialize (H i). rewrite E in H. apply H. apply in_seq. pose proof (ex_condition ops i r E). lia. Qed.
Ltac ex_set := split; [exact lex_ltb_sto|exact ex_wf|vm_compute; reflexivity|auto|apply ex_supported; repeat constructor; vm_compute; tauto|reflexivity|apply uniform_unknowns].
Lemma ex_adds dim (ops : list (bc_op nat nat nat)) load (calls := ex_vcalls (3 * dim)) : dim = 2 \/ dim = 3 -> Forall2 (vadds (K := Zring) tri_faces Nat.mul 1 dim ex_sbs load ex_mesh ops (uniform ex_mesh 0)) calls (ex_vcss dim).
Proof.
  intros D. repeat constructor; eexists; (split; [reflexivity|]); (split; [eexists; split; [|reflexivity]; repeat constructor|split; [reflexivity|split; [reflexivity|]]]);
    destruct D as [->| ->]; vm_compute; auto.
Qed.

Example C126_C129_hypotheses_met :
  ex_setting 2 ex_vops (uniform ex_mesh 0) /\ contact_plain ex_mesh ex_vops (uniform ex_mesh 0) /\ neumann_apart ex_mesh ex_vops /\
  Forall2 (vadds (K := Zring) tri_faces Nat.mul 1 2 ex_sbs ex_vload ex_mesh ex_vops (uniform ex_mesh 0)) (ex_vcalls 6 ++ [VNeumann]) (ex_vcss 2 ++ [neumann_terms Nat.mul 1 ex_vload ex_mesh ex_vops (uniform ex_mesh 0) (sizes 2 ex_sbs (uniform ex_mesh 0))]) /\
  length (neumann_terms (K := Zring) Nat.mul 1 ex_vload ex_mesh ex_vops (uniform ex_mesh 0) (sizes 2 ex_sbs (uniform ex_mesh 0))) = 1 /\
  match (do a <- mech_make 2 ex_sbs ex_mesh 0 (ex_bc ex_vops); mech_session lex_ltb tri_faces Nat.mul 2 ex_sbs ex_vproject ex_vload ex_mesh (ex_bc ex_vops) None (ex_vcalls 6 ++ [VNeumann]) a) with
  | Ok a => v_size a = 7 /\ v_tab a = [0; 1; 1; 3; 5] /\ map (ment (v_LHS a) 0) (seq 0 7) = [12; 13; 14; 0; 0; 0; 0]%Z /\ map (vent (v_RHS a)) (seq 0 7) = [-86; -164; -242; 106; 108; 3; 4]%Z
  | _ => False end.
Proof.
  split; [ex_set|]. split.
  { intros i b d r Hb Ed HU LR. apply nth_error_In in Hb. cbn in Hb. repeat (destruct Hb as [<-|Hb]; [vm_compute in LR; discriminate|]). destruct Hb. }
  split. { intros i b Hb LN. do 5 (destruct i as [|i]; [injection Hb as <-; vm_compute in LN; try congruence; reflexivity|]). destruct i; discriminate. }
  split; [apply Forall2_app; [apply ex_adds; auto|repeat constructor]|]. vm_compute. repeat split.
Qed.

(** *** Newton iterations: two iterations, the second with other face values *)
Definition ex_sol (c : Z) : list (vec Zring) := repeat (mkVec (K := Zring) 2 (fun k => (c + Z.of_nat k)%Z)) 5.
Example C129_hypotheses_met :
  Forall2 (iteration (K := Zring) tri_faces Nat.mul 1 2 ex_sbs ex_vload ex_mesh ex_vops (uniform ex_mesh 0)) [(ex_sol 4, ex_vcalls 6); (ex_sol 9, ex_vcalls 6)] [ex_vcss 2; ex_vcss 2] /\
  match (do a <- prim_make 2 ex_sbs ex_mesh (uniform ex_mesh 0) (ex_bc ex_vops); prim_newton lex_ltb tri_faces Nat.mul 2 ex_sbs ex_vproject ex_vload ex_mesh (ex_bc ex_vops) [(ex_sol 4, ex_vcalls 6); (ex_sol 9, ex_vcalls 6)] a) with
  | Ok a => match take_local_v lex_ltb tri_faces Nat.mul 2 ex_sbs ex_vproject ex_mesh (ex_bc ex_vops) (mkVec (K := Zring) 7 (fun i => Z.of_nat (i + 20))) (Some (ex_sol 9)) [0;1;2] a with
            | Ok l => l = [-1; 20; 21; 22; -9; -10]%Z | _ => False end
  | _ => False end.
Proof.
  split; [constructor; [|constructor; [|constructor]]; (split; [reflexivity|split; [left; intros [H|[H|[]]]; discriminate|apply (ex_adds 2); auto]])|]. vm_compute. reflexivity.
Qed.

(** ** C130: faces with a Neumann condition and some prescribed components *)
Definition ex_both (t id : nat) : list (bc_op nat nat nat) := [AddDirichlet t id (fun p => p + 3); AddNeumann NEUMANN id (fun p => p + 1)].
Definition ex_neu (dim t id : nat) : list (contribution Zring) := neumann_terms Nat.mul 1 ex_vload ex_mesh (ex_both t id) (uniform ex_mesh 0) (sizes dim ex_sbs (uniform ex_mesh 0)).
Definition ex_mech (dim : nat) ops calls := do a <- mech_make dim ex_sbs ex_mesh 0 (ex_bc ops); mech_session (K := Zring) lex_ltb tri_faces Nat.mul dim ex_sbs ex_vproject ex_vload ex_mesh (ex_bc ops) None calls a.
Definition ex_prim (dim : nat) ops calls := do a <- prim_make dim ex_sbs ex_mesh (uniform ex_mesh 0) (ex_bc ops); prim_session (K := Zring) lex_ltb tri_faces Nat.mul dim ex_sbs ex_vproject ex_vload ex_mesh (ex_bc ops) None calls a.
Definition ex_full (dim : nat) ops cs (a : vasm Zring) : Prop := full_system Nat.mul 1 dim ex_sbs ex_vproject ex_mesh ops (uniform ex_mesh 0) cs a.

(** a row of the right-hand side that differs from the full system *)
Definition ex_wrong (dim : nat) ops cs (I : nat) (o : outcome (vasm Zring)) : bool :=
  let ns := sizes dim ex_sbs (uniform ex_mesh 0) in let N := list_sum ns in let dir := fixed dim ex_mesh ops ns in
  match o with
  | Ok a => (I <? N * 1) && free dir 1 I && negb (Z.eqb (vent (v_RHS a) (position dir 1 I))
      (csub (full_rhs 1 cs I) (sumn (N * 1) (fun J => if free dir 1 J then c0 else cmul (full_mat 1 cs I J) (given Nat.mul 1 ex_vproject ex_mesh ops (uniform ex_mesh 0) ns J)))))
  | _ => false
  end.
Lemma ex_wrong_refutes dim ops cs I o : ex_wrong dim ops cs I o = true -> exists a, o = Ok a /\ ~ ex_full dim ops cs a.
Proof.
  unfold ex_wrong. destruct o as [a|e|]; try discriminate. intros H. apply andb_prop in H. destruct H as [H H3]. apply andb_prop in H. destruct H as [H1 H2].
  exists a. split; [reflexivity|]. intros [_ _ _ _ A]. apply Nat.ltb_lt in H1. rewrite (A I H1 H2) in H3. rewrite Z.eqb_refl in H3. discriminate.
Qed.

(** x prescribed, load on the same face: both assemblers add the y component of the load to the
    equation after the right one; on the last face this is beyond the end of the right-hand side. *)
Theorem C130_component_dirichlet_refuted :
  ex_setting 2 (ex_both DX 0) (uniform ex_mesh 0) /\ ex_setting 2 (ex_both DX 2) (uniform ex_mesh 0) /\
  (exists a, ex_mech 2 (ex_both DX 0) [VNeumann] = Ok a /\ ~ ex_full 2 (ex_both DX 0) (ex_neu 2 DX 0) a) /\
  (exists a, ex_prim 2 (ex_both DX 0) [VNeumann] = Ok a /\ ~ ex_full 2 (ex_both DX 0) (ex_neu 2 DX 0) a) /\
  ex_mech 2 (ex_both DX 2) [VNeumann] = UB /\ ex_prim 2 (ex_both DX 2) [VNeumann] = UB.
Proof.
  split; [ex_set|]. split; [ex_set|].
  split; [apply (ex_wrong_refutes 2 _ _ 1); vm_compute; reflexivity|].
  split; [apply (ex_wrong_refutes 2 _ _ 1); vm_compute; reflexivity|].
  split; vm_compute; reflexivity.
Qed.
(** y prescribed: assembler_mechanics replaces what was assembled instead of adding to it *)
Theorem C130_overwritten_refuted :
  ex_setting 2 (ex_both DY 0) (uniform ex_mesh 0) /\
  exists a, ex_mech 2 (ex_both DY 0) (ex_vcalls 6 ++ [VNeumann]) = Ok a /\ ~ ex_full 2 (ex_both DY 0) (concat (ex_vcss 2) ++ ex_neu 2 DY 0) a.
Proof.
  split; [ex_set|]. apply (ex_wrong_refutes _ _ _ 0). vm_compute. reflexivity.
Qed.
(** y prescribed in three dimensions: the primal assemblers add the z component to the equation of x *)
Theorem C130_wrong_component_refuted :
  ex_setting 3 (ex_both DY 0) (uniform ex_mesh 0) /\
  exists a, ex_prim 3 (ex_both DY 0) [VNeumann] = Ok a /\ ~ ex_full 3 (ex_both DY 0) (ex_neu 3 DY 0) a.
Proof.
  split; [ex_set|]. apply (ex_wrong_refutes _ _ _ 0). vm_compute. reflexivity.
Qed.
Example C130_rejected_hypotheses_met : ex_setting 2 (ex_both CLAMPED 1) (uniform ex_mesh 0) /\ ex_mech 2 (ex_both CLAMPED 1) (ex_vcalls 6 ++ [VNeumann]) = Throw InvalidArgument /\
  condition ex_mesh (ex_both CLAMPED 1) 3 <> None.
Proof. split; [ex_set|]. split; [vm_compute; reflexivity|vm_compute; discriminate]. Qed.

(** ** C126: NOTHING as the type of a Dirichlet condition passes the constructor; the first cell
    touching the face is rejected instead *)
Example C126_nothing_accepted : exists (ops : list (bc_op nat nat nat)), reached lex_ltb 1 ex_mesh ops (ex_bc ops) /\
  is_ok (mech_make (K := Zring) 2 ex_sbs ex_mesh 0 (ex_bc ops)) = true /\ ex_mech 2 ops (ex_vcalls 6) = Throw LogicError.
Proof. exists [AddDirichlet NOTHING 0 (fun p => p)]. split; [vm_compute; reflexivity|]. split; vm_compute; reflexivity. Qed.
Example C126_rejected_hypotheses_met : exists (ops : list (bc_op nat nat nat)), reached lex_ltb 1 ex_mesh ops (ex_bc ops) /\
  (exists i r, condition ex_mesh ops i = Some r /\ ~ known 2 (r_type r) /\ r_type r <> NOTHING) /\ mech_make (K := Zring) 2 ex_sbs ex_mesh 0 (ex_bc ops) = Throw InvalidArgument.
Proof.
  exists [AddDirichlet DXDZ 1 (fun p => p)]. split; [vm_compute; reflexivity|]. split; [|vm_compute; reflexivity]. exists 3. eexists. split; [vm_compute; reflexivity|].
  split; [|discriminate]. unfold known. cbn. intros [H|[H _]]; [|discriminate]. repeat destruct H as [H|H]; try discriminate. destruct H.
Qed.

(** ** C131: contact faces that are not SIGNORINI_FACE *)
(** The primal assemblers give no number to the unknowns of such a face but use them: two faces share
    their unknowns; on the last face they lie outside the matrix. A SIGNORINI_FACE with a prescribed
    component gets one row too many. *)
Theorem C131_contact_refuted :
  let ops := [AddContact SIGNORINI 0] in let ops' := [AddContact SIGNORINI 2] in let ops'' := [AddContact SIGNORINI_FACE 0; AddDirichlet DX 0 (fun p => p)] in
  ex_setting 2 ops (uniform ex_mesh 0) /\ ex_setting 2 ops' (uniform ex_mesh 0) /\ ex_setting 2 ops'' (uniform ex_mesh 0) /\
  (exists a, ex_prim 2 ops (ex_vcalls 6) = Ok a /\ ~ ex_full 2 ops (concat (ex_vcss 2)) a) /\
  ex_prim 2 ops' (ex_vcalls 6) = UB /\
  (exists a, prim_make (K := Zring) 2 ex_sbs ex_mesh (uniform ex_mesh 0) (ex_bc ops'') = Ok a /\ ~ numbers 2 ex_sbs ex_mesh ops'' (uniform ex_mesh 0) a).
Proof.
  cbv zeta. split; [ex_set|]. split; [ex_set|]. split; [ex_set|].
  split; [apply (ex_wrong_refutes 2 _ _ 0); vm_compute; reflexivity|].
  split; [vm_compute; reflexivity|].
  assert (X : match prim_make (K := Zring) 2 ex_sbs ex_mesh (uniform ex_mesh 0) (ex_bc [AddContact SIGNORINI_FACE 0; AddDirichlet DX 0 (fun p => p)]) with
    | Ok a => v_size a | _ => 0 end = 10) by (vm_compute; reflexivity).
  destruct (prim_make _ _ _ _ _) as [a|e|]; try discriminate. exists a. split; [reflexivity|]. intros (_ & H & _). rewrite X in H. vm_compute in H. discriminate.
Qed.
(** SIGNORINI_FACE alone: the face gets degree 1, its four unknowns are numbered *)
Example C131_hypotheses_met : let ops := [AddContact SIGNORINI_FACE 0; AddDirichlet DX 1 (fun p => p)] in let deg := map (contact_degree ops 0) (m_binfo ex_mesh) in
  ex_setting 2 ops deg /\ contact_plain ex_mesh ops deg /\
  match prim_make_hdi (K := Zring) lex_ltb 2 ex_sbs ex_mesh 0 (ex_bc ops) with Ok a => v_tab a = [0; 4; 6; 8; 9] /\ v_size a = 11 | _ => False end.
Proof.
  cbv zeta. split; [split; [exact lex_ltb_sto|exact ex_wf|vm_compute; reflexivity|auto|apply ex_supported; repeat constructor; vm_compute; tauto|reflexivity|]|].
  { intros i d E _. apply nth_error_In in E. vm_compute in E. repeat (destruct E as [<-|E]; [reflexivity|]). destruct E. }
  split; [|vm_compute; auto]. intros i b d r Hb Ed HU LR. do 5 (destruct i as [|i]; [injection Hb as <-; vm_compute in LR; try discriminate; injection LR as <-; vm_compute; auto|]). destruct i; discriminate.
Qed.

Print Assumptions C130_component_dirichlet_refuted.
Print Assumptions C130_overwritten_refuted.
Print Assumptions C130_wrong_component_refuted.
Print Assumptions C131_contact_refuted.
Print Assumptions C126_numbering.
Print Assumptions C126_bad_type_rejected.
Print Assumptions C127_assembly_mechanics.
Print Assumptions C127_assembly_primal.
Print Assumptions C127_solutions.
Print Assumptions C128_take_local.
Print Assumptions C128_expand.
Print Assumptions C129_newton_systems.
Print Assumptions C129_correction.
Print Assumptions C129_prescribed_values_reached.
Print Assumptions C130_neumann_partial.
Print Assumptions C130_entirely_prescribed_rejected.
Print Assumptions C131_contact_degrees.
