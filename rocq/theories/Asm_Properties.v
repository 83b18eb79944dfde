(** C29, C30, C32: the condensed assembler. *)
From Coq Require Import List Arith Bool Lia Permutation ZArith.
From Verif Require Import Common LinAlg Mesh_Model Mesh_Spec Mesh_Proofs Elem_Model Elem_Proofs Mesh_Properties
  BC_Model BC_Spec BC_Proofs BC_Properties Cond_Spec Cond_Properties Asm_Model Asm_Spec Asm_Proofs Asm2_Proofs.
Import ListNotations.

Definition answer (o : outcome bool) : option bool := match o with Ok b => Some b | _ => None end.

(** A table numbering the faces with [dir i = false] among the first [n], in order. *)
Record numbering (dir : nat -> bool) (n total : nat) (t : tables) : Prop := {
  (** every free face gets a number below [total], and the expand table leads back *)
  nu_forth : forall i, i < n -> dir i = false -> exists k, k < total /\
    nth_error (compress_table t) i = Some k /\ nth_error (expand_table t) k = Some i;
  (** every number below [total] is that of a free face *)
  nu_back : forall k, k < total -> exists i, i < n /\ dir i = false /\
    nth_error (expand_table t) k = Some i /\ nth_error (compress_table t) i = Some k;
  nu_len : length (compress_table t) = n /\ length (expand_table t) = total;
  (** order preserving *)
  nu_order : forall i j k l, i < j -> dir i = false -> dir j = false ->
    nth_error (compress_table t) i = Some k -> nth_error (compress_table t) j = Some l -> k < l
}.

Lemma rank_mono_lt dir i j : i < j -> dir i = false -> rank dir i < rank dir j.
Proof. intros H D. exact (rank_lt dir i j H D). Qed.

Lemma tab_ok_numbering {F} (faces : list F) dir t : tab_ok faces dir (length faces) t ->
  numbering dir (length faces) (rank dir (length faces)) t.
Proof.
  intros (L1 & L2 & T1 & _ & T2). constructor.
  - intros i Hi Di. exists (rank dir i). split; [apply rank_lt; assumption|]. rewrite (T1 i Hi), Di. split; [reflexivity|apply T2; assumption].
  - intros k Hk. destruct (rank_surj dir (length faces) k Hk) as (i & Hi & Di & <-). exists i. rewrite (T1 i Hi), Di. auto.
  - auto.
  - intros i j k l H Di Dj Ei Ej. assert (Hj : j < length faces) by (apply nth_error_Some_lt in Ej || (rewrite <- L1; apply nth_error_Some; congruence); lia).
    rewrite T1, Di in Ei by lia. rewrite T1, Dj in Ej by lia. injection Ei as <-. injection Ej as <-. apply rank_lt; assumption.
Qed.

Lemma rank_count {F} (p : F -> bool) (faces : list F) :
  rank (fun i => match nth_error faces i with Some f => p f | None => false end) (length faces) = length (filter (fun f => negb (p f)) faces).
Proof.
  induction faces as [|f l IH] using rev_ind; [reflexivity|].
  rewrite app_length, Nat.add_1_r, filter_app, app_length. cbn [rank].
  rewrite nth_error_app2, Nat.sub_diag by lia. cbn [nth_error filter]. rewrite <- IH. f_equal; [|destruct (p f); reflexivity].
  assert (G : forall k, k <= length l -> rank (fun i => match nth_error (l ++ [f]) i with Some g => p g | None => false end) k =
     rank (fun i => match nth_error l i with Some g => p g | None => false end) k).
  { induction k as [|k IHk]; intros Hk; [reflexivity|]. cbn [rank]. rewrite IHk, nth_error_app1 by lia. reflexivity. }
  apply G. lia.
Qed.

Section General.
  Context {K : cring} {F : Type} (faces : list F) (nb : nat).
  Context (pos : F -> outcome nat) (isdir : F -> outcome bool) (proj : F -> outcome (nat -> K)) (value : F -> nat -> K).
  Let dir := dirichlet_number (fun f => answer (isdir f)) faces.
  Context (HP : forall i f, nth_error faces i = Some f -> pos f = Ok i)
          (HD : forall f, In f faces -> exists b, isdir f = Ok b)
          (HV : forall f, In f faces -> isdir f = Ok true -> proj f = Ok (value f)).
  Let dn i k : K := match nth_error faces i with Some f => value f k | None => c0 end.

  Lemma all_face_ok i f : nth_error faces i = Some f -> face_ok (length faces) dir dn pos isdir proj i f.
  Proof.
    intros H. assert (In f faces) as HI by (apply nth_error_In in H; exact H). split; [apply nth_error_Some; congruence|]. split; [apply HP; exact H|].
    destruct (HD f HI) as [b Eb]. assert (D : dir i = b) by (unfold dir, dirichlet_number; rewrite H, Eb; reflexivity).
    split; [congruence|]. intros Dt. rewrite D in Dt. subst b. rewrite (HV f HI) by congruence. f_equal. unfold dn. rewrite H. reflexivity.
  Qed.

  Lemma dval_prescribed I : dval nb dn I = prescribed value faces nb I.
  Proof. unfold dval, dn, prescribed. reflexivity. Qed.

  Lemma run_spec {C} (faces_of : C -> list F) (step : C * mat K * vec K -> asm K -> outcome (asm K)) ub :
    (forall cl l r a, use_bnd a = ub -> step (cl, l, r) a = assemble_with pos isdir proj (faces_of cl) l r a) ->
    forall calls cs, Forall2 (contributes faces faces_of nb) calls cs ->
    forall past a, good (length faces) nb dir dn past a -> use_bnd a = ub ->
    exists a', floop step calls a = Ok a' /\ good (length faces) nb dir dn (past ++ cs) a' /\ use_bnd a' = ub /\ tab a' = tab a /\ num_other_faces a' = num_other_faces a.
  Proof.
    intros ST. induction 1 as [|call c calls cs HC R IH]; intros past a G U; cbn [floop].
    - exists a. rewrite app_nil_r. auto.
    - destruct call as [[cl l] r]. destruct HC as (NF & <- & <- & FI). rewrite (ST cl _ _ a U).
      destruct (good_step (length faces) nb dir dn pos isdir proj a past c (faces_of cl) G) as (a1 & -> & G1 & U1 & N1 & T1);
        [clear -NF HP HD HV; apply (stored_face_ok faces dir dn pos isdir proj); [exact all_face_ok|exact NF]|exact FI|].
      cbn [bind]. destruct (IH (past ++ [c]) a1 G1 ltac:(congruence)) as (a2 & -> & G2 & U2 & T2 & N2).
      exists a2. rewrite <- app_assoc in G2. cbn [app] in G2. split; [reflexivity|]. split; [exact G2|]. repeat split; congruence.
  Qed.

  Lemma full_run {C} (faces_of : C -> list F) (step : C * mat K * vec K -> asm K -> outcome (asm K)) ub :
    (forall cl l r a, use_bnd a = ub -> step (cl, l, r) a = assemble_with pos isdir proj (faces_of cl) l r a) ->
    forall calls cs, Forall2 (contributes faces faces_of nb) calls cs ->
    exists a, (do a <- asm_make isdir ub faces nb; do a <- floop step calls a; finalize a) = Ok a /\
      assembled dir (length faces) nb (prescribed value faces nb) cs (LHS a) (RHS a) /\
      fbs a = nb /\ triplets a = [] /\ tab_ok faces dir (length faces) (tab a).
  Proof.
    intros ST calls cs HC. destruct (good_make faces nb dir dn pos isdir proj all_face_ok ub) as (a0 & -> & G0 & U0 & _ & T0 & _). cbn [bind].
    destruct (run_spec faces_of step ub ST calls cs HC [] a0 G0 U0) as (a1 & -> & G1 & U1 & T1 & _). cbn [bind app] in *.
    destruct (finalize_spec faces nb dir dn cs a1 G1) as (a2 & -> & AS & T2 & FB & TR). exists a2. split; [reflexivity|].
    split.
    - destruct AS as [A1 A2 A3 A4 A5]. constructor; auto.
    - split; [destruct G1 as (_ & E & _); congruence|]. split; [exact TR|]. rewrite T2, T1. exact T0.
  Qed.

  Lemma local_spec (a : asm K) x ids fcs : tab_ok faces dir (length faces) (tab a) -> fbs a = nb -> nb * rank dir (length faces) <= vsize x ->
    numbered faces ids fcs ->
    exists l, take_local a pos isdir proj x fcs = Ok l /\ length l = length ids * nb /\
      forall p, p < length ids * nb ->
        let I := nth (p / nb) ids 0 * nb + p mod nb in
        nth p l c0 = if free dir nb I then vent x (position dir nb I) else prescribed value faces nb I.
  Proof.
    intros T E HX HN. apply (take_local_spec faces nb dir dn pos isdir proj all_face_ok a x ids fcs); auto.
    destruct T as (_ & _ & T & _). exact T.
  Qed.
End General.

(** ** First overload: homogeneous or user-supplied Dirichlet data on all boundary faces *)
Section Boundary.
  Context {K : cring} {C F : Type} (cltb : C -> C -> bool) (fltb : F -> F -> bool) (faces_of : C -> list F).
  (** face [i] is a boundary face *)
  Definition bnd_face (m : mesh C F) : nat -> bool :=
    dirichlet_number (fun f => answer (is_boundary C F fltb m f)) (m_faces m).

  (** construct, assemble every call, finalize *)
  Definition diffusion_run (m : mesh C F) (nb : nat) (proj : F -> nat -> K) (calls : list (C * mat K * vec K)) : outcome (asm K) :=
    do a <- diffusion_asm fltb m nb;
    do a <- floop (fun call a => let '(cl, l, r) := call in diffusion_assemble fltb faces_of m cl l r proj a) calls a;
    finalize a.

  Lemma isb_total (O : strict_total_order fltb) (m : mesh C F) : wf_mesh cltb fltb faces_of m ->
    forall f, In f (m_faces m) -> exists b, is_boundary C F fltb m f = Ok b.
  Proof.
    intros W f Hf. destruct (in_stored _ _ Hf) as [i Hi]. destruct (binfo_nth m (wf_binfo _ _ _ _ W) i (stored_lt _ _ _ Hi)) as [d Hd].
    exists (bd_is_b d). eapply is_boundary_stored; try eassumption. exact (wf_faces _ _ _ _ W).
  Qed.
  Lemma pos_ok (O : strict_total_order fltb) (m : mesh C F) : wf_mesh cltb fltb faces_of m ->
    forall i f, nth_error (m_faces m) i = Some f -> lookup F fltb (m_faces m) f = Ok i /\ offset F fltb (m_faces m) f = Ok i.
  Proof. intros W i f H. destruct W. split; [apply lookup_stored|apply offset_stored]; assumption. Qed.

  (** C29: the numbering is an order-preserving bijection between the non-boundary faces and
      0..n-1, and the size of the system is n times the number of unknowns per face. *)
  Theorem C29_numbering : strict_total_order fltb -> forall (m : mesh C F) nb, wf_mesh cltb fltb faces_of m ->
    exists a : asm K, diffusion_asm fltb m nb = Ok a /\
      let free_faces := filter (fun f => negb (dirichlet_number (fun g => answer (is_boundary C F fltb m g)) [f] 0)) (m_faces m) in
      numbering (bnd_face m) (length (m_faces m)) (length free_faces) (tab a) /\
      num_assembled_faces a = length free_faces /\
      system_size a = nb * length free_faces /\ vsize (RHS a) = system_size a /\ mrows (LHS a) = system_size a /\ mcols (LHS a) = system_size a.
  Proof.
    intros O m nb W. unfold diffusion_asm.
    destruct (asm_make_spec (m_faces m) (is_boundary C F fltb m) (bnd_face m)) with (K := K) (ub := false) (fbs := nb)
      as (a & Q & T & U & N1 & N2 & N3 & E & S1 & TR & S2 & Z & M1 & M2).
    { intros i f H. destruct (isb_total O m W f (nth_error_In _ _ H)) as [b Eb]. unfold bnd_face, dirichlet_number. rewrite H, Eb. reflexivity. }
    exists a. split; [exact Q|]. set (ff := filter _ (m_faces m)). cbv zeta.
    assert (R : rank (bnd_face m) (length (m_faces m)) = length ff).
    { unfold ff. rewrite <- (rank_count (fun f => dirichlet_number (fun g => answer (is_boundary C F fltb m g)) [f] 0)).
      f_equal. }
    rewrite <- R. split; [apply tab_ok_numbering; exact T|]. unfold num_assembled_faces. auto.
  Qed.

  (** C30: whatever cells are assembled, the result is the full system restricted to the free
      unknowns with the Dirichlet unknowns eliminated; nothing fails. *)
  Theorem C30_assembly : strict_total_order fltb -> forall (m : mesh C F) nb (proj : F -> nat -> K) calls cs, wf_mesh cltb fltb faces_of m ->
    Forall2 (contributes (m_faces m) faces_of nb) calls cs ->
    exists a, diffusion_run m nb proj calls = Ok a /\
      assembled (bnd_face m) (length (m_faces m)) nb (prescribed proj (m_faces m) nb) cs (LHS a) (RHS a).
  Proof.
    intros O m nb proj calls cs W HC.
    destruct (full_run (m_faces m) nb (lookup F fltb (m_faces m)) (is_boundary C F fltb m) (fun f => Ok (proj f)) proj
       (fun i f H => proj1 (pos_ok O m W i f H)) (isb_total O m W) (fun f _ _ => eq_refl) faces_of
       (fun call a => let '(cl, l, r) := call in diffusion_assemble fltb faces_of m cl l r proj a) false) with (calls := calls) (cs := cs) as (a & E & A & _).
    - intros cl l r a U. unfold diffusion_assemble. rewrite U. reflexivity.
    - exact HC.
    - exists a. auto.
  Qed.

  (** C32: the local part of a global vector holds, for each unknown of each face of the cell, the
      prescribed value on Dirichlet faces and the entry of the global vector elsewhere. *)
  Theorem C32_take_local : strict_total_order fltb -> forall (m : mesh C F) nb (proj : F -> nat -> K) calls cs a x cl ids, wf_mesh cltb fltb faces_of m ->
    Forall2 (contributes (m_faces m) faces_of nb) calls cs -> diffusion_run m nb proj calls = Ok a ->
    vsize x = vsize (RHS a) -> numbered (m_faces m) ids (faces_of cl) ->
    exists l, diffusion_take_local fltb faces_of m cl x proj a = Ok l /\ length l = length ids * nb /\
      forall p, p < length ids * nb ->
        let I := nth (p / nb) ids 0 * nb + p mod nb in
        nth p l c0 = if free (bnd_face m) nb I then vent x (position (bnd_face m) nb I) else prescribed proj (m_faces m) nb I.
  Proof.
    intros O m nb proj calls cs a x cl ids W HC R HX HN.
    destruct (full_run (m_faces m) nb (lookup F fltb (m_faces m)) (is_boundary C F fltb m) (fun f => Ok (proj f)) proj
       (fun i f H => proj1 (pos_ok O m W i f H)) (isb_total O m W) (fun f _ _ => eq_refl) faces_of
       (fun call a => let '(cl, l, r) := call in diffusion_assemble fltb faces_of m cl l r proj a) false) with (calls := calls) (cs := cs) as (a' & E & A & FB & TR & T).
    { intros cl0 l r a0 U. unfold diffusion_assemble. rewrite U. reflexivity. }
    { exact HC. }
    unfold diffusion_run, diffusion_asm in R. rewrite R in E. injection E as <-.
    apply (local_spec (m_faces m) nb (offset F fltb (m_faces m)) (is_boundary C F fltb m) (fun f => Ok (proj f)) proj
      (fun i f H => proj2 (pos_ok O m W i f H)) (isb_total O m W) (fun f _ _ => eq_refl) a x ids (faces_of cl) T FB); [|exact HN].
    rewrite HX. destruct A as [_ _ -> _ _]. reflexivity.
  Qed.
End Boundary.

(** ** Second overload: boundary conditions object *)
Section WithBC.
  Context {K : cring} {C F Sc P V : Type} (cltb : C -> C -> bool) (fltb : F -> F -> bool) (faces_of : C -> list F).
  Context (smul : Sc -> V -> V) (one : Sc) (project : F -> (P -> V) -> nat -> K).

  (** face [i] was registered as Dirichlet *)
  Definition dirichlet_face (m : mesh C F) (ops : list (bc_op Sc P V)) (i : nat) : bool :=
    match nth_error (m_binfo m) i with Some d => is_some (last_reg Dirichlet d ops None) | None => false end.
  (** the projection of the last function registered for face [i], times the last factor *)
  Definition dirichlet_value (m : mesh C F) (ops : list (bc_op Sc P V)) (nb I : nat) : K :=
    match nth_error (m_faces m) (I / nb), nth_error (m_binfo m) (I / nb) with
    | Some f, Some d => match last_reg Dirichlet d ops None with
        | Some (mkReg _ _ _ _ (Some fn)) => project f (fun p => smul (last_factor ops one) (fn p)) (I mod nb)
        | _ => c0 end
    | _, _ => c0
    end.

  Definition diffusion_bnd_run (m : mesh C F) (bnd : bc Sc P V) (nb : nat) (calls : list (C * mat K * vec K)) : outcome (asm K) :=
    do a <- diffusion_asm_bnd fltb m bnd nb;
    do a <- floop (fun call a => let '(cl, l, r) := call in diffusion_assemble_bnd fltb faces_of smul project m bnd cl l r a) calls a;
    finalize a.

  Section Reached.
    Context (O : strict_total_order fltb) (m : mesh C F) (ops : list (bc_op Sc P V)) (bnd : bc Sc P V).
    Context (W : wf_mesh cltb fltb faces_of m) (R : reached fltb one m ops bnd).

    Let value (f : F) : nat -> K := match proj_bnd fltb smul project m bnd f with Ok g => g | _ => fun _ => c0 end.

    Lemma isdir_bnd_at i f : nth_error (m_faces m) i = Some f -> isdir_bnd fltb m bnd f = Ok (dirichlet_face m ops i).
    Proof.
      intros H. destruct (binfo_nth m (wf_binfo _ _ _ _ W) i (stored_lt _ _ _ H)) as [d Hd].
      pose proof (C15_queries_report_last cltb fltb faces_of smul one O m ops bnd W R Dirichlet i f d H Hd) as Q.
      unfold dirichlet_face. rewrite Hd. cbn [is_face] in Q. unfold isdir_bnd. destruct (last_reg Dirichlet d ops None); cbn [is_some]; tauto.
    Qed.
    Lemma isdir_bnd_total f : In f (m_faces m) -> exists b, isdir_bnd fltb m bnd f = Ok b.
    Proof. intros H. destruct (in_stored _ _ H) as [i Hi]. eexists. apply (isdir_bnd_at i f Hi). Qed.
    Lemma proj_bnd_at i f d : nth_error (m_faces m) i = Some f -> nth_error (m_binfo m) i = Some d -> proj_bnd fltb smul project m bnd f =
      match last_reg Dirichlet d ops None with
      | Some (mkReg _ _ _ _ (Some fn)) => Ok (project f (fun p => smul (last_factor ops one) (fn p)))
      | _ => Throw LogicError end.
    Proof.
      intros H Hd. unfold proj_bnd. rewrite (proj1 (C15_functions cltb fltb faces_of smul one O m ops bnd W R i f d H Hd)).
      destruct (last_reg Dirichlet d ops None) as [[t id [fn|]]|]; reflexivity.
    Qed.
    (** a Dirichlet registration always carries a function *)
    Lemma dir_has_func d : forall l acc, (forall r, acc = Some r -> exists fn, r_func r = Some fn) -> forall r, last_reg (Sc:=Sc) (P:=P) (V:=V) Dirichlet d l acc = Some r -> exists fn, r_func r = Some fn.
    Proof.
      induction l as [|o l IH]; intros acc HA r; cbn [last_reg]; [apply HA|].
      apply IH. intros r'. destruct (says Dirichlet d o) as [r0|] eqn:E; [|apply HA].
      intros [= <-]. unfold says in E. destruct (negb (bd_is_b d)); [discriminate|].
      destruct o; try discriminate; [|destruct (bd_id d =? _); [|discriminate]]; injection E as <-; cbn; eauto.
    Qed.
    Lemma proj_bnd_dir f : In f (m_faces m) -> isdir_bnd fltb m bnd f = Ok true -> proj_bnd fltb smul project m bnd f = Ok (value f).
    Proof.
      intros H D. destruct (in_stored _ _ H) as [i Hi]. destruct (binfo_nth m (wf_binfo _ _ _ _ W) i (stored_lt _ _ _ Hi)) as [d Hd].
      unfold value. rewrite (proj_bnd_at i f d Hi Hd). rewrite (isdir_bnd_at i f Hi) in D. unfold dirichlet_face in D. rewrite Hd in D.
      destruct (last_reg Dirichlet d ops None) as [r|] eqn:E; [|discriminate].
      destruct (dir_has_func d ops None ltac:(discriminate) r E) as [fn Efn]. destruct r as [t id [g|]]; [reflexivity|discriminate].
    Qed.
    Lemma dir_same i : i < length (m_faces m) -> dirichlet_number (fun f => answer (isdir_bnd fltb m bnd f)) (m_faces m) i = dirichlet_face m ops i.
    Proof.
      intros H. unfold dirichlet_number. destruct (nth_error_some _ _ H) as [f E]. rewrite E, (isdir_bnd_at i f E). reflexivity.
    Qed.
    Lemma value_same nb I : dirichlet_face m ops (I / nb) = true -> prescribed value (m_faces m) nb I = dirichlet_value m ops nb I.
    Proof.
      intros D. unfold prescribed, dirichlet_value. destruct (nth_error (m_faces m) (I / nb)) as [f|] eqn:E; [|reflexivity].
      destruct (binfo_nth m (wf_binfo _ _ _ _ W) (I / nb) (stored_lt _ _ _ E)) as [d Hd]. rewrite Hd.
      unfold value. rewrite (proj_bnd_at _ f d E Hd). destruct (last_reg Dirichlet d ops None) as [[t id [g|]]|]; reflexivity.
    Qed.
    Lemma rank_same n : n <= length (m_faces m) ->
      rank (dirichlet_number (fun f => answer (isdir_bnd fltb m bnd f)) (m_faces m)) n = rank (dirichlet_face m ops) n.
    Proof. induction n as [|n IH]; intros H; [reflexivity|]. cbn [rank]. rewrite IH, dir_same by lia. reflexivity. Qed.

    Lemma bnd_full nb calls cs : Forall2 (contributes (m_faces m) faces_of nb) calls cs ->
      exists a, diffusion_bnd_run m bnd nb calls = Ok a /\
        assembled (dirichlet_face m ops) (length (m_faces m)) nb (dirichlet_value m ops nb) cs (LHS a) (RHS a) /\
        fbs a = nb /\ tab_ok (m_faces m) (dirichlet_number (fun f => answer (isdir_bnd fltb m bnd f)) (m_faces m)) (length (m_faces m)) (tab a).
    Proof.
      intros HC. destruct (full_run (m_faces m) nb (offset F fltb (m_faces m)) (isdir_bnd fltb m bnd) (proj_bnd fltb smul project m bnd) value
         (fun i f H => proj2 (pos_ok cltb fltb faces_of O m W i f H)) isdir_bnd_total proj_bnd_dir faces_of
         (fun call a => let '(cl, l, r) := call in diffusion_assemble_bnd fltb faces_of smul project m bnd cl l r a) true) with (calls := calls) (cs := cs)
        as (a & E & A & FB & _ & T).
      - intros cl l r a U. unfold diffusion_assemble_bnd. rewrite U. reflexivity.
      - exact HC.
      - exists a. split; [exact E|]. split; [|split; assumption].
        set (dir := dirichlet_number _ _) in A.
        assert (FS : forall I, I < length (m_faces m) * nb -> free dir nb I = free (dirichlet_face m ops) nb I).
        { intros I HI. unfold free, dir. rewrite dir_same; [reflexivity|]. apply (div_mod_lt nb I _ HI). }
        assert (PS : forall I, I < length (m_faces m) * nb -> position dir nb I = position (dirichlet_face m ops) nb I).
        { intros I HI. unfold position, dir. rewrite rank_same; [reflexivity|]. pose proof (div_mod_lt nb I _ HI). lia. }
        destruct A as [A1 A2 A3 A4 A5]. unfold dir in A1, A2, A3. rewrite rank_same in A1, A2, A3 by reflexivity.
        constructor; auto.
        + intros I J HI HJ FI FJ. rewrite <- !PS by assumption. apply A4; auto; rewrite FS; auto.
        + intros I HI FI. rewrite <- PS, A5 by (rewrite ?FS; auto). f_equal. apply sumn_ext. intros J HJ. rewrite FS by exact HJ.
          destruct (free (dirichlet_face m ops) nb J) eqn:FJ; [reflexivity|]. rewrite value_same; [reflexivity|]. unfold free in FJ. apply negb_false_iff in FJ. exact FJ.
    Qed.

    Lemma bnd_local nb calls cs a x cl ids : Forall2 (contributes (m_faces m) faces_of nb) calls cs -> diffusion_bnd_run m bnd nb calls = Ok a ->
      vsize x = vsize (RHS a) -> numbered (m_faces m) ids (faces_of cl) ->
      exists l, diffusion_take_local_bnd fltb faces_of smul project m bnd cl x a = Ok l /\ length l = length ids * nb /\
        forall p, p < length ids * nb ->
          let I := nth (p / nb) ids 0 * nb + p mod nb in
          nth p l c0 = if free (dirichlet_face m ops) nb I then vent x (position (dirichlet_face m ops) nb I) else dirichlet_value m ops nb I.
    Proof.
      intros HC RN HX HN. destruct (bnd_full nb calls cs HC) as (a' & E & A & FB & T). rewrite RN in E. injection E as <-.
      destruct (local_spec (m_faces m) nb (offset F fltb (m_faces m)) (isdir_bnd fltb m bnd) (proj_bnd fltb smul project m bnd) value
         (fun i f H => proj2 (pos_ok cltb fltb faces_of O m W i f H)) isdir_bnd_total proj_bnd_dir a x ids (faces_of cl) T FB) as (l & L1 & L2 & L3).
      - rewrite rank_same by reflexivity. rewrite HX. destruct A as [_ _ -> _ _]. reflexivity.
      - exact HN.
      - exists l. split; [exact L1|]. split; [exact L2|]. intros p Hp. pose proof (L3 p Hp) as Q. cbv zeta in Q |- *. set (I := nth (p / nb) ids 0 * nb + p mod nb) in *. rewrite Q.
        assert (HI : I / nb < length (m_faces m)).
        { destruct (div_mod_lt nb p _ Hp) as (P1 & P2 & P3). unfold I. destruct (dm_add nb (nth (p / nb) ids 0) (p mod nb) P2) as [-> _].
          destruct (nth_error_some ids _ P1) as [i Ei]. rewrite (nth_error_nth _ _ _ Ei).
          clear -HN Ei. revert Ei. generalize (p / nb). induction HN as [|a b la lb H _ IH]; intros [|k]; cbn; try discriminate.
          - intros [= <-]. apply nth_error_Some. congruence.
          - apply IH. }
        assert (RS : rank (dirichlet_number (fun f => answer (isdir_bnd fltb m bnd f)) (m_faces m)) (I / nb) = rank (dirichlet_face m ops) (I / nb)) by (apply rank_same; lia).
        unfold free, position. rewrite dir_same, RS by exact HI. destruct (dirichlet_face m ops (I / nb)) eqn:D; [|reflexivity].
        cbn [negb]. apply value_same. exact D.
    Qed.
  End Reached.

  (** C29 with a boundary-conditions object. *)
  Theorem C29_numbering_bnd : strict_total_order fltb -> forall (m : mesh C F) ops bnd nb, wf_mesh cltb fltb faces_of m -> reached fltb one m ops bnd ->
    exists a : asm K, diffusion_asm_bnd fltb m bnd nb = Ok a /\
      let total := rank (dirichlet_face m ops) (length (m_faces m)) in
      numbering (dirichlet_face m ops) (length (m_faces m)) total (tab a) /\
      num_assembled_faces a = total /\
      system_size a = nb * total /\ vsize (RHS a) = system_size a /\ mrows (LHS a) = system_size a /\ mcols (LHS a) = system_size a.
  Proof.
    intros O m ops bnd nb W R. unfold diffusion_asm_bnd.
    destruct (asm_make_spec (m_faces m) (isdir_bnd fltb m bnd) (dirichlet_face m ops)) with (K := K) (ub := true) (fbs := nb)
      as (a & Q & T & U & N1 & N2 & N3 & E & S1 & TR & S2 & Z & M1 & M2).
    { intros i f H. apply (isdir_bnd_at O m ops bnd W R i f H). }
    exists a. split; [exact Q|]. cbv zeta. split; [apply tab_ok_numbering; exact T|]. unfold num_assembled_faces. auto.
  Qed.

  (** C30 with a boundary-conditions object, after any history of registrations. *)
  Theorem C30_assembly_bnd : strict_total_order fltb -> forall (m : mesh C F) ops bnd nb calls cs, wf_mesh cltb fltb faces_of m ->
    reached fltb one m ops bnd -> Forall2 (contributes (m_faces m) faces_of nb) calls cs ->
    exists a, diffusion_bnd_run m bnd nb calls = Ok a /\
      assembled (dirichlet_face m ops) (length (m_faces m)) nb (dirichlet_value m ops nb) cs (LHS a) (RHS a).
  Proof.
    intros O m ops bnd nb calls cs W R HC. destruct (bnd_full O m ops bnd W R nb calls cs HC) as (a & E & A & _). eauto.
  Qed.

  (** C32 with a boundary-conditions object. *)
  Theorem C32_take_local_bnd : strict_total_order fltb -> forall (m : mesh C F) ops bnd nb calls cs a x cl ids, wf_mesh cltb fltb faces_of m ->
    reached fltb one m ops bnd -> Forall2 (contributes (m_faces m) faces_of nb) calls cs -> diffusion_bnd_run m bnd nb calls = Ok a ->
    vsize x = vsize (RHS a) -> numbered (m_faces m) ids (faces_of cl) ->
    exists l, diffusion_take_local_bnd fltb faces_of smul project m bnd cl x a = Ok l /\ length l = length ids * nb /\
      forall p, p < length ids * nb ->
        let I := nth (p / nb) ids 0 * nb + p mod nb in
        nth p l c0 = if free (dirichlet_face m ops) nb I then vent x (position (dirichlet_face m ops) nb I) else dirichlet_value m ops nb I.
  Proof. intros O m ops bnd nb calls cs a x cl ids W R HC RN HX HN. exact (bnd_local O m ops bnd W R nb calls cs a x cl ids HC RN HX HN). Qed.
End WithBC.

(** C30: a vector solves the assembled system iff, completed by the Dirichlet values, it satisfies
    the rows of the full system that belong to free unknowns. *)
Theorem C30_solutions : forall (K : cring) dir n nb (d : nat -> K) cs A b x, assembled dir n nb d cs A b -> vsize x = vsize b ->
  (solves A x b <->
   forall I, I < n * nb -> free dir nb I = true ->
     sumn (n * nb) (fun J => cmul (full_mat nb cs I J) (if free dir nb J then vent x (position dir nb J) else d J)) = full_rhs nb cs I).
Proof.
  intros K dir n nb d cs A b x H HX. rewrite <- (assembled_solves dir n nb d cs A b x H) by (destruct H; congruence).
  unfold solves. destruct H as [R C Z _ _]. split; [tauto|]. intros E. split; [congruence|]. split; [congruence|]. exact E.
Qed.

(** C30: the order in which the cells are assembled does not matter. *)
Theorem C30_order : forall (K : cring) dir n nb (d : nat -> K) cs cs' A b A' b', Permutation cs cs' ->
  assembled dir n nb d cs A b -> assembled dir n nb d cs' A' b' ->
  mrows A = mrows A' /\ mcols A = mcols A' /\ vsize b = vsize b' /\
  (forall i j, i < mrows A -> j < mcols A -> ment A i j = ment A' i j) /\ (forall i, i < vsize b -> vent b i = vent b' i).
Proof.
  intros K dir n nb d cs cs' A b A' b' P [R C Z M B] [R' C' Z' M' B']. destruct (full_perm nb cs cs' P) as [PM PR].
  split; [congruence|]. split; [congruence|]. split; [congruence|].
  assert (FR : forall I, dir (I / nb) = false -> free dir nb I = true) by (intros I D; unfold free; rewrite D; reflexivity). split.
  - intros i j Hi Hj. rewrite R in Hi. rewrite C in Hj. destruct (position_surj nb dir n i Hi) as (I & HI & DI & <-).
    destruct (position_surj nb dir n j Hj) as (J & HJ & DJ & <-). rewrite M, M', PM by auto. reflexivity.
  - intros i Hi. rewrite Z in Hi. destruct (position_surj nb dir n i Hi) as (I & HI & DI & <-). rewrite B, B', PR by auto. f_equal.
    apply sumn_ext. intros J HJ. rewrite PM. reflexivity.
Qed.

(** C30: calling the overload that does not belong to the constructor used is rejected. *)
Theorem C30_wrong_overload : forall (K : cring) (C F Sc P V : Type) (fltb : F -> F -> bool) (faces_of : C -> list F) (smul : Sc -> V -> V) project
    (m : mesh C F) (bnd : bc Sc P V) nb (a a' : asm K) cl l r proj,
  diffusion_asm_bnd fltb m bnd nb = Ok a -> diffusion_asm fltb m nb = Ok a' ->
  diffusion_assemble fltb faces_of m cl l r proj a = Throw InvalidArgument /\
  diffusion_assemble_bnd fltb faces_of smul project m bnd cl l r a' = Throw InvalidArgument.
Proof.
  intros K C F Sc P V fltb faces_of smul project m bnd nb a a' cl l r proj H H'.
  assert (U : use_bnd a = true /\ use_bnd a' = false).
  { unfold diffusion_asm_bnd, diffusion_asm, asm_make in H, H'. split.
    - destruct (count_if (isdir_bnd fltb m bnd) (m_faces m)) as [c| |]; try discriminate. cbn [bind] in H.
      destruct (number_faces _ _ _ _ _); try discriminate. cbn [bind] in H. injection H as <-. reflexivity.
    - destruct (count_if (is_boundary C F fltb m) (m_faces m)) as [c| |]; try discriminate. cbn [bind] in H'.
      destruct (number_faces _ _ _ _ _); try discriminate. cbn [bind] in H'. injection H' as <-. reflexivity. }
  destruct U as [U U']. unfold diffusion_assemble, diffusion_assemble_bnd. rewrite U, U'. auto.
Qed.

(** ** Non-vacuity: two triangles, one unknown per face, every entry nonzero *)
Definition ex_lm : mat Zring := mkMat 3 3 (fun i j => Z.of_nat (10 * i + j + 1) : Zring).
Definition ex_lv : vec Zring := mkVec 3 (fun i => Z.of_nat (i + 1) : Zring).
Definition ex_calls : list (list nat * mat Zring * vec Zring) := [([0;1;2], ex_lm, ex_lv); ([1;2;3], ex_lm, ex_lv)].
Definition ex_contrib : list (contribution Zring) := [mkC [0;2;1] ex_lm ex_lv; mkC [2;4;3] ex_lm ex_lv].
Definition ex_proj (f : list nat) (k : nat) : Zring := Z.of_nat (7 + list_sum f + k) : Zring.
Lemma ex_contributes : Forall2 (contributes (m_faces ex_mesh) tri_faces 1) ex_calls ex_contrib.
Proof. unfold ex_calls, ex_contrib. repeat constructor; unfold numbered; cbn; repeat constructor. Qed.
Example C30_hypotheses_met :
  strict_total_order lex_ltb /\ wf_mesh lex_ltb lex_ltb tri_faces ex_mesh /\
  Forall2 (contributes (m_faces ex_mesh) tri_faces 1) ex_calls ex_contrib /\
  match diffusion_run lex_ltb tri_faces ex_mesh 1 ex_proj ex_calls with
  | Ok a => (mrows (LHS a), ment (LHS a) 0 0, vent (RHS a) 0) = (1, 13%Z, (-259)%Z) /\
      match diffusion_take_local lex_ltb tri_faces ex_mesh [1;2;3] (mkVec (K := Zring) 1 (fun _ => 5%Z)) ex_proj a with
      | Ok l => l = [5; 12; 11]%Z | _ => False end
  | _ => False end.
Proof. split; [exact lex_ltb_sto|]. split; [exact ex_wf|]. split; [exact ex_contributes|]. vm_compute. auto. Qed.

(** with boundary conditions: two Dirichlet faces, one Neumann face *)
Definition ex_bops : list (bc_op nat nat nat) :=
  [AddDirichlet CLAMPED 0 (fun p => p); AddNeumann NEUMANN 1 (fun p => p + 1); AddDirichlet DIRICHLET 3 (fun p => p + p); AddRobin ROBIN 2 (fun p => p + 4); SetFactor 2].
Definition ex_project (f : list nat) (g : nat -> nat) (k : nat) : Zring := Z.of_nat (g (list_sum f) + k) : Zring.
Example C30_bnd_hypotheses_met :
  match bc_run _ _ nat nat nat lex_ltb ex_mesh ex_bops (bc_make _ _ nat nat nat 1 ex_mesh) with
  | Ok bnd => reached lex_ltb 1 ex_mesh ex_bops bnd /\
     match diffusion_bnd_run lex_ltb tri_faces Nat.mul ex_project ex_mesh bnd 1 ex_calls with
     | Ok a => mrows (LHS a) = 3 /\ map (fun i => map (ment (LHS a) i) [0;1;2]) [0;1;2] = [[13; 3; 2]; [21; 23; 22]; [11; 13; 12]]%Z /\ map (vent (RHS a)) [0;1;2] = [-123; 3; 2]%Z /\
        match diffusion_take_local_bnd lex_ltb tri_faces Nat.mul ex_project ex_mesh bnd [0;1;2] (mkVec (K := Zring) 3 (fun i => Z.of_nat (i + 5))) a with
        | Ok l => l = [2; 5; 8]%Z | _ => False end
     | _ => False end
  | _ => False end.
Proof. vm_compute. auto. Qed.

Print Assumptions C29_numbering.
Print Assumptions C29_numbering_bnd.
Print Assumptions C30_assembly.
Print Assumptions C30_assembly_bnd.
Print Assumptions C30_solutions.
Print Assumptions C30_order.
Print Assumptions C30_wrong_overload.
Print Assumptions C32_take_local.
Print Assumptions C32_take_local_bnd.
