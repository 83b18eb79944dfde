(** C14, C15: boundary conditions. *)
From Coq Require Import List Arith Bool Lia.
From Verif Require Import Common Mesh_Model Mesh_Spec Mesh_Proofs Elem_Model Elem_Proofs Mesh_Properties
  BC_Model BC_Spec BC_Proofs.
Import ListNotations.

Section Statements.
  Context {C F Sc P V : Type} (cltb : C -> C -> bool) (fltb : F -> F -> bool) (faces_of : C -> list F)
          (smul : Sc -> V -> V) (one : Sc).

  (** state reached by a history of calls *)
  Definition reached (m : mesh C F) (ops : list (bc_op Sc P V)) (s : bc Sc P V) : Prop :=
    bc_run C F Sc P V fltb m ops (bc_make C F Sc P V one m) = Ok s.

  (** C14/C15: no history of calls fails. *)
  Theorem C15_calls_never_fail : strict_total_order fltb -> forall m ops, wf_mesh cltb fltb faces_of m ->
    exists s, reached m ops s.
  Proof. intros O m ops W. destruct (bc_reach cltb fltb faces_of O m W one ops) as (s & E & _). eauto. Qed.

  (** C15: is_X_face, X_boundary_type report the last registration of that kind covering the face;
      registrations of other kinds do not matter ([last_reg] ignores them). *)
  Theorem C15_queries_report_last : strict_total_order fltb -> forall m ops s, wf_mesh cltb fltb faces_of m ->
    reached m ops s -> forall k i f d, stored (m_faces m) i f -> nth_error (m_binfo m) i = Some d ->
    match last_reg k d ops None with
    | Some r => is_face fltb m s k f = Ok true /\ type_of fltb m s k f = Ok (r_type r)
    | None => is_face fltb m s k f = Ok false /\ type_of fltb m s k f = Ok (default_type k)
    end.
  Proof.
    intros O m ops s W R k i f d Hf Hd. destruct (bc_reach cltb fltb faces_of O m W one ops) as (s' & E & I).
    unfold reached in R. rewrite R in E. injection E as <-.
    pose proof (q_spec m k ops _ i d (kinv4_of m k _ _ _ I) Hd) as Q.
    destruct k; unfold is_face, type_of, is_dirichlet_face, is_neumann_face, is_robin_face, is_contact_face,
      dirichlet_boundary_type, neumann_boundary_type, robin_boundary_type, contact_boundary_type;
      rewrite !(by_face_stored cltb fltb faces_of O m W _ i f Hf);
      cbn [kst_of] in Q; destruct (last_reg _ d ops None); tauto.
  Qed.

  (** C15: the boundary ids, by face for Dirichlet, Neumann and Robin, by index for contact. *)
  Theorem C15_boundary_ids : strict_total_order fltb -> forall m ops s, wf_mesh cltb fltb faces_of m ->
    reached m ops s -> forall i f d, stored (m_faces m) i f -> nth_error (m_binfo m) i = Some d ->
    let id k := match last_reg k d ops None with Some r => r_id r | None => 0 end in
    dirichlet_boundary_id C F Sc P V fltb m f s = Ok (id Dirichlet) /\
    neumann_boundary_id C F Sc P V fltb m f s = Ok (id Neumann) /\
    robin_boundary_id C F Sc P V fltb m f s = Ok (id Robin) /\
    contact_boundary_id_idx Sc P V i s = Ok (id Contact).
  Proof.
    intros O m ops s W R i f d Hf Hd id. destruct (bc_reach cltb fltb faces_of O m W one ops) as (s' & E & I).
    unfold reached in R. rewrite R in E. injection E as <-.
    assert (Q : forall k, q_id P V (kst_of k s) i = Ok (id k)).
    { intros k. pose proof (q_spec m k ops _ i d (kinv4_of m k _ _ _ I) Hd) as Q. unfold id.
      destruct (last_reg k d ops None); tauto. }
    unfold dirichlet_boundary_id, neumann_boundary_id, robin_boundary_id, contact_boundary_id_idx.
    rewrite !(by_face_stored cltb fltb faces_of O m W _ i f Hf).
    repeat split; [apply (Q Dirichlet)|apply (Q Neumann)|apply (Q Robin)|apply (Q Contact)].
  Qed.

  (** C53: asked by face, the contact id is right exactly when it agrees with what the Robin
      query reports for that face. *)
  Theorem C53_contact_id_by_face_partial : strict_total_order fltb -> forall m ops s, wf_mesh cltb fltb faces_of m ->
    reached m ops s -> forall i f d, stored (m_faces m) i f -> nth_error (m_binfo m) i = Some d ->
    let id k := match last_reg k d ops None with Some r => r_id r | None => 0 end in
    (contact_boundary_id C F Sc P V fltb m f s = Ok (id Contact) <-> id Robin = id Contact).
  Proof.
    intros O m ops s W R i f d Hf Hd id. destruct (C15_boundary_ids O m ops s W R i f d Hf Hd) as (_ & _ & Q & _).
    unfold contact_boundary_id. unfold robin_boundary_id in Q. rewrite Q. fold (id Robin). split; congruence.
  Qed.

  (** C15: the function returned is the last registered one times the last factor (contact
      functions are not scaled); without registration, and for a contact registration without
      function, the query throws. *)
  Theorem C15_functions : strict_total_order fltb -> forall m ops s, wf_mesh cltb fltb faces_of m ->
    reached m ops s -> forall i f d, stored (m_faces m) i f -> nth_error (m_binfo m) i = Some d ->
    let scaled k := match last_reg k d ops None with
                    | Some (mkReg _ _ _ _ (Some fn)) => Ok (fun p => smul (last_factor ops one) (fn p))
                    | _ => Throw LogicError end in
    dirichlet_boundary_func C F Sc P V fltb smul m f s = scaled Dirichlet /\
    neumann_boundary_func C F Sc P V fltb smul m f s = scaled Neumann /\
    robin_boundary_func C F Sc P V fltb smul m f s = scaled Robin /\
    contact_boundary_func C F Sc P V fltb m f s =
      match last_reg Contact d ops None with
      | Some (mkReg _ _ _ _ (Some fn)) => Ok fn
      | _ => Throw LogicError
      end.
  Proof.
    intros O m ops s W R i f d Hf Hd scaled. destruct (bc_reach cltb fltb faces_of O m W one ops) as (s' & E & I).
    unfold reached in R. rewrite R in E. injection E as <-.
    assert (Q : forall k, k <> Contact -> q_func Sc P V smul (b_factor s) (kst_of k s) i = scaled k).
    { intros k Hk. pose proof (q_func_spec smul m k ops _ i d (b_factor s) (kinv4_of m k _ _ _ I) Hk Hd) as Q.
      unfold scaled. destruct I as (_ & _ & _ & _ & IF). rewrite <- IF.
      destruct (last_reg k d ops None) as [[t id fn]|]; [|exact Q]. destruct Q as (fn' & Q1 & Q2). cbn in Q1. subst fn. exact Q2. }
    unfold dirichlet_boundary_func, neumann_boundary_func, robin_boundary_func, contact_boundary_func.
    rewrite !(by_face_stored cltb fltb faces_of O m W _ i f Hf).
    split; [apply (Q Dirichlet); discriminate|]. split; [apply (Q Neumann); discriminate|].
    split; [apply (Q Robin); discriminate|].
    pose proof (q_contact_func_spec m ops _ i d (kinv4_of m Contact _ _ _ I) Hd) as Q'. cbn [kst_of] in Q'. rewrite Q'.
    destruct (last_reg Contact d ops None) as [[t id [fn|]]|]; reflexivity.
  Qed.

  (** C15: queries about a face that is not in the mesh throw. *)
  Theorem C15_foreign_face_rejected : strict_total_order fltb -> forall m s f k, wf_mesh cltb fltb faces_of m ->
    ~ In f (m_faces m) ->
    is_face fltb m s k f = Throw InvalidArgument /\ type_of (Sc:=Sc) (P:=P) (V:=V) fltb m s k f = Throw InvalidArgument.
  Proof.
    intros O m s f k W Hf. destruct k; unfold is_face, type_of, is_dirichlet_face, is_neumann_face, is_robin_face, is_contact_face,
      dirichlet_boundary_type, neumann_boundary_type, robin_boundary_type, contact_boundary_type, by_face;
      rewrite (lookup_absent fltb O _ _ (wf_faces _ _ _ _ W) Hf); auto.
  Qed.

  (** C15, cell queries: a cell has a face with a condition iff one of its faces has; the number of
      contact faces is the number of its faces with a contact registration; as long as nobody
      registers the type NO_CONTACT (resp. for any type), faces_with_contact lists exactly those
      faces and faces_without_contact the others, in the order of faces(msh, cl). *)
  Theorem C15_cell_queries : strict_total_order fltb -> forall m ops s, wf_mesh cltb fltb faces_of m ->
    reached m ops s -> forall c, In c (m_cells m) ->
    let has k f := match is_face fltb m s k f with Ok b => b | _ => false end in
    cell_has C F Sc P V fltb faces_of b_dir m c s = Ok (existsb (has Dirichlet) (faces_of c)) /\
    cell_has C F Sc P V fltb faces_of b_neu m c s = Ok (existsb (has Neumann) (faces_of c)) /\
    cell_has C F Sc P V fltb faces_of b_rob m c s = Ok (existsb (has Robin) (faces_of c)) /\
    cell_has C F Sc P V fltb faces_of b_con m c s = Ok (existsb (has Contact) (faces_of c)) /\
    howmany_contact_faces C F Sc P V fltb faces_of m c s = Ok (length (filter (has Contact) (faces_of c))) /\
    ((forall t id, In (AddContact t id) ops -> t <> NO_CONTACT) ->
     (forall t id fn, In (AddContactF t id fn) ops -> t <> NO_CONTACT) ->
     faces_with_contact C F Sc P V fltb faces_of m c s = Ok (filter (has Contact) (faces_of c)) /\
     faces_without_contact C F Sc P V fltb faces_of m c s = Ok (filter (fun f => negb (has Contact f)) (faces_of c))).
  Proof.
    intros O m ops s W R c Hc has. pose proof (wf_stored _ _ _ _ W c Hc) as Hin.
    destruct (lookup_all_spec cltb fltb faces_of O m W (faces_of c) Hin) as (ids & El & F2).
    assert (Q : forall k, Forall2 (fun i f => q_set P V (kst_of k s) i = Ok (has k f)) ids (faces_of c)).
    { intros k. assert (FI : forall (A B : Type) (P1 P2 : A -> B -> Prop) l l', (forall a b, P1 a b -> P2 a b) -> Forall2 P1 l l' -> Forall2 P2 l l')
        by (clear; intros A B P1 P2 l l' H; induction 1; constructor; auto).
      eapply FI; [|exact F2]. intros i f Hf. cbn beta in Hf.
      destruct (binfo_nth m (wf_binfo _ _ _ _ W) i (stored_lt _ _ _ Hf)) as [d Hd].
      pose proof (C15_queries_report_last O m ops s W R k i f d Hf Hd) as T.
      assert (EQ : is_face fltb m s k f = q_set P V (kst_of k s) i).
      { destruct k; unfold is_face, is_dirichlet_face, is_neumann_face, is_robin_face, is_contact_face;
          rewrite (by_face_stored cltb fltb faces_of O m W _ i f Hf); reflexivity. }
      unfold has. rewrite <- EQ. destruct (last_reg k d ops None); destruct T as [-> _]; reflexivity. }
    unfold cell_has, howmany_contact_faces. rewrite El. cbn [bind].
    pose proof (Q Dirichlet) as QD. pose proof (Q Neumann) as QN. pose proof (Q Robin) as QR. pose proof (Q Contact) as QC.
    cbn [kst_of] in QD, QN, QR, QC.
    rewrite (any_face_spec _ _ _ _ QD), (any_face_spec _ _ _ _ QN), (any_face_spec _ _ _ _ QR), (any_face_spec _ _ _ _ QC), (count_set_spec _ _ _ _ QC).
    do 5 (split; [reflexivity|]). intros HN HNF.
    assert (T : forall f, In f (faces_of c) -> exists t, contact_boundary_type C F Sc P V fltb m f s = Ok t /\
                 (has Contact f = negb (t =? NO_CONTACT))).
    { intros f Hf. destruct (in_stored _ _ (Hin f Hf)) as [i Hi].
      destruct (binfo_nth m (wf_binfo _ _ _ _ W) i (stored_lt _ _ _ Hi)) as [d Hd].
      pose proof (C15_queries_report_last O m ops s W R Contact i f d Hi Hd) as T. unfold has.
      destruct (last_reg Contact d ops None) as [r|] eqn:L; destruct T as [T1 T2]; cbn [type_of] in T2; rewrite T1, T2.
      - exists (r_type r). split; [reflexivity|].
        assert (G : forall l acc, (forall x, acc = Some x -> r_type x <> NO_CONTACT) ->
           (forall t id, In (AddContact t id) l -> t <> NO_CONTACT) ->
           (forall t id fn, In (AddContactF t id fn) l -> t <> NO_CONTACT) ->
           forall x : registration P V, last_reg (Sc:=Sc) Contact d l acc = Some x -> r_type x <> NO_CONTACT).
        { clear. induction l as [|o l IH]; intros acc Ha HN HNF x; cbn [last_reg]; [apply Ha|].
          apply IH.
          - intros y. destruct (says Contact d o) as [z|] eqn:Sy; [|apply Ha]. intros [= <-].
            unfold says in Sy. destruct (bd_is_b d); cbn in Sy; [|discriminate].
            destruct o; try discriminate; destruct (bd_id d =? id); try discriminate; injection Sy as <-; cbn.
            + eapply HN. left. reflexivity.
            + eapply HNF. left. reflexivity.
          - intros t id H; eapply HN; right; exact H.
          - intros t id fn H; eapply HNF; right; exact H. }
        pose proof (G ops None ltac:(discriminate) HN HNF r L) as NE. apply Nat.eqb_neq in NE. rewrite NE. reflexivity.
      - exists NO_CONTACT. split; [reflexivity|]. reflexivity. }
    pose (tf := fun f => match contact_boundary_type C F Sc P V fltb m f s with Ok t => t | _ => 0 end).
    assert (TF : forall f, In f (faces_of c) -> contact_boundary_type C F Sc P V fltb m f s = Ok (tf f)).
    { intros f Hf. destruct (T f Hf) as (t & E & _). unfold tf. rewrite E. reflexivity. }
    assert (HF : forall f, In f (faces_of c) -> has Contact f = negb (tf f =? NO_CONTACT)).
    { intros f Hf. destruct (T f Hf) as (t & E & H). unfold tf. rewrite E. exact H. }
    unfold faces_with_contact, faces_without_contact. rewrite !(filter_type_spec fltb m _ s tf _ TF). split; f_equal.
    - apply filter_ext_in. intros f Hf. symmetry. apply HF. exact Hf.
    - apply filter_ext_in. intros f Hf. rewrite (HF f Hf), negb_involutive. reflexivity.
  Qed.

  (** C14: each counter is the number of (registration, covered face) pairs. *)
  Theorem C14_counters : strict_total_order fltb -> forall m ops s, wf_mesh cltb fltb faces_of m ->
    reached m ops s -> forall k, nb_faces s k = list_sum (map (fun d => times k d ops) (m_binfo m)).
  Proof.
    intros O m ops s W R k. destruct (bc_reach cltb fltb faces_of O m W one ops) as (s' & E & I).
    unfold reached in R. rewrite R in E. injection E as <-.
    destruct (kinv4_of m k _ _ _ I) as (_ & _ & N). destruct k; exact N.
  Qed.

  (** C14: the total counter is the number of such pairs over the four kinds. *)
  Theorem C14_total : strict_total_order fltb -> forall m ops s, wf_mesh cltb fltb faces_of m -> reached m ops s ->
    nb_faces_boundary Sc P V s =
    list_sum (map (fun d => times Dirichlet d ops + times Neumann d ops + times Robin d ops + times Contact d ops) (m_binfo m)).
  Proof.
    intros O m ops s W R.
    assert (A : forall (f g : bdesc -> nat) l, list_sum (map (fun d => f d + g d) l) = list_sum (map f l) + list_sum (map g l))
      by (intros f g l; induction l as [|x l IH]; [reflexivity|]; cbn [map list_sum fold_right]; unfold list_sum in IH |- *; cbn [fold_right]; rewrite IH; lia).
    rewrite (A (fun d => times Dirichlet d ops + times Neumann d ops + times Robin d ops) (fun d => times Contact d ops)),
      (A (fun d => times Dirichlet d ops + times Neumann d ops) (fun d => times Robin d ops)), A.
    rewrite <- !(C14_counters O m ops s W R). reflexivity.
  Qed.

  (** C14: the counter equals the number of faces reported by is_X_face exactly when no face is
      covered by two registrations of that kind; it is never smaller. *)
  Theorem C14_counter_counts_faces_partial : strict_total_order fltb -> forall m ops s, wf_mesh cltb fltb faces_of m ->
    reached m ops s -> forall k,
    length (reported fltb m s k) <= nb_faces s k /\
    (nb_faces s k = length (reported fltb m s k) <-> forall d, In d (m_binfo m) -> times k d ops <= 1).
  Proof.
    intros O m ops s W R k. rewrite (C14_counters O m ops s W R k).
    assert (RL : length (reported fltb m s k) = length (filter (fun d => negb (times k d ops =? 0)) (m_binfo m))).
    { unfold reported. pose proof (C15_queries_report_last O m ops s W R k) as Q.
      pose (g := fun f => match is_face fltb m s k f with Ok true => true | _ => false end).
      change (length (filter g (m_faces m)) = length (filter (fun d => negb (times k d ops =? 0)) (m_binfo m))).
      assert (Q' : forall i f d, nth_error (m_faces m) i = Some f -> nth_error (m_binfo m) i = Some d ->
        g f = negb (times k d ops =? 0)).
      { unfold g. intros i f d Hf Hd. specialize (Q i f d Hf Hd). pose proof (last_reg_some_iff k d ops None) as L. cbn in L. rewrite <- L.
        destruct (last_reg k d ops None); destruct Q as [-> _]; reflexivity. }
      revert Q'. pose proof (wf_binfo _ _ _ _ W) as L. revert L. clearbody g. clear.
      generalize (m_binfo m), (m_faces m). intros ds. induction ds as [|d ds IH]; intros [|f fs] L H; try discriminate; [reflexivity|].
      cbn [filter]. rewrite (H 0 f d eq_refl eq_refl). cbn in L. injection L as L.
      specialize (IH fs L (fun i f d => H (S i) f d)). destruct (negb (times k d ops =? 0)); cbn [length]; lia. }
    rewrite RL. clear. induction (m_binfo m) as [|d ds [IH1 IH2]]; [split; [cbn; lia|]; split; [intros _ d []|reflexivity]|].
    cbn [filter map list_sum fold_right]. fold (list_sum (map (fun d => times k d ops) ds)).
    destruct (Nat.eqb_spec (times k d ops) 0) as [Z|N]; cbn [negb length].
    - rewrite Z. cbn. split; [exact IH1|]. rewrite IH2. split; intros H x.
      + intros [<-|Hx]; [lia|apply H; exact Hx].
      + intros Hx. apply H. right; exact Hx.
    - split; [lia|]. split; intros H.
      + assert (times k d ops = 1 /\ list_sum (map (fun d => times k d ops) ds) = length (filter (fun d => negb (times k d ops =? 0)) ds)) as [H1 H2] by lia.
        pose proof (proj1 IH2 H2) as H3. intros x [<-|Hx]; [lia|apply H3; exact Hx].
      + assert (times k d ops = 1) by (specialize (H d (or_introl eq_refl)); lia).
        assert (list_sum (map (fun d => times k d ops) ds) = length (filter (fun d => negb (times k d ops =? 0)) ds)) by (apply IH2; intros x Hx; apply H; right; exact Hx).
        lia.
  Qed.

  (** C14: every face covered by a call is reported, and no other. *)
  Theorem C14_covered_faces_reported : strict_total_order fltb -> forall m ops s, wf_mesh cltb fltb faces_of m ->
    reached m ops s -> forall k i f d, stored (m_faces m) i f -> nth_error (m_binfo m) i = Some d ->
    (is_face fltb m s k f = Ok true <-> exists op, In op ops /\ says k d op <> None).
  Proof.
    intros O m ops s W R k i f d Hf Hd. pose proof (C15_queries_report_last O m ops s W R k i f d Hf Hd) as Q.
    pose proof (last_reg_some_iff k d ops None) as L. cbn in L.
    assert (T : negb (times k d ops =? 0) = true <-> exists op, In op ops /\ says k d op <> None).
    { rewrite negb_true_iff, Nat.eqb_neq. unfold times. clear. induction ops as [|o ops IH]; cbn.
      - split; [lia|]. intros (o & [] & _).
      - destruct (says k d o) eqn:Sy; cbn.
        + split; [|lia]. intros _. exists o. split; [auto|congruence].
        + rewrite IH. split; intros (o' & H); exists o'; [tauto|]. destruct H as [[<-|H] H']; [contradiction|auto]. }
    rewrite <- T, <- L. destruct (last_reg k d ops None); destruct Q as [-> _]; cbn; split; congruence.
  Qed.
End Statements.

Print Assumptions C15_calls_never_fail.
Print Assumptions C15_queries_report_last.
Print Assumptions C15_boundary_ids.
Print Assumptions C15_functions.
Print Assumptions C53_contact_id_by_face_partial.
Print Assumptions C15_foreign_face_rejected.
Print Assumptions C15_cell_queries.
Print Assumptions C14_counters.
Print Assumptions C14_total.
Print Assumptions C14_counter_counts_faces_partial.
Print Assumptions C14_covered_faces_reported.

(** C14 is false when a face is covered twice: registering id 0 twice counts its face twice. *)
Definition ex_ops : list (bc_op nat nat nat) :=
  [AddDirichlet CLAMPED 0 (fun p => p); AddNeumann NEUMANN 1 (fun p => p + 1); AddDirichlet DIRICHLET 0 (fun p => p + p);
   AddContact SIGNORINI 3; SetFactor 5].
Theorem C14_double_registration_refuted :
  exists (ops : list (bc_op nat nat nat)) s, reached lex_ltb 1 ex_mesh ops s /\
    nb_faces s Dirichlet = 2 /\ reported lex_ltb ex_mesh s Dirichlet = [[0;1]].
Proof.
  exists ex_ops.
  destruct (bc_reach (Sc:=nat) (P:=nat) (V:=nat) lex_ltb lex_ltb tri_faces lex_ltb_sto ex_mesh ex_wf 1 ex_ops) as (s & E & _).
  exists s. split; [exact E|]. vm_compute in E. injection E as <-. split; vm_compute; reflexivity.
Qed.
Print Assumptions C14_double_registration_refuted.

(** C53 is false in general: after one contact registration with id 3 it
    reports 0, the Robin id. *)
Theorem C53_contact_id_by_face_refuted :
  exists (ops : list (bc_op nat nat nat)) s, reached lex_ltb 1 ex_mesh ops s /\
    last_reg Contact (bd_make 3 true) ops None = Some (mkReg _ _ SIGNORINI 3 None) /\
    stored (m_faces ex_mesh) 1 [0;2] /\ nth_error (m_binfo ex_mesh) 1 = Some (bd_make 3 true) /\
    contact_boundary_id_idx nat nat nat 1 s = Ok 3 /\
    contact_boundary_id _ _ nat nat nat lex_ltb ex_mesh [0;2] s = Ok 0.
Proof.
  exists ex_ops.
  destruct (bc_reach (Sc:=nat) (P:=nat) (V:=nat) lex_ltb lex_ltb tri_faces lex_ltb_sto ex_mesh ex_wf 1 ex_ops) as (s & E & _).
  exists s. split; [exact E|]. vm_compute in E. injection E as <-. repeat split; vm_compute; reflexivity.
Qed.
Print Assumptions C53_contact_id_by_face_refuted.

Example C15_hypotheses_met :
  strict_total_order lex_ltb /\ wf_mesh lex_ltb lex_ltb tri_faces ex_mesh /\
  match bc_run _ _ nat nat nat lex_ltb ex_mesh ex_ops (bc_make _ _ nat nat nat 1 ex_mesh) with
  | Ok s => is_dirichlet_face _ _ nat nat nat lex_ltb ex_mesh [0;1] s = Ok true /\
            dirichlet_boundary_type _ _ nat nat nat lex_ltb ex_mesh [0;1] s = Ok DIRICHLET /\
            is_neumann_face _ _ nat nat nat lex_ltb ex_mesh [1;3] s = Ok true /\
            is_neumann_face _ _ nat nat nat lex_ltb ex_mesh [1;2] s = Ok false /\
            match neumann_boundary_func _ _ nat nat nat lex_ltb Nat.mul ex_mesh [1;3] s with
            | Ok g => g 7 = 40 | _ => False end
  | _ => False end.
Proof. split; [exact lex_ltb_sto|]. split; [exact ex_wf|]. vm_compute. repeat split. Qed.
