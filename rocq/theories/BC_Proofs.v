From Coq Require Import List Arith Bool Lia.
From Verif Require Import Common Mesh_Model Mesh_Spec Mesh_Proofs BC_Model BC_Spec.
Import ListNotations.

(** indices [base + j] of the descriptors satisfying [keep] *)
Fixpoint sel_ids (base : nat) (keep : bdesc -> bool) (ds : list bdesc) : list nat :=
  match ds with
  | [] => []
  | d :: r => if keep d then base :: sel_ids (S base) keep r else sel_ids (S base) keep r
  end.

Lemma sel_ids_in keep ds : forall base j, In j (sel_ids base keep ds) <->
  exists d, base <= j /\ nth_error ds (j - base) = Some d /\ keep d = true.
Proof.
  induction ds as [|d ds IH]; intros base j; cbn [sel_ids].
  - split; [intros []|]. intros (d & _ & H & _). destruct (j - base); discriminate.
  - assert (E : In j (sel_ids (S base) keep ds) <->
               exists d', S base <= j /\ nth_error ds (j - S base) = Some d' /\ keep d' = true) by apply IH.
    destruct (keep d) eqn:K; cbn [In]; rewrite ?E; clear E IH; split.
    + intros [<-|(d' & H1 & H2 & H3)].
      * exists d. rewrite Nat.sub_diag. auto.
      * exists d'. split; [lia|]. replace (j - base) with (S (j - S base)) by lia. auto.
    + intros (d' & H1 & H2 & H3). destruct (Nat.eq_dec base j) as [->|N]; [auto|right].
      exists d'. split; [lia|]. replace (j - base) with (S (j - S base)) in H2 by lia. auto.
    + intros (d' & H1 & H2 & H3). exists d'. split; [lia|]. replace (j - base) with (S (j - S base)) by lia. auto.
    + intros (d' & H1 & H2 & H3). destruct (Nat.eq_dec base j) as [->|N].
      * rewrite Nat.sub_diag in H2. cbn in H2. congruence.
      * exists d'. split; [lia|]. replace (j - base) with (S (j - S base)) in H2 by lia. auto.
Qed.

Lemma sel_ids_length keep ds base : length (sel_ids base keep ds) = length (filter keep ds).
Proof.
  revert base; induction ds as [|d ds IH]; intros base; cbn; [reflexivity|].
  destruct (keep d); cbn; rewrite IH; reflexivity.
Qed.

Lemma reg_faces_spec ids e : forall tab cnt, (forall i, In i ids -> i < length tab) ->
  exists tab', reg_faces ids e tab cnt = Ok (tab', cnt + length ids) /\ length tab' = length tab /\
    forall j x, nth_error tab j = Some x ->
      (In j ids -> nth_error tab' j = Some e) /\ (~ In j ids -> nth_error tab' j = Some x).
Proof.
  induction ids as [|i ids IH]; intros tab cnt H; cbn [reg_faces].
  - exists tab. split; [cbn; rewrite Nat.add_0_r; reflexivity|]. split; [reflexivity|]. intros j x Hx. split; [intros []|auto].
  - destruct (upd_some tab i e) as [t1 U]; [apply H; left; reflexivity|]. unfold vset_at. rewrite U. cbn [bind].
    pose proof (upd_length _ _ _ _ U) as L1.
    destruct (IH t1 (S cnt)) as (t2 & E & L2 & N).
    { intros j Hj. rewrite L1. apply H. right; exact Hj. }
    exists t2. split; [rewrite E; cbn [length]; do 2 f_equal; lia|]. split; [congruence|].
    intros j x Hx. destruct (Nat.eq_dec i j) as [<-|Nij].
    + pose proof (upd_nth_same _ _ _ _ U) as U'. specialize (N i e U'). split.
      * intros _. destruct (in_dec Nat.eq_dec i ids) as [I|I]; [apply (proj1 N); exact I|apply (proj2 N); exact I].
      * intros C. exfalso. apply C. left; reflexivity.
    + specialize (N j x). rewrite (upd_nth_other _ _ _ _ _ U Nij) in N. specialize (N Hx). cbn [In]. split.
      * intros [->|I]; [contradiction|apply (proj1 N); exact I].
      * intros I. apply (proj2 N). intros I'. apply I. right; exact I'.
Qed.

Section BC.
  Context {C F Sc P V : Type} (cltb : C -> C -> bool) (fltb : F -> F -> bool) (faces_of : C -> list F)
          (smul : Sc -> V -> V).
  Hypothesis OF : strict_total_order fltb.
  Variable m : mesh C F.
  Hypothesis W : wf_mesh cltb fltb faces_of m.

  Notation op := (bc_op Sc P V).

  Lemma search_loop_spec id : forall fs ds base,
    length fs = length ds ->
    (forall j f, nth_error fs j = Some f -> stored (m_faces m) (base + j) f) ->
    (forall j d, nth_error ds j = Some d -> nth_error (m_binfo m) (base + j) = Some d) ->
    search_loop C F fltb m id (select bd_is_b fs ds) =
    Ok (sel_ids base (fun d => bd_is_b d && (bd_id d =? id)) ds).
  Proof.
    unfold select. induction fs as [|f fs IH]; intros [|d ds] base L Hf Hd; try discriminate; [reflexivity|].
    cbn [combine filter snd]. specialize (IH ds (S base)).
    assert (IH' : search_loop C F fltb m id (map fst (filter (fun p => bd_is_b (snd p)) (combine fs ds))) =
                  Ok (sel_ids (S base) (fun d => bd_is_b d && (bd_id d =? id)) ds)).
    { apply IH.
      - cbn in L; lia.
      - intros j x Hx. replace (S base + j) with (base + S j) by lia. apply Hf. exact Hx.
      - intros j x Hx. replace (S base + j) with (base + S j) by lia. apply Hd. exact Hx. }
    pose proof (Hf 0 f eq_refl) as H0. pose proof (Hd 0 d eq_refl) as D0. rewrite Nat.add_0_r in H0, D0.
    cbn [sel_ids]. destruct (bd_is_b d) eqn:B; cbn [andb map fst]; [|exact IH'].
    cbn [search_loop]. rewrite (lookup_stored fltb OF _ _ _ (wf_faces _ _ _ _ W) H0). cbn [bind].
    unfold boundary_id, is_boundary_id. rewrite (vat_ok _ _ _ D0). cbn [bind]. rewrite B. cbn [bind].
    rewrite IH'. cbn [bind]. destruct (bd_id d =? id); reflexivity.
  Qed.

  Lemma search_faces_spec id :
    search_faces C F fltb m id = Ok (sel_ids 0 (fun d => bd_is_b d && (bd_id d =? id)) (m_binfo m)).
  Proof.
    unfold search_faces. rewrite (boundary_faces_correct fltb OF m (wf_faces _ _ _ _ W) (wf_binfo _ _ _ _ W)). cbn [bind].
    apply search_loop_spec; [symmetry; apply (wf_binfo _ _ _ _ W)|auto|auto].
  Qed.

  Lemma lookup_all_sel : forall fs ds base,
    length fs = length ds ->
    (forall j f, nth_error fs j = Some f -> stored (m_faces m) (base + j) f) ->
    lookup_all C F fltb m (select bd_is_b fs ds) = Ok (sel_ids base bd_is_b ds).
  Proof.
    unfold select. induction fs as [|f fs IH]; intros [|d ds] base L Hf; try discriminate; [reflexivity|].
    cbn [combine filter snd sel_ids].
    assert (IH' : lookup_all C F fltb m (map fst (filter (fun p => bd_is_b (snd p)) (combine fs ds))) =
                  Ok (sel_ids (S base) bd_is_b ds)).
    { apply IH; [cbn in L; lia|]. intros j x Hx. replace (S base + j) with (base + S j) by lia. apply Hf. exact Hx. }
    pose proof (Hf 0 f eq_refl) as H0. rewrite Nat.add_0_r in H0.
    destruct (bd_is_b d); [|exact IH']. cbn [map fst lookup_all].
    rewrite (lookup_stored fltb OF _ _ _ (wf_faces _ _ _ _ W) H0). cbn [bind]. rewrite IH'. reflexivity.
  Qed.

  (** *** one kind of condition *)
  (** entry [e] of a table with functions [fs] is what [r] says *)
  Definition represents (k : kind) (fs : list (P -> V)) (e : entry) (r : option (registration P V)) : Prop :=
    match r with
    | None => e_set e = false /\ e_type e = default_type k /\ e_id e = 0
    | Some x => e_set e = true /\ e_type e = r_type x /\ e_id e = r_id x /\
                match r_func x with
                | Some fn => exists fid, e_func e = Some fid /\ nth_error fs fid = Some fn
                | None => e_func e = None
                end
    end.

  Lemma represents_app k fs fs' e r : represents k fs e r -> represents k (fs ++ fs') e r.
  Proof.
    unfold represents. destruct r as [x|]; [|auto]. intros (A & B & D & E). repeat split; auto.
    destruct (r_func x); [|auto]. destruct E as (fid & E1 & E2). exists fid. split; [exact E1|].
    rewrite nth_error_app1; [exact E2|]. apply nth_error_Some. congruence.
  Qed.

  (** [k_inv k past s]: the state of kind [k] is what the calls [past] say *)
  Definition k_inv (k : kind) (past : list op) (s : kst P V) : Prop :=
    length (k_tab s) = length (m_binfo m) /\
    (forall i d, nth_error (m_binfo m) i = Some d ->
       exists e, nth_error (k_tab s) i = Some e /\ represents k (k_fun s) e (last_reg k d past None)) /\
    k_cnt s = list_sum (map (fun d => times k d past) (m_binfo m)).

  Lemma last_reg_snoc k d (past : list op) o : forall acc,
    last_reg k d (past ++ [o]) acc = match says k d o with Some x => Some x | None => last_reg k d past acc end.
  Proof. induction past as [|p past IH]; intros acc; cbn; [reflexivity|]. apply IH. Qed.

  Lemma times_snoc k d (past : list op) o :
    times k d (past ++ [o]) = times k d past + (if is_some (says k d o) then 1 else 0).
  Proof. unfold times. rewrite filter_app, app_length. cbn. destruct (says k d o); reflexivity. Qed.

  Lemma list_sum_plus {A} (f g : A -> nat) l : list_sum (map (fun x => f x + g x) l) = list_sum (map f l) + list_sum (map g l).
  Proof. induction l as [|a l IH]; cbn; [reflexivity|]. fold (list_sum (map (fun x => f x + g x) l)). unfold list_sum in *. lia. Qed.

  Lemma list_sum_filter {A} (p : A -> bool) l : list_sum (map (fun x => if p x then 1 else 0) l) = length (filter p l).
  Proof. induction l as [|a l IH]; cbn; [reflexivity|]. destruct (p a); cbn; unfold list_sum in *; lia. Qed.

  Lemma k_inv_ext k past past' s : (forall d, last_reg k d past None = last_reg k d past' None) ->
    (forall d, times k d past = times k d past') -> k_inv k past s -> k_inv k past' s.
  Proof.
    intros E1 E2 (L & T & N). split; [exact L|]. split.
    - intros i d Hd. destruct (T i d Hd) as (e & A & B). exists e. rewrite <- E1. auto.
    - rewrite N. f_equal. apply map_ext. exact E2.
  Qed.

  Lemma k_inv_silent k past o s : (forall d, says k d o = None) -> k_inv k past s -> k_inv k (past ++ [o]) s.
  Proof.
    intros H. apply k_inv_ext.
    - intros d. rewrite last_reg_snoc, H. reflexivity.
    - intros d. rewrite times_snoc, H. cbn. lia.
  Qed.

  (** registering [e] on the faces selected by [keep] *)
  Lemma k_inv_register k past o s keep e fs' t' c' :
    k_inv k past s ->
    (forall d, keep d = is_some (says k d o)) ->
    (forall d x, says k d o = Some x -> represents k (k_fun s ++ fs') e (Some x)) ->
    reg_faces (sel_ids 0 keep (m_binfo m)) e (k_tab s) (k_cnt s) = Ok (t', c') ->
    k_inv k (past ++ [o]) (mkK t' (k_fun s ++ fs') c').
  Proof.
    intros (L & T & N) HK HE E.
    destruct (reg_faces_spec (sel_ids 0 keep (m_binfo m)) e (k_tab s) (k_cnt s)) as (t & E' & L' & R).
    { intros i Hi. apply sel_ids_in in Hi. destruct Hi as (d & _ & Hd & _). rewrite Nat.sub_0_r in Hd.
      rewrite L. apply nth_error_Some. congruence. }
    rewrite E' in E. injection E as <- <-.
    split; [cbn; congruence|]. split; cbn [k_tab k_fun k_cnt].
    - intros i d Hd. destruct (T i d Hd) as (x & X1 & X2). destruct (R i x X1) as [R1 R2].
      rewrite last_reg_snoc. specialize (HK d). destruct (says k d o) as [r|] eqn:Sy; cbn [is_some] in HK.
      + exists e. split; [|apply (HE d); exact Sy]. apply R1. apply sel_ids_in. exists d. rewrite Nat.sub_0_r. auto with arith.
      + exists x. split; [|apply represents_app; exact X2]. apply R2. intros I. apply sel_ids_in in I.
        destruct I as (d' & _ & Hd' & K'). rewrite Nat.sub_0_r in Hd'. congruence.
    - rewrite N, sel_ids_length. rewrite (map_ext _ _ (fun d => times_snoc k d past o)), list_sum_plus. f_equal.
      rewrite <- list_sum_filter. f_equal. apply map_ext. intros d. rewrite HK. reflexivity.
  Qed.

  Lemma reg_faces_ok keep e (s : kst P V) : length (k_tab s) = length (m_binfo m) ->
    exists t c, reg_faces (sel_ids 0 keep (m_binfo m)) e (k_tab s) (k_cnt s) = Ok (t, c).
  Proof.
    intros L. destruct (reg_faces_spec (sel_ids 0 keep (m_binfo m)) e (k_tab s) (k_cnt s)) as (t & E' & _).
    { intros i Hi. apply sel_ids_in in Hi. destruct Hi as (d & _ & Hd & _). rewrite Nat.sub_0_r in Hd.
      rewrite L. apply nth_error_Some. congruence. }
    eauto.
  Qed.

  Definition kinv4 (past : list op) (s : bc Sc P V) (x0 : Sc) : Prop :=
    k_inv Dirichlet past (b_dir s) /\ k_inv Neumann past (b_neu s) /\ k_inv Robin past (b_rob s) /\
    k_inv Contact past (b_con s) /\ b_factor s = last_factor past x0.

  Lemma last_factor_snoc (past : list op) o x0 : last_factor (past ++ [o]) x0 =
    match o with SetFactor y => y | _ => last_factor past x0 end.
  Proof. revert x0; induction past as [|p past IH]; intros x0; [destruct o; reflexivity|]. destruct p; cbn; apply IH. Qed.

  (** the entry written by a registration with a new function *)
  Lemma rep_new k fs (fn : P -> V) t id : represents k (fs ++ [fn]) (mkE true t id (Some (length fs))) (Some (mkReg _ _ t id (Some fn))).
  Proof.
    cbn. repeat split. exists (length fs). split; [reflexivity|]. rewrite nth_error_app2, Nat.sub_diag; auto.
  Qed.

  Ltac silent := apply k_inv_silent; [intros d; unfold says; destruct (bd_is_b d); reflexivity|assumption].

  Lemma bc_step_spec past o s x0 : kinv4 past s x0 ->
    exists s', bc_step C F Sc P V fltb m o s = Ok s' /\ kinv4 (past ++ [o]) s' x0.
  Proof.
    intros (ID & IN & IR & IC & IF). unfold kinv4. rewrite last_factor_snoc.
    destruct o as [t id|t id fn|fn|t id fn|t id fn|t id fn|x]; cbn [bc_step].
    - unfold addContactBC. rewrite search_faces_spec. cbn [bind].
      destruct (reg_faces_ok (fun d => bd_is_b d && (bd_id d =? id)) (mkE true t id None) (b_con s)) as (t' & c' & E); [apply IC|].
      rewrite E. cbn [bind fst snd]. eexists. split; [reflexivity|]. cbn [b_dir b_neu b_rob b_con b_factor].
      split; [silent|]. split; [silent|]. split; [silent|]. split; [|exact IF].
      rewrite <- (app_nil_r (k_fun (b_con s))). eapply k_inv_register; [exact IC| | |exact E].
      + intros d. unfold says. destruct (bd_is_b d), (bd_id d =? id); reflexivity.
      + intros d r. unfold says. destruct (bd_is_b d), (bd_id d =? id); cbn; try discriminate. intros [= <-]. cbn. auto.
    - unfold addContactBC_func, reg_func. rewrite search_faces_spec. cbn [bind].
      destruct (reg_faces_ok (fun d => bd_is_b d && (bd_id d =? id)) (mkE true t id (Some (length (k_fun (b_con s))))) (b_con s)) as (t' & c' & E); [apply IC|].
      rewrite E. cbn [bind fst snd]. eexists. split; [reflexivity|]. cbn [b_dir b_neu b_rob b_con b_factor].
      split; [silent|]. split; [silent|]. split; [silent|]. split; [|exact IF].
      eapply k_inv_register; [exact IC| | |exact E].
      + intros d. unfold says. destruct (bd_is_b d), (bd_id d =? id); reflexivity.
      + intros d r. unfold says. destruct (bd_is_b d), (bd_id d =? id); cbn [negb]; try discriminate. intros [= <-]. apply rep_new.
    - unfold addDirichletEverywhere. rewrite (boundary_faces_correct fltb OF m (wf_faces _ _ _ _ W) (wf_binfo _ _ _ _ W)). cbn [bind].
      rewrite (lookup_all_sel _ _ 0 (eq_sym (wf_binfo _ _ _ _ W)) (fun j f H => H)). cbn [bind].
      destruct (reg_faces_ok bd_is_b (mkE true DIRICHLET 0 (Some (length (k_fun (b_dir s))))) (b_dir s)) as (t' & c' & E); [apply ID|].
      rewrite E. cbn [bind fst snd]. eexists. split; [reflexivity|]. cbn [b_dir b_neu b_rob b_con b_factor].
      split; [|split; [silent|]; split; [silent|]; split; [silent|exact IF]].
      eapply k_inv_register; [exact ID| | |exact E].
      + intros d. unfold says. destruct (bd_is_b d); reflexivity.
      + intros d r. unfold says. destruct (bd_is_b d); cbn [negb]; try discriminate. intros [= <-]. apply rep_new.
    - unfold addRobinBC, reg_func. rewrite search_faces_spec. cbn [bind].
      destruct (reg_faces_ok (fun d => bd_is_b d && (bd_id d =? id)) (mkE true t id (Some (length (k_fun (b_rob s))))) (b_rob s)) as (t' & c' & E); [apply IR|].
      rewrite E. cbn [bind fst snd]. eexists. split; [reflexivity|]. cbn [b_dir b_neu b_rob b_con b_factor].
      split; [silent|]. split; [silent|]. split; [|split; [silent|exact IF]].
      eapply k_inv_register; [exact IR| | |exact E].
      + intros d. unfold says. destruct (bd_is_b d), (bd_id d =? id); reflexivity.
      + intros d r. unfold says. destruct (bd_is_b d), (bd_id d =? id); cbn [negb]; try discriminate. intros [= <-]. apply rep_new.
    - unfold addDirichletBC, reg_func. rewrite search_faces_spec. cbn [bind].
      destruct (reg_faces_ok (fun d => bd_is_b d && (bd_id d =? id)) (mkE true t id (Some (length (k_fun (b_dir s))))) (b_dir s)) as (t' & c' & E); [apply ID|].
      rewrite E. cbn [bind fst snd]. eexists. split; [reflexivity|]. cbn [b_dir b_neu b_rob b_con b_factor].
      split; [|split; [silent|]; split; [silent|]; split; [silent|exact IF]].
      eapply k_inv_register; [exact ID| | |exact E].
      + intros d. unfold says. destruct (bd_is_b d), (bd_id d =? id); reflexivity.
      + intros d r. unfold says. destruct (bd_is_b d), (bd_id d =? id); cbn [negb]; try discriminate. intros [= <-]. apply rep_new.
    - unfold addNeumannBC, reg_func. rewrite search_faces_spec. cbn [bind].
      destruct (reg_faces_ok (fun d => bd_is_b d && (bd_id d =? id)) (mkE true t id (Some (length (k_fun (b_neu s))))) (b_neu s)) as (t' & c' & E); [apply IN|].
      rewrite E. cbn [bind fst snd]. eexists. split; [reflexivity|]. cbn [b_dir b_neu b_rob b_con b_factor].
      split; [silent|]. split; [|split; [silent|]; split; [silent|exact IF]].
      eapply k_inv_register; [exact IN| | |exact E].
      + intros d. unfold says. destruct (bd_is_b d), (bd_id d =? id); reflexivity.
      + intros d r. unfold says. destruct (bd_is_b d), (bd_id d =? id); cbn [negb]; try discriminate. intros [= <-]. apply rep_new.
    - eexists. split; [reflexivity|]. cbn. repeat (split; [silent|]). reflexivity.
  Qed.

  Lemma bc_run_spec ops : forall past s x0, kinv4 past s x0 ->
    exists s', bc_run C F Sc P V fltb m ops s = Ok s' /\ kinv4 (past ++ ops) s' x0.
  Proof.
    induction ops as [|o ops IH]; intros past s x0 H; cbn [bc_run].
    - exists s. rewrite app_nil_r. auto.
    - destruct (bc_step_spec past o s x0 H) as (s1 & E1 & H1). rewrite E1. cbn [bind].
      destruct (IH _ _ _ H1) as (s2 & E2 & H2). exists s2. split; [exact E2|]. rewrite <- app_assoc in H2. exact H2.
  Qed.

  Lemma bc_make_inv one : kinv4 [] (bc_make C F Sc P V one m) one.
  Proof.
    assert (K : forall k e, e = mkE false (default_type k) 0 (e_func e) ->
      k_inv k [] (mkK (repeat e (length (m_faces m))) [] 0)).
    { intros k e He. split; [cbn; rewrite repeat_length; symmetry; apply (wf_binfo _ _ _ _ W)|]. split.
      - intros i d Hd. exists e. split.
        + apply nth_error_repeat. rewrite <- (wf_binfo _ _ _ _ W). apply nth_error_Some. congruence.
        + rewrite He. cbn. auto.
      - cbn. induction (m_binfo m); cbn; auto. }
    unfold kinv4, bc_make. cbn [b_dir b_neu b_rob b_con b_factor last_factor].
    split; [apply (K Dirichlet); reflexivity|]. split; [apply (K Neumann); reflexivity|].
    split; [apply (K Robin); reflexivity|]. split; [apply (K Contact); reflexivity|reflexivity].
  Qed.

  Lemma bc_reach one ops : exists s, bc_run C F Sc P V fltb m ops (bc_make C F Sc P V one m) = Ok s /\ kinv4 ops s one.
  Proof. destruct (bc_run_spec ops [] _ one (bc_make_inv one)) as (s & E & H). exists s. auto. Qed.

  Lemma by_face_stored {A} (q : nat -> outcome A) i f : stored (m_faces m) i f -> by_face C F fltb m q f = q i.
  Proof. intros H. unfold by_face. rewrite (lookup_stored fltb OF _ _ _ (wf_faces _ _ _ _ W) H). reflexivity. Qed.

  Definition kst_of (k : kind) (s : bc Sc P V) : kst P V :=
    match k with Dirichlet => b_dir s | Neumann => b_neu s | Robin => b_rob s | Contact => b_con s end.

  Lemma kinv4_of k past s x0 : kinv4 past s x0 -> k_inv k past (kst_of k s).
  Proof. intros (A & B & D & E & _). destruct k; assumption. Qed.

  Lemma q_spec k past s i d : k_inv k past s -> nth_error (m_binfo m) i = Some d ->
    match last_reg k d past None with
    | Some r => q_set P V s i = Ok true /\ q_type P V s i = Ok (r_type r) /\ q_id P V s i = Ok (r_id r)
    | None => q_set P V s i = Ok false /\ q_type P V s i = Ok (default_type k) /\ q_id P V s i = Ok 0
    end.
  Proof.
    intros (_ & T & _) Hd. destruct (T i d Hd) as (e & E1 & E2). unfold q_set, q_type, q_id.
    rewrite (vat_ok _ _ _ E1). cbn [bind]. unfold represents in E2.
    destruct (last_reg k d past None); [destruct E2 as (-> & -> & -> & _)|destruct E2 as (-> & -> & ->)]; auto.
  Qed.

  Lemma q_func_spec k past s i d factor : k_inv k past s -> k <> Contact -> nth_error (m_binfo m) i = Some d ->
    match last_reg k d past None with
    | Some r => exists fn, r_func r = Some fn /\ q_func Sc P V smul factor s i = Ok (fun p => smul factor (fn p))
    | None => q_func Sc P V smul factor s i = Throw LogicError
    end.
  Proof.
    intros (_ & T & _) Hk Hd. destruct (T i d Hd) as (e & E1 & E2). unfold q_func, q_set.
    rewrite (vat_ok _ _ _ E1). cbn [bind].
    assert (HF : forall r, last_reg k d past None = Some r -> r_func r <> None).
    { assert (G : forall acc, (forall r, acc = Some r -> r_func r <> None) ->
        forall r, last_reg k d past acc = Some r -> r_func r <> None).
      { clear - Hk. induction past as [|o past IH]; intros acc Ha r; cbn [last_reg]; [apply Ha|].
        apply IH. intros r'. destruct (says k d o) as [x|] eqn:Sy; [|apply Ha]. intros [= <-].
        unfold says in Sy. destruct (bd_is_b d); cbn in Sy; [|discriminate].
        destruct k, o; try discriminate; try contradiction; try (destruct (bd_id d =? id); try discriminate);
          injection Sy as <-; cbn; congruence. }
      apply G. discriminate. }
    unfold represents in E2. destruct (last_reg k d past None) as [r|].
    - destruct E2 as (-> & _ & _ & E2). cbn [negb]. specialize (HF r eq_refl).
      destruct (r_func r) as [fn|]; [|contradiction]. destruct E2 as (fid & -> & E3). exists fn. split; [reflexivity|].
      unfold vat, func in *. rewrite E3. reflexivity.
    - destruct E2 as (-> & _). reflexivity.
  Qed.

  Lemma q_contact_func_spec past s i d : k_inv Contact past s -> nth_error (m_binfo m) i = Some d ->
    q_contact_func P V s i =
    match last_reg Contact d past None with
    | Some r => match r_func r with Some fn => Ok fn | None => Throw LogicError end
    | None => Throw LogicError
    end.
  Proof.
    intros (_ & T & _) Hd. destruct (T i d Hd) as (e & E1 & E2). unfold q_contact_func, q_set.
    rewrite (vat_ok _ _ _ E1). cbn [bind]. unfold represents in E2.
    destruct (last_reg Contact d past None) as [r|].
    - destruct E2 as (-> & _ & _ & E2). cbn [negb]. destruct (r_func r) as [fn|].
      + destruct E2 as (fid & -> & E3). unfold vat, func in *. rewrite E3. reflexivity.
      + rewrite E2. reflexivity.
    - destruct E2 as (-> & _). reflexivity.
  Qed.

  (** *** counting *)
  Lemma last_reg_some_iff k d (past : list op) : forall acc,
    is_some (last_reg k d past acc) = is_some acc || negb (times k d past =? 0).
  Proof.
    unfold times. induction past as [|o past IH]; intros acc; cbn [last_reg filter].
    - cbn. rewrite orb_false_r. reflexivity.
    - rewrite IH. destruct (says k d o); cbn [is_some length Nat.eqb negb orb]; [|reflexivity].
      rewrite orb_true_r. reflexivity.
  Qed.

  (** *** queries on the faces of a cell *)
  Lemma lookup_all_spec fs : incl fs (m_faces m) ->
    exists ids, lookup_all C F fltb m fs = Ok ids /\ Forall2 (fun i f => stored (m_faces m) i f) ids fs.
  Proof.
    induction fs as [|f fs IH]; intros I; cbn [lookup_all].
    - exists []. split; [reflexivity|constructor].
    - destruct (in_stored _ f (I f (or_introl eq_refl))) as [i Hi].
      rewrite (lookup_stored fltb OF _ _ _ (wf_faces _ _ _ _ W) Hi). cbn [bind].
      destruct IH as (ids & E & R); [intros x Hx; apply I; right; exact Hx|]. rewrite E. cbn [bind].
      exists (i :: ids). split; [reflexivity|]. constructor; assumption.
  Qed.

  Lemma any_face_spec (q : nat -> outcome bool) (p : F -> bool) ids fs :
    Forall2 (fun i f => q i = Ok (p f)) ids fs -> any_face q ids = Ok (existsb p fs).
  Proof. induction 1 as [|i f ids fs H R IH]; cbn; [reflexivity|]. rewrite H. cbn. destruct (p f); auto. Qed.

  Lemma count_set_spec (q : nat -> outcome bool) (p : F -> bool) ids fs :
    Forall2 (fun i f => q i = Ok (p f)) ids fs -> count_set q ids = Ok (length (filter p fs)).
  Proof. induction 1 as [|i f ids fs H R IH]; cbn; [reflexivity|]. rewrite H, IH. cbn. destruct (p f); reflexivity. Qed.

  Lemma filter_type_spec keep s (t : F -> nat) fs : (forall f, In f fs -> contact_boundary_type C F Sc P V fltb m f s = Ok (t f)) ->
    filter_type C F Sc P V fltb m keep s fs = Ok (filter (fun f => keep (t f)) fs).
  Proof.
    induction fs as [|f fs IH]; intros H; cbn [filter_type filter]; [reflexivity|].
    rewrite (H f) by (left; reflexivity). cbn [bind]. rewrite IH by (intros x Hx; apply H; right; exact Hx).
    cbn [bind]. reflexivity.
  Qed.
End BC.
