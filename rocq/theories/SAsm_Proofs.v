(** Proofs for SAsm_Properties: the scalar primal assembler. *)
From Coq Require Import List Arith Bool Lia Ring Permutation ZArith.
From Verif Require Import Common LinAlg Mesh_Model Mesh_Spec Mesh_Proofs Elem_Model Elem_Proofs Mesh_Properties
  BC_Model BC_Spec BC_Proofs BC_Properties Cond_Spec Cond_Properties Degree_Model Asm_Model Asm_Spec Asm_Proofs Asm2_Proofs Asm3_Proofs Asm_Properties Asm2_Properties
  VAsm_Model VAsm_Spec VAsm_Runs VAsm_Proofs VAsm2_Proofs VAsm3_Proofs SAsm_Model SAsm_Spec Scat_Proofs.
Import ListNotations.

Lemma seq_from a : forall k, seq a k = map (Nat.add a) (seq 0 k).
Proof.
  induction k as [|k IH] using nat_ind; [reflexivity|]. rewrite !seq_S, map_app, IH. reflexivity.
Qed.

Section Labels.
  Context {K : cring} (n nb : nat) (dir : nat -> bool) (dn : nat -> nat -> K).
  (** what the local map holds for local unknown [p] *)
  Definition label (ids : list nat) (p : nat) : option nat * K :=
    let id := nth (p / nb) ids 0 in
    (if dir id then None else Some (rank dir id * nb + p mod nb), if dir id then dn id (p mod nb) else c0).
  Lemma label_lab (c : contribution K) p : p < c_dofs nb c -> label (c_faces c) p = (lab nb dir c p, if isd nb dir c p then dval nb dn (global nb c p) else c0).
  Proof.
    intros Hp. unfold label, lab, isd, position, dval. destruct (global_dm nb c p Hp) as [-> ->]. reflexivity.
  Qed.
  Lemma labels_cons id ids : map (label (id :: ids)) (seq 0 (length (id :: ids) * nb)) =
    map (fun i => (if dir id then None else Some (rank dir id * nb + i), if dir id then dn id i else c0)) (seq 0 nb) ++ map (label ids) (seq 0 (length ids * nb)).
  Proof.
    cbn [length Nat.mul]. rewrite seq_app, map_app. f_equal.
    - apply map_ext_in. intros i Hi. apply in_seq in Hi. unfold label. rewrite Nat.div_small, Nat.mod_small by lia. reflexivity.
    - cbn [Nat.add]. rewrite (seq_from nb (length ids * nb)), map_map. apply map_ext_in. intros p Hp. apply in_seq in Hp. assert (nb <> 0) by (intros Z; rewrite Z in Hp; lia). unfold label.
      assert (D : (nb + p) / nb = S (p / nb)) by (replace (nb + p) with (p + 1 * nb) by lia; rewrite Nat.div_add by assumption; lia).
      assert (D' : (nb + p) mod nb = p mod nb) by (replace (nb + p) with (p + 1 * nb) by lia; rewrite Nat.mod_add by assumption; reflexivity).
      rewrite D, D'. reflexivity.
  Qed.
End Labels.

Section SP.
  Context {K : cring} {C F Sc P V : Type} (cltb : C -> C -> bool) (fltb : F -> F -> bool) (faces_of : C -> list F).
  Context (smul : Sc -> V -> V) (one : Sc) (project load : F -> (P -> V) -> nat -> K) (mass : F -> nat -> nat -> K).
  Add Ring Kring : (cth K).
  Local Open Scope k_scope.

  Section Reached.
    Context (O : strict_total_order fltb) (m : mesh C F) (ops : list (bc_op Sc P V)) (bnd : bc Sc P V) (nb : nat).
    Context (W : wf_mesh cltb fltb faces_of m) (R : reached fltb one m ops bnd).
    Let dir := dirichlet_face m ops.
    Let n := length (m_faces m).
    Definition sp_dn (i k : nat) : K :=
      match nth_error (m_faces m) i, nth_error (m_binfo m) i with
      | Some f, Some d => match last_reg Dirichlet d ops None with
          | Some (mkReg _ _ _ _ (Some fn)) => project f (fun p => smul (last_factor ops one) (fn p)) k
          | _ => c0 end
      | _, _ => c0
      end.
    Lemma kinv : kinv4 m ops bnd one.
    Proof. destruct (bc_reach cltb fltb faces_of O m W one ops) as (s & E & I). unfold reached in R. rewrite R in E. injection E as <-. exact I. Qed.

    Lemma stored_both i : (i < n)%nat -> exists f d, nth_error (m_faces m) i = Some f /\ nth_error (m_binfo m) i = Some d.
    Proof.
      intros H. destruct (nth_error_some (m_faces m) i H) as [f Hf]. exists f. destruct (nth_error_some (m_binfo m) i) as [d Hd]; [rewrite (wf_binfo _ _ _ _ W); exact H|eauto].
    Qed.
    Lemma q_dir i : (i < n)%nat -> q_set P V (b_dir bnd) i = Ok (dir i).
    Proof.
      intros H. destruct (stored_both i H) as (f & d & Hf & Hd). pose proof (q_spec m Dirichlet ops _ i d (kinv4_of m Dirichlet _ _ _ kinv) Hd) as Q.
      unfold dir, dirichlet_face. rewrite Hd. cbn [kst_of] in Q. destruct (last_reg Dirichlet d ops None); cbn [is_some]; tauto.
    Qed.
    Lemma q_dir_func i f : nth_error (m_faces m) i = Some f -> dir i = true ->
      exists g, q_func Sc P V smul (b_factor bnd) (b_dir bnd) i = Ok g /\ project f g = sp_dn i.
    Proof.
      intros Hf Di. assert (Hi : (i < n)%nat) by (apply nth_error_Some; congruence). destruct (stored_both i Hi) as (f' & d & Hf' & Hd).
      pose proof (q_func_spec smul m Dirichlet ops _ i d (b_factor bnd) (kinv4_of m Dirichlet _ _ _ kinv) ltac:(discriminate) Hd) as QF. pose proof kinv as (_ & _ & _ & _ & IF).
      unfold dir, dirichlet_face in Di. rewrite Hd in Di. cbn [kst_of] in QF. destruct (last_reg Dirichlet d ops None) as [[t id fn]|] eqn:LR; [|discriminate].
      destruct QF as (fn' & E & QF). cbn in E. subst fn. rewrite QF. eexists. split; [reflexivity|]. unfold sp_dn. rewrite Hf, Hd, LR, IF. reflexivity.
    Qed.
    Lemma sp_data_ok i : (i < n)%nat -> dir i = true -> sp_data smul project m bnd i = Ok (sp_dn i).
    Proof.
      intros Hi Di. destruct (stored_both i Hi) as (f & d & Hf & Hd). destruct (q_dir_func i f Hf Di) as (g & Q & E). unfold sp_data. rewrite Q. cbn [bind].
      unfold vget. rewrite Hf. cbn [bind]. rewrite E. reflexivity.
    Qed.

    (** the counter *)
    Lemma count_rank : (nb_faces_dirichlet Sc P V bnd >= n - rank dir n)%nat /\ (rank dir n <= n)%nat /\
      ((nb_faces_dirichlet Sc P V bnd = n - rank dir n)%nat <-> registered_once m ops).
    Proof.
      pose proof (C14_counters cltb fltb faces_of one O m ops bnd W R Dirichlet) as CN. cbn [BC_Spec.nb_faces] in CN. rewrite CN. clear CN.
      split; [|split; [apply rank_bound|]].
      all: unfold n; rewrite <- (wf_binfo _ _ _ _ W); unfold dir, dirichlet_face, registered_once; rewrite (rank_count (fun d => is_some (last_reg Dirichlet d ops None)) (m_binfo m)).
      - induction (m_binfo m) as [|d l IH]; [cbn; lia|]. cbn [map list_sum fold_right length filter]. unfold list_sum in IH. pose proof (last_reg_some_iff Dirichlet d ops None) as L. cbn in L.
        destruct (is_some (last_reg Dirichlet d ops None)); cbn [negb length]; [|lia].
        destruct (times Dirichlet d ops); [discriminate|]. lia.
      - induction (m_binfo m) as [|d l IH]; [split; [intros _ d []|reflexivity]|].
        assert (GE : (list_sum (map (fun d => times Dirichlet d ops) l) >= length l - length (filter (fun f => negb (is_some (last_reg Dirichlet f ops None))) l))%nat).
        { clear. induction l as [|d l IH]; [cbn; lia|]. cbn [map list_sum fold_right length filter]. unfold list_sum in IH. pose proof (last_reg_some_iff Dirichlet d ops None) as L. cbn in L.
          destruct (is_some (last_reg Dirichlet d ops None)); cbn [negb length]; [|lia]. destruct (times Dirichlet d ops); [discriminate|]. lia. }
        assert (LE : (length (filter (fun f => negb (is_some (last_reg Dirichlet f ops None))) l) <= length l)%nat) by (clear; induction l as [|d l IH]; cbn; [lia|]; destruct (negb _); cbn; lia).
        cbn [map list_sum fold_right length filter]. fold (list_sum (map (fun d => times Dirichlet d ops) l)). pose proof (last_reg_some_iff Dirichlet d ops None) as L. cbn in L.
        assert (IH' : (list_sum (map (fun d => times Dirichlet d ops) l) = length l - length (filter (fun f => negb (is_some (last_reg Dirichlet f ops None))) l))%nat <-> (forall x, In x l -> (times Dirichlet x ops <= 1)%nat)) by exact IH.
        destruct (is_some (last_reg Dirichlet d ops None)); cbn [negb length].
        + destruct (times Dirichlet d ops) as [|t] eqn:T; [discriminate|]. split.
          * intros E x [<-|Hx]; [lia|]. apply IH'; [lia|exact Hx].
          * intros H. pose proof (H d (or_introl eq_refl)). rewrite T in H0. rewrite (proj2 IH') by (intros; apply H; right; assumption). lia.
        + destruct (times Dirichlet d ops) as [|t] eqn:T; [|discriminate]. split.
          * intros E x [<-|Hx]; [lia|]. apply IH'; [lia|exact Hx].
          * intros H. cbn. rewrite (proj2 IH') by (intros; apply H; right; assumption). lia.
    Qed.

    Lemma sp_number : forall k i, (i + k <= n)%nat -> number_from (fun id => do b <- q_set P V (b_dir bnd) id; Ok (if b then 0%nat else 1%nat)) (seq i k) (rank dir i) =
      Ok (map (rank dir) (seq i k), rank dir (i + k)).
    Proof.
      induction k as [|k IH]; intros i H; cbn [seq number_from map]; [rewrite Nat.add_0_r; reflexivity|]. rewrite q_dir by lia. cbn [bind].
      replace (rank dir i + (if dir i then 0 else 1))%nat with (rank dir (S i)) by reflexivity. rewrite IH by lia. cbn [bind fst snd]. rewrite Nat.add_succ_r. reflexivity.
    Qed.

    Definition spinv (cs : list (contribution K)) (a : spasm K) : Prop :=
      sp_tab a = map (rank dir) (seq 0 n) /\ sp_fbs a = nb /\ sp_size a = (nb * rank dir n)%nat /\ sgood n nb dir sp_dn cs (sp_trip a) (sp_duos a) (sp_RHS a).
    Lemma tab_at (a : spasm K) i : sp_tab a = map (rank dir) (seq 0 n) -> (i < n)%nat -> vat (sp_tab a) i = Ok (rank dir i).
    Proof. intros -> H. unfold vat. rewrite nth_error_map, (nth_error_nth' _ 0%nat) by (rewrite seq_length; exact H). rewrite seq_nth by exact H. reflexivity. Qed.

    Lemma sp_make_size : (nb_faces_dirichlet Sc P V bnd <= n)%nat -> exists a, sp_make (K := K) m nb bnd = Ok a /\
      sp_tab a = map (rank dir) (seq 0 n) /\ sp_fbs a = nb /\ sp_size a = (nb * (n - nb_faces_dirichlet Sc P V bnd))%nat /\
      sp_trip a = [] /\ sp_duos a = [] /\ sp_RHS a = mkVec (sp_size a) (fun _ => 0).
    Proof.
      intros H. unfold sp_make. fold n. rewrite (proj2 (Nat.ltb_ge _ _) H). pose proof (sp_number n 0%nat (le_n _)) as E. cbn [rank] in E. rewrite E. cbn [bind fst].
      eexists. split; [reflexivity|]. repeat (split; [reflexivity|]). reflexivity.
    Qed.
    (** an assembler between two rounds *)
    Definition spidle (a : spasm K) : Prop := sp_tab a = map (rank dir) (seq 0 n) /\ sp_fbs a = nb /\ sp_size a = (nb * rank dir n)%nat /\ sp_trip a = [] /\ sp_duos a = [].
    Lemma sp_make_ok : registered_once m ops -> exists a, sp_make (K := K) m nb bnd = Ok a /\ spidle a.
    Proof.
      intros RO. destruct count_rank as (_ & LE & EQ). pose proof (proj2 EQ RO) as E. destruct sp_make_size as (a & Q & Q1 & Q2 & Q3 & Q4 & Q5 & Q6); [lia|].
      exists a. split; [exact Q|]. split; [exact Q1|]. split; [exact Q2|]. split; [rewrite Q3, E; f_equal; lia|auto].
    Qed.
    Lemma sp_init_ok (a : spasm K) : spidle a -> spinv [] (sp_initialize a).
    Proof.
      intros (T & FB & SZ & T0 & D0). split; [exact T|]. split; [exact FB|]. split; [exact SZ|]. cbn [sp_initialize with_sp sp_trip sp_duos sp_RHS]. rewrite T0, D0, SZ. apply sgood_nil.
    Qed.

    Lemma sp_map_ok (a : spasm K) : sp_tab a = map (rank dir) (seq 0 n) -> sp_fbs a = nb -> forall ids, Forall (fun i => i < n)%nat ids ->
      sp_map smul project m bnd a ids = Ok (map (label nb dir sp_dn ids) (seq 0 (length ids * nb))).
    Proof.
      intros T FB ids H. induction H as [|id ids Hi _ IH]; [reflexivity|]. cbn [sp_map]. rewrite (tab_at a id T Hi). cbn [bind]. rewrite (q_dir id Hi). cbn [bind].
      rewrite labels_cons, FB.
      destruct (dir id) eqn:D; [rewrite (sp_data_ok id Hi D)|]; cbn [bind]; rewrite IH; cbn [bind]; reflexivity.
    Qed.

    Lemma numbered_lt ids fs : numbered (m_faces m) ids fs -> Forall (fun i => i < n)%nat ids.
    Proof. induction 1 as [|i f ids fs H _ IH]; constructor; [|exact IH]. apply nth_error_Some. congruence. Qed.
    Lemma numbered_lookup ids fs : numbered (m_faces m) ids fs -> fmap (lookup F fltb (m_faces m)) fs = Ok ids.
    Proof.
      intros H. apply fmap_forall2. induction H as [|i f ids fs H _ IH]; constructor; [|exact IH]. apply (lookup_stored fltb O _ _ _ (wf_faces _ _ _ _ W) H).
    Qed.

    Lemma sp_assemble_ok (a : spasm K) cs cl c : spinv cs a -> contributes (m_faces m) faces_of nb (cl, c_lhs c, c_rhs c) c ->
      exists a', sp_assemble fltb faces_of smul project m bnd cl (c_lhs c) (c_rhs c) a = Ok a' /\ spinv (cs ++ [c]) a'.
    Proof.
      intros (T & FB & SZ & G) (NF & _ & _ & FI). pose proof (numbered_lt _ _ NF) as HA. unfold sp_assemble. rewrite (numbered_lookup _ _ NF). cbn [bind].
      rewrite (sp_map_ok a T FB _ HA). cbn [bind]. set (mp := map _ _).
      assert (MP : forall p, (p < c_dofs nb c)%nat -> vget mp p = Ok (lab nb dir c p, if isd nb dir c p then dval nb sp_dn (global nb c p) else c0)).
      { intros p Hp. unfold mp, vget. rewrite nth_error_map, (nth_error_nth' _ 0%nat) by (rewrite seq_length; exact Hp). rewrite seq_nth by exact Hp. cbn [option_map Nat.add].
        rewrite label_lab by exact Hp. reflexivity. }
      pose proof FI as (F1 & F2 & F3).
      assert (COL : forall i gi st, (i < c_dofs nb c)%nat -> lab nb dir c i = Some gi -> floop (sp_col (c_lhs c) mp i gi) (seq 0 (mcols (c_lhs c))) st =
        Ok (fst st ++ flat_map (t_of nb dir c) (map (fun j => (i, j, ment (c_lhs c) i j)) (seq 0 (mcols (c_lhs c)))), snd st ++ flat_map (d_of nb dir sp_dn c) (map (fun j => (i, j, ment (c_lhs c) i j)) (seq 0 (mcols (c_lhs c)))))).
      { intros i gi st Hi L. rewrite !flat_map_map. apply floop_app. intros j st' Hj. apply in_seq in Hj. unfold sp_col. rewrite MP by lia. cbn [bind fst snd].
        unfold t_of, d_of. unfold ep, eq', ev. cbn [fst snd]. rewrite L. destruct (lab nb dir c j) as [gj|] eqn:LJ; [rewrite app_nil_r; reflexivity|].
        rewrite app_nil_r. unfold lab in LJ. destruct (isd nb dir c j); [|discriminate].
        match goal with |- Ok (_, _ ++ [(_, ?x)]) = Ok (_, _ ++ [(_, ?y)]) => replace x with y by ring end. reflexivity. }
      rewrite (floop_app _ (fun i => flat_map (t_of nb dir c) (map (fun j => (i, j, ment (c_lhs c) i j)) (seq 0 (mcols (c_lhs c)))))
         (fun i => flat_map (d_of nb dir sp_dn c) (map (fun j => (i, j, ment (c_lhs c) i j)) (seq 0 (mcols (c_lhs c)))) ++ g_of nb dir c (i, vent (c_rhs c) i))).
      - cbn [bind fst snd]. eexists. split; [reflexivity|]. split; [exact T|]. split; [exact FB|]. split; [exact SZ|]. cbn [with_sp sp_trip sp_duos sp_RHS].
        destruct (fits_entries n nb dir c FI) as [EE GG].
        apply (sgood_step n nb dir sp_dn c HA cs (sp_trip a) (sp_duos a) (sp_RHS a) _ _ _ _ G EE GG).
        + unfold all_entries. rewrite flat_map_flat_map. reflexivity.
        + rewrite flat_map_split. unfold all_entries, all_rentries. rewrite flat_map_flat_map, flat_map_map, F1, F3. reflexivity.
      - intros i st Hi. apply in_seq in Hi. unfold sp_row. rewrite MP by lia. cbn [bind fst].
        destruct (lab nb dir c i) as [gi|] eqn:LI.
        + rewrite (COL i gi st ltac:(lia) LI). cbn [bind]. unfold vec_get. rewrite (proj2 (Nat.ltb_lt _ _)) by lia. cbn [bind fst snd].
          unfold g_of. cbn [fst snd]. rewrite LI, <- app_assoc. reflexivity.
        + assert (Z1 : forall l, flat_map (t_of nb dir c) (map (fun j => (i, j, ment (c_lhs c) i j)) l) = []).
          { intros l. rewrite flat_map_map. induction l as [|j l IH]; [reflexivity|]. cbn [flat_map]. rewrite IH. unfold t_of, ep. cbn [fst snd]. rewrite LI. reflexivity. }
          assert (Z2 : forall l, flat_map (d_of nb dir sp_dn c) (map (fun j => (i, j, ment (c_lhs c) i j)) l) = []).
          { intros l. rewrite flat_map_map. induction l as [|j l IH]; [reflexivity|]. cbn [flat_map]. rewrite IH. unfold d_of, ep. cbn [fst snd]. rewrite LI. reflexivity. }
          rewrite Z1, Z2. unfold g_of. cbn [fst]. rewrite LI. cbn [app]. rewrite !app_nil_r. destruct st; reflexivity.
    Qed.

    (** one face *)
    Lemma face_labels i M v p : (i < n)%nat -> dir i = false -> (p < nb)%nat -> lab nb dir (face_term nb i M v : contribution K) p = Some (rank dir i * nb + p)%nat.
    Proof.
      intros Hi Di Hp. unfold lab, isd. cbn [face_term c_faces]. rewrite Nat.div_small by exact Hp. cbn [nth]. rewrite Di. f_equal. unfold position. replace (global nb (face_term nb i M v) p) with (i * nb + p)%nat by (unfold global; cbn [c_faces face_term]; rewrite (Nat.div_small p), (Nat.mod_small p) by exact Hp; reflexivity). destruct (dm_add nb i p Hp) as [-> ->]. reflexivity.
    Qed.
    Lemma face_fits i M v : fits nb (face_term nb i M v : contribution K).
    Proof. unfold fits, c_dofs. cbn. rewrite Nat.add_0_r. auto. Qed.
    Lemma sp_face_ok cs ts ds R0 i M v : sgood n nb dir sp_dn cs ts ds R0 -> (i < n)%nat -> dir i = false ->
      sgood n nb dir sp_dn (cs ++ [face_term nb i M v]) (push_block (rank dir i * nb) (rank dir i * nb) nb M ts) (ds ++ map (fun k => (rank dir i * nb + k, v k)%nat) (seq 0 nb)) R0 /\
      ((forall p q, M p q = 0) -> sgood n nb dir sp_dn (cs ++ [face_term nb i M v]) ts (ds ++ map (fun k => (rank dir i * nb + k, v k)%nat) (seq 0 nb)) R0).
    Proof.
      intros G Hi Di. set (c := face_term nb i M v). assert (HA : Forall (fun id => id < n)%nat (c_faces c)) by (constructor; [exact Hi|constructor]).
      destruct (fits_entries n nb dir c (face_fits i M v)) as [EE GG]. cbn [c c_lhs c_rhs face_term mrows mcols ment vsize vent] in EE, GG. fold c in EE, GG.
      assert (DD : flat_map (d_of nb dir sp_dn c) (all_entries nb nb M) = []).
      { unfold all_entries. rewrite flat_map_flat_map. rewrite (flat_map_ext_in _ (fun _ => [])); [clear; induction (seq 0 nb); [reflexivity|exact IHl]|]. intros p Hp. apply in_seq in Hp.
        rewrite flat_map_map. rewrite (flat_map_ext_in _ (fun _ => [])); [clear; induction (seq 0 nb); [reflexivity|exact IHl]|]. intros q Hq. apply in_seq in Hq.
        unfold d_of, ep, eq'. cbn [fst snd]. unfold c. rewrite !face_labels by (try assumption; lia). reflexivity. }
      assert (GD : flat_map (g_of nb dir c) (all_rentries nb v) = map (fun k => (rank dir i * nb + k, v k)%nat) (seq 0 nb)).
      { unfold all_rentries. rewrite flat_map_map. rewrite <- (map_id (map _ (seq 0 nb))). rewrite map_map. rewrite (flat_map_ext_in _ (fun k => [(rank dir i * nb + k, v k)%nat])); [clear; induction (seq 0 nb); [reflexivity|cbn; rewrite IHl; reflexivity]|].
        intros q Hq. apply in_seq in Hq. unfold g_of. cbn [fst snd]. unfold c. rewrite face_labels by (try assumption; lia). reflexivity. }
      split.
      - unfold push_block. apply (sgood_step n nb dir sp_dn c HA cs ts ds R0 _ _ _ _ G EE GG); [|rewrite DD, GD; reflexivity].
        unfold all_entries. rewrite flat_map_flat_map. apply Permutation_refl'. apply flat_map_ext_in. intros p Hp. apply in_seq in Hp. rewrite flat_map_map.
        rewrite (flat_map_ext_in _ (fun q => [mkTr (rank dir i * nb + p) (rank dir i * nb + q) (M p q)])); [clear; induction (seq 0 nb); [reflexivity|cbn; rewrite IHl; reflexivity]|].
        intros q Hq. apply in_seq in Hq. unfold t_of, ep, eq', ev. cbn [fst snd]. unfold c. rewrite !face_labels by (try assumption; lia). reflexivity.
      - intros Z. rewrite <- (app_nil_r ts). apply (sgood_step n nb dir sp_dn c HA cs ts ds R0 [] (all_rentries nb v) [] _ G); [split; [constructor|]|exact GG|reflexivity|rewrite GD; reflexivity].
        intros p q Hp Hq. cbn. apply Z.
    Qed.

    (** a loop over the boundary faces whose body adds one term per face of kind [k] *)
    Definition one_term (k : kind) (M : F -> nat -> nat -> K) (i : nat) : list (contribution K) :=
      match nth_error (m_faces m) i, nth_error (m_binfo m) i with
      | Some f, Some d => match last_reg k d ops None with
          | Some (mkReg _ _ _ _ (Some fn)) => [face_term nb i (M f) (load f (fun p => smul (last_factor ops one) (fn p)))]
          | _ => [] end
      | _, _ => []
      end.
    Lemma bc_terms_eq k M : bc_terms smul one load m ops nb k M = flat_map (one_term k M) (seq 0 n).
    Proof. reflexivity. Qed.

    Lemma sp_loop (step : F -> spasm K -> outcome (spasm K)) k (M : F -> nat -> nat -> K) :
      (forall i f d a cs, nth_error (m_faces m) i = Some f -> nth_error (m_binfo m) i = Some d -> bd_is_b d = true -> spinv cs a ->
         exists a', step f a = Ok a' /\ spinv (cs ++ one_term k M i) a') ->
      forall a cs, spinv cs a -> exists a', floop step (select bd_is_b (m_faces m) (m_binfo m)) a = Ok a' /\ spinv (cs ++ bc_terms smul one load m ops nb k M) a'.
    Proof.
      intros HS a cs G. rewrite bc_terms_eq.
      destruct (bnd_loop m (fun i a => spinv (cs ++ flat_map (one_term k M) (seq 0 i)) a) step (wf_binfo _ _ _ _ W)) with (s := a) as (a' & E & G').
      - intros i f d s Hf Hd G0. rewrite seq_S, flat_map_app. cbn [Nat.add flat_map]. rewrite app_nil_r, app_assoc. destruct (bd_is_b d) eqn:B.
        + apply (HS i f d s _ Hf Hd B G0).
        + unfold one_term at 2. rewrite Hf, Hd, (last_reg_inner k d ops B), app_nil_r. exact G0.
      - cbn. rewrite app_nil_r. exact G.
      - exists a'. auto.
    Qed.

    Lemma no_terms k M : (BC_Spec.nb_faces bnd k = 0)%nat -> bc_terms smul one load m ops nb k M = [].
    Proof.
      intros Z. pose proof (C14_counters cltb fltb faces_of one O m ops bnd W R k) as CN. rewrite Z in CN.
      assert (NN : forall i b, nth_error (m_binfo m) i = Some b -> last_reg k b ops None = None).
      { intros i b Hb. pose proof (last_reg_some_iff k b ops None) as L. cbn in L.
        assert (T0 : times k b ops = 0%nat). { apply nth_error_In in Hb. clear -Hb CN. induction (m_binfo m) as [|x l IH]; [contradiction|]. cbn in CN. destruct Hb as [->|Hb]; [lia|]. apply IH; [|exact Hb]. unfold list_sum. lia. }
        rewrite T0 in L. cbn in L. destruct (last_reg k b ops None); [discriminate|reflexivity]. }
      rewrite bc_terms_eq. generalize (seq 0 n). induction l as [|i l IH]; [reflexivity|]. cbn [flat_map]. rewrite IH, app_nil_r. unfold one_term.
      destruct (nth_error (m_faces m) i); [|reflexivity]. destruct (nth_error (m_binfo m) i) as [b|] eqn:Hb; [|reflexivity]. rewrite (NN i b Hb). reflexivity.
    Qed.

    (** reading a solution *)
    Lemma sp_values_ok (a : spasm K) x id : spidle a -> (nb * rank dir n <= vsize x)%nat -> (id < n)%nat ->
      sp_values smul project m bnd x a id = Ok (map (completed dir nb (dirichlet_value smul one project m ops nb) x) (seq (id * nb) nb)).
    Proof.
      intros (T & FB & SZ & _) VX Hi. unfold sp_values. rewrite (q_dir id Hi). cbn [bind]. rewrite FB.
      assert (EQ : forall g, (forall i, (i < nb)%nat -> g i = completed dir nb (dirichlet_value smul one project m ops nb) x (id * nb + i)%nat) ->
         map g (seq 0 nb) = map (completed dir nb (dirichlet_value smul one project m ops nb) x) (seq (id * nb) nb)).
      { intros g Hg. rewrite (seq_from (id * nb)), map_map. apply map_ext_in. intros i Hq. apply in_seq in Hq. apply Hg. lia. }
      destruct (dir id) eqn:D.
      - rewrite (sp_data_ok id Hi D). cbn [bind]. f_equal. apply EQ. intros i Hq. unfold completed, free. destruct (dm_add nb id i Hq) as [-> _]. rewrite D. cbn [negb].
        unfold dirichlet_value. destruct (dm_add nb id i Hq) as [-> ->]. reflexivity.
      - rewrite (tab_at a id T Hi). cbn [bind]. unfold segment. pose proof (rank_lt dir id n Hi D). rewrite (proj2 (Nat.leb_le _ _)) by nia. f_equal. apply EQ. intros i Hq.
        unfold completed, free. destruct (dm_add nb id i Hq) as [EQ1 EQ2]. rewrite EQ1, D. cbn [negb]. unfold position. rewrite EQ1, EQ2. reflexivity.
    Qed.
    Lemma sp_take_local_ok (a : spasm K) x cl ids : spidle a -> (nb * rank dir n <= vsize x)%nat -> numbered (m_faces m) ids (faces_of cl) ->
      sp_take_local fltb faces_of smul project m bnd cl x a = Ok (map (completed dir nb (dirichlet_value smul one project m ops nb) x) (unknowns_of_faces nb ids)).
    Proof.
      intros G VX NF. unfold sp_take_local. rewrite (numbered_lookup _ _ NF). cbn [bind]. pose proof (numbered_lt _ _ NF) as HA. clear NF.
      assert (E : exists l, fmap (sp_values smul project m bnd x a) ids = Ok l /\ concat l = map (completed dir nb (dirichlet_value smul one project m ops nb) x) (unknowns_of_faces nb ids)).
      { induction HA as [|id ids Hi _ (l & E & Q)]; [exists []; split; reflexivity|]. cbn [fmap]. rewrite (sp_values_ok a x id G VX Hi). cbn [bind]. rewrite E. cbn [bind].
        eexists. split; [reflexivity|]. cbn [concat unknowns_of_faces flat_map]. rewrite map_app, Q. reflexivity. }
      destruct E as (l & -> & Q). cbn [bind]. rewrite Q. reflexivity.
    Qed.
    Lemma sp_expand_ok (a : spasm K) x : spidle a -> (nb * rank dir n <= vsize x)%nat ->
      exists r, sp_expand fltb smul project m bnd x a = Ok r /\ vsize r = (n * nb)%nat /\ forall I, (I < n * nb)%nat -> vent r I = completed dir nb (dirichlet_value smul one project m ops nb) x I.
    Proof.
      intros G VX. pose proof G as (T & FB & SZ & _). unfold sp_expand. rewrite FB. set (step := fun bfc ret => _).
      assert (LO : forall fs base r, (base + length fs = n)%nat -> (forall j f, nth_error fs j = Some f -> nth_error (m_faces m) (base + j) = Some f) ->
        vsize r = (n * nb)%nat -> (forall I, (I < base * nb)%nat -> vent r I = completed dir nb (dirichlet_value smul one project m ops nb) x I) ->
        exists r', floop step fs r = Ok r' /\ vsize r' = (n * nb)%nat /\ forall I, (I < (base + length fs) * nb)%nat -> vent r' I = completed dir nb (dirichlet_value smul one project m ops nb) x I).
      { induction fs as [|f fs IH]; intros base r L H VR Q; cbn [floop]; [exists r; cbn [length]; rewrite Nat.add_0_r; auto|].
        assert (Hf : nth_error (m_faces m) base = Some f) by (rewrite <- (Nat.add_0_r base); apply (H 0%nat); reflexivity). cbn [length] in L.
        assert (Hb : (base < n)%nat) by lia.
        assert (ST : step f r = set_block (base * nb) (map (completed dir nb (dirichlet_value smul one project m ops nb) x) (seq (base * nb) nb)) r).
        { unfold step. rewrite (lookup_stored fltb O _ _ _ (wf_faces _ _ _ _ W) Hf). cbn [bind]. pose proof (sp_values_ok a x base G VX Hb) as SV. unfold sp_values, sp_data in SV.
          rewrite (tab_at a base T Hb) in SV |- *. cbn [bind] in SV |- *. rewrite (q_dir base Hb) in SV |- *. cbn [bind] in SV |- *. destruct (dir base) eqn:D.
          - destruct (q_dir_func base f Hf D) as (g & QF & _). rewrite QF in SV |- *. cbn [bind] in SV |- *. unfold vget in SV. rewrite Hf in SV. cbn [bind] in SV. rewrite FB in SV. injection SV as ->. reflexivity.
          - rewrite FB in SV. rewrite SV. reflexivity. }
        rewrite ST. unfold set_block. rewrite map_length, seq_length, VR, (proj2 (Nat.leb_le _ _)) by nia. cbn [bind].
        destruct (IH (S base) (mkVec (n * nb) (fun k0 => if (base * nb <=? k0)%nat && (k0 <? base * nb + nb)%nat then nth (k0 - base * nb) (map (completed dir nb (dirichlet_value smul one project m ops nb) x) (seq (base * nb) nb)) 0 else vent r k0))) as (r' & E & V1 & Q1).
        + lia.
        + intros j g Hj. rewrite Nat.add_succ_l, <- Nat.add_succ_r. apply (H (S j)). exact Hj.
        + reflexivity.
        + intros I HI. cbn [vent]. destruct (Nat.leb_spec (base * nb) I); cbn [andb]; [|apply Q; lia].
          rewrite (proj2 (Nat.ltb_lt _ _)) by nia. rewrite (nth_indep _ 0 (completed dir nb (dirichlet_value smul one project m ops nb) x 0%nat)) by (rewrite map_length, seq_length; nia).
          rewrite map_nth, seq_nth by nia. f_equal. lia.
        + exists r'. split; [exact E|]. split; [exact V1|]. intros I HI. apply Q1. cbn [length] in HI. lia. }
      destruct (LO (m_faces m) 0%nat (mkVec (nb * n) (fun _ => 0))) as (r & E & V1 & Q); [reflexivity|auto|apply Nat.mul_comm|intros I HI; lia|].
      exists r. auto.
    Qed.

    Context (CO : compatible m ops).
    Lemma sp_neumann_ok (a : spasm K) cs : spinv cs a -> exists a', sp_neumann fltb smul load m bnd a = Ok a' /\ spinv (cs ++ bc_terms smul one load m ops nb Neumann (fun _ _ _ => 0)) a'.
    Proof.
      intros G. unfold sp_neumann. destruct (Nat.ltb_spec 0 (nb_faces_neumann Sc P V bnd)) as [PC|PC].
      - rewrite (boundary_faces_correct fltb O m (wf_faces _ _ _ _ W) (wf_binfo _ _ _ _ W)). cbn [bind]. apply sp_loop; [|exact G]. clear a cs G.
        intros i f d a cs Hf Hd B (T & FB & SZ & G). assert (Hi : (i < n)%nat) by (apply nth_error_Some; congruence).
        destruct (q_all cltb fltb faces_of smul one O m ops bnd nb W R sp_dn i d Hd) as (Q1 & Q2 & Q3 & Q4). unfold sp_neumann_step.
        rewrite (lookup_stored fltb O _ _ _ (wf_faces _ _ _ _ W) Hf). cbn [bind]. rewrite Q2. cbn [bind].
        pose proof (fun k' H1 H2 => others_none m ops CO i d Neumann k' Hd ltac:(discriminate) H1 H2) as ON.
        specialize (Q4 Neumann (or_introl eq_refl)). cbn [kst_of] in Q4. unfold one_term. rewrite Hf, Hd.
        destruct (last_reg Neumann d ops None) as [[t id fn]|] eqn:LN; cbn [is_some negb]; [|exists a; rewrite app_nil_r; split; [reflexivity|exact (conj T (conj FB (conj SZ G)))]].
        destruct Q4 as (fn' & E1 & Q4). cbn in E1. subst fn. rewrite Q1, Q3, (ON Dirichlet), (ON Robin) by discriminate. cbn [is_some bind].
        assert (Di : dir i = false) by (unfold dir, dirichlet_face; rewrite Hd, (ON Dirichlet) by discriminate; reflexivity).
        rewrite (tab_at a i T Hi). cbn [bind]. rewrite Q4. cbn [bind]. eexists. split; [reflexivity|]. split; [exact T|]. split; [exact FB|]. split; [exact SZ|].
        cbn [with_sp sp_trip sp_duos sp_RHS]. rewrite FB. refine (proj2 (sp_face_ok cs _ _ _ i _ _ G Hi Di) _). reflexivity.
      - exists a. split; [reflexivity|]. rewrite (no_terms Neumann), app_nil_r; [exact G|]. cbn [BC_Spec.nb_faces]. lia.
    Qed.
    Lemma sp_robin_ok (a : spasm K) cs : spinv cs a -> exists a', sp_robin fltb smul load mass m bnd a = Ok a' /\ spinv (cs ++ bc_terms smul one load m ops nb Robin mass) a'.
    Proof.
      intros G. unfold sp_robin. destruct (Nat.ltb_spec 0 (nb_faces_robin Sc P V bnd)) as [PC|PC].
      - rewrite (boundary_faces_correct fltb O m (wf_faces _ _ _ _ W) (wf_binfo _ _ _ _ W)). cbn [bind]. apply sp_loop; [|exact G]. clear a cs G.
        intros i f d a cs Hf Hd B (T & FB & SZ & G). assert (Hi : (i < n)%nat) by (apply nth_error_Some; congruence).
        destruct (q_all cltb fltb faces_of smul one O m ops bnd nb W R sp_dn i d Hd) as (Q1 & Q2 & Q3 & Q4). unfold sp_robin_step.
        rewrite (lookup_stored fltb O _ _ _ (wf_faces _ _ _ _ W) Hf). cbn [bind]. rewrite Q3. cbn [bind].
        pose proof (fun k' H1 H2 => others_none m ops CO i d Robin k' Hd ltac:(discriminate) H1 H2) as ON.
        specialize (Q4 Robin (or_intror eq_refl)). cbn [kst_of] in Q4. unfold one_term. rewrite Hf, Hd.
        destruct (last_reg Robin d ops None) as [[t id fn]|] eqn:LN; cbn [is_some negb]; [|exists a; rewrite app_nil_r; split; [reflexivity|exact (conj T (conj FB (conj SZ G)))]].
        destruct Q4 as (fn' & E1 & Q4). cbn in E1. subst fn. rewrite Q1, Q2, (ON Dirichlet), (ON Neumann) by discriminate. cbn [is_some bind].
        assert (Di : dir i = false) by (unfold dir, dirichlet_face; rewrite Hd, (ON Dirichlet) by discriminate; reflexivity).
        rewrite (tab_at a i T Hi). cbn [bind]. rewrite Q4. cbn [bind]. eexists. split; [reflexivity|]. split; [exact T|]. split; [exact FB|]. split; [exact SZ|].
        cbn [with_sp sp_trip sp_duos sp_RHS]. rewrite FB. exact (proj1 (sp_face_ok cs _ _ _ i _ _ G Hi Di)).
      - exists a. split; [reflexivity|]. rewrite (no_terms Robin), app_nil_r; [exact G|]. cbn [BC_Spec.nb_faces]. lia.
    Qed.
  End Reached.
End SP.
