(** One cell: the map from local to global unknowns, the eliminated terms, the triplets. *)
From Coq Require Import List Arith Bool Lia Ring.
From Verif Require Import Common LinAlg Mesh_Model Mesh_Spec Mesh_Proofs BC_Model BC_Spec Degree_Model Asm_Model Asm_Spec Asm_Proofs Asm2_Proofs Asm3_Proofs
  VAsm_Model VAsm_Spec VAsm_Proofs.
Import ListNotations.

Lemma floop_app {A St} (step : A -> St -> outcome St) l1 l2 s : floop step (l1 ++ l2) s = do s' <- floop step l1 s; floop step l2 s'.
Proof. revert s. induction l1 as [|a l IH]; intros s; [reflexivity|]. cbn [app floop]. destruct (step a s); cbn [bind]; [apply IH|reflexivity|reflexivity]. Qed.

Lemma Forall2_nth_error_l {A B} (Q : A -> B -> Prop) la lb : Forall2 Q la lb -> forall i x, nth_error la i = Some x -> exists y, nth_error lb i = Some y /\ Q x y.
Proof. induction 1 as [|a b la lb H _ IH]; intros [|i] x E; try discriminate; cbn in *; [injection E as <-; eauto|auto]. Qed.

Lemma map_seq_shift {A} (h : nat -> A) s n : map h (seq s n) = map (fun k => h (s + k)) (seq 0 n).
Proof.
  revert s. induction n as [|n IH]; intros s; [reflexivity|]. rewrite !seq_S, !map_app, IH. cbn [map]. rewrite Nat.add_0_l. reflexivity.
Qed.

Section Cell.
  Context {K : cring} {C F Sc P V : Type} (fltb : F -> F -> bool) (faces_of : C -> list F) (smul : Sc -> V -> V).
  Context (dim : nat) (sbs : nat -> nat) (project : F -> nat -> (P -> V) -> nat -> K).
  Add Ring Kring : (cth K).
  Local Open Scope k_scope.
  Context (D : dim = 2%nat \/ dim = 3%nat) (m : mesh C F) (bnd : bc Sc P V) (deg : list degree_info).
  Context (fd : nat -> nat -> bool) (fv : nat -> nat -> K) (solF : option (list (vec K))).
  Let ns := map (di_dofs dim sbs) deg.
  Let dir I := fd (fst (locate ns I)) (snd (locate ns I)).
  Let dv I := fv (fst (locate ns I)) (snd (locate ns I)).
  Let N := list_sum ns.

  Definition sol_at (i n : nat) : outcome (option (nat -> K)) :=
    match solF with
    | None => Ok None
    | Some l => do s <- vget l i; if (vsize s =? n)%nat then Ok (Some (vent s)) else UB
    end.
  Definition less (x : K) (s : option (nat -> K)) (k : nat) : K := match s with None => x | Some s => x - s k end.
  Inductive face_st (i : nat) (f : F) (d : degree_info) : Prop :=
  | fs_free : q_set P V (b_dir bnd) i = Ok false -> (forall k, fd i k = false) -> face_st i f d
  | fs_dir t g s : q_set P V (b_dir bnd) i = Ok true -> q_type P V (b_dir bnd) i = Ok t -> known dim t ->
      q_func Sc P V smul (b_factor bnd) (b_dir bnd) i = Ok g -> has_unknowns d = true ->
      (forall k, fd i k = imposes t (k mod dim)) -> sol_at i (di_dofs dim sbs d) = Ok s ->
      (forall k, fv i k = less (if (t =? CLAMPED)%nat then 0 else project f (di_degree d) g k) s k) -> face_st i f d.
  Context (HL : length deg = length (m_faces m)).
  Context (HF : forall i f d, nth_error (m_faces m) i = Some f -> nth_error deg i = Some d -> lookup F fltb (m_faces m) f = Ok i /\ face_st i f d).

  Definition tabs_ok (a : vasm K) : Prop :=
    v_deg a = deg /\ v_tab a = map (fun j => rank dir (start ns j)) (seq 0 (length deg)) /\ v_size a = rank dir N.

  Lemma ns_nth i d : nth_error deg i = Some d -> nth i ns 0%nat = di_dofs dim sbs d.
  Proof. intros H. unfold ns. apply nth_error_nth. rewrite nth_error_map, H. reflexivity. Qed.
  Lemma tab_nth a i : tabs_ok a -> (i < length deg)%nat -> nth_error (v_tab a) i = Some (rank dir (start ns i)).
  Proof.
    intros (_ & -> & _) H. rewrite nth_error_map, (nth_error_nth' (seq 0 (length deg)) 0%nat) by (now rewrite seq_length).
    rewrite seq_nth by exact H. reflexivity.
  Qed.

  (** the Dirichlet vector, where the component is prescribed *)
  Lemma mask_spec t zs (A proj : nat -> K) s k : known dim t -> (forall c, (c < dim)%nat -> existsb (Nat.eqb c) zs = negb (imposes t c)) ->
    mask dim zs A k * dir_vector dim t zs proj s k = only (imposes t (k mod dim)) (A k * less (if (t =? CLAMPED)%nat then 0 else proj k) s k).
  Proof.
    intros Kn Z. pose proof (Nat.mod_upper_bound k dim ltac:(lia)) as HM. unfold mask at 1. rewrite Z by exact HM.
    assert (CL : (t =? CLAMPED)%nat = true -> imposes t (k mod dim) = true) by (intros ->%Nat.eqb_eq; reflexivity).
    destruct (imposes t (k mod dim)) eqn:E; cbn [negb only].
    - f_equal. unfold dir_vector, mask, less. destruct s, (t =? CLAMPED)%nat; rewrite ?Z, ?E by exact HM; cbn [negb]; ring.
    - ring.
  Qed.

  Section One.
    Context (a : vasm K) (TA : tabs_ok a) (ids : list nat) (fcs : list F) (NF : numbered (m_faces m) ids fcs).
    Context (lhs : mat K).
    Let lns := map (fun id => nth id ns 0%nat) ids.
    Let gl := unknowns ns ids.
    Context (HR : mrows lhs = length gl) (HC : mcols lhs = length gl).

    Lemma gl_length : length gl = list_sum lns.
    Proof.
      unfold gl, lns, unknowns. clear. induction ids as [|i l IH]; [reflexivity|]. cbn [flat_map map]. rewrite app_length, seq_length, IH. reflexivity.
    Qed.
    Lemma lns_length : length lns = length ids. Proof. apply map_length. Qed.
    Lemma gl_prefix i : (i < length ids)%nat -> unknowns ns (firstn (S i) ids) = unknowns ns (firstn i ids) ++ seq (start ns (nth i ids 0%nat)) (nth i lns 0%nat).
    Proof.
      intros H. unfold unknowns, lns. clear -H. revert i H. induction ids as [|x l IH]; intros i H; [cbn in H; lia|]. destruct i as [|i].
      - cbn. rewrite app_nil_r. reflexivity.
      - cbn [firstn flat_map map nth]. change (match l with [] => [] | a0 :: l0 => a0 :: firstn i l0 end) with (firstn (S i) l).
        rewrite IH by (cbn in H; lia). rewrite app_assoc. reflexivity.
    Qed.
    Lemma gl_nth i k : (i < length ids)%nat -> (k < nth i lns 0)%nat -> nth (start lns i + k) gl 0%nat = (start ns (nth i ids 0) + k)%nat.
    Proof.
      unfold gl, lns, unknowns. clear. revert i. induction ids as [|x l IH]; intros i H Hk; [cbn in H; lia|]. destruct i as [|i]; cbn [flat_map map nth] in *.
      - rewrite start_0, Nat.add_0_l. rewrite app_nth1 by (rewrite seq_length; exact Hk). now rewrite seq_nth.
      - change (start (nth x ns 0%nat :: map (fun id => nth id ns 0%nat) l) (S i)) with (nth x ns 0 + start (map (fun id => nth id ns 0%nat) l) i)%nat.
        rewrite app_nth2; rewrite seq_length; [|lia]. replace (nth x ns 0 + start (map (fun id => nth id ns 0%nat) l) i + k - nth x ns 0)%nat with (start (map (fun id => nth id ns 0%nat) l) i + k)%nat by lia.
        apply IH; [cbn in H; lia|exact Hk].
    Qed.
    Lemma lns_nth i : (i < length ids)%nat -> nth i lns 0%nat = nth (nth i ids 0%nat) ns 0%nat.
    Proof. intros H. unfold lns. rewrite (nth_indep _ 0%nat (nth 0%nat ns 0%nat)) by (now rewrite map_length). apply (map_nth (fun id => nth id ns 0%nat)). Qed.

    (** what the loop over face_j adds for local face [i] *)
    Definition fsum (i p : nat) : K :=
      sumn (nth i lns 0%nat) (fun k => only (dir (nth (start lns i + k) gl 0%nat)) (ment lhs p (start lns i + k)%nat * dv (nth (start lns i + k) gl 0%nat))).
    Lemma elim_loop i id f d t g s (R : vec K) : (i < length ids)%nat -> nth i ids 0%nat = id -> nth_error (m_faces m) id = Some f -> nth_error deg id = Some d ->
      q_type P V (b_dir bnd) id = Ok t -> known dim t -> (forall k, fd id k = imposes t (k mod dim)) ->
      (forall k, fv id k = less (if (t =? CLAMPED)%nat then 0 else project f (di_degree d) g k) s k) -> vsize R = list_sum lns ->
      forall j, (j <= length ids)%nat -> exists R', floop (elim_block dim bnd id lhs (offsets 0 lns) lns (start lns i) (di_dofs dim sbs d) (project f (di_degree d) g) s) (seq 0 j) R = Ok R' /\
        vsize R' = list_sum lns /\ forall p, vent R' p = vent R p + only (p <? start lns j)%nat (fsum i p).
    Proof.
      intros Hi Eid Ef Ed Et Kn FD FV VR. destruct (dir_case_known dim t D Kn) as (zs & EC & Z).
      assert (Ln : nth i lns 0%nat = di_dofs dim sbs d) by (rewrite lns_nth, Eid by exact Hi; apply ns_nth; exact Ed).
      induction j as [|j IH]; intros Hj.
      - exists R. split; [reflexivity|]. split; [exact VR|]. intros p. rewrite start_0. unfold only. cbn. ring.
      - destruct IH as (R1 & E1 & V1 & Q1); [lia|]. rewrite seq_S, floop_app, E1. cbn [bind floop plus]. unfold elim_block at 1.
        unfold vget. rewrite offsets_nth by (rewrite lns_length; lia). cbn [bind plus].
        rewrite (nth_error_nth' lns 0%nat) by (rewrite lns_length; lia). cbn [bind].
        pose proof (start_block lns j) as SB. pose proof (start_block lns i) as SI.
        rewrite (proj2 (Nat.leb_le (start lns j + nth j lns 0%nat) _)) by (rewrite HR, gl_length; exact SB).
        rewrite (proj2 (Nat.leb_le (start lns i + di_dofs dim sbs d) _)) by (rewrite HC, gl_length, <- Ln; exact SI). cbn [andb negb].
        rewrite Et. cbn [bind]. rewrite EC. cbn [bind snd].
        destruct (add_block_ok (start lns j) (nth j lns 0%nat) (fun p => sumn (di_dofs dim sbs d) (fun k =>
           mask dim zs (fun k => ment lhs (start lns j + p)%nat (start lns i + k)%nat) k * dir_vector dim t zs (project f (di_degree d) g) s k)) R1) as (R2 & E2 & V2 & Q2); [lia|].
        rewrite E2. cbn [bind]. exists R2. split; [reflexivity|]. split; [congruence|]. intros p. rewrite Q2, Q1.
        assert (B : sumn (nth j lns 0%nat) (fun l => only (start lns j + l =? p)%nat (sumn (di_dofs dim sbs d) (fun k =>
           mask dim zs (fun k => ment lhs (start lns j + l)%nat (start lns i + k)%nat) k * dir_vector dim t zs (project f (di_degree d) g) s k))) =
           only ((start lns j <=? p) && (p <? start lns (S j)))%nat (fsum i p)).
        { rewrite start_S. destruct (start lns j <=? p)%nat eqn:L1; [destruct (p <? start lns j + nth j lns 0%nat)%nat eqn:L2|].
          - apply Nat.leb_le in L1. apply Nat.ltb_lt in L2. cbn [andb only]. rewrite (sumn_single _ (p - start lns j)) by (try lia; intros l Hl NE; unfold only; rewrite (proj2 (Nat.eqb_neq _ _)) by lia; reflexivity).
            replace (start lns j + (p - start lns j))%nat with p by lia. rewrite Nat.eqb_refl. cbn [only].
            unfold fsum. rewrite Ln. apply sumn_ext. intros k Hk. rewrite (mask_spec t zs _ _ s k Kn Z).
            rewrite gl_nth, Eid by (rewrite ?Ln; assumption). unfold dir, dv. rewrite locate_start by (rewrite (ns_nth id d Ed); exact Hk). cbn [fst snd].
            rewrite FD, FV. reflexivity.
          - apply Nat.ltb_ge in L2. cbn [andb only]. apply sumn_zero. intros l Hl. unfold only. rewrite (proj2 (Nat.eqb_neq _ _)) by lia. reflexivity.
          - apply Nat.leb_gt in L1. cbn [andb only]. apply sumn_zero. intros l Hl. unfold only. rewrite (proj2 (Nat.eqb_neq _ _)) by lia. reflexivity. }
        rewrite B, start_S. unfold only. destruct (Nat.ltb_spec p (start lns j)), (Nat.leb_spec (start lns j) p), (Nat.ltb_spec p (start lns j + nth j lns 0%nat)); try lia; cbn [andb]; ring.
    Qed.

    (** number of a global unknown in the system *)
    Definition lab (g : nat) : option nat := if dir g then None else Some (rank dir g).
    Lemma lab_block id : map lab (seq (start ns id) (nth id ns 0%nat)) =
      map (fun k => if fd id k then None else Some (rank dir (start ns id) + rank (fd id) k)%nat) (seq 0 (nth id ns 0%nat)).
    Proof.
      rewrite map_seq_shift. apply map_ext_in. intros k Hk. apply in_seq in Hk. unfold lab. rewrite (rank_at ns fd) by lia. unfold dir at 1. rewrite locate_start by lia. reflexivity.
    Qed.
    Definition rbc (i p : nat) : K := sumn (start lns i) (fun q => only (dir (nth q gl 0%nat)) (ment lhs p q * dv (nth q gl 0%nat))).
    Lemma rbc_S i p : rbc (S i) p = rbc i p + fsum i p.
    Proof. unfold rbc, fsum. rewrite start_S, sumn_app. reflexivity. Qed.

    Lemma loc_loop i : (i <= length ids)%nat -> exists R, floop (loc_face smul dim sbs project a bnd lhs solF fcs ids (offsets 0 lns) lns) (seq 0 i) ([], mkVec (list_sum lns) (fun _ => 0)) =
        Ok (map lab (unknowns ns (firstn i ids)), R) /\ vsize R = list_sum lns /\ forall p, (p < list_sum lns)%nat -> vent R p = rbc i p.
    Proof.
      induction i as [|i IH]; intros Hi.
      - eexists. split; [reflexivity|]. split; [reflexivity|]. intros p Hp. reflexivity.
      - destruct IH as (R & E & VR & QR); [lia|]. rewrite seq_S, floop_app, E. cbn [bind floop plus]. unfold loc_face.
        destruct (nth_error ids i) as [id|] eqn:Eid; [|apply nth_error_None in Eid; lia].
        assert (Nid : nth i ids 0%nat = id) by (apply nth_error_nth; exact Eid).
        destruct (Forall2_nth_error_l _ _ _ NF i id Eid) as (f & Ef & Hf).
        assert (Lid : (id < length deg)%nat) by (rewrite HL; apply nth_error_Some; congruence).
        destruct (nth_error deg id) as [d|] eqn:Ed; [|apply nth_error_None in Ed; lia].
        destruct (HF id f d Hf Ed) as [_ FS]. pose proof (ns_nth id d Ed) as Nn.
        unfold vget at 1. rewrite Eid. cbn [bind]. unfold vget at 1. rewrite Ef. cbn [bind]. unfold vget at 1. rewrite (proj1 TA), Ed. cbn [bind].
        unfold vget at 1. rewrite offsets_nth by (rewrite lns_length; lia). cbn [bind]. rewrite Nat.add_0_l.
        assert (Ln : nth i lns 0%nat = di_dofs dim sbs d) by (rewrite lns_nth, Nid by lia; exact Nn).
        pose proof (lab_block id) as LB. rewrite Nn in LB. rewrite gl_prefix, map_app, Nid, Ln, LB by lia.
        destruct FS as [Q1 Q2|t g s Q1 Q2 Kn Q3 HU FD SA FV]; rewrite Q1; cbn [bind]; unfold vat; rewrite (tab_nth a id TA Lid); cbn [bind negb fst snd].
        + eexists. split.
          { f_equal. f_equal. f_equal. apply map_ext. intros k. rewrite Q2. rewrite (rank_ext (fd id) (fun _ => false)) by auto. rewrite rank_none. reflexivity. }
          split; [exact VR|]. intros p Hp. rewrite (QR p Hp), rbc_S. unfold fsum. rewrite sumn_zero; [ring|].
          intros k Hk. rewrite gl_nth, Nid by (assumption || lia). unfold dir. rewrite locate_start by (rewrite Nn, <- Ln; exact Hk). cbn [fst snd]. rewrite Q2. reflexivity.
        + rewrite Q3. cbn [bind]. rewrite HU. cbn [negb]. fold (sol_at id (di_dofs dim sbs d)). rewrite SA. cbn [bind].
          destruct (elim_loop i id f d t g s R ltac:(lia) Nid Hf Ed Q2 Kn FD FV VR (length ids) ltac:(lia)) as (R' & ER & VR' & QR'). rewrite ER. cbn [bind].
          rewrite Q2. cbn [bind]. destruct (dir_case_known dim t D Kn) as (zs & EC & Z). rewrite EC. cbn [bind fst].
          rewrite (blocks_spec dim (sbs (di_degree d)) _ (imposes t)) by (lia || reflexivity).
          eexists. split.
          { f_equal. f_equal. f_equal. change 0%nat with (rank (fun k => imposes t (k mod dim)) 0) at 1. rewrite number_slots_spec. unfold di_dofs. rewrite HU.
            apply map_ext. intros k. rewrite FD. rewrite (rank_ext (fd id) (fun k => imposes t (k mod dim))) by auto. reflexivity. }
          split; [exact VR'|]. intros p Hp. rewrite QR', (QR p Hp), rbc_S. f_equal.
          rewrite <- lns_length, start_all, (proj2 (Nat.ltb_lt _ _)) by exact Hp. reflexivity.
    Qed.

    (** *** the triplets and the additions to the right-hand side *)
    Context (rhs : vec K) (VR : vsize rhs = length gl).
    Definition row_t (l2g : list (option nat)) (i gi : nat) (js : list nat) : list (triplet K) :=
      flat_map (fun j => match nth j l2g None with Some gj => [mkTr gi gj (ment lhs i j)] | None => [] end) js.
    Lemma scat_col_spec l2g i gi : forall js ts, (forall j, In j js -> (j < length l2g)%nat) ->
      floop (scat_col lhs l2g i gi) js ts = Ok (ts ++ row_t l2g i gi js).
    Proof.
      induction js as [|j js IH]; intros ts H; cbn [floop]; [now rewrite app_nil_r|].
      unfold scat_col at 1, vget. rewrite (nth_error_nth' l2g None) by (apply H; left; reflexivity). cbn [bind].
      unfold row_t. cbn [flat_map]. fold (row_t l2g i gi js). destruct (nth j l2g None); cbn [bind]; rewrite IH by (intros; apply H; right; assumption); [rewrite <- app_assoc|]; reflexivity.
    Qed.
    Definition rows_t (l2g : list (option nat)) (is : list nat) : list (triplet K) :=
      flat_map (fun i => match nth i l2g None with Some gi => row_t l2g i gi (seq 0 (mcols lhs)) | None => [] end) is.
    Definition rows_d (R : vec K) (l2g : list (option nat)) (is : list nat) : list (nat * K) :=
      flat_map (fun i => match nth i l2g None with Some gi => [(gi, vent rhs i - vent R i)] | None => [] end) is.
    Lemma scat_row_spec l2g R : length l2g = length gl -> vsize R = length gl -> forall is st, (forall i, In i is -> (i < length gl)%nat) ->
      floop (scat_row lhs rhs R l2g) is st = Ok (fst st ++ rows_t l2g is, snd st ++ rows_d R l2g is).
    Proof.
      intros LL LR. induction is as [|i is IH]; intros [ts ds] H; cbn [floop fst snd]; [now rewrite !app_nil_r|].
      assert (Hi : (i < length gl)%nat) by (apply H; left; reflexivity).
      unfold scat_row at 1, vget. rewrite (nth_error_nth' l2g None) by lia. cbn [bind]. unfold rows_t, rows_d. cbn [flat_map]. fold (rows_t l2g is) (rows_d R l2g is).
      destruct (nth i l2g None) as [gi|].
      - cbn [fst snd]. rewrite scat_col_spec by (intros j Hj; apply in_seq in Hj; rewrite LL, <- HC; lia). cbn [bind]. unfold vec_get. rewrite VR, LR.
        rewrite (proj2 (Nat.ltb_lt _ _)) by exact Hi. cbn [bind]. rewrite IH by (intros; apply H; right; assumption). cbn [fst snd]. rewrite <- !app_assoc. reflexivity.
      - cbn [bind]. rewrite IH by (intros; apply H; right; assumption). reflexivity.
    Qed.
    Definition dsum (ds : list (nat * K)) (r : nat) : K := suml (map snd (filter (fun d => fst d =? r)%nat ds)).
    Lemma dsum_app x y r : dsum (x ++ y) r = dsum x r + dsum y r.
    Proof. unfold dsum. now rewrite filter_app, map_app, suml_app. Qed.
    Lemma dsum_flat (h : nat -> list (nat * K)) n r : dsum (flat_map h (seq 0 n)) r = sumn n (fun i => dsum (h i) r).
    Proof.
      rewrite <- suml_map_seq. generalize (seq 0 n). induction l as [|x l IH]; [reflexivity|]. cbn [flat_map map suml]. rewrite dsum_app, IH. reflexivity.
    Qed.
    Lemma dsum_one g x r : dsum [(g, x)] r = only (g =? r)%nat x.
    Proof. unfold dsum, only. cbn [filter fst]. destruct (g =? r)%nat; cbn; ring. Qed.

    Lemma gl_lt p : (p < length gl)%nat -> (nth p gl 0%nat < N)%nat.
    Proof.
      intros H. assert (I : In (nth p gl 0%nat) gl) by (apply nth_In; exact H). revert I. generalize (nth p gl 0%nat). intros x I. unfold gl, unknowns in I. apply in_flat_map in I. destruct I as (i & _ & I).
      apply in_seq in I. pose proof (start_block ns i). unfold N. lia.
    Qed.
    Lemma lab_nth p : (p < length gl)%nat -> nth p (map lab gl) None = lab (nth p gl 0%nat).
    Proof. intros H. rewrite (nth_indep _ None (lab 0%nat)) by (rewrite map_length; exact H). apply map_nth. Qed.
    Lemma lab_match p I : (p < length gl)%nat -> dir I = false -> forall {A} (x : A) z, (match lab (nth p gl 0%nat) with Some g => if (g =? rank dir I)%nat then x else z | None => z end) = if (nth p gl 0 =? I)%nat then x else z.
    Proof.
      intros H DI A x z. unfold lab. destruct (dir (nth p gl 0%nat)) eqn:DP.
      - destruct (Nat.eqb_spec (nth p gl 0%nat) I) as [E|]; [congruence|reflexivity].
      - destruct (Nat.eqb_spec (nth p gl 0%nat) I) as [->|NE]; [now rewrite Nat.eqb_refl|].
        destruct (Nat.eqb_spec (rank dir (nth p gl 0%nat)) (rank dir I)) as [E|]; [apply rank_inj in E; auto; contradiction|reflexivity].
    Qed.
    Definition cell_c : contribution K := mkC gl lhs rhs.
    Lemma cell_global p : global 1 cell_c p = nth p gl 0%nat.
    Proof. unfold global, cell_c. cbn [c_faces]. rewrite Nat.div_1_r, Nat.mod_1_r. lia. Qed.
    Lemma cell_dofs : c_dofs 1 cell_c = length gl.
    Proof. unfold c_dofs, cell_c. cbn [c_faces]. lia. Qed.

    Lemma local_terms_spec cl : faces_of cl = fcs ->
      exists ts ds, local_terms fltb faces_of smul dim sbs project m bnd cl lhs rhs solF a = Ok (ts, ds) /\ in_range (rank dir N) ts /\ (forall d, In d ds -> (fst d < rank dir N)%nat) /\ forall I, (I < N)%nat -> dir I = false ->
          (forall J, (J < N)%nat -> dir J = false -> tsum ts (rank dir I) (rank dir J) = cell_mat 1 cell_c I J) /\ dsum ds (rank dir I) = cell_rhs 1 cell_c I - elim N 1 dir (fun i _ => dv i) (cell_mat 1 cell_c) I.
    Proof.
      intros FC. unfold local_terms. rewrite FC.
      assert (E1 : fmap (lookup F fltb (m_faces m)) fcs = Ok ids).
      { apply fmap_forall2. pose proof NF as NX. clear -NX HF HL. revert NX. unfold numbered. induction 1 as [|i f li lf H _ IH]; [constructor|]. constructor; [|exact IH].
        destruct (nth_error deg i) as [d|] eqn:Ed; [apply (HF i f d H Ed)|]. apply nth_error_None in Ed. exfalso.
        assert (i < length (m_faces m))%nat by (apply nth_error_Some; congruence). lia. }
      rewrite E1. cbn [bind].
      assert (E2 : fmap (ndofs dim sbs a) ids = Ok lns).
      { unfold lns. pose proof NF as NX. clear -NX HF HL TA. revert NX. unfold numbered. induction 1 as [|i f li lf H _ IH]; [reflexivity|]. cbn [fmap map]. unfold ndofs at 1, vget. rewrite (proj1 TA).
        destruct (nth_error deg i) as [d|] eqn:Ed.
        - cbn [bind]. rewrite IH. cbn [bind]. rewrite (ns_nth i d Ed). reflexivity.
        - apply nth_error_None in Ed. exfalso. assert (i < length (m_faces m))%nat by (apply nth_error_Some; congruence). lia. }
      rewrite E2. cbn [bind].
      destruct (loc_loop (length ids) ltac:(lia)) as (R & -> & VRR & QR). cbn [bind fst snd]. rewrite firstn_all. fold gl.
      rewrite scat_row_spec; [|now rewrite map_length|rewrite VRR; symmetry; apply gl_length|intros i Hi; apply in_seq in Hi; lia].
      cbn [fst snd app]. eexists. eexists. split; [reflexivity|].
      assert (LB : forall i g, (i < length gl)%nat -> nth i (map lab gl) None = Some g -> (g < rank dir N)%nat).
      { intros i g Hi. rewrite lab_nth by exact Hi. unfold lab. destruct (dir (nth i gl 0%nat)) eqn:E; [discriminate|]. intros [= <-].
        apply rank_lt; [apply gl_lt; exact Hi|exact E]. }
      split.
      { intros t Ht. unfold rows_t in Ht. apply in_flat_map in Ht. destruct Ht as (i & Hi & Ht). apply in_seq in Hi.
        destruct (nth i (map lab gl) None) as [gi|] eqn:Ei; [|destruct Ht]. unfold row_t in Ht. apply in_flat_map in Ht. destruct Ht as (j & Hj & Ht). apply in_seq in Hj.
        destruct (nth j (map lab gl) None) as [gj|] eqn:Ej; [|destruct Ht]. destruct Ht as [<-|[]]. cbn [t_row t_col]. split; [apply (LB i)|apply (LB j)]; auto; lia. }
      split.
      { intros d Hd. unfold rows_d in Hd. apply in_flat_map in Hd. destruct Hd as (i & Hi & Hd). apply in_seq in Hi.
        destruct (nth i (map lab gl) None) as [gi|] eqn:Ei; [|destruct Hd]. destruct Hd as [<-|[]]. apply (LB i); auto. lia. }
      intros I HI DI. split.
      - intros J HJ DJ. unfold rows_t. rewrite tsum_flat, HR. unfold cell_mat. rewrite cell_dofs. apply sumn_ext. intros p Hp. rewrite lab_nth, cell_global by exact Hp.
        transitivity (match lab (nth p gl 0%nat) with Some g => if (g =? rank dir I)%nat then sumn (length gl) (fun q => only (nth q gl 0 =? J)%nat (ment lhs p q)) else 0 | None => 0 end).
        + destruct (lab (nth p gl 0%nat)) as [g|]; [|reflexivity]. unfold row_t. rewrite tsum_flat, HC. destruct (g =? rank dir I)%nat eqn:EG.
          * apply sumn_ext. intros q Hq. rewrite lab_nth by exact Hq. unfold only. rewrite <- (lab_match q J Hq DJ). destruct (lab (nth q gl 0%nat)) as [h|]; [|reflexivity].
            rewrite tsum_one. cbn [t_row t_col t_val]. rewrite EG. reflexivity.
          * apply sumn_zero. intros q Hq. destruct (nth q (map lab gl) None); [|reflexivity]. rewrite tsum_one. cbn [t_row t_col t_val]. rewrite EG. reflexivity.
        + rewrite lab_match by assumption. destruct (nth p gl 0 =? I)%nat; [|symmetry; apply sumn_zero; intros; reflexivity].
          apply sumn_ext. intros q Hq. rewrite cell_global. reflexivity.
      - unfold rows_d. rewrite dsum_flat, HR, elim_cell.
        2:{ unfold cell_c. cbn [c_faces]. apply Forall_forall. intros g Hg. destruct (In_nth _ _ 0%nat Hg) as (p & Hp & <-). apply gl_lt. exact Hp. }
        unfold cell_rhs. rewrite cell_dofs, <- sumn_sub. apply sumn_ext. intros p Hp. rewrite lab_nth, cell_global by exact Hp.
        transitivity (match lab (nth p gl 0%nat) with Some g => if (g =? rank dir I)%nat then vent rhs p - vent R p else 0 | None => 0 end).
        { destruct (lab (nth p gl 0%nat)); [rewrite dsum_one|]; reflexivity. }
        rewrite lab_match by assumption. unfold only at 1 2. destruct (nth p gl 0 =? I)%nat; [|ring]. cbn [cell_c c_rhs c_lhs c_faces]. f_equal.
        rewrite QR by (rewrite <- gl_length; exact Hp). unfold rbc. rewrite <- lns_length, start_all, <- gl_length. apply sumn_ext. intros q Hq.
        rewrite cell_global. unfold dval. rewrite !Nat.div_1_r. reflexivity.
    Qed.
  End One.

  (** ** The whole assembly *)
  Definition dvv (i _ : nat) : K := dv i.
  Definition vgood (cs : list (contribution K)) (a : vasm K) : Prop :=
    tabs_ok a /\ vsize (v_RHS a) = rank dir N /\ in_range (rank dir N) (v_trip a) /\ (forall d, In d (v_duos a) -> (fst d < rank dir N)%nat) /\
    forall I, (I < N)%nat -> dir I = false ->
      (forall J, (J < N)%nat -> dir J = false -> tsum (v_trip a) (rank dir I) (rank dir J) = full_mat 1 cs I J) /\
      vent (v_RHS a) (rank dir I) + dsum (v_duos a) (rank dir I) = full_rhs 1 cs I - elim N 1 dir dvv (full_mat 1 cs) I.

  Lemma add_duos_spec : forall ds (R : vec K), (forall d, In d ds -> (fst d < vsize R)%nat) ->
    exists R', add_duos ds R = Ok R' /\ vsize R' = vsize R /\ forall k, vent R' k = vent R k + dsum ds k.
  Proof.
    induction ds as [|[g x] ds IH]; intros R H.
    - exists R. split; [reflexivity|]. split; [reflexivity|]. intros k. cbn. ring.
    - unfold add_duos. cbn [floop fst snd]. unfold vec_add at 1. rewrite (proj2 (Nat.ltb_lt _ _)) by (apply (H (g, x)); left; reflexivity). cbn [bind].
      destruct (IH (mkVec (vsize R) (fun k => if (k =? g)%nat then vent R k + x else vent R k))) as (R' & E & V1 & Q1); [intros d Hd; cbn [vsize]; apply H; right; exact Hd|].
      unfold add_duos in E. rewrite E. exists R'. split; [reflexivity|]. split; [exact V1|]. intros k. rewrite Q1. cbn [vent].
      change ((g, x) :: ds) with ([(g, x)] ++ ds). rewrite dsum_app, dsum_one. unfold only. rewrite (Nat.eqb_sym g k). destruct (k =? g)%nat; ring.
  Qed.

  (** a contribution is added *)
  Lemma vgood_add cs c a ts ds R : vgood cs a -> vsize R = rank dir N ->
    in_range (rank dir N) ts -> (forall d, In d ds -> (fst d < rank dir N)%nat) ->
    (forall I, (I < N)%nat -> dir I = false ->
      (forall J, (J < N)%nat -> dir J = false -> tsum ts (rank dir I) (rank dir J) = cell_mat 1 c I J) /\
      (vent R (rank dir I) + dsum ds (rank dir I) = vent (v_RHS a) (rank dir I) + dsum (v_duos a) (rank dir I) + (cell_rhs 1 c I - elim N 1 dir dvv (cell_mat 1 c) I))) ->
    forall L, vgood (cs ++ [c]) (with_v a (v_trip a ++ ts) ds L R).
  Proof.
    intros ((T1 & T2 & T3) & VR & IR & DR & G) VR' IR' DR' H L. split; [split; [|split]; assumption|]. cbn [with_v v_RHS v_trip v_duos]. split; [exact VR'|].
    split; [intros t Ht; apply in_app_or in Ht; destruct Ht; auto|]. split; [exact DR'|]. intros I HI DI. destruct (G I HI DI) as [G1 G2]. destruct (H I HI DI) as [H1 H2]. split.
    - intros J HJ DJ. rewrite tsum_app, G1, H1, full_mat_snoc by assumption. reflexivity.
    - rewrite H2, G2, full_rhs_snoc. rewrite (elim_ext N 1 dir dvv (full_mat 1 (cs ++ [c])) (fun I J => full_mat 1 cs I J + cell_mat 1 c I J)) by (intros; apply full_mat_snoc).
      rewrite elim_add. ring.
  Qed.

  Lemma call_spec a cl l r c : tabs_ok a -> contributes_v (m_faces m) faces_of ns (cl, l, r) c ->
    exists ts ds, local_terms fltb faces_of smul dim sbs project m bnd cl l r solF a = Ok (ts, ds) /\
        in_range (rank dir N) ts /\ (forall d, In d ds -> (fst d < rank dir N)%nat) /\
        forall I, (I < N)%nat -> dir I = false ->
          (forall J, (J < N)%nat -> dir J = false -> tsum ts (rank dir I) (rank dir J) = cell_mat 1 c I J) /\
          dsum ds (rank dir I) = cell_rhs 1 c I - elim N 1 dir dvv (cell_mat 1 c) I.
  Proof.
    intros TA ((ids & NI & EC) & <- & <- & F1 & F2 & F3). unfold c_dofs in F1, F2, F3. rewrite Nat.mul_1_r, EC in F1, F2, F3.
    destruct c as [cf lhs rhs]. cbn [c_faces c_lhs c_rhs] in *. subst cf.
    exact (local_terms_spec a TA ids (faces_of cl) NI lhs F1 F2 rhs F3 cl eq_refl).
  Qed.

  Lemma prim_step cs a cl l r c : vgood cs a -> contributes_v (m_faces m) faces_of ns (cl, l, r) c ->
    exists a', prim_assemble fltb faces_of smul dim sbs project m bnd cl l r solF a = Ok a' /\ vgood (cs ++ [c]) a'.
  Proof.
    intros G HC. destruct (call_spec a cl l r c (proj1 G) HC) as (ts & ds & E & IR & DR & Q). unfold prim_assemble. rewrite E. cbn [bind fst snd].
    eexists. split; [reflexivity|]. pose proof G as (_ & VR & _ & DA & _). apply vgood_add; auto.
    - intros d Hd. apply in_app_or in Hd. destruct Hd; auto.
    - intros I HI DI. destruct (Q I HI DI) as [Q1 Q2]. split; [exact Q1|]. rewrite dsum_app, Q2. ring.
  Qed.
  Lemma mech_step cs a cl l r c : vgood cs a -> v_duos a = [] -> contributes_v (m_faces m) faces_of ns (cl, l, r) c ->
    exists a', mech_assemble fltb faces_of smul dim sbs project m bnd cl l r solF a = Ok a' /\ vgood (cs ++ [c]) a' /\ v_duos a' = [].
  Proof.
    intros G DU HC. destruct (call_spec a cl l r c (proj1 G) HC) as (ts & ds & E & IR & DR & Q). unfold mech_assemble. rewrite E. cbn [bind fst snd].
    pose proof G as (_ & VR & _ & DA & _). destruct (add_duos_spec ds (v_RHS a)) as (R & ER & VR' & QR); [intros d Hd; rewrite VR; auto|]. rewrite ER. cbn [bind].
    eexists. split; [reflexivity|]. split; [|exact DU]. apply vgood_add; auto; [congruence|].
    intros I HI DI. destruct (Q I HI DI) as [Q1 Q2]. split; [exact Q1|]. rewrite QR, Q2. ring.
  Qed.

  (** loops of assembly calls *)
  Lemma prim_run : forall calls cs, Forall2 (contributes_v (m_faces m) faces_of ns) calls cs -> forall past a, vgood past a ->
    exists a', floop (fun call a => let '(cl, l, r) := call in prim_assemble fltb faces_of smul dim sbs project m bnd cl l r solF a) calls a = Ok a' /\ vgood (past ++ cs) a'.
  Proof.
    induction 1 as [|[[cl l] r] c calls cs HC _ IH]; intros past a G; cbn [floop]; [exists a; rewrite app_nil_r; auto|].
    destruct (prim_step past a cl l r c G HC) as (a1 & -> & G1). cbn [bind]. destruct (IH _ a1 G1) as (a2 & -> & G2). exists a2. rewrite <- app_assoc in G2. auto.
  Qed.
  Lemma mech_run : forall calls cs, Forall2 (contributes_v (m_faces m) faces_of ns) calls cs -> forall past a, vgood past a -> v_duos a = [] ->
    exists a', floop (fun call a => let '(cl, l, r) := call in mech_assemble fltb faces_of smul dim sbs project m bnd cl l r solF a) calls a = Ok a' /\ vgood (past ++ cs) a' /\ v_duos a' = [].
  Proof.
    induction 1 as [|[[cl l] r] c calls cs HC _ IH]; intros past a G DU; cbn [floop]; [exists a; rewrite app_nil_r; auto|].
    destruct (mech_step past a cl l r c G DU HC) as (a1 & -> & G1 & D1). cbn [bind]. destruct (IH _ a1 G1 D1) as (a2 & -> & G2 & D2). exists a2. rewrite <- app_assoc in G2. auto.
  Qed.

  Lemma vgood_nil a : tabs_ok a -> v_trip a = [] -> v_duos a = [] -> vsize (v_RHS a) = rank dir N -> (forall k, vent (v_RHS a) k = 0) -> vgood [] a.
  Proof.
    intros T E1 E2 VR Z. split; [exact T|]. split; [exact VR|]. rewrite E1, E2. split; [intros t []|]. split; [intros d []|]. intros I HI DI. split; [reflexivity|].
    rewrite Z. cbn. unfold elim. rewrite sumn_zero; [ring|]. intros J HJ. unfold only. destruct (dir (J / 1)); [cbn; ring|reflexivity].
  Qed.

  Lemma assembled_of cs ts (R : vec K) : vsize R = rank dir N ->
    (forall I, (I < N)%nat -> dir I = false ->
      (forall J, (J < N)%nat -> dir J = false -> tsum ts (rank dir I) (rank dir J) = full_mat 1 cs I J) /\
      vent R (rank dir I) = full_rhs 1 cs I - elim N 1 dir dvv (full_mat 1 cs) I) ->
    assembled dir N 1 dv cs (mkMat (rank dir N) (rank dir N) (tsum ts)) R.
  Proof.
    intros VR H. constructor; cbn [mrows mcols ment]; rewrite ?Nat.mul_1_l; auto.
    - intros I J HI HJ. rewrite Nat.mul_1_r in HI, HJ. unfold free, position. rewrite !Nat.div_1_r, !Nat.mod_1_r, !Nat.mul_1_r, !Nat.add_0_r. intros FI FJ.
      apply negb_true_iff in FI, FJ. apply (H I HI FI); assumption.
    - intros I HI. rewrite Nat.mul_1_r in HI. unfold free at 1, position. rewrite !Nat.div_1_r, !Nat.mod_1_r, !Nat.mul_1_r, !Nat.add_0_r. intros FI.
      apply negb_true_iff in FI. rewrite (proj2 (H I HI FI)). f_equal. unfold elim. rewrite ?Nat.mul_1_r. apply sumn_ext. intros J HJ. unfold free, only, dval, dvv. rewrite !Nat.div_1_r. destruct (dir J); reflexivity.
  Qed.
  Lemma prim_final cs a : vgood cs a -> exists a', prim_finalize a = Ok a' /\ tabs_ok a' /\ v_trip a' = [] /\ v_duos a' = [] /\ assembled dir N 1 dv cs (v_LHS a') (v_RHS a').
  Proof.
    intros ((T1 & T2 & T3) & VR & IR & DR & G). unfold prim_finalize. rewrite T3, from_triplets_ok by exact IR. cbn [bind].
    destruct (add_duos_spec (v_duos a) (v_RHS a)) as (R & ER & VR' & QR); [intros d Hd; rewrite VR; auto|]. rewrite ER. cbn [bind].
    eexists. split; [reflexivity|]. cbn [with_v v_trip v_duos v_LHS v_RHS]. split; [split; [|split]; assumption|]. split; [reflexivity|]. split; [reflexivity|].
    apply assembled_of; [congruence|]. intros I HI DI. destruct (G I HI DI) as [G1 G2]. split; [exact G1|]. rewrite QR. exact G2.
  Qed.
  Lemma mech_final cs a : vgood cs a -> v_duos a = [] -> exists a', mech_finalize a = Ok a' /\ tabs_ok a' /\ v_trip a' = [] /\ v_duos a' = [] /\ assembled dir N 1 dv cs (v_LHS a') (v_RHS a').
  Proof.
    intros ((T1 & T2 & T3) & VR & IR & DR & G) DU. unfold mech_finalize. rewrite T3, from_triplets_ok by exact IR. cbn [bind].
    eexists. split; [reflexivity|]. cbn [with_v v_trip v_duos v_LHS v_RHS]. split; [split; [|split]; assumption|]. split; [reflexivity|]. split; [exact DU|].
    apply assembled_of; [exact VR|]. intros I HI DI. destruct (G I HI DI) as [G1 G2]. split; [exact G1|]. rewrite <- G2, DU. cbn. ring.
  Qed.

  (** ** Reading *)
  Definition read (x : vec K) (g : nat) : K := if dir g then dv g else vent x (rank dir g).
  Lemma read_slots_spec (x : vec K) (v : nat -> K) off p : forall n k ind, ind = rank p k -> (forall j, (k <= j < k + n)%nat -> p j = false -> (off + rank p j < vsize x)%nat) ->
    read_slots x v off ind k (map (fun k => slot_of (p k)) (seq k n)) = Ok (map (fun j => if p j then v j else vent x (off + rank p j)%nat) (seq k n)).
  Proof.
    induction n as [|n IH]; intros k ind E H; cbn [seq map read_slots]; [reflexivity|]. destruct (p k) eqn:PK; cbn [slot_of read_slots].
    - rewrite (IH (S k)); [reflexivity|cbn [rank]; rewrite PK; lia|intros j Hj; apply H; lia].
    - unfold vec_get. rewrite E, (proj2 (Nat.ltb_lt _ _)) by (apply H; [lia|exact PK]). cbn [bind].
      rewrite (IH (S k)); [reflexivity|cbn [rank]; rewrite PK; lia|intros j Hj; apply H; lia].
  Qed.
  Lemma take_face_spec a x i f : tabs_ok a -> (rank dir N <= vsize x)%nat -> nth_error (m_faces m) i = Some f ->
    take_face fltb smul dim sbs project m bnd x solF a f = Ok (map (read x) (seq (start ns i) (nth i ns 0%nat))).
  Proof.
    intros TA VX Hf. assert (Hi : (i < length deg)%nat) by (rewrite HL; apply nth_error_Some; congruence).
    destruct (nth_error deg i) as [d|] eqn:Ed; [|apply nth_error_None in Ed; lia]. destruct (HF i f d Hf Ed) as [LK FS]. pose proof (ns_nth i d Ed) as Nn.
    unfold take_face. rewrite LK. cbn [bind]. unfold vget at 1. rewrite (proj1 TA), Ed. cbn [bind]. rewrite Nn.
    destruct (Nat.eqb_spec (di_dofs dim sbs d) 0) as [Z|NZ]; [rewrite Z; reflexivity|].
    unfold vget at 1. rewrite (tab_nth a i TA Hi). cbn [bind]. rewrite (map_seq_shift (read x)).
    assert (RD : forall k, (k < di_dofs dim sbs d)%nat -> read x (start ns i + k) = if fd i k then fv i k else vent x (rank dir (start ns i) + rank (fd i) k)%nat).
    { intros k Hk. unfold read. rewrite (rank_at ns fd) by (rewrite Nn; lia). unfold dir at 1, dv. rewrite locate_start by (rewrite Nn; lia). reflexivity. }
    assert (RB : forall k, (k < di_dofs dim sbs d)%nat -> fd i k = false -> (rank dir (start ns i) + rank (fd i) k < vsize x)%nat).
    { intros k Hk FK. rewrite <- (rank_at ns fd) by (rewrite Nn; lia). fold dir. apply Nat.lt_le_trans with (rank dir N); [|exact VX].
      apply rank_lt; [pose proof (start_block ns i); unfold N; lia|]. unfold dir. rewrite locate_start by (rewrite Nn; lia). exact FK. }
    destruct FS as [Q1 Q2|t g s Q1 Q2 Kn Q3 HU FD SA FV]; rewrite Q1; cbn [bind].
    - pose proof (RB (di_dofs dim sbs d - 1)%nat ltac:(lia) (Q2 _)) as B. rewrite (rank_ext (fd i) (fun _ => false)), rank_none in B by auto.
      rewrite (proj2 (Nat.leb_le _ _)) by lia. f_equal. apply map_ext_in. intros k Hk. apply in_seq in Hk. rewrite RD, Q2 by lia.
      rewrite (rank_ext (fd i) (fun _ => false)), rank_none by auto. reflexivity.
    - rewrite Q3. cbn [bind]. rewrite Q2. cbn [bind].
      assert (EV : exists v, (match solF with None => Ok (if (t =? CLAMPED)%nat then (fun _ => 0) else project f (di_degree d) g)
              | Some l => do s <- vget l i; if (vsize s =? di_dofs dim sbs d)%nat then Ok (if (t =? CLAMPED)%nat then (fun k => - vent s k) else (fun k => project f (di_degree d) g k - vent s k)) else UB end) = Ok v
              /\ forall k, v k = fv i k).
      { unfold sol_at in SA. destruct solF as [l|].
        - destruct (vget l i) as [s0| |]; cbn [bind] in *; try discriminate. destruct (vsize s0 =? di_dofs dim sbs d)%nat; [|discriminate]. injection SA as <-.
          eexists. split; [reflexivity|]. intros k. rewrite FV. unfold less. destruct (t =? CLAMPED)%nat; [ring|reflexivity].
        - injection SA as <-. eexists. split; [reflexivity|]. intros k. rewrite FV. unfold less. destruct (t =? CLAMPED)%nat; reflexivity. }
      destruct EV as (v & -> & EV). cbn [bind]. rewrite (take_case_known dim t D Kn). cbn [bind].
      rewrite (blocks_spec dim (sbs (di_degree d)) _ (imposes t)) by (lia || reflexivity).
      assert (DD : di_dofs dim sbs d = (dim * sbs (di_degree d))%nat) by (unfold di_dofs; rewrite HU; reflexivity).
      assert (RE : forall k, rank (fun k => imposes t (k mod dim)) k = rank (fd i) k) by (intros k; apply rank_ext; intros; symmetry; apply FD).
      rewrite <- DD, read_slots_spec; [|reflexivity|intros j Hj PJ; rewrite RE; apply RB; [lia|rewrite FD; exact PJ]].
      f_equal. apply map_ext_in. intros k Hk. apply in_seq in Hk. rewrite RD, RE, FD, EV by lia. reflexivity.
  Qed.
  Lemma take_local_v_spec a x cl ids : tabs_ok a -> (rank dir N <= vsize x)%nat -> numbered (m_faces m) ids (faces_of cl) ->
    take_local_v fltb faces_of smul dim sbs project m bnd x solF cl a = Ok (map (read x) (unknowns ns ids)).
  Proof.
    intros TA VX NI. unfold take_local_v. rewrite (fmap_forall2 _ _ (map (fun i => map (read x) (seq (start ns i) (nth i ns 0%nat))) ids)).
    - cbn [bind]. f_equal. unfold unknowns. rewrite flat_map_concat_map, concat_map, map_map. reflexivity.
    - revert NI. generalize (faces_of cl). unfold numbered. induction 1 as [|i f li lf H _ IH]; constructor; [|exact IH]. apply take_face_spec; assumption.
  Qed.
  Lemma unknowns_all : unknowns ns (seq 0 (length deg)) = seq 0 N.
  Proof.
    assert (G : forall k, unknowns ns (seq 0 k) = seq 0 (start ns k)).
    { induction k as [|k IH]; [reflexivity|]. rewrite seq_S. unfold unknowns in *. rewrite flat_map_app, IH. cbn [flat_map]. rewrite app_nil_r, Nat.add_0_l, start_S, seq_app. reflexivity. }
    rewrite G. replace (length deg) with (length ns) by (unfold ns; apply map_length). rewrite start_all. reflexivity.
  Qed.
  Lemma prim_expand_spec a x : tabs_ok a -> (rank dir N <= vsize x)%nat ->
    prim_expand fltb smul dim sbs project m bnd x solF a = Ok (map (read x) (seq 0 N)).
  Proof.
    intros TA VX. unfold prim_expand. rewrite (fmap_forall2 _ _ (map (fun i => map (read x) (seq (start ns i) (nth i ns 0%nat))) (seq 0 (length deg)))).
    - cbn [bind]. f_equal. rewrite <- unknowns_all. unfold unknowns. rewrite flat_map_concat_map, concat_map, map_map. reflexivity.
    - rewrite HL. assert (G : forall fs base, (forall j f, nth_error fs j = Some f -> nth_error (m_faces m) (base + j) = Some f) ->
        Forall2 (fun b f => take_face fltb smul dim sbs project m bnd x solF a f = Ok b) (map (fun i => map (read x) (seq (start ns i) (nth i ns 0%nat))) (seq base (length fs))) fs).
      { induction fs as [|f fs IH]; intros base H; cbn [length seq map]; constructor.
        - apply take_face_spec; auto. rewrite <- (Nat.add_0_r base). apply (H 0%nat). reflexivity.
        - apply IH. intros j g Hj. rewrite Nat.add_succ_l, <- Nat.add_succ_r. apply (H (S j)). exact Hj. }
      apply G. auto.
  Qed.

  (** assembler_mechanics: the values are written at id * n *)
  Lemma mech_expand_spec a x k : tabs_ok a -> (rank dir N <= vsize x)%nat -> deg = repeat (di_make k) (length (m_faces m)) ->
    exists r, mech_expand fltb smul dim sbs project m k bnd x solF a = Ok r /\ vsize r = N /\ forall I, (I < N)%nat -> vent r I = read x I.
  Proof.
    intros TA VX ED. set (n := (dim * sbs k)%nat).
    assert (NN : forall i, (i < length deg)%nat -> nth i ns 0%nat = n).
    { intros i Hi. destruct (nth_error deg i) as [d|] eqn:E; [|apply nth_error_None in E; lia]. rewrite (ns_nth i d E). rewrite ED in E. apply nth_error_In, repeat_spec in E. subst d. reflexivity. }
    assert (ST : forall i, (i <= length deg)%nat -> start ns i = (i * n)%nat).
    { induction i as [|i IH]; intros Hi; [reflexivity|]. rewrite start_S, IH, NN by lia. lia. }
    assert (LN : length ns = length deg) by (unfold ns; apply map_length).
    assert (EN : N = (length (m_faces m) * n)%nat) by (unfold N; rewrite <- (start_all ns), LN, ST, HL by lia; reflexivity).
    assert (G : forall fs base r, (base + length fs = length (m_faces m))%nat -> (forall j f, nth_error fs j = Some f -> nth_error (m_faces m) (base + j) = Some f) ->
      vsize r = N -> (forall I, (I < base * n)%nat -> vent r I = read x I) ->
      exists r', floop (fun f r => do id <- lookup F fltb (m_faces m) f; do l <- take_face fltb smul dim sbs project m bnd x solF a f; set_block (id * n) l r) fs r = Ok r' /\
        vsize r' = N /\ forall I, (I < (base + length fs) * n)%nat -> vent r' I = read x I).
    { induction fs as [|f fs IH]; intros base r L H VR Q; cbn [floop].
      - exists r. cbn [length]. rewrite Nat.add_0_r. auto.
      - assert (Hf : nth_error (m_faces m) base = Some f) by (rewrite <- (Nat.add_0_r base); apply (H 0%nat); reflexivity). cbn [length] in L.
        assert (Hb : (base < length deg)%nat) by lia. destruct (nth_error deg base) as [d|] eqn:Ed; [|apply nth_error_None in Ed; lia].
        rewrite (proj1 (HF base f d Hf Ed)). cbn [bind]. rewrite (take_face_spec a x base f TA VX Hf). cbn [bind]. rewrite NN, ST by lia.
        unfold set_block. rewrite map_length, seq_length, VR. rewrite (proj2 (Nat.leb_le _ _)) by (rewrite EN; nia). cbn [bind].
        destruct (IH (S base) (mkVec N (fun k0 => if (base * n <=? k0)%nat && (k0 <? base * n + n)%nat then nth (k0 - base * n) (map (read x) (seq (base * n) n)) 0 else vent r k0))) as (r' & E & V1 & Q1).
        + lia.
        + intros j g Hj. rewrite Nat.add_succ_l, <- Nat.add_succ_r. apply (H (S j)). exact Hj.
        + reflexivity.
        + intros I HI. cbn [vent]. destruct (Nat.leb_spec (base * n) I); cbn [andb].
          * rewrite (proj2 (Nat.ltb_lt _ _)) by nia. rewrite (nth_indep _ 0 (read x 0%nat)) by (rewrite map_length, seq_length; nia).
            rewrite map_nth, seq_nth by nia. f_equal. lia.
          * apply Q. lia.
        + exists r'. split; [exact E|]. split; [exact V1|]. intros I HI. apply Q1. rewrite Nat.add_succ_l, <- Nat.add_succ_r. exact HI. }
    unfold mech_expand. fold n.
    destruct (G (m_faces m) 0%nat (mkVec (n * length (m_faces m)) (fun _ => 0))) as (r & E & V1 & Q1); auto; [cbn [vsize]; rewrite EN; lia|cbn; intros; lia|].
    exists r. split; [exact E|]. split; [exact V1|]. intros I HI. apply Q1. rewrite EN in HI. exact HI.
  Qed.

  (** ** Neumann terms on faces without Dirichlet conditions *)
  Definition neu_c (i : nat) (v : nat -> K) : contribution K :=
    mkC (unknowns ns [i]) (mkMat (nth i ns 0%nat) (nth i ns 0%nat) (fun _ _ => 0)) (mkVec (nth i ns 0%nat) v).
  Lemma neu_dofs i v : c_dofs 1 (neu_c i v) = nth i ns 0%nat.
  Proof. unfold c_dofs, neu_c, unknowns. cbn [c_faces flat_map]. rewrite app_nil_r, seq_length. lia. Qed.
  Lemma neu_global i v p : (p < nth i ns 0)%nat -> global 1 (neu_c i v) p = (start ns i + p)%nat.
  Proof.
    intros H. unfold global, neu_c, unknowns. cbn [c_faces flat_map]. rewrite app_nil_r, Nat.div_1_r, Nat.mod_1_r, seq_nth by exact H. lia.
  Qed.
  Lemma neu_mat i v I J : cell_mat 1 (neu_c i v) I J = 0.
  Proof. unfold cell_mat. apply sumn_zero. intros p _. apply sumn_zero. intros q _. unfold only. destruct (_ && _); reflexivity. Qed.
  Lemma neu_elim i v I : elim N 1 dir dvv (cell_mat 1 (neu_c i v)) I = 0.
  Proof. unfold elim. apply sumn_zero. intros J _. rewrite neu_mat. unfold only. destruct (dir (J / 1)); [ring|reflexivity]. Qed.
  Lemma neu_rhs i v I : (i < length deg)%nat -> (forall k, fd i k = false) -> dir I = false ->
    sumn (nth i ns 0%nat) (fun k => only (rank dir (start ns i) + k =? rank dir I)%nat (v k)) = cell_rhs 1 (neu_c i v) I.
  Proof.
    intros Hi FR DI. unfold cell_rhs. rewrite neu_dofs. apply sumn_ext. intros k Hk. rewrite neu_global by exact Hk. cbn [neu_c c_rhs vent]. f_equal.
    assert (DK : dir (start ns i + k) = false) by (unfold dir; rewrite locate_start by exact Hk; apply FR).
    assert (RK : rank dir (start ns i + k) = (rank dir (start ns i) + k)%nat).
    { unfold dir. rewrite rank_at by lia. rewrite (rank_ext (fd i) (fun _ => false)), rank_none by auto. reflexivity. }
    apply eq_true_iff_eq. rewrite !Nat.eqb_eq, <- RK. split; [apply rank_inj; assumption|congruence].
  Qed.
  Lemma neu_range i k : (k < nth i ns 0)%nat -> (forall k, fd i k = false) -> (rank dir (start ns i) + k < rank dir N)%nat.
  Proof.
    intros Hk FR. assert (DK : dir (start ns i + k) = false) by (unfold dir; rewrite locate_start by exact Hk; apply FR).
    assert (RK : rank dir (start ns i + k) = (rank dir (start ns i) + k)%nat).
    { unfold dir. rewrite rank_at by lia. rewrite (rank_ext (fd i) (fun _ => false)), rank_none by auto. reflexivity. }
    rewrite <- RK. apply rank_lt; [pose proof (start_block ns i); unfold N; lia|exact DK].
  Qed.
  Lemma with_same (a : vasm K) : with_v a (v_trip a) (v_duos a) (v_LHS a) (v_RHS a) = a.
  Proof. destruct a. reflexivity. Qed.

  Context (load : F -> nat -> (P -> V) -> nat -> K).
  Lemma prim_neumann_free cs a i f d g : vgood cs a -> nth_error (m_faces m) i = Some f -> nth_error deg i = Some d ->
    q_set P V (b_neu bnd) i = Ok true -> q_func Sc P V smul (b_factor bnd) (b_neu bnd) i = Ok g -> q_set P V (b_dir bnd) i = Ok false ->
    exists a', prim_neumann_step fltb smul dim sbs load m bnd f a = Ok a' /\ vgood (cs ++ [neu_c i (load f (di_degree d) g)]) a'.
  Proof.
    intros G Hf Ed QN QF QD. assert (Hi : (i < length deg)%nat) by (apply nth_error_Some; congruence). pose proof (ns_nth i d Ed) as Nn.
    destruct (HF i f d Hf Ed) as [LK FS]. assert (FR : forall k, fd i k = false) by (destruct FS as [_ Q2|t0 g0 s0 Q1 _ _ _ _ _ _ _]; [exact Q2|congruence]).
    unfold prim_neumann_step. rewrite LK. cbn [bind]. pose proof G as (TA & VR & IR & DR & _). unfold vget. rewrite (proj1 TA), Ed. cbn [bind].
    rewrite (tab_nth a i TA Hi). cbn [bind]. rewrite QN. cbn [bind negb]. rewrite QF. cbn [bind]. rewrite QD. cbn [bind].
    eexists. split; [reflexivity|]. rewrite <- Nn. rewrite <- (app_nil_r (v_trip a)). apply vgood_add; auto.
    - intros t [].
    - intros x Hx. apply in_app_or in Hx. destruct Hx as [Hx|Hx]; [auto|]. apply in_map_iff in Hx. destruct Hx as (k & <- & Hk). apply in_seq in Hk. cbn [fst]. apply neu_range; [lia|exact FR].
    - intros I HI DI. split; [intros; rewrite neu_mat; reflexivity|]. rewrite neu_elim, dsum_app, <- (neu_rhs i _ I Hi FR DI).
      assert (E : dsum (map (fun k => (rank dir (start ns i) + k, load f (di_degree d) g k)%nat) (seq 0 (nth i ns 0%nat))) (rank dir I) =
        sumn (nth i ns 0%nat) (fun k => only (rank dir (start ns i) + k =? rank dir I)%nat (load f (di_degree d) g k))).
      { rewrite <- suml_map_seq. generalize (seq 0 (nth i ns 0%nat)). induction l as [|k l IH]; [reflexivity|]. cbn [map suml].
        match goal with |- dsum (?x :: ?l) ?r = _ => change (dsum (x :: l) r) with (dsum ([x] ++ l) r); rewrite (dsum_app [x] l r) end.
        rewrite dsum_one, IH. reflexivity. }
      rewrite E. ring.
  Qed.
  Lemma mech_neumann_free cs a i f d g : vgood cs a -> v_duos a = [] -> nth_error (m_faces m) i = Some f -> nth_error deg i = Some d ->
    q_set P V (b_neu bnd) i = Ok true -> q_func Sc P V smul (b_factor bnd) (b_neu bnd) i = Ok g -> q_set P V (b_dir bnd) i = Ok false ->
    exists a', mech_neumann_step fltb smul dim sbs load m bnd f a = Ok a' /\ vgood (cs ++ [neu_c i (load f (di_degree d) g)]) a' /\ v_duos a' = [].
  Proof.
    intros G DU Hf Ed QN QF QD. assert (Hi : (i < length deg)%nat) by (apply nth_error_Some; congruence). pose proof (ns_nth i d Ed) as Nn.
    destruct (HF i f d Hf Ed) as [LK FS]. assert (FR : forall k, fd i k = false) by (destruct FS as [_ Q2|t0 g0 s0 Q1 _ _ _ _ _ _ _]; [exact Q2|congruence]).
    unfold mech_neumann_step. rewrite LK. cbn [bind]. pose proof G as (TA & VR & IR & DR & _). rewrite QN. cbn [bind negb]. unfold vat. rewrite (tab_nth a i TA Hi). cbn [bind].
    unfold vget. rewrite (proj1 TA), Ed. cbn [bind]. rewrite QF. cbn [bind]. rewrite QD. cbn [bind]. rewrite <- Nn.
    assert (BD : (rank dir (start ns i) + nth i ns 0 <= vsize (v_RHS a))%nat).
    { rewrite VR. destruct (nth i ns 0%nat) as [|n'] eqn:En; [rewrite Nat.add_0_r; apply rank_le; unfold N; apply start_le|]. pose proof (neu_range i n' ltac:(lia) FR). lia. }
    destruct (add_block_ok (rank dir (start ns i)) (nth i ns 0%nat) (load f (di_degree d) g) (v_RHS a) BD) as (R & ER & VR' & QR). rewrite ER. cbn [bind].
    eexists. split; [reflexivity|]. split; [|exact DU]. rewrite <- (app_nil_r (v_trip a)). apply vgood_add; auto.
    - congruence.
    - intros t [].
    - intros I HI DI. split; [intros; rewrite neu_mat; reflexivity|]. rewrite neu_elim, QR, <- (neu_rhs i _ I Hi FR DI). ring.
  Qed.

  (** ** Constructors *)
  Lemma imposed_spec i f d : nth_error (m_faces m) i = Some f -> nth_error deg i = Some d -> has_unknowns d = true ->
    exists c, dirichlet_imposed_dofs dim sbs bnd i (di_degree d) = Ok c /\ (dim * sbs (di_degree d) - c)%nat = rank (fd i) (nth i ns 0%nat).
  Proof.
    intros Hf Ed HU. destruct (HF i f d Hf Ed) as [_ FS]. rewrite (ns_nth i d Ed). unfold di_dofs, dirichlet_imposed_dofs. rewrite HU.
    destruct FS as [Q1 Q2|t g s Q1 Q2 Kn Q3 _ FD SA FV]; rewrite Q1; cbn [bind].
    - exists 0%nat. split; [reflexivity|]. rewrite (rank_ext (fd i) (fun _ => false)), rank_none by auto. lia.
    - rewrite Q2. cbn [bind]. destruct (imposed_known dim t (sbs (di_degree d)) D Kn) as (c & E & R). exists c. split; [exact E|]. rewrite R. apply rank_ext. intros; symmetry; apply FD.
  Qed.
  Lemma vmake_good tab sz : tab = map (fun j => rank dir (start ns j)) (seq 0 (length deg)) -> sz = rank dir N ->
    forall tot, vgood [] (zero_sys deg tab sz tot) /\ v_duos (zero_sys (K:=K) deg tab sz tot) = [] /\ v_total (zero_sys (K:=K) deg tab sz tot) = tot.
  Proof.
    intros -> -> tot. split; [|split; reflexivity]. apply vgood_nil; try reflexivity. split; [reflexivity|]. split; reflexivity.
  Qed.
  Lemma number_all free : (forall j d, nth_error deg j = Some d -> free j = Ok (rank (fd j) (nth j ns 0%nat))) ->
    number_from free (seq 0 (length (m_faces m))) 0 = Ok (map (fun j => rank dir (start ns j)) (seq 0 (length deg)), rank dir N).
  Proof.
    intros H. assert (LN : length ns = length deg) by (unfold ns; apply map_length).
    pose proof (number_from_spec ns fd free (length (m_faces m)) 0%nat) as Q. rewrite start_0 in Q. cbn [rank] in Q. rewrite Q; clear Q.
    - rewrite <- HL. unfold N. rewrite <- LN, Nat.add_0_l, start_all. reflexivity.
    - rewrite LN, HL. lia.
    - intros j _ Hj. destruct (nth_error deg j) as [d|] eqn:E; [apply (H j d E)|apply nth_error_None in E; lia].
  Qed.
  Lemma mech_make_spec k : deg = repeat (di_make k) (length (m_faces m)) ->
    exists a, mech_make dim sbs m k bnd = Ok a /\ vgood [] a /\ v_duos a = [] /\ v_total a = N.
  Proof.
    intros ED. unfold mech_make.
    rewrite number_all.
    - cbn [bind fst snd]. rewrite <- ED. eexists. split; [reflexivity|]. destruct (vmake_good _ _ eq_refl eq_refl (length (m_faces m) * (dim * sbs k))) as (G & D1 & D2).
      split; [exact G|]. split; [exact D1|]. rewrite D2. unfold N, ns. rewrite ED. clear. induction (length (m_faces m)) as [|n IH]; [reflexivity|].
      cbn [repeat map Nat.mul]. rewrite IH. reflexivity.
    - intros j d Ed. assert (Hj : (j < length (m_faces m))%nat) by (rewrite <- HL; apply nth_error_Some; congruence).
      destruct (nth_error (m_faces m) j) as [f|] eqn:Ef; [|apply nth_error_None in Ef; lia].
      assert (d = di_make k) by (rewrite ED in Ed; apply nth_error_In, repeat_spec in Ed; exact Ed). subst d.
      destruct (imposed_spec j f (di_make k) Ef Ed eq_refl) as (c & E & R). cbn [di_degree di_make] in E, R. rewrite E. cbn [bind]. rewrite R. reflexivity.
  Qed.
  Context (HCon : forall i d, nth_error deg i = Some d -> has_unknowns d = true ->
    q_set P V (b_con bnd) i = Ok false \/ q_set P V (b_con bnd) i = Ok true /\ q_type P V (b_con bnd) i = Ok SIGNORINI_FACE /\ q_set P V (b_dir bnd) i = Ok false).
  Lemma prim_make_spec : exists a, prim_make dim sbs m deg bnd = Ok a /\ vgood [] a /\ v_duos a = [] /\ v_total a = N.
  Proof.
    unfold prim_make. rewrite number_all.
    - cbn [bind fst snd]. eexists. split; [reflexivity|]. destruct (vmake_good _ _ eq_refl eq_refl (list_sum (map (di_dofs dim sbs) deg))) as (G & D1 & D2). auto.
    - intros j d Ed. assert (Hj : (j < length (m_faces m))%nat) by (rewrite <- HL; apply nth_error_Some; congruence).
      destruct (nth_error (m_faces m) j) as [f|] eqn:Ef; [|apply nth_error_None in Ef; lia].
      unfold prim_free, vget. rewrite Ed. cbn [bind]. destruct (has_unknowns d) eqn:HU; cbn [negb].
      + destruct (imposed_spec j f d Ef Ed HU) as (c & E & R). destruct (HCon j d Ed HU) as [QC|(QC & QT & QD)]; rewrite QC; cbn [bind negb].
        * rewrite E. cbn [bind]. rewrite R. reflexivity.
        * rewrite QT. cbn [bind]. rewrite Nat.eqb_refl. f_equal. rewrite <- R. unfold dirichlet_imposed_dofs in E. rewrite QD in E. cbn [bind] in E. injection E as <-. lia.
      + rewrite (ns_nth j d Ed). unfold di_dofs. rewrite HU. reflexivity.
  Qed.
End Cell.
