(** The loaders on well-formed files: what the loaded mesh holds. *)
From Coq Require Import List Arith NArith ZArith QArith Bool Ascii Permutation Sorted Lia.
From Verif Require Import Common Mesh_Model Mesh_Spec Mesh_Proofs Mesh2_Proofs Elem_Model Elem_Spec Elem_Proofs
  Elem_Properties Refine_Proofs Hier_Proofs Load_Model Load_Spec Load_Proofs.
Import ListNotations.
Local Open Scope nat_scope.

(** ** Simplices *)
Lemma le_nlt l : StronglySorted le l <-> StronglySorted (nlt Nat.ltb) l.
Proof.
  split; (induction l as [|a l IH]; intros H; [constructor|]; inversion H as [|? ? H' F]; subst; constructor; [auto|]);
    eapply Forall_impl; try exact F; intros b; unfold nlt; intros L; apply Nat.ltb_ge; exact L.
Qed.

Lemma simplex_iff l e : simplex l e <-> e = sx l.
Proof.
  unfold simplex, sx. split.
  - intros [P S]. apply (sorted_perm_eq Nat.ltb nat_ltb_sto); [apply le_nlt, S|apply std_sort_sorted; apply nat_ltb_sto|].
    rewrite std_sort_perm. exact P.
  - intros ->. split; [apply std_sort_perm|]. apply le_nlt, std_sort_sorted, nat_ltb_sto.
Qed.

Lemma sx_perm a b : Permutation a b -> sx a = sx b.
Proof. intros P. apply (std_sort_perm_iff Nat.ltb nat_ltb_sto). exact P. Qed.
Lemma sx_inj a b : sx a = sx b -> Permutation a b.
Proof. apply (std_sort_perm_iff Nat.ltb nat_ltb_sto). Qed.
Lemma sx_length l : length (sx l) = length l.
Proof. apply Permutation_length, std_sort_perm. Qed.

(** dropping one element *)
Fixpoint drops (l : list nat) : list (list nat) :=
  match l with [] => [] | x :: r => r :: map (cons x) (drops r) end.

Lemma drops_spec l : forall p r, Permutation l (p :: r) <-> exists r', In r' (drops l) /\ Permutation r r' /\ Permutation l (p :: r').
Proof.
  induction l as [|x l IH]; intros p r.
  - split; [intros H; apply Permutation_nil in H; discriminate|intros (r' & [] & _)].
  - split.
    + intros H. destruct (Nat.eq_dec x p) as [->|N].
      * exists l. split; [left; reflexivity|]. split; [|reflexivity]. apply Permutation_cons_inv in H. symmetry. exact H.
      * assert (Hx : In x r).
        { assert (I : In x (p :: r)) by (eapply Permutation_in; [exact H|left; reflexivity]).
          destruct I as [->|I]; [congruence|exact I]. }
        apply in_split in Hx as (r1 & r2 & ->).
        assert (H' : Permutation l (p :: r1 ++ r2)).
        { apply (Permutation_cons_inv (a := x)). rewrite H. change (p :: r1 ++ x :: r2) with ((p :: r1) ++ x :: r2).
          rewrite <- Permutation_middle. reflexivity. }
        destruct (proj1 (IH p (r1 ++ r2)) H') as (r' & I & P1 & P2).
        exists (x :: r'). split; [right; apply in_map; exact I|]. split.
        -- rewrite <- Permutation_middle. apply perm_skip, P1.
        -- rewrite P2. apply perm_swap.
    + intros (r' & _ & P1 & P2). rewrite P2. apply perm_skip. symmetry. exact P1.
Qed.

Lemma drops_perm l r : In r (drops l) -> exists p, Permutation l (p :: r).
Proof.
  revert r. induction l as [|x l IH]; intros r; [intros []|]. cbn [drops]. intros [<-|H].
  - exists x. reflexivity.
  - apply in_map_iff in H as (r' & <- & H). destruct (IH r' H) as (p & P). exists p. rewrite P. apply perm_swap.
Qed.

Lemma side_drops l f : side l f <-> In f (map sx (drops l)).
Proof.
  rewrite in_map_iff. unfold side. split.
  - intros (p & r & P & S). apply simplex_iff in S. apply drops_spec in P as (r' & I & P1 & _).
    exists r'. split; [rewrite S; symmetry; apply sx_perm; exact P1|exact I].
  - intros (r & <- & I). destruct (drops_perm l r I) as (p & P). exists p, r. split; [exact P|]. apply simplex_iff. reflexivity.
Qed.

Lemma side_perm l l' f : Permutation l l' -> side l f -> side l' f.
Proof. intros P (p & r & Q & S). exists p, r. split; [|exact S]. rewrite <- P. exact Q. Qed.

Lemma side_tri t f : length t = 3 -> (side t f <-> In f (tri_edges t)).
Proof.
  intros L. destruct t as [|a [|b [|c [|]]]]; try discriminate. rewrite side_drops. cbn [drops map tri_edges In]. intuition.
Qed.
Lemma side_tri_faces t f : length t = 3 -> (side t f <-> In f (tri_faces t)).
Proof.
  intros L. destruct t as [|a [|b [|c [|]]]]; try discriminate. rewrite side_drops. unfold sx. cbn [drops map tri_faces In]. intuition.
Qed.
Lemma side_tet t f : length t = 4 -> (side t f <-> In f (tet_surfs t)).
Proof.
  intros L. destruct t as [|a [|b [|c [|d [|]]]]]; try discriminate. rewrite side_drops. cbn [drops map tet_surfs In]. intuition.
Qed.
Lemma side_tet_faces t f : length t = 4 -> (side t f <-> In f (tet_faces t)).
Proof.
  intros L. destruct t as [|a [|b [|c [|d [|]]]]]; try discriminate. rewrite side_drops. unfold sx. cbn [drops map tet_faces In]. intuition.
Qed.

Lemma side2_tet t f : length t = 4 -> (side2 t f <-> In f (tet_edges t)).
Proof.
  intros L. destruct t as [|a [|b [|c [|d [|]]]]]; try discriminate.
  assert (D : side2 [a; b; c; d] f <-> exists r, In r (drops [a; b; c; d]) /\ In f (map sx (drops r))).
  { split.
    - intros (p & q & r & P & S). apply drops_spec in P as (r' & I & P1 & _). exists r'. split; [exact I|].
      apply side_drops. exists q, r. split; [symmetry; exact P1|exact S].
    - intros (r & I & H). apply side_drops in H as (q & s & P & S). destruct (drops_perm _ _ I) as (p & P').
      exists p, q, s. split; [rewrite P', P; reflexivity|exact S]. }
  rewrite D. cbn [drops map In tet_edges]. split.
  - intros (r & H & H'). repeat destruct H as [<-|H]; try destruct H; cbn [drops map In] in H'; intuition.
  - intros H. repeat destruct H as [<-|H]; try destruct H.
    + exists [a; b; d]. cbn. intuition.
    + exists [a; c; d]. cbn. intuition.
    + exists [a; c; d]. cbn. intuition.
    + exists [b; c; d]. cbn. intuition.
    + exists [b; c; d]. cbn. intuition.
    + exists [b; c; d]. cbn. intuition.
Qed.

(** ** Marking the listed faces *)
Definition leq : forall a b : list nat, {a = b} + {a <> b} := list_eq_dec Nat.eq_dec.

Definition redesc (f : list nat) (bnd : list (nat * list nat)) (d : bdesc) : bdesc :=
  fold_left (fun d b => if leq (snd b) f then bd_make (fst b) true else d) bnd d.

Lemma redesc_app f a b d : redesc f (a ++ b) d = redesc f b (redesc f a d).
Proof. apply fold_left_app. Qed.
Lemma redesc_cons f b l d : redesc f (b :: l) d = redesc f l (if leq (snd b) f then bd_make (fst b) true else d).
Proof. reflexivity. Qed.
Lemma redesc_none f bnd d : Forall (fun b => snd b <> f) bnd -> redesc f bnd d = d.
Proof.
  induction 1 as [|b bnd H _ IH]; [reflexivity|]. cbn. destruct (leq (snd b) f); [contradiction|exact IH].
Qed.

Section Marking.
  Variable faces : list (list nat).
  Hypothesis HS : sorted_unique lex_ltb faces.

  Lemma mark_listed_true bnd : forall bi, length bi = length faces ->
    Forall (fun b => In (snd b) faces) bnd ->
    exists bi', mark_listed faces bnd bi = Ok (true, bi') /\ length bi' = length faces /\
      forall i f d, stored faces i f -> nth_error bi i = Some d -> nth_error bi' i = Some (redesc f bnd d).
  Proof.
    induction bnd as [|[id f0] bnd IH]; intros bi L H.
    - exists bi. split; [reflexivity|]. split; [exact L|]. intros i f d _ E. exact E.
    - inversion H as [|? ? H0 H']; subst. cbn [snd] in H0.
      destruct (in_stored _ _ H0) as (j & J). cbn [mark_listed].
      rewrite (find_stored lex_ltb lex_ltb_sto _ _ _ HS J). cbn [bind].
      pose proof (stored_lt _ _ _ J) as Lj. unfold vset_at.
      destruct (upd_some bi j (bd_make id true)) as (bi1 & E1); [lia|]. rewrite E1. cbn [bind].
      destruct (IH bi1) as (bi' & E' & L' & N); [rewrite (upd_length _ _ _ _ E1); exact L|exact H'|].
      exists bi'. split; [exact E'|]. split; [exact L'|]. intros i f d Hi Hd. cbn [redesc fold_left].
      cbn [snd fst]. destruct (leq f0 f) as [->|Nf].
      + assert (i = j) by exact (stored_unique lex_ltb lex_ltb_sto _ _ _ _ HS Hi J). subst i.
        apply N; [exact Hi|]. apply (upd_nth_same _ _ _ _ E1).
      + apply N; [exact Hi|]. rewrite (upd_nth_other _ _ _ _ _ E1); [exact Hd|].
        intros ->. apply Nf. unfold stored in *. congruence.
  Qed.

  Lemma mark_listed_false bnd : forall bi, length bi = length faces ->
    (exists b, In b bnd /\ ~ In (snd b) faces) ->
    exists bi', mark_listed faces bnd bi = Ok (false, bi').
  Proof.
    induction bnd as [|[id f0] bnd IH]; intros bi L (b & Hb & Nb); [destruct Hb|].
    cbn [mark_listed]. destruct (in_dec leq f0 faces) as [I|I].
    - destruct (in_stored _ _ I) as (j & J).
      rewrite (find_stored lex_ltb lex_ltb_sto _ _ _ HS J). cbn [bind].
      pose proof (stored_lt _ _ _ J) as Lj. unfold vset_at.
      destruct (upd_some bi j (bd_make id true)) as (bi1 & E1); [lia|]. rewrite E1. cbn [bind].
      apply IH; [rewrite (upd_length _ _ _ _ E1); exact L|].
      destruct Hb as [<-|Hb]; [contradiction|]. exists b. auto.
    - rewrite (find_absent lex_ltb lex_ltb_sto _ _ HS I). cbn [bind]. eauto.
  Qed.

  (** the two loops agree, but for what they do with an unknown face *)
  Lemma mark_listed3_eq bnd : forall bi, length bi = length faces ->
    mark_listed3 faces bnd bi = bind (mark_listed faces bnd bi) (fun r => if fst r then Ok (snd r) else Throw LogicError).
  Proof.
    induction bnd as [|[id f0] bnd IH]; intros bi L; [reflexivity|]. cbn [mark_listed3 mark_listed].
    destruct (in_dec leq f0 faces) as [I|I].
    - destruct (in_stored _ _ I) as (j & J).
      rewrite (find_stored lex_ltb lex_ltb_sto _ _ _ HS J).
      rewrite (lower_bound_correct lex_ltb _ _ _ (stored_partition lex_ltb lex_ltb_sto _ _ _ HS J)). cbn [bind].
      pose proof (stored_lt _ _ _ J) as Lj. destruct (Nat.eqb_spec j (length faces)); [lia|].
      rewrite (vget_ok _ _ _ J). cbn [bind]. rewrite (proj2 (arr_eqb_iff f0 f0) eq_refl).
      unfold vset_at. destruct (upd_some bi j (bd_make id true)) as (bi1 & E1); [lia|]. rewrite E1. cbn [bind].
      apply IH. rewrite (upd_length _ _ _ _ E1). exact L.
    - rewrite (find_absent lex_ltb lex_ltb_sto _ _ HS I). cbn [bind fst].
      destruct (sorted_partition lex_ltb lex_ltb_sto faces f0 HS) as (p & P).
      rewrite (lower_bound_correct lex_ltb _ _ _ P). cbn [bind]. destruct P as (P0 & _).
      destruct (Nat.eqb_spec p (length faces)); [reflexivity|].
      destruct (nth_error_some faces p) as [x Hx]; [lia|]. rewrite (vget_ok _ _ _ Hx). cbn [bind].
      destruct (arr_eqb x f0) eqn:E; [|reflexivity]. apply arr_eqb_iff in E. subst x.
      exfalso. apply I. eapply nth_error_In; eauto.
  Qed.
End Marking.

Lemma repeat_nth {A} (x : A) n i : i < n -> nth_error (repeat x n) i = Some x.
Proof. intros H. apply nth_error_repeat. exact H. Qed.

(** The descriptors, told from the entries of the file *)
Lemma redesc_last (g : list nat -> list nat) f bnd b d :
  last_entry (fun b => g (snd b) = f) bnd b ->
  redesc f (map (fun b => (fst b, g (snd b))) bnd) d = bd_make (fst b) true.
Proof.
  intros (pre & post & -> & Hb & Hp). rewrite map_app, redesc_app. cbn [map]. cbn [redesc fold_left fst snd].
  destruct (leq (g (snd b)) f); [|contradiction]. apply redesc_none.
  apply Forall_map. eapply Forall_impl; [|exact Hp]. intros a; cbn. auto.
Qed.
Lemma redesc_unlisted (g : list nat -> list nat) f bnd d : (forall b, In b bnd -> g (snd b) <> f) ->
  redesc f (map (fun b => (fst b, g (snd b))) bnd) d = d.
Proof.
  intros H. apply redesc_none. apply Forall_map, Forall_forall. intros b Hb. cbn. auto.
Qed.

Lemma last_entry_impl {A} (P Q : A -> Prop) l b : (forall a, P a <-> Q a) -> last_entry P l b -> last_entry Q l b.
Proof.
  intros H (pre & post & E & Pb & F). exists pre, post. split; [exact E|]. split; [apply H, Pb|].
  eapply Forall_impl; [|exact F]. intros a Na Qa. apply Na, H, Qa.
Qed.

Lemma aeq_decides : decides_eq aeq.
Proof. exact arr_decides. Qed.
Lemma sort_uniq_arr v : exists r, sort_uniq lex_ltb aeq v = Ok r /\ sorted_unique lex_ltb r /\ same_set r v.
Proof. apply (sort_uniq_spec lex_ltb lex_ltb_sto aeq aeq_decides). Qed.

Lemma Forall2_points d pts : Forall2 (Forall2 Qeq) pts (md_points d) ->
  make_nodes (length pts) = map (fun i => [i]) (seq 0 (length (md_points d))).
Proof.
  intros H. unfold make_nodes. f_equal. f_equal. induction H as [|? ? ? ? _ _ IH]; [reflexivity|]. cbn [length]. rewrite IH. reflexivity.
Qed.

(** ** Netgen 2D *)
Section Netgen2.
  Variables (d : mesh_data) (txt : text).
  Hypothesis WS : well_shaped 2 3 2 d.
  Hypothesis WR : written txt (netgen_numbers d).

  Lemma netgen2_reads : exists pts, Forall2 (Forall2 Qeq) pts (md_points d) /\
    netgen2_read txt = mkRaw pts (md_cells d) (md_bnd d).
  Proof.
    destruct WS as [W1 W2 W3 (W4 & W5 & W6)]. unfold netgen_numbers in WR.
    destruct (read_block_spec _ _ _ _ (reads_point 2) _ _ _ W1 W4 WR) as (pts & t1 & E1 & F1 & R1).
    destruct (read_block_spec _ _ _ _ (reads_tagged 3) _ _ _ W2 W5 R1) as (tri & t2 & E2 & F2 & R2).
    rewrite <- (app_nil_r (flat_map netgen_item (md_bnd d))) in R2.
    destruct (read_block_spec _ _ _ _ (reads_tagged 2) _ _ _ W3 W6 R2) as (bnd & t3 & E3 & F3 & R3).
    apply Forall2_eq_eq in F2, F3. subst tri bnd. exists pts. split; [exact F1|].
    unfold netgen2_read. rewrite E1, E2, E3. reflexivity.
  Qed.

  Lemma cells3 c : In c (md_cells d) -> length (snd c) = 3.
  Proof. intros H. exact (proj1 (proj1 (Forall_forall _ _) (ws_cells _ _ _ _ WS) c H)). Qed.

  Lemma netgen2_faces edges : same_set edges (flat_map (fun c => tri_edges (snd c)) (md_cells d)) ->
    forall f, In f edges <-> exists x, In x (md_cells d) /\ side (snd x) f.
  Proof.
    intros SE f. rewrite (SE f), in_flat_map. split; intros (x & H & H'); exists x; (split; [exact H|]);
      apply side_tri; auto using cells3.
  Qed.

  Lemma netgen2_ok : (forall b, In b (md_bnd d) -> exists f x, simplex (snd b) f /\ In x (md_cells d) /\ side (snd x) f) ->
    exists m, netgen2_populate (netgen2_read txt) = Ok (true, m) /\
      same_points d (lm_points m) (lm_nodes m) /\
      holds simplex side fst (fun _ => false) lex_ltb d (lm_surfs m) (lm_edges m) (lm_binfo m) /\
      lm_vols m = [] /\ lm_sub m = repeat 0 (length (lm_surfs m)).
  Proof.
    intros HB. destruct netgen2_reads as (pts & F & ->). unfold netgen2_populate. cbn [rw_points rw_cells rw_bnd].
    destruct (sort_uniq_arr (flat_map (fun c => tri_edges (snd c)) (md_cells d))) as (edges & -> & SE & IE). cbn [bind].
    destruct (sort_uniq_arr (map (fun c => sx (snd c)) (md_cells d))) as (surfs & -> & SS & IS). cbn [bind].
    destruct (mark_listed_true edges SE (map (fun b => (fst b, sx (snd b))) (md_bnd d)) (repeat bd_default (length edges)))
      as (bi & -> & LB & NB).
    { apply repeat_length. }
    { apply Forall_map, Forall_forall. intros b Hb. cbn [snd]. destruct (HB b Hb) as (f & x & Sf & Hx & Sd).
      apply simplex_iff in Sf. subst f. apply (netgen2_faces edges IE). eauto. }
    cbn [bind fst snd]. eexists. split; [reflexivity|]. cbn [lm_points lm_nodes lm_surfs lm_edges lm_binfo lm_vols lm_sub].
    split; [split; [exact F|apply Forall2_points, F]|]. split; [|split; reflexivity].
    split.
    - exact SS.
    - intros c. rewrite (IS c), in_map_iff. split; intros (x & H1 & H2); exists x; split; auto;
        [apply simplex_iff; symmetry; exact H1|apply simplex_iff in H2; auto].
    - exact SE.
    - apply netgen2_faces, IE.
    - exact LB.
    - intros i f b Hi HL. rewrite (NB i f bd_default Hi).
      + rewrite (redesc_last sx f (md_bnd d) b); [reflexivity|]. eapply last_entry_impl; [|exact HL].
        intros a. rewrite simplex_iff. split; congruence.
      + apply repeat_nth. eapply stored_lt; exact Hi.
    - intros i f Hi HN. rewrite (NB i f bd_default Hi).
      + rewrite (redesc_unlisted sx f (md_bnd d)); [reflexivity|]. intros b Hb E. apply (HN b Hb). apply simplex_iff. auto.
      + apply repeat_nth. eapply stored_lt; exact Hi.
  Qed.

  Lemma netgen2_bad : (exists b, In b (md_bnd d) /\ forall f x, simplex (snd b) f -> In x (md_cells d) -> ~ side (snd x) f) ->
    exists m, netgen2_populate (netgen2_read txt) = Ok (false, m) /\ lm_sub m = [].
  Proof.
    intros (b & Hb & HN). destruct netgen2_reads as (pts & F & ->). unfold netgen2_populate. cbn [rw_points rw_cells rw_bnd].
    destruct (sort_uniq_arr (flat_map (fun c => tri_edges (snd c)) (md_cells d))) as (edges & -> & SE & IE). cbn [bind].
    destruct (sort_uniq_arr (map (fun c => sx (snd c)) (md_cells d))) as (surfs & -> & SS & IS). cbn [bind].
    destruct (mark_listed_false edges SE (map (fun b => (fst b, sx (snd b))) (md_bnd d)) (repeat bd_default (length edges)))
      as (bi & ->).
    { apply repeat_length. }
    { exists (fst b, sx (snd b)). split; [apply (in_map (fun b => (fst b, sx (snd b)))), Hb|]. cbn [snd]. intros I.
      apply (netgen2_faces edges IE) in I as (x & Hx & Sd). apply (HN (sx (snd b)) x); auto. apply simplex_iff. reflexivity. }
    cbn [bind fst snd]. eexists. split; reflexivity.
  Qed.
End Netgen2.

Lemma holds_wf2 d m internal : holds simplex side fst internal lex_ltb d (lm_surfs m) (lm_edges m) (lm_binfo m) ->
  (forall x, In x (md_cells d) -> length (snd x) = 3 /\ NoDup (snd x)) ->
  wf_mesh lex_ltb lex_ltb tri_faces (mkMesh (lm_surfs m) (lm_edges m) (lm_binfo m)).
Proof.
  intros [H1 H2 H3 H4 H5 _ _] HX. split; cbn [m_faces m_cells m_binfo]; auto.
  - intros c Hc f Hf. apply H2 in Hc as (x & Hx & Sc). apply simplex_iff in Sc. subst c. apply H4. exists x. split; [exact Hx|].
    apply (side_perm (sx (snd x))); [apply std_sort_perm|]. apply side_tri_faces; [rewrite sx_length; apply HX, Hx|exact Hf].
  - intros c Hc. apply H2 in Hc as (x & Hx & Sc). apply simplex_iff in Sc. subst c.
    destruct (HX x Hx) as (L & N). apply (C61_faces_of_simplices 2 tri_faces); [left; split; reflexivity|rewrite sx_length; exact L|].
    eapply Permutation_NoDup; [|exact N]. symmetry. apply std_sort_perm.
Qed.

(** ** Netgen 3D *)
Section Netgen3.
  Variables (d : mesh_data) (txt : text).
  Hypothesis WS : well_shaped 3 4 3 d.
  Hypothesis WR : written txt (netgen_numbers d).

  Lemma cells4 c : In c (md_cells d) -> length (snd c) = 4.
  Proof. intros H. exact (proj1 (proj1 (Forall_forall _ _) (ws_cells _ _ _ _ WS) c H)). Qed.

  Lemma netgen3_faces surfs : same_set surfs (flat_map (fun c => tet_surfs (snd c)) (md_cells d)) ->
    forall f, In f surfs <-> exists x, In x (md_cells d) /\ side (snd x) f.
  Proof.
    intros SE f. rewrite (SE f), in_flat_map. split; intros (x & H & H'); exists x; (split; [exact H|]);
      apply side_tet; auto using cells4.
  Qed.

  Let pairs := map (fun c => (sx (snd c), fst c)) (md_cells d).
  Let vols := std_sort vs_ltb pairs.

  Lemma vols_fst : map fst vols = std_sort lex_ltb (map (fun c => sx (snd c)) (md_cells d)).
  Proof.
    unfold vols. rewrite <- (sort_map vs_ltb lex_ltb fst) by reflexivity. unfold pairs. rewrite map_map. reflexivity.
  Qed.
  Lemma in_vols p : In p vols <-> exists x, In x (md_cells d) /\ fst p = sx (snd x) /\ snd p = fst x.
  Proof.
    unfold vols. split.
    - intros H. apply (Permutation_in _ (std_sort_perm _ _)) in H. apply in_map_iff in H as (x & <- & Hx). exists x. auto.
    - intros (x & Hx & E1 & E2). apply (Permutation_in _ (Permutation_sym (std_sort_perm _ _))).
      apply in_map_iff. exists x. split; [|exact Hx]. destruct p; cbn in *; congruence.
  Qed.
  Lemma in_cells c : In c (map fst vols) <-> exists x, In x (md_cells d) /\ c = sx (snd x).
  Proof.
    rewrite in_map_iff. split.
    - intros (p & <- & H). apply in_vols in H as (x & Hx & E & _). exists x. split; [exact Hx|exact E].
    - intros (x & Hx & ->). exists (sx (snd x), fst x). split; [reflexivity|]. apply in_vols. exists x. auto.
  Qed.
  Lemma cells_sorted : distinct_cells d -> sorted_unique lex_ltb (map fst vols).
  Proof.
    intros D. rewrite vols_fst. apply sort_nodup_sorted; [apply lex_ltb_sto|].
    apply NoDup_nth_error. intros i j L E. rewrite map_length in L.
    destruct (nth_error_some (md_cells d) i L) as (x & Hx). rewrite (map_nth_error _ _ _ Hx) in E.
    destruct (nth_error (md_cells d) j) as [y|] eqn:Hy.
    - rewrite (map_nth_error _ _ _ Hy) in E. injection E as E. apply (D i j x y Hx Hy). apply sx_inj, E.
    - rewrite (proj2 (nth_error_None _ _)) in E; [discriminate|]. rewrite map_length. apply nth_error_None, Hy.
  Qed.

  Lemma netgen3_ok : distinct_cells d ->
    (forall b, In b (md_bnd d) -> exists f x, simplex (snd b) f /\ In x (md_cells d) /\ side (snd x) f) ->
    exists m, netgen3_load txt = Ok (true, m) /\
      same_points d (lm_points m) (lm_nodes m) /\
      holds simplex side fst (fun f => incidences leq tet_faces (lm_vols m) f =? 2) lex_ltb d (lm_vols m) (lm_surfs m) (lm_binfo m) /\
      sorted_unique lex_ltb (lm_edges m) /\
      (forall e, In e (lm_edges m) <-> exists x, In x (md_cells d) /\ side2 (snd x) e) /\
      length (lm_sub m) = length (lm_vols m) /\
      (forall i c s, nth_error (lm_vols m) i = Some c -> nth_error (lm_sub m) i = Some s ->
         exists x, In x (md_cells d) /\ simplex (snd x) c /\ fst x = s).
  Proof.
    intros D HB. destruct WS as [W1 W2 W3 (W4 & W5 & W6)]. unfold netgen_numbers in WR.
    destruct (read_block_spec _ _ _ _ (reads_point 3) _ _ _ W1 W4 WR) as (pts & t1 & E1 & F1 & R1).
    destruct (read_block_spec _ _ _ _ (reads_tagged 4) _ _ _ W2 W5 R1) as (tet & t2 & E2 & F2 & R2).
    rewrite <- (app_nil_r (flat_map netgen_item (md_bnd d))) in R2.
    destruct (read_block_spec _ _ _ _ (reads_tagged 3) _ _ _ W3 W6 R2) as (bnd & t3 & E3 & F3 & R3).
    apply Forall2_eq_eq in F2, F3. subst tet bnd.
    unfold netgen3_load. rewrite E1, E2. cbv beta iota.
    destruct (sort_uniq_arr (flat_map (fun c => tet_edges (snd c)) (md_cells d))) as (edges & -> & SE & IE). cbn [bind].
    destruct (sort_uniq_arr (flat_map (fun c => tet_surfs (snd c)) (md_cells d))) as (surfs & -> & SS & IS). cbn [bind].
    rewrite E3. fold pairs. fold vols.
    destruct (mark_listed_true surfs SS (map (fun b => (fst b, sx (snd b))) (md_bnd d)) (repeat bd_default (length surfs)))
      as (bi & EB & LB & NB).
    { apply repeat_length. }
    { apply Forall_map, Forall_forall. intros b Hb. cbn [snd]. destruct (HB b Hb) as (f & x & Sf & Hx & Sd).
      apply simplex_iff in Sf. subst f. apply (netgen3_faces surfs IS). eauto. }
    rewrite mark_listed3_eq by (try exact SS; apply repeat_length). rewrite EB. cbn [bind fst snd].
    destruct (mark_internal_spec lex_ltb tet_faces leq lex_ltb_sto (mkMesh (map fst vols) surfs bi) SS) as (m' & EM & M1 & M2 & M3 & M4).
    { cbn [m_cells m_faces]. intros c Hc f Hf. apply in_cells in Hc as (x & Hx & ->).
      apply (netgen3_faces surfs IS). exists x. split; [exact Hx|].
      apply (side_perm (sx (snd x))); [apply std_sort_perm|]. apply side_tet_faces; [rewrite sx_length; apply cells4, Hx|exact Hf]. }
    { exact LB. }
    rewrite EM. cbn [bind]. eexists. split; [reflexivity|]. cbn [lm_points lm_nodes lm_surfs lm_edges lm_binfo lm_vols lm_sub].
    cbn [m_cells m_faces m_binfo] in M1, M2, M3, M4.
    split; [split; [exact F1|apply Forall2_points, F1]|].
    split; [|split; [exact SE|split; [|split]]].
    - split.
      + apply cells_sorted, D.
      + intros c. rewrite in_cells. split; intros (x & H1 & H2); exists x; split; auto; apply simplex_iff; auto.
      + exact SS.
      + apply netgen3_faces, IS.
      + rewrite M3. exact LB.
      + intros i f b Hi HL.
        assert (N0 : nth_error bi i = Some (bd_make (fst b) true)).
        { rewrite (NB i f bd_default Hi).
          - rewrite (redesc_last sx f (md_bnd d) b); [reflexivity|]. eapply last_entry_impl; [|exact HL].
            intros a. rewrite simplex_iff. split; congruence.
          - apply repeat_nth. eapply stored_lt; exact Hi. }
        rewrite (M4 i f _ Hi N0). reflexivity.
      + intros i f Hi HN.
        assert (N0 : nth_error bi i = Some bd_default).
        { rewrite (NB i f bd_default Hi).
          - rewrite (redesc_unlisted sx f (md_bnd d)); [reflexivity|]. intros b Hb E. apply (HN b Hb). apply simplex_iff. auto.
          - apply repeat_nth. eapply stored_lt; exact Hi. }
        rewrite (M4 i f _ Hi N0). reflexivity.
    - intros e. rewrite (IE e), in_flat_map. split; intros (x & H & H'); exists x; (split; [exact H|]);
        apply side2_tet; auto using cells4.
    - rewrite !map_length. reflexivity.
    - intros i c s Hc Hs. destruct (nth_error vols i) as [p|] eqn:Hp.
      + rewrite (map_nth_error _ _ _ Hp) in Hc. rewrite (map_nth_error _ _ _ Hp) in Hs. injection Hc as <-. injection Hs as <-.
        destruct (proj1 (in_vols p) (nth_error_In _ _ Hp)) as (x & Hx & Ea & Eb). exists x. split; [exact Hx|].
        split; [apply simplex_iff; exact Ea|congruence].
      + rewrite (proj2 (nth_error_None _ _)) in Hc; [discriminate|]. rewrite map_length. apply nth_error_None, Hp.
  Qed.

  Lemma netgen3_bad : (exists b, In b (md_bnd d) /\ forall f x, simplex (snd b) f -> In x (md_cells d) -> ~ side (snd x) f) ->
    netgen3_load txt = Throw LogicError.
  Proof.
    intros (b & Hb & HN). destruct WS as [W1 W2 W3 (W4 & W5 & W6)]. unfold netgen_numbers in WR.
    destruct (read_block_spec _ _ _ _ (reads_point 3) _ _ _ W1 W4 WR) as (pts & t1 & E1 & F1 & R1).
    destruct (read_block_spec _ _ _ _ (reads_tagged 4) _ _ _ W2 W5 R1) as (tet & t2 & E2 & F2 & R2).
    rewrite <- (app_nil_r (flat_map netgen_item (md_bnd d))) in R2.
    destruct (read_block_spec _ _ _ _ (reads_tagged 3) _ _ _ W3 W6 R2) as (bnd & t3 & E3 & F3 & R3).
    apply Forall2_eq_eq in F2, F3. subst tet bnd.
    unfold netgen3_load. rewrite E1, E2. cbv beta iota.
    destruct (sort_uniq_arr (flat_map (fun c => tet_edges (snd c)) (md_cells d))) as (edges & -> & SE & IE). cbn [bind].
    destruct (sort_uniq_arr (flat_map (fun c => tet_surfs (snd c)) (md_cells d))) as (surfs & -> & SS & IS). cbn [bind].
    rewrite E3.
    rewrite mark_listed3_eq by (try exact SS; apply repeat_length).
    destruct (mark_listed_false surfs SS (map (fun b => (fst b, sx (snd b))) (md_bnd d)) (repeat bd_default (length surfs)))
      as (bi & ->).
    { apply repeat_length. }
    { exists (fst b, sx (snd b)). split; [apply (in_map (fun b => (fst b, sx (snd b)))), Hb|]. cbn [snd]. intros I.
      apply (netgen3_faces surfs IS) in I as (x & Hx & Sd). apply (HN (sx (snd b)) x); auto. apply simplex_iff. reflexivity. }
    reflexivity.
  Qed.
End Netgen3.

Lemma holds_wf3 d m internal : holds simplex side fst internal lex_ltb d (lm_vols m) (lm_surfs m) (lm_binfo m) ->
  (forall x, In x (md_cells d) -> length (snd x) = 4 /\ NoDup (snd x)) ->
  wf_mesh lex_ltb lex_ltb tet_faces (mkMesh (lm_vols m) (lm_surfs m) (lm_binfo m)).
Proof.
  intros [H1 H2 H3 H4 H5 _ _] HX. split; cbn [m_faces m_cells m_binfo]; auto.
  - intros c Hc f Hf. apply H2 in Hc as (x & Hx & Sc). apply simplex_iff in Sc. subst c. apply H4. exists x. split; [exact Hx|].
    apply (side_perm (sx (snd x))); [apply std_sort_perm|]. apply side_tet_faces; [rewrite sx_length; apply HX, Hx|exact Hf].
  - intros c Hc. apply H2 in Hc as (x & Hx & Sc). apply simplex_iff in Sc. subst c.
    destruct (HX x Hx) as (L & N). apply (C61_faces_of_simplices 3 tet_faces); [right; split; reflexivity|rewrite sx_length; exact L|].
    eapply Permutation_NoDup; [|exact N]. symmetry. apply std_sort_perm.
Qed.

(** ** Cartesian *)
Lemma quad_rows_spec l f : length l = 4 -> (row_of quad_rows l f <-> In f (quad_edges l)).
Proof.
  intros L. destruct l as [|a [|b [|c [|e [|]]]]]; try discriminate. unfold row_of, quad_rows. cbn [In quad_edges]. split.
  - intros (r & H & ->). repeat destruct H as [<-|H]; try destruct H; cbn; intuition.
  - intros H. repeat destruct H as [<-|H]; try destruct H.
    + exists [0; 1]. cbn. intuition.
    + exists [0; 2]. cbn. intuition.
    + exists [1; 3]. cbn. intuition.
    + exists [2; 3]. cbn. intuition.
Qed.

Ltac take8 l := destruct l as [|?p0 [|?p1 [|?p2 [|?p3 [|?p4 [|?p5 [|?p6 [|?p7 [|]]]]]]]]]; try discriminate.
Lemma in_rows_map rows l f : row_of rows l f <-> In f (map (map (fun k => nth k l 0)) rows).
Proof.
  unfold row_of. rewrite in_map_iff. split; intros (r & H1 & H2); exists r; auto.
Qed.
Lemma hex_rows_spec l f : length l = 8 -> (row_of hex_rows l f <-> In f (hex_surfs l)).
Proof. intros L. take8 l. rewrite in_rows_map. reflexivity. Qed.
Lemma hex_edge_rows_spec l f : length l = 8 -> (row_of hex_edge_rows l f <-> In f (hex_edges l)).
Proof. intros L. take8 l. rewrite in_rows_map. reflexivity. Qed.

Lemma flat_map_snd (cs : list (nat * list nat)) : flat_map (fun c => map idx (snd c)) cs = flat_map (map idx) (map snd cs).
Proof. induction cs as [|c cs IH]; cbn; [reflexivity|]. rewrite IH. reflexivity. Qed.
Lemma plain_shape n (cs : list (nat * list nat)) :
  Forall (fun c => length (snd c) = n /\ fits (fst c) /\ Forall (fun v => fits (S v)) (snd c)) cs ->
  Forall (fun l => length l = n /\ Forall fits l) (map snd cs).
Proof.
  intros H. apply Forall_map. eapply Forall_impl; [|exact H]. intros c (L & _ & F). split; [exact L|].
  eapply Forall_impl; [|exact F]. intros v. unfold fits. lia.
Qed.

Section Cart.
  Variables (dim nc nf : nat) (d : mesh_data) (txt : text).
  Hypothesis WS : well_shaped dim nc nf d.
  Hypothesis WR : written txt (cartesian_numbers d).

  Lemma cart_reads : exists pts t1 t2 t3, Forall2 (Forall2 Qeq) pts (md_points d) /\
    read_block (read_point_line dim) txt = (pts, t1) /\
    read_block (read_plain_line nc) t1 = (map snd (md_cells d), t2) /\
    read_block (read_plain_line nf) t2 = (map snd (md_bnd d), t3).
  Proof.
    destruct WS as [W1 W2 W3 (W4 & W5 & W6)]. unfold cartesian_numbers in WR.
    destruct (read_block_spec _ _ _ _ (reads_point dim) _ _ _ W1 W4 WR) as (pts & t1 & E1 & F1 & R1).
    rewrite !flat_map_snd in R1. unfold count in R1.
    rewrite <- (map_length snd (md_cells d)), <- (map_length snd (md_bnd d)) in R1.
    rewrite <- (map_length snd) in W5, W6.
    destruct (read_block_spec _ _ _ _ (reads_plain nc) _ _ _ (plain_shape _ _ W2) W5 R1) as (tri & t2 & E2 & F2 & R2).
    rewrite <- (app_nil_r (flat_map _ (map snd (md_bnd d)))) in R2.
    destruct (read_block_spec _ _ _ _ (reads_plain nf) _ _ _ (plain_shape _ _ W3) W6 R2) as (bnd & t3 & E3 & F3 & R3).
    apply Forall2_eq_eq in F2, F3. subst tri bnd. exists pts, t1, t2, t3. auto.
  Qed.

  Lemma cellsn c : In c (md_cells d) -> length (snd c) = nc.
  Proof. intros H. exact (proj1 (proj1 (Forall_forall _ _) (ws_cells _ _ _ _ WS) c H)). Qed.

  Variables (rows : list (list nat)) (tab : list nat -> list (list nat)).
  Hypothesis RT : forall l f, length l = nc -> (row_of rows l f <-> In f (tab l)).

  Lemma cart_faces faces : same_set faces (flat_map tab (map snd (md_cells d))) ->
    forall f, In f faces <-> exists x, In x (md_cells d) /\ row_of rows (snd x) f.
  Proof.
    intros SE f. rewrite (SE f), in_flat_map. split.
    - intros (l & H & H'). apply in_map_iff in H as (x & <- & Hx). exists x. split; [exact Hx|]. apply RT; auto using cellsn.
    - intros (x & Hx & H). exists (snd x). split; [apply in_map, Hx|]. apply RT; auto using cellsn.
  Qed.

  Lemma bnd_zero : map (fun f : list nat => (0, f)) (map snd (md_bnd d)) =
    map (fun b => (fst b, snd b)) (map (fun b => (0, snd b)) (md_bnd d)).
  Proof. rewrite !map_map. reflexivity. Qed.

  Lemma cart_ok faces cells :
    sorted_unique lex_ltb faces -> same_set faces (flat_map tab (map snd (md_cells d))) ->
    sorted_unique lex_ltb cells -> (forall c, In c cells <-> In c (map snd (md_cells d))) ->
    (forall b, In b (md_bnd d) -> exists x, In x (md_cells d) /\ row_of rows (snd x) (snd b)) ->
    exists bi, mark_listed faces (map (fun f => (0, f)) (map snd (md_bnd d))) (repeat bd_default (length faces)) = Ok (true, bi) /\
      holds (fun l e => e = l) (row_of rows) (fun _ => 0) (fun _ => false) lex_ltb d cells faces bi.
  Proof.
    intros SF IF SC IC HB.
    destruct (mark_listed_true faces SF (map (fun f => (0, f)) (map snd (md_bnd d))) (repeat bd_default (length faces)))
      as (bi & E & LB & NB).
    { apply repeat_length. }
    { apply Forall_map, Forall_map, Forall_forall. intros b Hb. cbn [snd]. apply (cart_faces faces IF), HB, Hb. }
    exists bi. split; [exact E|]. split; auto.
    - intros c. rewrite IC, in_map_iff. split; intros (x & H1 & H2); exists x; auto.
    - apply cart_faces, IF.
    - intros i f b Hi (pre & post & Eb & Hb & Hp). rewrite (NB i f bd_default Hi) by (apply repeat_nth; eapply stored_lt; exact Hi).
      rewrite Eb, !map_app, redesc_app. cbn [map]. rewrite redesc_cons. cbn [fst snd]. destruct (leq (snd b) f); [|congruence].
      rewrite redesc_none; [reflexivity|]. apply Forall_map, Forall_map. eapply Forall_impl; [|exact Hp]. cbn. intros a Ha Q. auto.
    - intros i f Hi HN. rewrite (NB i f bd_default Hi) by (apply repeat_nth; eapply stored_lt; exact Hi).
      rewrite redesc_none; [reflexivity|]. apply Forall_map, Forall_map, Forall_forall. cbn. intros b Hb Q. apply (HN b Hb). auto.
  Qed.
End Cart.

Lemma quad_ok d txt : well_shaped 2 4 2 d -> written txt (cartesian_numbers d) ->
  (forall b, In b (md_bnd d) -> exists x, In x (md_cells d) /\ row_of quad_rows (snd x) (snd b)) ->
  exists m, quad_load txt = Ok (true, m) /\ same_points d (lm_points m) (lm_nodes m) /\
    holds (fun l e => e = l) (row_of quad_rows) (fun _ => 0) (fun _ => false) lex_ltb d (lm_surfs m) (lm_edges m) (lm_binfo m).
Proof.
  intros WS WR HB. destruct (cart_reads 2 4 2 d txt WS WR) as (pts & t1 & t2 & t3 & F & E1 & E2 & E3).
  unfold quad_load. rewrite E1, E2, E3.
  destruct (sort_uniq_arr (flat_map quad_edges (map snd (md_cells d)))) as (edges & -> & SE & IE). cbn [bind].
  destruct (sort_uniq_arr (map snd (md_cells d))) as (surfs & -> & SS & IS). cbn [bind].
  destruct (cart_ok 2 4 2 d WS quad_rows quad_edges quad_rows_spec edges surfs SE IE SS IS HB) as (bi & -> & H). cbn [bind fst snd].
  eexists. split; [reflexivity|]. cbn [lm_points lm_nodes lm_surfs lm_edges lm_binfo].
  split; [split; [exact F|apply Forall2_points, F]|exact H].
Qed.

Lemma hex_ok d txt : well_shaped 3 8 4 d -> written txt (cartesian_numbers d) -> distinct_lists d ->
  (forall b, In b (md_bnd d) -> exists x, In x (md_cells d) /\ row_of hex_rows (snd x) (snd b)) ->
  exists m, hex_load txt = Ok (true, m) /\ same_points d (lm_points m) (lm_nodes m) /\
    holds (fun l e => e = l) (row_of hex_rows) (fun _ => 0) (fun _ => false) lex_ltb d (lm_vols m) (lm_surfs m) (lm_binfo m) /\
    sorted_unique lex_ltb (lm_edges m) /\
    forall e, In e (lm_edges m) <-> exists x, In x (md_cells d) /\ row_of hex_edge_rows (snd x) e.
Proof.
  intros WS WR D HB. destruct (cart_reads 3 8 4 d txt WS WR) as (pts & t1 & t2 & t3 & F & E1 & E2 & E3).
  unfold hex_load. rewrite E1, E2, E3.
  destruct (sort_uniq_arr (flat_map hex_edges (map snd (md_cells d)))) as (edges & -> & SE & IE). cbn [bind].
  destruct (sort_uniq_arr (flat_map hex_surfs (map snd (md_cells d)))) as (surfs & -> & SS & IS). cbn [bind].
  destruct (cart_ok 3 8 4 d WS hex_rows hex_surfs hex_rows_spec surfs (std_sort lex_ltb (map snd (md_cells d))) SS IS) as (bi & -> & H).
  { apply sort_nodup_sorted; [apply lex_ltb_sto|exact D]. }
  { intros c. split; apply Permutation_in; [apply std_sort_perm|apply Permutation_sym, std_sort_perm]. }
  { exact HB. }
  cbn [bind fst snd].
  eexists. split; [reflexivity|]. cbn [lm_points lm_nodes lm_surfs lm_edges lm_binfo lm_vols].
  split; [split; [exact F|apply Forall2_points, F]|]. split; [exact H|]. split; [exact SE|].
  apply (cart_faces 3 8 4 d WS hex_edge_rows hex_edges hex_edge_rows_spec), IE.
Qed.

(** ** Writing files *)
Lemma written_blank c t ns : white c -> written t ns -> written (c :: t) ns.
Proof.
  intros W H. destruct H as [t|w body n rest ns Hw Hb Hr H]; [constructor|].
  apply (wr_cons (c :: w) body n rest ns); auto. constructor; auto.
Qed.

Definition token : Type := (list ascii * num * ascii)%type.
Definition tk (s : list ascii) (n : num) (c : ascii) : token := (s, n, c).
Lemma written_tokens (ts : list token) : Forall (fun t => spells (fst (fst t)) (snd (fst t)) /\ white (snd t)) ts ->
  written (flat_map (fun t => fst (fst t) ++ [snd t]) ts) (map (fun t => snd (fst t)) ts).
Proof.
  induction 1 as [|[[b n] c] ts [S W] _ IH]; [constructor|]. cbn [flat_map map fst snd] in *.
  rewrite <- app_assoc. apply (wr_cons [] b n ([c] ++ _)); [constructor|exact S| |].
  - right. exists c, (flat_map (fun t => fst (fst t) ++ [snd t]) ts). split; [reflexivity|exact W].
  - apply written_blank; [exact W|exact IH].
Qed.
