From Coq Require Import List Arith Bool Permutation Sorted Lia.
From Verif Require Import Common Mesh_Model Mesh_Spec Mesh_Proofs Mesh2_Proofs Elem_Model Elem_Spec Elem_Proofs
  Refine_Proofs Hier_Proofs Load2_Proofs Conn_Model Conn_Spec Conn_Proofs Conn2_Proofs.
Import ListNotations.
Local Open Scope nat_scope.

Lemma su_nodup {A} (ltb : A -> A -> bool) l : strict_total_order ltb -> sorted_unique ltb l -> NoDup l.
Proof.
  intros [I _ _]. induction 1 as [|x l S' IH F]; constructor; [|exact IH].
  intros J. rewrite Forall_forall in F. specialize (F x J). cbn in F. rewrite I in F. discriminate.
Qed.
Lemma perm_concat {A} (a b : list (list A)) : Permutation a b -> Permutation (concat a) (concat b).
Proof.
  induction 1; cbn.
  - constructor.
  - apply Permutation_app_head. assumption.
  - rewrite !app_assoc. apply Permutation_app_tail, Permutation_app_comm.
  - etransitivity; eassumption.
Qed.

(** ** Counting *)
Lemma count_list_ok l : forall bf, Forall (fun i => i < length bf) l ->
  exists bf', count_list l bf = Ok bf' /\ length bf' = length bf /\
    forall j x, nth_error bf j = Some x -> nth_error bf' j = Some (x + count_occ Nat.eq_dec l j).
Proof.
  induction l as [|i l IH]; intros bf H.
  - exists bf. cbn. repeat split; auto. intros j x ->. f_equal. lia.
  - apply Forall_cons_iff in H as [Hi H]. cbn [count_list]. destruct (nth_error bf i) as [x|] eqn:E.
    2: { apply nth_error_None in E. lia. }
    rewrite (vat_ok _ _ _ E). cbn [bind]. destruct (upd_some bf i (S x) Hi) as (b1 & E1). unfold vset_at. rewrite E1. cbn [bind].
    destruct (IH b1) as (bf' & E2 & L & K). { rewrite (upd_length _ _ _ _ E1). exact H. }
    exists bf'. split; [exact E2|]. split; [rewrite L; apply (upd_length _ _ _ _ E1)|].
    intros j y Hj. cbn [count_occ]. destruct (Nat.eq_dec i j) as [<-|N].
    + rewrite (K i (S x)) by apply (upd_nth_same _ _ _ _ E1). f_equal. rewrite E in Hj. injection Hj as <-. lia.
    + rewrite (K j y); [reflexivity|]. rewrite (upd_nth_other _ _ _ _ _ E1) by congruence. exact Hj.
Qed.
Lemma count_vols_ok vs : forall bf, Forall (fun v => Forall (fun i => i < length bf) (g_sub v)) vs ->
  exists bf', count_vols vs bf = Ok bf' /\ length bf' = length bf /\
    forall j x, nth_error bf j = Some x -> nth_error bf' j = Some (x + count_occ Nat.eq_dec (concat (map g_sub vs)) j).
Proof.
  induction vs as [|v vs IH]; intros bf H.
  - exists bf. cbn. repeat split; auto. intros j x ->. f_equal. lia.
  - apply Forall_cons_iff in H as [Hv H]. cbn [count_vols]. destruct (count_list_ok (g_sub v) bf Hv) as (b1 & -> & L1 & K1).
    cbn [bind]. destruct (IH b1) as (bf' & E & L & K); [rewrite L1; exact H|].
    exists bf'. split; [exact E|]. split; [congruence|]. intros j x Hj. rewrite (K j _ (K1 j x Hj)).
    cbn [map concat]. rewrite count_occ_app. f_equal. lia.
Qed.
Lemma mark_single_nth bf : forall bi j n b, nth_error bf j = Some n -> nth_error bi j = Some b ->
  nth_error (mark_single bf bi) j = Some (if n =? 1 then bd_make 0 true else b).
Proof.
  induction bf as [|m bf IH]; intros [|c bi] [|j] n b H1 H2; try discriminate; cbn in *.
  - injection H1 as ->. injection H2 as ->. reflexivity.
  - apply IH; assumption.
Qed.
Lemma mark_single_length bf : forall bi, length (mark_single bf bi) = length bi.
Proof. induction bf as [|m bf IH]; intros [|c bi]; cbn; auto. Qed.

Lemma one_owner (L : list (list nat)) j : Forall (@NoDup nat) L ->
  (count_occ Nat.eq_dec (concat L) j = 1 <->
   exists k x, nth_error L k = Some x /\ In j x /\ forall k' x', nth_error L k' = Some x' -> In j x' -> k' = k).
Proof.
  induction 1 as [|a L Ha _ IH].
  - cbn. split; [discriminate|]. intros ([|k] & x & E & _); discriminate.
  - cbn [concat]. rewrite count_occ_app. destruct (in_dec Nat.eq_dec j a) as [I|I].
    + assert (E1 : count_occ Nat.eq_dec a j = 1).
      { pose proof (proj1 (NoDup_count_occ Nat.eq_dec a) Ha j). apply (count_occ_In Nat.eq_dec) in I. lia. }
      rewrite E1. split.
      * intros E. exists 0, a. split; [reflexivity|]. split; [exact I|]. intros [|k] x Hk Hx; [reflexivity|]. exfalso.
        cbn in Hk. assert (0 < count_occ Nat.eq_dec (concat L) j); [|lia]. apply count_occ_In. apply in_concat. exists x.
        split; [eapply nth_error_In; eauto|exact Hx].
      * intros (k & x & Hk & Hx & U). assert (k = 0) by (symmetry; apply (U 0 a); [reflexivity|exact I]). subst k.
        assert (E : count_occ Nat.eq_dec (concat L) j = 0); [|lia]. apply count_occ_not_In. intros J. apply in_concat in J as (y & Hy & Jy).
        apply In_nth_error in Hy as (q & Hq). specialize (U (S q) y Hq Jy). discriminate.
    + assert (E1 : count_occ Nat.eq_dec a j = 0) by (apply count_occ_not_In; exact I). rewrite E1. cbn [Nat.add]. rewrite IH. split.
      * intros (k & x & Hk & Hx & U). exists (S k), x. split; [exact Hk|]. split; [exact Hx|].
        intros [|k'] x' Hk' Hx'; [cbn in Hk'; injection Hk' as ->; contradiction|]. f_equal. eapply U; eauto.
      * intros ([|k] & x & Hk & Hx & U); [cbn in Hk; injection Hk as ->; contradiction|].
        exists k, x. split; [exact Hk|]. split; [exact Hx|]. intros k' x' Hk' Hx'. specialize (U (S k') x' Hk' Hx'). congruence.
Qed.

Lemma count_map_on {A B} (eqa : forall x y : A, {x = y} + {x <> y}) (eqb : forall x y : B, {x = y} + {x <> y}) (f : A -> B) l j :
  (forall x, In x l -> f x = f j -> x = j) -> count_occ eqb (map f l) (f j) = count_occ eqa l j.
Proof.
  induction l as [|x l IH]; intros H; [reflexivity|]. cbn [map count_occ].
  rewrite IH by (intros y Hy; apply H; right; exact Hy).
  destruct (eqb (f x) (f j)) as [E|E], (eqa x j) as [E'|E']; try reflexivity.
  - exfalso. apply E', H; [left; reflexivity|exact E].
  - exfalso. apply E. congruence.
Qed.

Lemma renumbering_surj n p j : renumbering n p -> j < n -> exists i, i < n /\ p i = j.
Proof.
  intros R H. assert (I : In j (map p (seq 0 n))) by (apply (Permutation_in _ (Permutation_sym R)), in_seq; lia).
  apply in_map_iff in I as (i & E & I). apply in_seq in I. exists i. split; [lia|exact E].
Qed.

Section Outer.
  Variable d : conn_file.
  Hypothesis K : consistent d.
  Hypothesis M : manifold d.
  Variables (edges : list (list nat)) (faces vols : list gelem) (pe pf pv : nat -> nat).
  Hypothesis H : same_mesh d edges faces vols pe pf pv.
  Hypothesis SF : sorted_unique lex_ltb (map g_sub faces).
  Hypothesis SV : sorted_unique lex_ltb (map g_sub vols).
  Let nf := length (cf_faces d).
  Let nv := length (cf_vols d).
  Let fs := map g_sub faces.
  Let cells := map g_sub vols.
  Let fo := sub_faces fs.

  Lemma fs_nodup : NoDup fs. Proof. apply (su_nodup _ _ lex_ltb_sto SF). Qed.
  Lemma lfs : length fs = nf. Proof. unfold fs. rewrite map_length. apply H. Qed.
  Lemma lcells : length cells = nv. Proof. unfold cells. rewrite map_length. apply H. Qed.
  Lemma nth_fs_inj i j : i < nf -> j < nf -> nth i fs [] = nth j fs [] -> i = j.
  Proof. rewrite <- lfs. intros Hi Hj. apply (proj1 (NoDup_nth fs []) fs_nodup); assumption. Qed.

  Lemma cell_at v l : In (v, l) (cf_vols d) -> nth_error cells (pv v) = Some (map pf l).
  Proof.
    intros I. destruct (pa_item _ _ _ _ (sm_vols _ _ _ _ _ _ _ H) v) as (x & Hx & l' & I' & E & _).
    { apply (numbered_lt _ _ _ (cs_vols _ K) I). }
    unfold cells. rewrite (map_nth_error g_sub _ _ Hx), E, (numbered_fun _ _ _ _ (cs_vols _ K) I I'). reflexivity.
  Qed.
  Lemma vols_lt v l : In (v, l) (cf_vols d) -> Forall (fun f => f < nf) l.
  Proof. apply (cs_vol_faces _ K). Qed.
  Lemma pf_R : renumbering nf pf. Proof. apply H. Qed.
  Lemma pv_R : renumbering nv pv. Proof. apply H. Qed.
  Lemma cells_in c : In c cells -> exists v l, In (v, l) (cf_vols d) /\ c = map pf l /\ nth_error cells (pv v) = Some c.
  Proof.
    intros I. destruct (In_nth_error _ _ I) as (q & Hq). assert (Lq : q < nv) by (rewrite <- lcells; apply nth_error_Some; congruence).
    destruct (renumbering_surj _ _ _ pv_R Lq) as (v & Hv & <-). destruct (numbered_ex _ _ (cs_vols _ K) Hv) as (l & Hl).
    exists v, l. pose proof (cell_at v l Hl) as E. split; [exact Hl|]. split; congruence.
  Qed.
  Lemma cells_lt c : In c cells -> Forall (fun f => f < nf) c.
  Proof.
    intros I. destruct (cells_in c I) as (v & l & Hl & -> & _). pose proof (vols_lt v l Hl) as F. rewrite Forall_forall in *.
    intros x Hx. apply in_map_iff in Hx as (y & <- & Hy). apply (p_lt nf pf pf_R). auto.
  Qed.
  Lemma count_sub c j : j < nf -> Forall (fun f => f < nf) c -> count_occ leq (fo c) (nth j fs []) = count_occ Nat.eq_dec c j.
  Proof.
    intros Hj F. unfold fo, sub_faces. apply (count_map_on Nat.eq_dec leq (fun i => nth i fs [])). intros x Hx.
    rewrite Forall_forall in F. apply nth_fs_inj; auto.
  Qed.
  Lemma in_sub c j : j < nf -> Forall (fun f => f < nf) c -> (In (nth j fs []) (fo c) <-> In j c).
  Proof. intros Hj F. rewrite (count_occ_In leq), (count_occ_In Nat.eq_dec), count_sub by assumption. reflexivity. Qed.

  Lemma mesh_wf : wf_mesh lex_ltb lex_ltb fo (mkMesh cells fs (repeat bd_default (length faces))).
  Proof.
    split; cbn [m_faces m_cells m_binfo]; auto.
    - rewrite repeat_length. unfold fs. rewrite map_length. reflexivity.
    - intros c Hc f Hf. unfold fo, sub_faces in Hf. apply in_map_iff in Hf as (i & <- & Hi). apply nth_In. rewrite lfs.
      pose proof (cells_lt c Hc) as F. rewrite Forall_forall in F. auto.
    - intros c Hc. destruct (cells_in c Hc) as (v & l & Hl & -> & _). pose proof (vols_lt v l Hl) as F. rewrite Forall_forall in F.
      unfold fo, sub_faces. rewrite map_map. apply map_nodup_on.
      + intros x y Hx Hy E. apply (p_inj nf pf pf_R); auto. apply nth_fs_inj; auto; apply (p_lt nf pf pf_R); auto.
      + apply (proj1 (Forall_forall _ _) (mf_vols _ M) (v, l) Hl).
  Qed.

  Lemma cells_perm : Permutation cells (map (map pf) (map snd (cf_vols d))).
  Proof.
    apply NoDup_Permutation_bis.
    - apply (su_nodup _ _ lex_ltb_sto SV).
    - rewrite lcells, !map_length. apply le_n.
    - intros c Hc. destruct (cells_in c Hc) as (v & l & Hl & -> & _). apply in_map. apply (in_map snd) in Hl. exact Hl.
  Qed.
  Lemma total i : i < nf -> count_occ Nat.eq_dec (concat cells) (pf i) = count_occ Nat.eq_dec (concat (map snd (cf_vols d))) i.
  Proof.
    intros Hi. rewrite (proj1 (Permutation_count_occ Nat.eq_dec _ _) (perm_concat _ _ cells_perm)), <- concat_map.
    apply count_map_on. intros x Hx. apply in_concat in Hx as (l & Hl & Hx). apply in_map_iff in Hl as ([v l'] & E & Hl). cbn in E. subst l'.
    pose proof (vols_lt v l Hl) as F. rewrite Forall_forall in F. apply (p_inj nf pf pf_R); auto.
  Qed.

  Lemma incid i : i < nf -> incidences leq fo cells (nth (pf i) fs []) = count_occ Nat.eq_dec (concat cells) (pf i).
  Proof.
    intros Hi. assert (G : forall cs, Forall (fun c => Forall (fun f => f < nf) c) cs ->
      incidences leq fo cs (nth (pf i) fs []) = count_occ Nat.eq_dec (concat cs) (pf i)).
    { intros cs F. unfold incidences. induction F as [|c cs Hc F IH]; [reflexivity|]. cbn [map concat].
      change (list_sum (?a :: ?b)) with (a + list_sum b).
      rewrite count_occ_app, <- IH, count_sub; [reflexivity|apply (p_lt nf pf pf_R), Hi|exact Hc]. }
    apply G. apply Forall_forall. apply cells_lt.
  Qed.
  Lemma lists_owner i v : i < nf -> lists d v i -> v < nv /\ owns fo cells (pv v) (nth (pf i) fs []).
  Proof.
    intros Hi (l & Hl & I). split; [apply (numbered_lt _ _ _ (cs_vols _ K) Hl)|]. exists (map pf l). split; [apply cell_at, Hl|].
    apply in_sub; [apply (p_lt nf pf pf_R), Hi| |apply in_map, I]. apply cells_lt. eapply nth_error_In, cell_at, Hl.
  Qed.
  Lemma owner_lists i q : i < nf -> owns fo cells q (nth (pf i) fs []) -> exists v, q = pv v /\ lists d v i.
  Proof.
    intros Hi (c & Hq & Hc). assert (Lq : q < nv) by (rewrite <- lcells; apply nth_error_Some; congruence).
    destruct (renumbering_surj _ _ _ pv_R Lq) as (v & Hv & <-). exists v. split; [reflexivity|].
    destruct (numbered_ex _ _ (cs_vols _ K) Hv) as (l & Hl). pose proof (cell_at v l Hl) as E.
    assert (c = map pf l) by congruence. subst c. apply in_sub in Hc.
    - exists l. split; [exact Hl|]. apply in_map_iff in Hc as (j & E' & Hj). pose proof (vols_lt v l Hl) as F. rewrite Forall_forall in F.
      rewrite <- (p_inj nf pf pf_R j i); auto.
    - apply (p_lt nf pf pf_R), Hi.
    - apply cells_lt. eapply nth_error_In, E.
  Qed.
  Lemma outer_external i v c : i < nf -> nth_error cells (pv v) = Some c -> outer d i v -> external fo cells c (nth (pf i) fs []).
  Proof.
    intros Hi Hc (O & U). destruct (lists_owner i v Hi O) as (Hv & c' & E & I). assert (c' = c) by congruence. subst c'.
    split; [exact I|]. exists (pv v). split; [exact Hc|]. intros q Hq. destruct (owner_lists i q Hi Hq) as (w & -> & Lw).
    rewrite (U w Lw). reflexivity.
  Qed.
  Lemma external_outer i c : i < nf -> external fo cells c (nth (pf i) fs []) -> exists v, outer d i v /\ nth_error cells (pv v) = Some c.
  Proof.
    intros Hi (I & q & Hq & U). destruct (owner_lists i q Hi) as (v & -> & Lv); [exists c; auto|]. exists v. split; [|exact Hq].
    split; [exact Lv|]. intros w Lw. destruct (lists_owner i w Hi Lw) as (Hw & O). destruct (lists_owner i v Hi Lv) as (Hv & _).
    apply (p_inj nv pv pv_R); auto.
  Qed.
  Lemma outer_count i : i < nf -> (count_occ Nat.eq_dec (concat (map snd (cf_vols d))) i = 1 <-> exists v, outer d i v).
  Proof.
    intros Hi. rewrite one_owner.
    2: { apply Forall_forall. intros l Hl. apply in_map_iff in Hl as (v & <- & Hv). apply (proj1 (Forall_forall _ _) (mf_vols _ M) v Hv). }
    assert (P : forall k x, nth_error (map snd (cf_vols d)) k = Some x -> exists v, nth_error (cf_vols d) k = Some (v, x)).
    { intros k x E. rewrite nth_error_map in E. destruct (nth_error (cf_vols d) k) as [[v y]|]; [|discriminate]. cbn in E. injection E as ->. eauto. }
    split.
    - intros (k & x & Hk & Hx & U). destruct (P k x Hk) as (v & Hv). exists v. split.
      + exists x. split; [eapply nth_error_In; eauto|exact Hx].
      + intros w (y & Hw & Iy). apply In_nth_error in Hw as (k' & Hw). specialize (U k' y). rewrite (map_nth_error snd _ _ Hw) in U.
        specialize (U eq_refl Iy). subst k'. congruence.
    - intros (v & (x & Hv & Hx) & U). apply In_nth_error in Hv as (k & Hv). exists k, x. split; [apply (map_nth_error snd _ _ Hv)|].
      split; [exact Hx|]. intros k' y Hk' Iy. destruct (P k' y Hk') as (w & Hw). assert (w = v).
      { apply U. exists y. split; [eapply nth_error_In; eauto|exact Iy]. }
      subst w. pose proof (numbered_nodup _ (cs_vols _ K)) as ND. rewrite NoDup_nth_error in ND. apply ND.
      + apply nth_error_Some. rewrite (map_nth_error fst _ _ Hw). discriminate.
      + rewrite (map_nth_error fst _ _ Hw), (map_nth_error fst _ _ Hv). reflexivity.
  Qed.
  Lemma face_at i y : nth_error faces (pf i) = Some y -> nth (pf i) fs [] = g_sub y.
  Proof. intros E. unfold fs. apply nth_error_nth. apply map_nth_error, E. Qed.
  Lemma faces_in f : In f fs -> exists i, i < nf /\ f = nth (pf i) fs [].
  Proof.
    intros I. apply (In_nth _ _ []) in I as (q & Hq & <-). rewrite lfs in Hq. destruct (renumbering_surj _ _ _ pf_R Hq) as (i & Hi & <-). eauto.
  Qed.

  Variable bnum : list nat -> list nat -> option nat.

  Let numbered_sides := all_known d faces vols pf pv bnum.

  Lemma boundary_stage :
    exists bf b bi', count_vols vols (repeat 0 (length faces)) = Ok bf /\
     renumber (list nat) (list nat) lex_ltb lex_ltb fo bnum (mkMesh cells fs (repeat bd_default (length faces))) = Ok (b, bi') /\
     let bi := if b then bi' else mark_single bf bi' in
      length bi = nf /\
      (forall i, i < nf -> (forall v, ~ outer d i v) -> nth_error bi (pf i) = Some (mkB 0 0 false false)) /\
     (numbered_sides -> forall i v x y k, i < nf -> outer d i v -> nth_error vols (pv v) = Some x -> nth_error faces (pf i) = Some y ->
         bnum (g_sub x) (g_sub y) = Some k -> nth_error bi (pf i) = Some (mkB k k true false)) /\
     (~ numbered_sides -> forall i v, i < nf -> outer d i v -> nth_error bi (pf i) = Some (mkB 0 0 true false)).
  Proof.
    destruct (count_vols_ok vols (repeat 0 (length faces))) as (bf & E1 & L1 & K1).
    { rewrite repeat_length. apply Forall_forall. intros v Hv. assert (L : length faces = nf) by apply H. rewrite L. apply cells_lt. apply in_map, Hv. }
    destruct (renumber_spec (list nat) (list nat) lex_ltb lex_ltb fo leq bnum _ lex_ltb_sto lex_ltb_sto mesh_wf) as (b & bi' & E2 & L2 & B1 & B2 & B3).
    { cbn [m_faces m_cells]. intros f Hf. destruct (faces_in f Hf) as (i & Hi & ->). rewrite incid, total by exact Hi. apply (mf_faces _ M). }
    cbn [m_faces m_cells m_binfo] in *.
    assert (SB : b = true <-> numbered_sides).
    { rewrite B1. split; intros N.
      - intros i v x y Hi O Hx Hy. rewrite <- (face_at i y Hy). apply N. apply (outer_external i v); auto. apply (map_nth_error g_sub _ _ Hx).
      - intros c f Ex. destruct (faces_in f) as (i & Hi & ->).
        { destruct Ex as (I & q & Hq & _). apply (wf_stored _ _ _ _ mesh_wf c); [eapply nth_error_In; exact Hq|exact I]. }
        destruct (external_outer i c Hi Ex) as (v & O & Hc). unfold cells in Hc. rewrite nth_error_map in Hc.
        destruct (nth_error vols (pv v)) as [x|] eqn:Hx; [|discriminate]. cbn in Hc. injection Hc as <-.
        destruct (pa_item _ _ _ _ (sm_faces _ _ _ _ _ _ _ H) i Hi) as (y & Hy & _). rewrite (face_at i y Hy). eapply N; eauto. }
    assert (ST : forall i, i < nf -> stored fs (pf i) (nth (pf i) fs [])).
    { intros i Hi. unfold stored. apply nth_error_nth'. rewrite lfs. apply (p_lt nf pf pf_R), Hi. }
    assert (IN : forall i, i < nf -> (forall v, ~ outer d i v) -> nth_error bi' (pf i) = Some (mkB 0 0 false false)).
    { intros i Hi N. rewrite (B2 (pf i) (nth (pf i) fs []) (ST i Hi)).
      - apply nth_error_repeat. assert (L : length faces = nf) by apply H. rewrite L. apply (p_lt nf pf pf_R), Hi.
      - intros c Ex. destruct (external_outer i c Hi Ex) as (v & O & _). apply (N v O). }
    assert (CN : forall i, i < nf -> nth_error bf (pf i) = Some (count_occ Nat.eq_dec (concat (map snd (cf_vols d))) i)).
    { intros i Hi. rewrite (K1 (pf i) 0).
      - cbn [Nat.add]. rewrite <- total by exact Hi. reflexivity.
      - apply nth_error_repeat. assert (L : length faces = nf) by apply H. rewrite L. apply (p_lt nf pf pf_R), Hi. }
    exists bf, b, bi'. split; [exact E1|]. split; [exact E2|]. cbv zeta. split; [|split; [|split]].
    - destruct b; [|rewrite mark_single_length]; rewrite L2; apply lfs.
    - intros i Hi N. destruct b; [apply IN; assumption|]. rewrite (mark_single_nth _ _ _ _ _ (CN i Hi) (IN i Hi N)).
      destruct (Nat.eqb_spec (count_occ Nat.eq_dec (concat (map snd (cf_vols d))) i) 1) as [E|_]; [|reflexivity].
      exfalso. apply outer_count in E as (v & O); [apply (N v O)|exact Hi].
    - intros N i v x y k Hi O Hx Hy Bk. apply SB in N. rewrite N. apply (B3 N (pf i) (nth (pf i) fs []) (g_sub x) k (ST i Hi)).
      + apply (outer_external i v); auto. apply (map_nth_error g_sub _ _ Hx).
      + rewrite (face_at i y Hy). exact Bk.
    - intros N i v Hi O. destruct b; [exfalso; apply N, SB; reflexivity|].
      destruct (nth_error bi' (pf i)) as [bb|] eqn:Eb.
      2: { apply nth_error_None in Eb. rewrite L2, lfs in Eb. pose proof (p_lt nf pf pf_R i Hi). lia. }
      rewrite (mark_single_nth _ _ _ _ _ (CN i Hi) Eb). rewrite (proj2 (outer_count i Hi) (ex_intro _ v O)). reflexivity.
  Qed.
End Outer.

Lemma fvca6_ok d bnum : consistent d -> no_repeats d -> manifold d ->
  exists m pe pf pv, fvca6_populate bnum (seen d) = Ok (true, m) /\
   same_mesh d (cm_edges m) (cm_faces m) (cm_vols m) pe pf pv /\
   (sorted_unique lex_ltb (cm_edges m) /\ sorted_unique lex_ltb (map g_sub (cm_faces m)) /\
       sorted_unique lex_ltb (map g_sub (cm_vols m))) /\
   length (cm_binfo m) = length (cf_faces d) /\
   (forall i, i < length (cf_faces d) -> (forall v, ~ outer d i v) -> nth_error (cm_binfo m) (pf i) = Some (mkB 0 0 false false)) /\
   (all_known d (cm_faces m) (cm_vols m) pf pv bnum ->
       forall i v x y k, i < length (cf_faces d) -> outer d i v -> nth_error (cm_vols m) (pv v) = Some x ->
         nth_error (cm_faces m) (pf i) = Some y ->
         bnum (g_sub x) (g_sub y) = Some k -> nth_error (cm_binfo m) (pf i) = Some (mkB k k true false)) /\
   (~ all_known d (cm_faces m) (cm_vols m) pf pv bnum ->
       forall i v, i < length (cf_faces d) -> outer d i v -> nth_error (cm_binfo m) (pf i) = Some (mkB 0 0 true false)).
Proof.
  intros K R M. destruct (edges_stage d K vset vset_total) as (te & pe & E1 & T1 & P1 & C1).
  destruct (faces_stage d K pe te) as (tf & pf & M2 & E2 & T2 & P2 & C2). destruct (vols_stage d K pf) as (pv & M3 & P3).
  assert (SM : same_mesh d (map snd (std_sort snd_ltb (cn_edges (seen d)))) (elems pe (cf_fpts d) (cf_faces d))
    (elems pf (cf_vpts d) (cf_vols d)) pe pf pv) by (split; assumption).
  destruct K as [K1 K2 K3 K4 K5 K6 K7] eqn:EK.
  assert (SF : sorted_unique lex_ltb (map g_sub (elems pe (cf_fpts d) (cf_faces d)))).
  { apply (elems_sorted pe (length (cf_edges d))); [apply P1|exact K4|apply R]. }
  assert (SV : sorted_unique lex_ltb (map g_sub (elems pf (cf_vpts d) (cf_vols d)))).
  { apply (elems_sorted pf (length (cf_faces d))); [apply P2|exact K5|apply R]. }
  assert (K' : consistent d) by (split; assumption).
  destruct (boundary_stage d K' M _ _ _ _ _ _ SM SF SV bnum) as (bf & b & bi' & E4 & E5 & B1 & B2 & B3 & B4).
  eexists _, pe, pf, pv. split; [|split; [|split; [|split; [|split; [|split]]]]].
  - unfold fvca6_populate. rewrite E1. cbn [bind]. cbn [cn_faces cn_fpts cn_vols cn_vpts cn_grps seen].
    rewrite C1. cbn [bind]. rewrite M2. cbn [bind]. rewrite E2. cbn [bind]. rewrite C2. cbn [bind].
    rewrite M3. cbn [bind]. rewrite E4. cbn [bind]. rewrite E5. cbn [bind]. reflexivity.
  - exact SM.
  - split; [apply edges_sorted; assumption|]. split; assumption.
  - exact B1.
  - exact B2.
  - exact B3.
  - exact B4.
Qed.
