(** Combinatorics shared by the mesh refinements: when every cell is subdivided by the same local
    pattern, a conforming complex stays conforming.  New vertices are named by "labels", the list of
    old vertices they are the average of. *)
From Coq Require Import List Arith Bool Sorted Permutation Lia.
From Verif Require Import Common Mesh_Model Mesh_Spec Mesh_Proofs Elem_Model Elem_Spec Elem_Proofs.
Import ListNotations.

Definition feq := list_eq_dec Nat.eq_dec.
Definition feq2 := list_eq_dec feq.

(** ** Lists *)
Lemma nodup_flat_map {A B} (g : A -> list B) (l : list A) :
  NoDup l -> (forall x, In x l -> NoDup (g x)) ->
  (forall x y z, In x l -> In y l -> In z (g x) -> In z (g y) -> x = y) -> NoDup (flat_map g l).
Proof.
  induction 1 as [|x l Hx ND IH]; intros H1 H2; cbn [flat_map]; [constructor|].
  assert (A1 : NoDup (g x)) by (apply H1; left; reflexivity).
  assert (A2 : NoDup (flat_map g l)).
  { apply IH; [intros; apply H1; right; assumption|]. intros; eapply H2; eauto; right; assumption. }
  assert (A3 : forall z, In z (g x) -> ~ In z (flat_map g l)).
  { intros z Hz Hz'. apply in_flat_map in Hz' as (y & Hy & Hzy).
    assert (x = y) by (eapply H2; eauto; [left; reflexivity|right; assumption]). subst. contradiction. }
  clear - A1 A2 A3. induction (g x) as [|a r IH]; cbn; [assumption|].
  inversion A1; subst. constructor.
  - rewrite in_app_iff. intros [H|H]; [contradiction|]. eapply A3; [left; reflexivity|exact H].
  - apply IH; [assumption|]. intros z Hz. apply A3. right. assumption.
Qed.

Lemma nodup_app {A} (a b : list A) : NoDup a -> NoDup b -> (forall z, In z a -> ~ In z b) -> NoDup (a ++ b).
Proof.
  induction a as [|x a IH]; cbn; intros Ha Hb H; [assumption|]. inversion Ha; subst. constructor.
  - rewrite in_app_iff. intros [K|K]; [contradiction|]. eapply H; [left; reflexivity|exact K].
  - apply IH; auto.
Qed.

Lemma map_inj_on {A B} (f : A -> B) (a b : list A) :
  (forall x y, In x a -> In y b -> f x = f y -> x = y) -> map f a = map f b -> a = b.
Proof.
  revert b. induction a as [|x a IH]; intros [|y b] H E; try discriminate; [reflexivity|].
  cbn in E. injection E as E1 E2. f_equal.
  - apply H; auto; left; reflexivity.
  - apply IH; auto. intros; apply H; auto; right; assumption.
Qed.

Lemma perm_map_inj {A B} (f : A -> B) (a b : list A) :
  (forall x y, In x a -> In y b -> f x = f y -> x = y) ->
  Permutation (map f a) (map f b) -> Permutation a b.
Proof.
  intros H P. apply Permutation_map_inv in P as (c & E & P).
  assert (a = c).
  { apply (map_inj_on f); [|exact E]. intros x y Hx Hy. apply H; [assumption|].
    eapply Permutation_in; [apply Permutation_sym, P|assumption]. }
  subst c. apply Permutation_sym. exact P.
Qed.

Lemma perm_concat {A} (a b : list (list A)) : Permutation a b -> forall x, In x (concat a) <-> In x (concat b).
Proof.
  intros P x. rewrite !in_concat. split; intros (l & H1 & H2); exists l; (split; [|exact H2]).
  - exact (Permutation_in _ P H1).
  - exact (Permutation_in _ (Permutation_sym P) H1).
Qed.

Lemma nth_inj (c : list nat) i j : NoDup c -> i < length c -> j < length c -> nth i c 0 = nth j c 0 -> i = j.
Proof. intros ND Hi Hj. apply (proj1 (NoDup_nth c 0) ND); assumption. Qed.

Lemma map_nodup_on {A B} (f : A -> B) (l : list A) :
  (forall x y, In x l -> In y l -> f x = f y -> x = y) -> NoDup l -> NoDup (map f l).
Proof.
  intros H. induction 1 as [|x l Hx ND IH]; cbn; constructor.
  - intros K. apply in_map_iff in K as (y & E & Hy). apply H in E; [subst; contradiction|right; assumption|left; reflexivity].
  - apply IH. intros; apply H; auto; right; assumption.
Qed.

Lemma list_sum_single {A} (f : A -> nat) (l : list A) x v : NoDup l -> In x l -> f x = v ->
  (forall y, In y l -> y <> x -> f y = 0) -> list_sum (map f l) = v.
Proof.
  intros ND Hx Hv H0. induction ND as [|y l Hy ND IH]; [destruct Hx|].
  change (list_sum (map f (y :: l))) with (f y + list_sum (map f l)).
  destruct Hx as [->|Hx].
  - rewrite Hv. enough (list_sum (map f l) = 0) by lia. clear - H0 Hy.
    induction l as [|z l IH]; [reflexivity|].
    change (list_sum (map f (z :: l))) with (f z + list_sum (map f l)). rewrite IH.
    + rewrite H0; [reflexivity|right; left; reflexivity|]. intros ->. apply Hy. left. reflexivity.
    + intros K. apply Hy. right. assumption.
    + intros y' Hy' N. apply H0; auto. destruct Hy'; [left|right; right]; assumption.
  - rewrite (H0 y); [|left; reflexivity|intros ->; contradiction]. cbn. apply IH; auto.
    intros y' Hy' N. apply H0; auto. right. assumption.
Qed.

Lemma incid_perm (fo : list nat -> list (list nat)) a b k : Permutation a b ->
  incidences feq fo a k = incidences feq fo b k.
Proof.
  unfold incidences. induction 1; cbn [map]; repeat change (list_sum (?a :: ?b)) with (a + list_sum b); lia.
Qed.

Lemma count_perm (a b : list (list nat)) k : Permutation a b -> count_occ feq a k = count_occ feq b k.
Proof. intros P. revert k. apply Permutation_count_occ. exact P. Qed.

Lemma sorted_nodup (l : list nat) : sorted_unique Nat.ltb l -> NoDup l.
Proof.
  induction 1 as [|x l S IH HF]; constructor; auto. intros H. rewrite Forall_forall in HF.
  specialize (HF _ H). rewrite Nat.ltb_irrefl in HF. discriminate.
Qed.

Lemma sort_nodup_sorted {E} (ltb : E -> E -> bool) (O : strict_total_order ltb) l :
  NoDup l -> sorted_unique ltb (std_sort ltb l).
Proof.
  intros ND. assert (ND' : NoDup (std_sort ltb l)).
  { eapply Permutation_NoDup; [apply Permutation_sym, std_sort_perm|exact ND]. }
  pose proof (std_sort_sorted ltb O l) as HS. clear ND. induction HS as [|x r S IH HF]; [constructor|].
  inversion ND'; subst. constructor; [apply IH; assumption|]. apply Forall_forall. intros y Hy.
  rewrite Forall_forall in HF. specialize (HF _ Hy). unfold nlt in HF.
  destruct (ltb x y) eqn:Exy; [reflexivity|]. exfalso.
  rewrite (sto_total _ O x y Exy HF) in *. contradiction.
Qed.

(** ** Local patterns *)
Definition lab (c : list nat) (loc : list nat) : list nat := map (fun i => nth i c 0) loc.
Definition canon (LF : list (list nat)) := std_sort lex_ltb LF.
Definition sel (phi : list nat) (P : list (list nat)) : list (list nat) := map (fun i => nth i P []) phi.
Definition up (phi : list nat) (SP : list (list nat)) : list (list nat) := map (lab phi) SP.

Lemma canon_iff a b : canon a = canon b <-> Permutation a b.
Proof. apply std_sort_perm_iff, lex_ltb_sto. Qed.

Lemma lab_lab c phi loc : (forall i, In i loc -> i < length phi) -> lab (lab c phi) loc = lab c (lab phi loc).
Proof.
  intros H. unfold lab. rewrite map_map. apply map_ext_in. intros i Hi.
  specialize (H i Hi). rewrite (nth_indep _ 0 (nth 0 c 0)) by (rewrite map_length; assumption).
  exact (map_nth (fun i => nth i c 0) phi 0 i).
Qed.

Lemma concat_lab c LF : concat (map (lab c) LF) = map (fun i => nth i c 0) (concat LF).
Proof. symmetry. apply concat_map. Qed.

Section Pattern.
  Variables (q : nat) (FL : list (list nat)) (CH SUB INN : list (list (list nat))).
  Definition pfaces (P : list (list nat)) := map (fun phi => sel phi P) FL.
  Definition lcount (LF : list (list nat)) : nat :=
    count_occ feq2 (map canon (flat_map pfaces CH)) (canon LF).

  (** What the pattern must satisfy; checked by computation for each mesher. *)
  Record pattern_ok : Prop := {
    po_idx : forall P loc i, In P CH -> In loc P -> In i loc -> i < q;
    po_len : forall P, In P CH -> length P = q /\ NoDup P;
    po_face : forall P LF, In P CH -> In LF (pfaces P) ->
        (exists I, In I INN /\ canon LF = canon I) \/
        (exists phi SP, In phi FL /\ In SP SUB /\ canon LF = canon (up phi SP));
    po_inn : forall I, In I INN -> lcount I = 2 /\ (forall i, i < q -> In i (concat I)) /\ incl I (concat CH);
    po_sub : forall phi SP, In phi FL -> In SP SUB -> lcount (up phi SP) = 1 /\
        (forall i, In i phi <-> In i (concat (up phi SP))) /\ incl (up phi SP) (concat CH);
    po_nd_inn : NoDup (map canon INN);
    po_nd_sub : forall phi, In phi FL -> NoDup (map canon (map (up phi) SUB));
    po_nd_ch : NoDup (map canon CH);
    po_full : forall P i, In P CH -> i < q -> In i (concat P);
    po_fl : forall phi, In phi FL -> length phi < q /\ NoDup phi /\ (forall i, In i phi -> i < q) /\
        (forall SP loc i, In SP SUB -> In loc SP -> In i loc -> i < length phi);
    po_nd_fl : NoDup FL
  }.
End Pattern.

Section Refine.
  Variables (q : nat) (FL : list (list nat)) (CH SUB INN : list (list (list nat))).
  Hypothesis PO : pattern_ok q FL CH SUB INN.
  Variable cfaces : list nat -> list (list nat).
  Variable id : list nat -> nat.
  Variable mk : list nat -> list nat.
  Variables (F C : list (list nat)).
  Variable Lab : list nat -> Prop.

  Hypothesis HC : forall c, In c C -> length c = q /\ NoDup c.
  Hypothesis HCF : forall c, In c C -> cfaces c = map (lab c) FL.
  Hypothesis Hin : forall c, In c C -> incl (cfaces c) F.
  Hypothesis HFn : NoDup F.
  Hypothesis HFs : forall f, In f F -> sorted_unique Nat.ltb f.
  Hypothesis HCn : NoDup C.
  Hypothesis Hset : forall c c', In c C -> In c' C -> same_set c c' -> c = c'.
  Hypothesis Hown : forall f, In f F -> exists c, In c C /\ In f (cfaces c).
  Hypothesis Hlab : forall c loc, In c C -> In loc (concat CH) -> Lab (lab c loc).
  Hypothesis Hid : forall l l', Lab l -> Lab l' -> id l = id l' -> l = l'.
  Hypothesis Hmk : forall l, Permutation (mk l) l.

  Definition gids (c : list nat) (LF : list (list nat)) : list nat := map (fun loc => id (lab c loc)) LF.
  Definition gk (c : list nat) (LF : list (list nat)) : list nat := std_sort Nat.ltb (gids c LF).
  Definition child (c : list nat) (P : list (list nat)) : list nat := mk (gids c P).
  Definition children : list (list nat) := flat_map (fun c => map (child c) CH) C.
  Definition new_faces : list (list nat) :=
    flat_map (fun f => map (gk f) SUB) F ++ flat_map (fun c => map (gk c) INN) C.

  Hypothesis HR1 : forall c P, In c C -> In P CH ->
    Permutation (cfaces (child c P)) (map (gk c) (pfaces FL P)).

  Lemma gids_lab c LF : gids c LF = map id (map (lab c) LF).
  Proof. unfold gids. rewrite map_map. reflexivity. Qed.

  Lemma gids_perm c c' LF LF' : In c C -> In c' C -> incl LF (concat CH) -> incl LF' (concat CH) ->
    Permutation (gids c LF) (gids c' LF') -> Permutation (map (lab c) LF) (map (lab c') LF').
  Proof.
    intros Hc Hc' HL HL' P. rewrite !gids_lab in P. apply perm_map_inj in P; [exact P|].
    intros x y Hx Hy. apply in_map_iff in Hx as (l & <- & Hl). apply in_map_iff in Hy as (l' & <- & Hl').
    apply Hid; apply Hlab; auto.
  Qed.

  Lemma gk_perm c c' LF LF' : In c C -> In c' C -> incl LF (concat CH) -> incl LF' (concat CH) ->
    gk c LF = gk c' LF' -> Permutation (map (lab c) LF) (map (lab c') LF').
  Proof.
    intros Hc Hc' HL HL' E. apply gids_perm; auto. apply std_sort_perm_iff in E; [exact E|apply nat_ltb_sto].
  Qed.

  Lemma supp_eq c c' LF LF' : Permutation (map (lab c) LF) (map (lab c') LF') ->
    forall x, In x (map (fun i => nth i c 0) (concat LF)) <-> In x (map (fun i => nth i c' 0) (concat LF')).
  Proof. intros P x. rewrite <- !concat_lab. apply perm_concat. exact P. Qed.

  Lemma idx_lt LF i : incl LF (concat CH) -> In i (concat LF) -> i < q.
  Proof.
    intros HL Hi. apply in_concat in Hi as (loc & Hl & Hi). apply HL in Hl. apply in_concat in Hl as (P & HP & Hl).
    eapply (po_idx _ _ _ _ _ PO); eauto.
  Qed.

  Lemma lab_inj c l l' : In c C -> In l (concat CH) -> In l' (concat CH) -> lab c l = lab c l' -> l = l'.
  Proof.
    intros Hc Hl Hl' E. destruct (HC c Hc) as [Lc ND]. unfold lab in E. revert E. apply map_inj_on.
    intros i j Hi Hj. apply nth_inj; auto; rewrite Lc;
      [apply (idx_lt [l])|apply (idx_lt [l'])]; cbn; try rewrite app_nil_r; auto;
      intros z [<-|[]]; assumption.
  Qed.

  Lemma same_cell c LF LF' : In c C -> incl LF (concat CH) -> incl LF' (concat CH) ->
    Permutation (map (lab c) LF) (map (lab c) LF') -> canon LF = canon LF'.
  Proof.
    intros Hc HL HL' P. apply canon_iff. apply perm_map_inj in P; [exact P|].
    intros x y Hx Hy. apply lab_inj; auto.
  Qed.

  Lemma gk_canon c LF LF' : canon LF = canon LF' -> gk c LF = gk c LF'.
  Proof.
    intros E. apply canon_iff in E. unfold gk. apply std_sort_perm_iff; [apply nat_ltb_sto|].
    unfold gids. apply Permutation_map. exact E.
  Qed.

  Lemma cells_eq c c' : In c C -> In c' C -> (forall x, In x c -> In x c') -> c = c'.
  Proof.
    intros Hc Hc' H. apply Hset; auto. destruct (HC c Hc) as [L ND], (HC c' Hc') as [L' ND'].
    intros x. split; [apply H|]. apply (NoDup_length_incl ND); [lia|exact H].
  Qed.

  Lemma in_cell_nth c x : In c C -> In x c -> exists i, i < q /\ nth i c 0 = x.
  Proof.
    intros Hc Hx. destruct (HC c Hc) as [L _]. apply (In_nth _ _ 0) in Hx as (i & Hi & E). exists i. split; [lia|exact E].
  Qed.

  Lemma nth_in_cell c i : In c C -> i < q -> In (nth i c 0) c.
  Proof. intros Hc Hi. destruct (HC c Hc) as [L _]. apply nth_In. lia. Qed.

  (** a pattern with full support determines its cell *)
  Lemma full_cell c c' LF LF' : In c C -> In c' C -> incl LF (concat CH) -> incl LF' (concat CH) ->
    (forall i, i < q -> In i (concat LF)) ->
    Permutation (map (lab c) LF) (map (lab c') LF') -> c = c'.
  Proof.
    intros Hc Hc' HL HL' Hf P. apply cells_eq; auto. intros x Hx.
    apply in_cell_nth in Hx as (i & Hi & <-); auto.
    assert (K : In (nth i c 0) (map (fun i => nth i c 0) (concat LF))) by (apply (in_map (fun i => nth i c 0)), Hf, Hi).
    apply (supp_eq _ _ _ _ P) in K. apply in_map_iff in K as (j & <- & Hj).
    apply nth_in_cell; auto. eapply idx_lt; eauto.
  Qed.

  Lemma sel_incl P phi : In P CH -> In phi FL -> incl (sel phi P) (concat CH).
  Proof.
    intros HP Hphi z Hz. unfold sel in Hz. apply in_map_iff in Hz as (i & <- & Hi).
    apply in_concat. exists P. split; [assumption|]. apply nth_In.
    destruct (po_len _ _ _ _ _ PO P HP) as [-> _]. apply (po_fl _ _ _ _ _ PO phi Hphi). assumption.
  Qed.

  Lemma pfaces_incl P LF : In P CH -> In LF (pfaces FL P) -> incl LF (concat CH).
  Proof. intros HP H. unfold pfaces in H. apply in_map_iff in H as (phi & <- & Hphi). apply sel_incl; assumption. Qed.

  Lemma ch_incl P : In P CH -> incl P (concat CH).
  Proof. intros HP z Hz. apply in_concat. exists P. auto. Qed.

  (** keys of the subfaces of a face seen from a cell *)
  Lemma gk_face c phi SP : In phi FL -> In SP SUB -> gk (lab c phi) SP = gk c (up phi SP).
  Proof.
    intros Hphi HS. unfold gk, gids, up. rewrite map_map. f_equal. apply map_ext_in. intros loc Hl. f_equal.
    apply lab_lab. intros i Hi. destruct (po_fl _ _ _ _ _ PO phi Hphi) as (_ & _ & _ & H). eapply H; eauto.
  Qed.

  Definition child_inc (c k : list nat) : nat :=
    list_sum (map (fun P => count_occ feq (cfaces (child c P)) k) CH).

  Lemma incid_children k : incidences feq cfaces children k = list_sum (map (fun c => child_inc c k) C).
  Proof.
    unfold incidences, children, child_inc. clear. induction C as [|c l IH]; [reflexivity|].
    cbn [flat_map map]. rewrite map_app, list_sum_app, IH, map_map. reflexivity.
  Qed.

  Lemma count_occ_map_eq (g : list (list nat) -> list nat) (h : list (list nat) -> list (list nat)) L x y :
    (forall z, In z L -> (g z = x <-> h z = y)) ->
    count_occ feq (map g L) x = count_occ feq2 (map h L) y.
  Proof.
    induction L as [|z L IH]; intros H; [reflexivity|]. cbn [map count_occ].
    rewrite IH by (intros; apply H; right; assumption).
    destruct (H z (or_introl eq_refl)) as [H1 H2].
    destruct (feq (g z) x), (feq2 (h z) y); tauto.
  Qed.

  Lemma child_inc_same c LF : In c C -> incl LF (concat CH) -> child_inc c (gk c LF) = lcount FL CH LF.
  Proof.
    intros Hc HL. unfold child_inc, lcount.
    assert (G : forall l, incl l CH -> list_sum (map (fun P => count_occ feq (cfaces (child c P)) (gk c LF)) l) =
      count_occ feq2 (map canon (flat_map (pfaces FL) l)) (canon LF)).
    { induction l as [|P l IH]; intros Hl; [reflexivity|]. cbn [map flat_map].
      change (list_sum (?a :: ?b)) with (a + list_sum b). rewrite IH by (intros z Hz; apply Hl; right; assumption).
      rewrite map_app, count_occ_app. f_equal.
      assert (HP : In P CH) by (apply Hl; left; reflexivity).
      rewrite (count_perm _ _ _ (HR1 c P Hc HP)). apply count_occ_map_eq. intros z Hz. split.
      - intros E. apply (same_cell c); auto; [eapply pfaces_incl; eauto|].
        apply gk_perm; auto. eapply pfaces_incl; eauto.
      - apply gk_canon. }
    apply G. intros z; auto.
  Qed.

  Lemma child_inc_zero c k : In c C ->
    (forall P LF, In P CH -> In LF (pfaces FL P) -> gk c LF <> k) -> child_inc c k = 0.
  Proof.
    intros Hc H. unfold child_inc.
    assert (G : forall l, incl l CH -> list_sum (map (fun P => count_occ feq (cfaces (child c P)) k) l) = 0).
    { induction l as [|P l IH]; intros Hl; [reflexivity|]. cbn [map].
      change (list_sum (?a :: ?b)) with (a + list_sum b). rewrite IH by (intros z Hz; apply Hl; right; assumption).
      assert (HP : In P CH) by (apply Hl; left; reflexivity).
      rewrite (count_perm _ _ _ (HR1 c P Hc HP)). rewrite (proj1 (count_occ_not_In feq _ _)); [reflexivity|].
      intros K. apply in_map_iff in K as (LF & E & HLF). eapply H; eauto. }
    apply G. intros z; auto.
  Qed.

  (** inner faces have two owners *)
  Lemma inner_count c0 I : In c0 C -> In I INN -> incidences feq cfaces children (gk c0 I) = 2.
  Proof.
    intros Hc HI. rewrite incid_children. destruct (po_inn _ _ _ _ _ PO I HI) as (N & Hf & HL).
    apply (list_sum_single _ C c0); auto.
    - rewrite child_inc_same; auto.
    - intros c Hc' Nc. apply child_inc_zero; auto. intros P LF HP HLF E. apply Nc.
      symmetry. apply (full_cell c0 c I LF); auto.
      + eapply pfaces_incl; eauto.
      + apply gk_perm; auto. eapply pfaces_incl; eauto.
  Qed.

  Lemma face_sub_supp f SP : In f F -> In SP SUB -> exists c phi, In c C /\ In phi FL /\ f = lab c phi /\
    gk f SP = gk c (up phi SP) /\ incl (up phi SP) (concat CH).
  Proof.
    intros Hf HS. destruct (Hown f Hf) as (c & Hc & Hfc). rewrite (HCF c Hc) in Hfc.
    apply in_map_iff in Hfc as (phi & E & Hphi). exists c, phi. repeat split; auto.
    - rewrite <- E. apply gk_face; auto.
    - apply (po_sub _ _ _ _ _ PO phi SP); auto.
  Qed.

  Lemma lab_supp c phi SP x : In phi FL -> In SP SUB ->
    In x (map (fun i => nth i c 0) (concat (up phi SP))) <-> In x (lab c phi).
  Proof.
    intros Hphi HS. destruct (po_sub _ _ _ _ _ PO phi SP Hphi HS) as (_ & H & _). unfold lab.
    rewrite !in_map_iff. split; intros (i & E & Hi); exists i; (split; [exact E|]); apply H; exact Hi.
  Qed.

  Lemma lab_nodup c phi : In c C -> In phi FL -> NoDup (lab c phi) /\ length (lab c phi) < q.
  Proof.
    intros Hc Hphi. destruct (HC c Hc) as [L ND]. destruct (po_fl _ _ _ _ _ PO phi Hphi) as (H1 & H2 & H3 & _).
    unfold lab. rewrite map_length. split; [|exact H1]. apply map_nodup_on; [|exact H2].
    intros i j Hi Hj. apply nth_inj; auto; rewrite L; auto.
  Qed.

  Lemma face_eq_of_set c c' phi psi : In c C -> In c' C -> In phi FL -> In psi FL ->
    (forall x, In x (lab c phi) <-> In x (lab c' psi)) -> lab c phi = lab c' psi.
  Proof.
    intros Hc Hc' Hp Hs H. apply (sorted_unique_ext Nat.ltb nat_ltb_sto); [| |exact H].
    - apply HFs. apply (Hin c Hc). rewrite (HCF c Hc). apply in_map. exact Hp.
    - apply HFs. apply (Hin c' Hc'). rewrite (HCF c' Hc'). apply in_map. exact Hs.
  Qed.

  Lemma face_no_full c c' phi I : In c C -> In c' C -> In phi FL -> incl I (concat CH) ->
    (forall i, i < q -> In i (concat I)) ->
    (forall x, In x (lab c phi) <-> In x (map (fun i => nth i c' 0) (concat I))) -> False.
  Proof.
    intros Hc Hc' Hp HI Hf H. destruct (lab_nodup c phi Hc Hp) as [ND L]. destruct (HC c' Hc') as [L' ND'].
    enough (length c' <= length (lab c phi)) by lia. apply NoDup_incl_length; [exact ND'|].
    intros x Hx. apply H. apply in_cell_nth in Hx as (i & Hi & <-); auto.
    apply (in_map (fun i => nth i c' 0)). apply Hf. exact Hi.
  Qed.

  (** the children of [c] touch a piece of face [f] only if [f] is a face of [c] *)
  Lemma sub_only f SP c P LF : In f F -> In SP SUB -> In c C -> In P CH -> In LF (pfaces FL P) ->
    gk c LF = gk f SP -> In f (cfaces c).
  Proof.
    intros Hf HS Hc HP HLF E. destruct (face_sub_supp f SP Hf HS) as (c1 & phi & Hc1 & Hphi & Ef & Ek & HU).
    rewrite Ek in E. assert (HLi : incl LF (concat CH)) by (eapply pfaces_incl; eauto).
    pose proof (gk_perm c c1 LF (up phi SP) Hc Hc1 HLi HU E) as Pm.
    pose proof (supp_eq _ _ _ _ Pm) as Sp.
    assert (Sp' : forall x, In x (lab c1 phi) <-> In x (map (fun i => nth i c 0) (concat LF))).
    { intros x. rewrite Sp. symmetry. apply lab_supp; auto. }
    destruct (po_face _ _ _ _ _ PO P LF HP HLF) as [(I & HI & EI)|(psi & SP' & Hpsi & HS' & EI)].
    - exfalso. destruct (po_inn _ _ _ _ _ PO I HI) as (_ & Hfull & HIi).
      apply (face_no_full c1 c phi I); auto. intros x. rewrite Sp'. apply canon_iff in EI.
      rewrite !in_map_iff. split; intros (i & Ei & Hi); exists i; (split; [exact Ei|]);
        apply (perm_concat _ _ EI); exact Hi.
    - rewrite (HCF c Hc). rewrite Ef. apply in_map_iff. exists psi. split; [|exact Hpsi].
      apply face_eq_of_set; auto. intros x. rewrite Sp'. rewrite <- (lab_supp c psi SP') by auto.
      apply canon_iff in EI. rewrite !in_map_iff. split; intros (i & Ei & Hi); exists i; (split; [exact Ei|]);
        apply (perm_concat _ _ EI); exact Hi.
  Qed.

  Lemma cfaces_nodup c : In c C -> NoDup (cfaces c).
  Proof.
    intros Hc. rewrite (HCF c Hc). apply map_nodup_on; [|apply (po_nd_fl _ _ _ _ _ PO)].
    intros phi psi Hp Hs E. destruct (HC c Hc) as [L ND]. revert E. unfold lab. apply map_inj_on.
    intros i j Hi Hj. apply nth_inj; auto; rewrite L.
    - apply (po_fl _ _ _ _ _ PO phi Hp). exact Hi.
    - apply (po_fl _ _ _ _ _ PO psi Hs). exact Hj.
  Qed.

  (** pieces of a face have as many owners as the face *)
  Lemma sub_count f SP : In f F -> In SP SUB ->
    incidences feq cfaces children (gk f SP) = incidences feq cfaces C f.
  Proof.
    intros Hf HS. rewrite incid_children. unfold incidences. f_equal. apply map_ext_in. intros c Hc.
    destruct (in_dec feq f (cfaces c)) as [H|H].
    - rewrite (proj1 (NoDup_count_occ' feq (cfaces c)) (cfaces_nodup c Hc) f H).
      rewrite (HCF c Hc) in H. apply in_map_iff in H as (phi & E & Hphi). rewrite <- E.
      rewrite gk_face by auto. destruct (po_sub _ _ _ _ _ PO phi SP Hphi HS) as (N & _ & HU).
      rewrite child_inc_same; auto.
    - rewrite (proj1 (count_occ_not_In feq _ _) H). apply child_inc_zero; auto.
      intros P LF HP HLF E. apply H. eapply sub_only; eauto.
  Qed.

  (** every face of a child is one of the new faces *)
  Lemma child_faces_new c P f : In c C -> In P CH -> In f (cfaces (child c P)) -> In f new_faces.
  Proof.
    intros Hc HP Hf. apply (Permutation_in _ (HR1 c P Hc HP)) in Hf.
    apply in_map_iff in Hf as (LF & <- & HLF). unfold new_faces. apply in_app_iff.
    destruct (po_face _ _ _ _ _ PO P LF HP HLF) as [(I & HI & EI)|(psi & SP' & Hpsi & HS' & EI)].
    - right. apply in_flat_map. exists c. split; [exact Hc|]. rewrite (gk_canon c _ _ EI). apply in_map. exact HI.
    - left. apply in_flat_map. exists (lab c psi). split.
      + apply (Hin c Hc). rewrite (HCF c Hc). apply in_map. exact Hpsi.
      + rewrite (gk_canon c _ _ EI), <- gk_face by auto. apply in_map. exact HS'.
  Qed.

  Lemma new_faces_nodup : NoDup new_faces.
  Proof.
    unfold new_faces. apply nodup_app.
    - apply nodup_flat_map; [exact HFn| |].
      + intros f Hf. destruct (Hown f Hf) as (c & Hc & Hfc). rewrite (HCF c Hc) in Hfc.
        apply in_map_iff in Hfc as (phi & E & Hphi). rewrite <- E.
        pose proof (po_nd_sub _ _ _ _ _ PO phi Hphi) as ND. rewrite map_map in ND.
        apply map_nodup_on; [|exact (NoDup_map_inv _ _ ND)].
        intros a b Ha Hb Eab. rewrite !gk_face in Eab by auto.
        assert (K : canon (up phi a) = canon (up phi b)).
        { apply (same_cell c); auto; try (apply (po_sub _ _ _ _ _ PO phi); auto).
          apply gk_perm; auto; apply (po_sub _ _ _ _ _ PO phi); auto. }
        clear - ND Ha Hb K. induction SUB as [|z l IH]; [destruct Ha|]. cbn [map] in ND. inversion ND as [|? ? N1 N2]; subst.
        destruct Ha as [->|Ha], Hb as [->|Hb]; auto.
        * exfalso. apply N1. rewrite K. apply (in_map (fun x => canon (up phi x))). exact Hb.
        * exfalso. apply N1. rewrite <- K. apply (in_map (fun x => canon (up phi x))). exact Ha.
      + intros f f' k Hf Hf' Hk Hk'. apply in_map_iff in Hk as (SP & E & HS), Hk' as (SP' & E' & HS').
        destruct (face_sub_supp f SP Hf HS) as (c & phi & Hc & Hphi & Ef & Ek & HU).
        destruct (face_sub_supp f' SP' Hf' HS') as (c' & phi' & Hc' & Hphi' & Ef' & Ek' & HU').
        rewrite Ef, Ef'. apply face_eq_of_set; auto. intros x.
        rewrite <- (lab_supp c phi SP), <- (lab_supp c' phi' SP') by auto.
        apply supp_eq. apply gk_perm; auto. congruence.
    - apply nodup_flat_map; [exact HCn| |].
      + intros c Hc. pose proof (po_nd_inn _ _ _ _ _ PO) as ND.
        apply map_nodup_on; [|exact (NoDup_map_inv _ _ ND)].
        intros a b Ha Hb Eab.
        assert (K : canon a = canon b).
        { apply (same_cell c); auto; try (apply (po_inn _ _ _ _ _ PO); auto).
          apply gk_perm; auto; apply (po_inn _ _ _ _ _ PO); auto. }
        clear - ND Ha Hb K. induction INN as [|z l IH]; [destruct Ha|]. cbn [map] in ND. inversion ND as [|? ? N1 N2]; subst.
        destruct Ha as [->|Ha], Hb as [->|Hb]; auto.
        * exfalso. apply N1. rewrite K. apply in_map. exact Hb.
        * exfalso. apply N1. rewrite <- K. apply in_map. exact Ha.
      + intros c c' k Hc Hc' Hk Hk'. apply in_map_iff in Hk as (I & E & HI), Hk' as (I' & E' & HI').
        destruct (po_inn _ _ _ _ _ PO I HI) as (_ & Hfull & HIi). destruct (po_inn _ _ _ _ _ PO I' HI') as (_ & _ & HIi').
        apply (full_cell c c' I I'); auto. apply gk_perm; auto. congruence.
    - intros k Hk Hk'. apply in_flat_map in Hk as (f & Hf & Hk), Hk' as (c & Hc & Hk').
      apply in_map_iff in Hk as (SP & E & HS), Hk' as (I & E' & HI).
      destruct (face_sub_supp f SP Hf HS) as (c1 & phi & Hc1 & Hphi & Ef & Ek & HU).
      destruct (po_inn _ _ _ _ _ PO I HI) as (_ & Hfull & HIi).
      apply (face_no_full c1 c phi I); auto. intros x. rewrite <- (lab_supp c1 phi SP) by auto.
      apply supp_eq. apply gk_perm; auto. congruence.
  Qed.

  (** distinct children have distinct vertex sets *)
  Lemma child_nodup c P : In c C -> In P CH -> NoDup (child c P) /\ length (child c P) = q.
  Proof.
    intros Hc HP. destruct (po_len _ _ _ _ _ PO P HP) as [L ND]. unfold child. split.
    - eapply Permutation_NoDup; [apply Permutation_sym, Hmk|]. rewrite gids_lab.
      apply map_nodup_on; [|apply map_nodup_on; [|exact ND]].
      + intros x y Hx Hy. apply in_map_iff in Hx as (l & <- & Hl). apply in_map_iff in Hy as (l' & <- & Hl').
        apply Hid; apply Hlab; auto; apply (ch_incl P); auto.
      + intros x y Hx Hy. apply lab_inj; auto; apply (ch_incl P); auto.
    - rewrite (Permutation_length (Hmk _)). unfold gids. rewrite map_length. exact L.
  Qed.

  Lemma child_set_eq c c' P P' : In c C -> In c' C -> In P CH -> In P' CH ->
    same_set (child c P) (child c' P') -> c = c' /\ P = P'.
  Proof.
    intros Hc Hc' HP HP' H. destruct (child_nodup c P Hc HP) as [ND _], (child_nodup c' P' Hc' HP') as [ND' _].
    assert (Pm : Permutation (child c P) (child c' P')) by (apply NoDup_Permutation; auto).
    unfold child in Pm. rewrite !Hmk in Pm.
    apply gids_perm in Pm; auto; try (apply ch_incl; assumption).
    assert (c = c').
    { eapply full_cell; [exact Hc|exact Hc'| | | |exact Pm]; try (apply ch_incl; assumption).
      intros i Hi. apply (po_full _ _ _ _ _ PO P); auto. }
    subst c'. split; [reflexivity|]. apply same_cell in Pm; auto; try (apply ch_incl; assumption).
    pose proof (po_nd_ch _ _ _ _ _ PO) as N. clear - N HP HP' Pm.
    induction CH as [|z l IH]; [destruct HP|]. cbn [map] in N. inversion N as [|? ? N1 N2]; subst.
    destruct HP as [->|HP], HP' as [->|HP']; auto.
    - exfalso. apply N1. rewrite Pm. apply in_map. exact HP'.
    - exfalso. apply N1. rewrite <- Pm. apply in_map. exact HP.
  Qed.

  Lemma children_nodup : NoDup children.
  Proof.
    unfold children. apply nodup_flat_map; [exact HCn| |].
    - intros c Hc. apply map_nodup_on; [|exact (NoDup_map_inv _ _ (po_nd_ch _ _ _ _ _ PO))].
      intros P P' HP HP' E. apply (child_set_eq c c P P'); auto. rewrite E. intros x; reflexivity.
    - intros c c' k Hc Hc' Hk Hk'. apply in_map_iff in Hk as (P & E & HP), Hk' as (P' & E' & HP').
      apply (child_set_eq c c' P P'); auto. rewrite E, E'. intros x; reflexivity.
  Qed.

  Lemma children_set k k' : In k children -> In k' children -> same_set k k' -> k = k'.
  Proof.
    unfold children. intros Hk Hk' H. apply in_flat_map in Hk as (c & Hc & Hk), Hk' as (c' & Hc' & Hk').
    apply in_map_iff in Hk as (P & <- & HP), Hk' as (P' & <- & HP').
    destruct (child_set_eq c c' P P') as [-> ->]; auto.
  Qed.

  Lemma children_length : length children = length C * length CH.
  Proof.
    unfold children. clear. induction C as [|c l IH]; [reflexivity|]. cbn [flat_map length].
    rewrite app_length, map_length, IH. lia.
  Qed.

  (** keys are strictly increasing *)
  Lemma gk_sorted c LF : In c C -> incl LF (concat CH) -> NoDup LF -> sorted_unique Nat.ltb (gk c LF).
  Proof.
    intros Hc HL ND. apply sort_nodup_sorted; [apply nat_ltb_sto|]. rewrite gids_lab.
    apply map_nodup_on; [|apply map_nodup_on; [|exact ND]].
    - intros x y Hx Hy. apply in_map_iff in Hx as (l & <- & Hl). apply in_map_iff in Hy as (l' & <- & Hl').
      apply Hid; apply Hlab; auto.
    - intros x y Hx Hy. apply lab_inj; auto.
  Qed.
End Refine.

(** ** Conforming complexes *)
(** [n] vertices, faces [F] with descriptors [B], cells [C]. *)
Record conf (q : nat) (FL : list (list nat)) (cfaces : list nat -> list (list nat))
    (n : nat) (F : list (list nat)) (B : list bdesc) (C : list (list nat)) : Prop := {
  cf_C : forall c, In c C -> length c = q /\ NoDup c /\ (forall v, In v c -> v < n);
  cf_faces : forall c, In c C -> cfaces c = map (lab c) FL;
  cf_in : forall c, In c C -> incl (cfaces c) F;
  cf_Fs : sorted_unique lex_ltb F;
  cf_sorted : forall f, In f F -> sorted_unique Nat.ltb f;
  cf_Cs : sorted_unique lex_ltb C;
  cf_set : forall c c', In c C -> In c' C -> same_set c c' -> c = c';
  cf_len : length B = length F;
  cf_own : forall i f d, nth_error F i = Some f -> nth_error B i = Some d ->
     incidences feq cfaces C f = if bd_is_b d then 1 else 2
}.

Lemma lex_nodup (l : list (list nat)) : sorted_unique lex_ltb l -> NoDup l.
Proof.
  induction 1 as [|x l S IH HF]; constructor; auto. intros H. rewrite Forall_forall in HF.
  specialize (HF _ H). rewrite (sto_irrefl _ lex_ltb_sto) in HF. discriminate.
Qed.

Lemma incid_pos (fo : list nat -> list (list nat)) C f : 0 < incidences feq fo C f -> exists c, In c C /\ In f (fo c).
Proof.
  unfold incidences. induction C as [|c C IH]; [cbn; lia|]. cbn [map].
  change (list_sum (?a :: ?b)) with (a + list_sum b). intros H.
  destruct (in_dec feq f (fo c)) as [K|K].
  - exists c. split; [left; reflexivity|exact K].
  - rewrite (proj1 (count_occ_not_In feq _ _) K) in H. destruct IH as (c' & H1 & H2); [lia|].
    exists c'. split; [right; exact H1|exact H2].
Qed.

Section ConfStep.
  Variables (q : nat) (FL : list (list nat)) (CH SUB INN : list (list (list nat))).
  Hypothesis PO : pattern_ok q FL CH SUB INN.
  Variable cfaces : list nat -> list (list nat).
  Variable id : list nat -> nat.
  Variable mk : list nat -> list nat.
  Variables (n n' : nat) (F : list (list nat)) (B : list bdesc) (C : list (list nat)).
  Hypothesis K : conf q FL cfaces n F B C.
  Variable Lab : list nat -> Prop.
  Hypothesis Hlab : forall c loc, In c C -> In loc (concat CH) -> Lab (lab c loc).
  Hypothesis Hid : forall l l', Lab l -> Lab l' -> id l = id l' -> l = l'.
  Hypothesis Hidn : forall l, Lab l -> id l < n'.
  Hypothesis Hmk : forall l, Permutation (mk l) l.
  Hypothesis HR1 : forall c P, In c C -> In P CH ->
    Permutation (cfaces (child id mk c P)) (map (gk id c) (pfaces FL P)).
  Hypothesis HR2 : forall c P, In c C -> In P CH ->
    cfaces (child id mk c P) = map (lab (child id mk c P)) FL.
  Hypothesis Hsub : forall SP, In SP SUB -> NoDup SP.
  Hypothesis Hinn : forall I, In I INN -> NoDup I.
  Hypothesis Hup : forall phi SP, In phi FL -> In SP SUB -> NoDup (up phi SP).

  Variables (F' : list (list nat)) (B' : list bdesc) (C' : list (list nat)).
  Hypothesis HF' : sorted_unique lex_ltb F'.
  Hypothesis HFset : same_set F' (new_faces SUB INN id F C).
  Hypothesis HB' : length B' = length F'.
  Hypothesis HC' : sorted_unique lex_ltb C'.
  Hypothesis HCp : Permutation C' (children CH id mk C).
  Hypothesis HBd : forall i f d, nth_error F' i = Some f -> nth_error B' i = Some d ->
    (exists j g SP d', nth_error F j = Some g /\ nth_error B j = Some d' /\ In SP SUB /\ f = gk id g SP /\ bd_is_b d = bd_is_b d') \/
    (exists c I, In c C /\ In I INN /\ f = gk id c I /\ bd_is_b d = false).

  Let HC0 : forall c, In c C -> length c = q /\ NoDup c.
  Proof. intros c Hc. destruct (cf_C _ _ _ _ _ _ _ K c Hc) as (H1 & H2 & _). auto. Qed.

  Let Hown : forall f, In f F -> exists c, In c C /\ In f (cfaces c).
  Proof.
    intros f Hf. apply In_nth_error in Hf as (i & Hi).
    assert (i < length B). { rewrite (cf_len _ _ _ _ _ _ _ K). apply nth_error_Some. congruence. }
    destruct (nth_error B i) as [d|] eqn:Ed; [|apply nth_error_None in Ed; lia].
    pose proof (cf_own _ _ _ _ _ _ _ K i f d Hi Ed) as H'. apply incid_pos. destruct (bd_is_b d); lia.
  Qed.

  Lemma conf_step : conf q FL cfaces n' F' B' C'.
  Proof.
    pose proof (cf_faces _ _ _ _ _ _ _ K) as Hcf. pose proof (cf_in _ _ _ _ _ _ _ K) as Hin.
    pose proof (lex_nodup _ (cf_Fs _ _ _ _ _ _ _ K)) as HFn. pose proof (cf_sorted _ _ _ _ _ _ _ K) as HFs.
    pose proof (lex_nodup _ (cf_Cs _ _ _ _ _ _ _ K)) as HCn. pose proof (cf_set _ _ _ _ _ _ _ K) as Hset.
    assert (Hch : forall c, In c C' -> exists c0 P, In c0 C /\ In P CH /\ c = child id mk c0 P).
    { intros c Hc. apply (Permutation_in _ HCp) in Hc. unfold children in Hc. apply in_flat_map in Hc as (c0 & H0 & Hc).
      apply in_map_iff in Hc as (P & E & HP). exists c0, P. auto. }
    constructor.
    - intros c Hc. destruct (Hch c Hc) as (c0 & P & Hc0 & HP & ->).
      destruct (child_nodup q FL CH SUB INN PO id mk C Lab HC0 Hlab Hid Hmk c0 P Hc0 HP) as [ND L].
      split; [exact L|]. split; [exact ND|]. intros v Hv. unfold child in Hv. apply (Permutation_in _ (Hmk _)) in Hv.
      unfold gids in Hv. apply in_map_iff in Hv as (loc & <- & Hl). apply Hidn, Hlab; auto. apply in_concat. eauto.
    - intros c Hc. destruct (Hch c Hc) as (c0 & P & Hc0 & HP & ->). apply HR2; assumption.
    - intros c Hc. destruct (Hch c Hc) as (c0 & P & Hc0 & HP & ->). intros f Hf. apply HFset.
      eapply child_faces_new; eauto.
    - exact HF'.
    - intros f Hf. apply HFset in Hf. unfold new_faces in Hf. apply in_app_iff in Hf as [Hf|Hf].
      + apply in_flat_map in Hf as (g & Hg & Hf). apply in_map_iff in Hf as (SP & <- & HS).
        destruct (face_sub_supp q FL CH SUB INN PO cfaces id F C Hcf Hown g SP Hg HS) as (c & phi & Hc & Hphi & _ & -> & HU).
        eapply (gk_sorted q FL CH SUB INN PO id C Lab); eauto.
      + apply in_flat_map in Hf as (c & Hc & Hf). apply in_map_iff in Hf as (I & <- & HI).
        eapply (gk_sorted q FL CH SUB INN PO id C Lab); eauto. apply (po_inn _ _ _ _ _ PO I HI).
    - exact HC'.
    - intros c c' Hc Hc' Hs. apply (Permutation_in _ HCp) in Hc. apply (Permutation_in _ HCp) in Hc'.
      exact (children_set q FL CH SUB INN PO id mk C Lab HC0 Hset Hlab Hid Hmk c c' Hc Hc' Hs).
    - exact HB'.
    - intros i f d Hf Hd. rewrite (incid_perm cfaces _ _ f HCp).
      destruct (HBd i f d Hf Hd) as [(j & g & SP & d' & Hg & Hd' & HS & -> & Eb)|(c & I & Hc & HI & -> & Eb)].
      + rewrite Eb. rewrite <- (cf_own _ _ _ _ _ _ _ K j g d' Hg Hd').
        apply (sub_count q FL CH SUB INN PO cfaces id mk F C Lab); auto. eapply nth_error_In; eauto.
      + rewrite Eb. apply (inner_count q FL CH SUB INN PO cfaces id mk C Lab); auto.
  Qed.
End ConfStep.

(** ** Checking a pattern by computation *)
Definition dec {P Q : Prop} (d : {P} + {Q}) : bool := if d then true else false.
Lemma dec_true {P Q : Prop} (d : {P} + {Q}) : dec d = true -> P.
Proof. destruct d; [auto|discriminate]. Qed.
Definition nodupb {A} (eq : forall a b : A, {a = b} + {a <> b}) (l : list A) : bool :=
  forallb (fun a => count_occ eq l a =? 1) l.
Lemma nodupb_ok {A} (eq : forall a b : A, {a = b} + {a <> b}) l : nodupb eq l = true -> NoDup l.
Proof.
  intros H. apply (NoDup_count_occ' eq). intros x Hx. unfold nodupb in H. rewrite forallb_forall in H.
  apply Nat.eqb_eq. apply H. exact Hx.
Qed.
Definition inb (i : nat) (l : list nat) : bool := existsb (Nat.eqb i) l.
Lemma inb_ok i l : inb i l = true <-> In i l.
Proof.
  unfold inb. rewrite existsb_exists. split; [intros (x & H & E); apply Nat.eqb_eq in E; subst; exact H|].
  intros H. exists i. split; [exact H|apply Nat.eqb_refl].
Qed.
Definition inlb (l : list nat) (L : list (list nat)) : bool := dec (in_dec feq l L).

Section Check.
  Variables (q : nat) (FL : list (list nat)) (CH SUB INN : list (list (list nat))).
  Definition pattern_okb : bool :=
    forallb (fun P => (length P =? q) && nodupb feq P &&
       forallb (fun loc => forallb (fun i => i <? q) loc) P &&
       forallb (fun i => inb i (concat P)) (seq 0 q) &&
       forallb (fun LF => existsb (fun I => dec (feq2 (canon LF) (canon I))) INN ||
                          existsb (fun phi => existsb (fun SP => dec (feq2 (canon LF) (canon (up phi SP)))) SUB) FL)
               (pfaces FL P)) CH &&
    forallb (fun I => (lcount FL CH I =? 2) && forallb (fun i => inb i (concat I)) (seq 0 q) &&
       forallb (fun loc => inlb loc (concat CH)) I && nodupb feq I) INN &&
    forallb (fun phi => forallb (fun SP => (lcount FL CH (up phi SP) =? 1) &&
         forallb (fun i => inb i (concat (up phi SP))) phi && forallb (fun i => inb i phi) (concat (up phi SP)) &&
         forallb (fun loc => inlb loc (concat CH)) (up phi SP) && nodupb feq (up phi SP) &&
         forallb (fun loc => forallb (fun i => i <? length phi) loc) SP) SUB &&
       nodupb feq2 (map canon (map (up phi) SUB)) &&
       (length phi <? q) && nodupb Nat.eq_dec phi && forallb (fun i => i <? q) phi) FL &&
    nodupb feq2 (map canon INN) && nodupb feq2 (map canon CH) && nodupb feq FL.

  Hypothesis H : pattern_okb = true.
  Lemma pattern_check : pattern_ok q FL CH SUB INN /\
    (forall I, In I INN -> NoDup I) /\ (forall phi SP, In phi FL -> In SP SUB -> NoDup (up phi SP)).
  Proof.
    unfold pattern_okb in H. rewrite !andb_true_iff in H. destruct H as (((((H1 & H2) & H3) & H4) & H5) & H6). clear H.
    rewrite !forallb_forall in *.
    assert (A1 : forall P, In P CH -> length P = q /\ NoDup P /\ (forall loc i, In loc P -> In i loc -> i < q) /\
       (forall i, i < q -> In i (concat P)) /\ (forall LF, In LF (pfaces FL P) ->
         (exists I, In I INN /\ canon LF = canon I) \/
         (exists phi SP, In phi FL /\ In SP SUB /\ canon LF = canon (up phi SP)))).
    { intros P HP. specialize (H1 P HP). rewrite !andb_true_iff in H1. destruct H1 as ((((B1 & B2) & B3) & B4) & B5).
      rewrite !forallb_forall in *. split; [apply Nat.eqb_eq, B1|]. split; [apply nodupb_ok in B2; exact B2|].
      split; [|split].
      - intros loc i Hl Hi. specialize (B3 loc Hl). rewrite forallb_forall in B3. apply Nat.ltb_lt, B3, Hi.
      - intros i Hi. apply inb_ok, B4. apply in_seq. lia.
      - intros LF HLF. specialize (B5 LF HLF). apply orb_true_iff in B5 as [B5|B5].
        + left. apply existsb_exists in B5 as (I & HI & E). apply dec_true in E. exists I. auto.
        + right. apply existsb_exists in B5 as (phi & Hphi & E). apply existsb_exists in E as (SP & HS & E).
          apply dec_true in E. exists phi, SP. auto. }
    assert (A2 : forall I, In I INN -> lcount FL CH I = 2 /\ (forall i, i < q -> In i (concat I)) /\ incl I (concat CH) /\ NoDup I).
    { intros I HI. specialize (H2 I HI). rewrite !andb_true_iff in H2. destruct H2 as (((B1 & B2) & B3) & B4).
      rewrite !forallb_forall in *. split; [apply Nat.eqb_eq, B1|]. split; [|split].
      - intros i Hi. apply inb_ok, B2. apply in_seq. lia.
      - intros loc Hl. specialize (B3 loc Hl). unfold inlb in B3. apply dec_true in B3. exact B3.
      - apply nodupb_ok in B4; exact B4. }
    assert (A3 : forall phi, In phi FL -> (forall SP, In SP SUB -> (lcount FL CH (up phi SP) = 1 /\
        (forall i, In i phi <-> In i (concat (up phi SP))) /\ incl (up phi SP) (concat CH)) /\ NoDup (up phi SP) /\
        (forall loc i, In loc SP -> In i loc -> i < length phi)) /\
        NoDup (map canon (map (up phi) SUB)) /\ length phi < q /\ NoDup phi /\ (forall i, In i phi -> i < q)).
    { intros phi Hphi. specialize (H3 phi Hphi). rewrite !andb_true_iff in H3. destruct H3 as ((((B1 & B2) & B3) & B4) & B5).
      rewrite !forallb_forall in *. split; [|split; [apply nodupb_ok in B2; exact B2|split; [apply Nat.ltb_lt, B3|split; [apply nodupb_ok in B4; exact B4|]]]].
      - intros SP HS. specialize (B1 SP HS). rewrite !andb_true_iff in B1. destruct B1 as (((((D1 & D2) & D3) & D4) & D5) & D6).
        rewrite !forallb_forall in *. split; [split; [apply Nat.eqb_eq, D1|split]|split].
        + intros i. split; intros Hi; apply inb_ok; [apply D2|apply D3]; exact Hi.
        + intros loc Hl. specialize (D4 loc Hl). unfold inlb in D4. apply dec_true in D4. exact D4.
        + apply nodupb_ok in D5; exact D5.
        + intros loc i Hl Hi. specialize (D6 loc Hl). rewrite forallb_forall in D6. apply Nat.ltb_lt, D6, Hi.
      - intros i Hi. apply Nat.ltb_lt, B5, Hi. }
    split; [constructor|split].
    - intros P loc i HP. apply (A1 P HP).
    - intros P HP. destruct (A1 P HP) as (? & ? & _). auto.
    - intros P LF HP. apply (A1 P HP).
    - intros I HI. destruct (A2 I HI) as (? & ? & ? & _). auto.
    - intros phi SP Hphi HS. apply (A3 phi Hphi). exact HS.
    - apply nodupb_ok in H4; exact H4.
    - intros phi Hphi. apply (A3 phi Hphi).
    - apply nodupb_ok in H5; exact H5.
    - intros P i HP. apply (A1 P HP).
    - intros phi Hphi. destruct (A3 phi Hphi) as (B & _ & ? & ? & ?). repeat split; auto.
      intros SP loc i HS. apply (B SP HS).
    - apply nodupb_ok in H6; exact H6.
    - intros I HI. apply (A2 I HI).
    - intros phi SP Hphi HS. apply (A3 phi Hphi). exact HS.
  Qed.
End Check.

(** ** Checking a concrete complex by computation *)
Definition chainb {E} (ltb : E -> E -> bool) : list E -> bool :=
  fix go l := match l with
  | x :: ((y :: _) as r) => ltb x y && go r
  | _ => true
  end.
Lemma chainb_ok {E} (ltb : E -> E -> bool) (O : strict_total_order ltb) l : chainb ltb l = true -> sorted_unique ltb l.
Proof.
  induction l as [|x l IH]; intros H; [constructor|]. destruct l as [|y l]; [repeat constructor|].
  cbn in H. apply andb_true_iff in H as [H1 H2]. specialize (IH H2). constructor; [exact IH|].
  inversion IH as [|? ? H3 H4]; subst. constructor; [exact H1|]. eapply Forall_impl; [|exact H4].
  intros z Hz. eapply (sto_trans _ O); eauto.
Qed.

Section ConfCheck.
  Variables (q : nat) (FL : list (list nat)) (cfaces : list nat -> list (list nat))
    (n : nat) (F : list (list nat)) (B : list bdesc) (C : list (list nat)).
  Definition confb : bool :=
    forallb (fun c => (length c =? q) && nodupb Nat.eq_dec c && forallb (fun v => v <? n) c &&
      dec (feq2 (cfaces c) (map (lab c) FL)) && forallb (fun f => inlb f F) (cfaces c) &&
      forallb (fun c' => dec (feq c c') || negb (forallb (fun v => inb v c') c)) C) C &&
    chainb lex_ltb F && forallb (chainb Nat.ltb) F && chainb lex_ltb C && (length B =? length F) &&
    forallb (fun fd => incidences feq cfaces C (fst fd) =? (if bd_is_b (snd fd) then 1 else 2)) (combine F B).

  Lemma conf_check : confb = true -> conf q FL cfaces n F B C.
  Proof.
    unfold confb. rewrite !andb_true_iff. intros (((((H1 & H2) & H3) & H4) & H5) & H6).
    rewrite forallb_forall in H1, H3, H6.
    assert (A : forall c, In c C -> (length c = q /\ NoDup c /\ (forall v, In v c -> v < n)) /\ cfaces c = map (lab c) FL /\
       incl (cfaces c) F /\ (forall c', In c' C -> same_set c c' -> c = c')).
    { intros c Hc. specialize (H1 c Hc). rewrite !andb_true_iff in H1. destruct H1 as (((((B1 & B2) & B3) & B4) & B5) & B6).
      rewrite forallb_forall in B3, B5, B6. split; [|split; [|split]].
      - split; [apply Nat.eqb_eq, B1|]. split; [apply nodupb_ok in B2; exact B2|].
        intros v Hv. apply Nat.ltb_lt, B3, Hv.
      - apply dec_true in B4. exact B4.
      - intros f Hf. specialize (B5 f Hf). unfold inlb in B5. apply dec_true in B5. exact B5.
      - intros c' Hc' S. specialize (B6 c' Hc'). apply orb_true_iff in B6 as [B6|B6]; [apply dec_true in B6; exact B6|].
        exfalso. apply negb_true_iff in B6. rewrite <- not_true_iff_false in B6. apply B6. apply forallb_forall.
        intros v Hv. apply inb_ok, S, Hv. }
    constructor.
    - intros c Hc. apply (A c Hc).
    - intros c Hc. apply (A c Hc).
    - intros c Hc. apply (A c Hc).
    - apply chainb_ok; [apply lex_ltb_sto|exact H2].
    - intros f Hf. apply chainb_ok; [apply nat_ltb_sto|apply H3; exact Hf].
    - apply chainb_ok; [apply lex_ltb_sto|exact H4].
    - intros c c' Hc. apply (A c Hc).
    - apply Nat.eqb_eq, H5.
    - intros i f d Hf Hd. apply Nat.eqb_eq. apply (H6 (f, d)). apply nth_error_In with i.
      clear - Hf Hd. revert F B Hf Hd. induction i as [|i IH]; intros [|x F] [|y B] Hf Hd; try discriminate; cbn in *.
      + congruence.
      + apply IH; assumption.
  Qed.
End ConfCheck.

(** ** Counting *)
Lemma list_sum_add {A} (f g : A -> nat) l : list_sum (map (fun x => f x + g x) l) = list_sum (map f l) + list_sum (map g l).
Proof.
  induction l as [|x l IH]; [reflexivity|]. cbn [map]. repeat change (list_sum (?a :: ?b)) with (a + list_sum b). lia.
Qed.
Lemma list_sum_zero {A} (l : list A) : list_sum (map (fun _ => 0) l) = 0.
Proof. induction l; [reflexivity|]. cbn [map]. change (list_sum (?a :: ?b)) with (a + list_sum b). lia. Qed.

Lemma sum_swap {A B} (g : A -> B -> nat) (l : list A) (m : list B) :
  list_sum (map (fun a => list_sum (map (g a) m)) l) = list_sum (map (fun b => list_sum (map (fun a => g a b) l)) m).
Proof.
  induction l as [|a l IH]; [cbn [map]; rewrite list_sum_zero; reflexivity|]. cbn [map].
  change (list_sum (?a :: ?b)) with (a + list_sum b). rewrite IH. rewrite <- list_sum_add. reflexivity.
Qed.

Lemma count_sum (L F : list (list nat)) : NoDup F -> NoDup L -> incl L F ->
  list_sum (map (fun f => count_occ feq L f) F) = length L.
Proof.
  intros NF. revert L. induction NF as [|f F Hf NF IH]; intros L NL Hi.
  - destruct L as [|x L]; [reflexivity|]. exfalso. apply (Hi x). left. reflexivity.
  - cbn [map]. change (list_sum (?a :: ?b)) with (a + list_sum b). destruct (in_dec feq f L) as [K|K].
    + apply in_split in K as (l1 & l2 & ->). assert (NL' := NoDup_remove_1 _ _ _ NL). pose proof (NoDup_remove_2 _ _ _ NL) as Nf.
      rewrite (proj1 (NoDup_count_occ' feq _) NL f) by (apply in_or_app; right; left; reflexivity).
      replace (list_sum (map (fun g => count_occ feq (l1 ++ f :: l2) g) F)) with (list_sum (map (fun g => count_occ feq (l1 ++ l2) g) F)).
      * rewrite IH; auto.
        -- rewrite !app_length. cbn. lia.
        -- intros x Hx. assert (Hx' : In x (l1 ++ f :: l2)) by (rewrite in_app_iff in *; cbn; tauto).
           destruct (Hi x Hx') as [<-|]; [contradiction|assumption].
      * f_equal. apply map_ext_in. intros g Hg. rewrite !count_occ_app. cbn.
        destruct (feq f g); [subst; contradiction|reflexivity].
    + rewrite (proj1 (count_occ_not_In feq _ _) K). cbn. apply IH; auto.
      intros x Hx. destruct (Hi x Hx) as [<-|]; [contradiction|assumption].
Qed.

Definition nbd (B : list bdesc) : nat := length (filter bd_is_b B).

(** handshake: faces counted from the cells *)
Lemma conf_count q FL cfaces n F B C : conf q FL cfaces n F B C ->
  (forall c, In c C -> NoDup (cfaces c) /\ length (cfaces c) = length FL) ->
  2 * length F = length FL * length C + nbd B.
Proof.
  intros K HN.
  assert (S1 : list_sum (map (incidences feq cfaces C) F) = length FL * length C).
  { unfold incidences. rewrite (sum_swap (fun f c => count_occ feq (cfaces c) f)).
    transitivity (list_sum (map (fun c => length FL) C)).
    - f_equal. apply map_ext_in. intros c Hc. destruct (HN c Hc) as [N L]. rewrite <- L. apply count_sum; auto.
      + apply lex_nodup, (cf_Fs _ _ _ _ _ _ _ K).
      + apply (cf_in _ _ _ _ _ _ _ K c Hc).
    - clear. induction C as [|c C IH]; [cbn; lia|]. cbn [map length]. change (list_sum (?a :: ?b)) with (a + list_sum b). lia. }
  assert (S2 : list_sum (map (incidences feq cfaces C) F) + nbd B = 2 * length F).
  { pose proof (cf_len _ _ _ _ _ _ _ K) as L. pose proof (cf_own _ _ _ _ _ _ _ K) as O. clear - L O.
    revert B L O. induction F as [|f F IH]; intros [|d B] L O; try discriminate; [reflexivity|].
    cbn [map length]. change (list_sum (?a :: ?b)) with (a + list_sum b). unfold nbd. cbn [filter].
    rewrite (O 0 f d eq_refl eq_refl). specialize (IH B ltac:(cbn in L; lia) (fun i f d Hf Hd => O (S i) f d Hf Hd)).
    unfold nbd in IH. destruct (bd_is_b d); cbn [length]; lia. }
  lia.
Qed.
