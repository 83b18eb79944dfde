From Coq Require Import List Arith Bool Lia.
From Verif Require Import Common Mesh_Model Mesh_Spec Mesh_Proofs Degree_Model Degree_Spec.
Import ListNotations.

Lemma c12_iff cd fd : c1 cd fd || c2 cd fd = true <-> cell_face_ok cd fd.
Proof.
  unfold c1, c2, cell_face_ok.
  destruct (Nat.ltb_spec 0 fd), (Nat.eqb_spec fd 0), (Nat.eqb_spec cd (fd - 1)), (Nat.eqb_spec cd fd),
    (Nat.eqb_spec cd (fd + 1)); cbn; split; intros; try discriminate; try reflexivity; lia.
Qed.

Lemma hdi_mixed_spec cd fd : admissible (hdi_mixed cd fd) /\ face_deg (hdi_mixed cd fd) = fd /\
  (cell_face_ok cd fd -> cell_deg (hdi_mixed cd fd) = cd) /\
  (~ cell_face_ok cd fd -> cell_deg (hdi_mixed cd fd) = fd).
Proof.
  unfold hdi_mixed. pose proof (c12_iff cd fd) as H. destruct (c1 cd fd || c2 cd fd).
  - assert (cell_face_ok cd fd) by tauto. unfold admissible, cell_face_ok in *. cbn. repeat split; try lia; tauto.
  - assert (~ cell_face_ok cd fd) by (intros C; apply H in C; discriminate).
    unfold admissible, cell_face_ok in *. cbn. repeat split; try lia.
Qed.

Lemma hdi_mixed_grad_spec cd fd gd :
  (admissible (hdi_mixed_grad cd fd gd) <->
     (cell_face_ok cd fd /\ fd <= gd) \/ (~ cell_face_ok cd fd /\ gd < fd)).
Proof.
  unfold hdi_mixed_grad. pose proof (c12_iff cd fd) as H.
  destruct (c1 cd fd || c2 cd fd) eqn:E.
  - cbn [orb]. assert (K : cell_face_ok cd fd) by tauto. unfold admissible. cbn. intuition lia.
  - assert (K : ~ cell_face_ok cd fd) by (intros C; apply H in C; discriminate). cbn [orb].
    destruct (Nat.leb_spec fd gd); unfold admissible, cell_face_ok in *; cbn; intuition lia.
Qed.

Section Store.
  Context {C F : Type} (cltb : C -> C -> bool) (fltb : F -> F -> bool) (faces_of : C -> list F).
  Variable ceq : forall a b : C, {a = b} + {a <> b}.
  Variable feq : forall a b : F, {a = b} + {a <> b}.
  Hypothesis OC : strict_total_order cltb.
  Hypothesis OF : strict_total_order fltb.
  Variable m : mesh C F.
  Hypothesis W : wf_mesh cltb fltb faces_of m.

  (** the store holds the data [dc], [df] for every stored element *)
  Definition holds (s : mesh_degrees) (dc : C -> degree_info) (df : F -> degree_info) : Prop :=
    length (md_cells s) = length (m_cells m) /\ length (md_faces s) = length (m_faces m) /\
    (forall i c, stored (m_cells m) i c -> nth_error (md_cells s) i = Some (dc c)) /\
    (forall i f, stored (m_faces m) i f -> nth_error (md_faces s) i = Some (df f)).

  Lemma modify_spec {E} (ltb : E -> E -> bool) (eeq : forall a b : E, {a = b} + {a <> b})
    (O : strict_total_order ltb) (l : list E) (S : sorted_unique ltb l) ds d e f i :
    length ds = length l -> (forall i x, stored l i x -> nth_error ds i = Some (d x)) -> stored l i e ->
    exists ds', modify ds i f = Ok ds' /\ length ds' = length l /\
      forall j x, stored l j x -> nth_error ds' j = Some (if eeq e x then f (d x) else d x).
  Proof.
    intros HL H He. unfold modify. rewrite (vget_ok _ _ _ (H _ _ He)). cbn [bind].
    destruct (upd_some ds i (f (d e))) as [ds' U]; [rewrite HL; eapply stored_lt; eauto|].
    unfold vset. rewrite U. exists ds'. split; [reflexivity|].
    split; [rewrite (upd_length _ _ _ _ U); exact HL|]. intros j x Hx. destruct (eeq e x) as [<-|N].
    - assert (i = j) by (eapply (stored_unique ltb O); eauto). subst j. apply (upd_nth_same _ _ _ _ U).
    - assert (i <> j) by (intros <-; unfold stored in *; congruence).
      rewrite (upd_nth_other _ _ _ _ _ U H0). apply H. exact Hx.
  Qed.

  Lemma deg_step_spec op s dc df : holds s dc df -> about (m_cells m) (m_faces m) op ->
    exists s', deg_step C F cltb fltb m op s = Ok s' /\ md_grad s' = md_grad s /\ md_rec s' = md_rec s /\
      holds s' (fun c => last_cell ceq c [op] (dc c)) (fun f => last_face feq f [op] (df f)).
  Proof.
    intros (L1 & L2 & H1 & H2) A. destruct W as [W1 W2 W3 W4 W5].
    destruct op as [c k|c b|f k|f b]; cbn [about deg_step] in *; unfold set_cell, set_face.
    - destruct (in_stored _ _ A) as [i Hi]. rewrite (lookup_stored cltb OC _ _ _ W2 Hi). cbn [bind].
      destruct (modify_spec cltb ceq OC _ W2 _ _ _ (di_set_degree k) _ L1 H1 Hi) as (ds & E & EL & EN).
      rewrite E. cbn [bind]. eexists. split; [reflexivity|]. cbn [md_grad md_rec]. do 2 (split; [reflexivity|]).
      split; [exact EL|]. split; [exact L2|]. split; [|exact H2].
      intros j x Hx. cbn [md_cells]. rewrite (EN _ _ Hx). cbn. destruct (ceq c x); reflexivity.
    - destruct (in_stored _ _ A) as [i Hi]. rewrite (lookup_stored cltb OC _ _ _ W2 Hi). cbn [bind].
      destruct (modify_spec cltb ceq OC _ W2 _ _ _ (di_set_unknowns b) _ L1 H1 Hi) as (ds & E & EL & EN).
      rewrite E. cbn [bind]. eexists. split; [reflexivity|]. cbn [md_grad md_rec]. do 2 (split; [reflexivity|]).
      split; [exact EL|]. split; [exact L2|]. split; [|exact H2].
      intros j x Hx. cbn [md_cells]. rewrite (EN _ _ Hx). cbn. destruct (ceq c x); reflexivity.
    - destruct (in_stored _ _ A) as [i Hi]. rewrite (lookup_stored fltb OF _ _ _ W1 Hi). cbn [bind].
      destruct (modify_spec fltb feq OF _ W1 _ _ _ (di_set_degree k) _ L2 H2 Hi) as (ds & E & EL & EN).
      rewrite E. cbn [bind]. eexists. split; [reflexivity|]. cbn [md_grad md_rec]. do 2 (split; [reflexivity|]).
      split; [exact L1|]. split; [exact EL|]. split; [exact H1|].
      intros j x Hx. cbn [md_faces]. rewrite (EN _ _ Hx). cbn. destruct (feq f x); reflexivity.
    - destruct (in_stored _ _ A) as [i Hi]. rewrite (lookup_stored fltb OF _ _ _ W1 Hi). cbn [bind].
      destruct (modify_spec fltb feq OF _ W1 _ _ _ (di_set_unknowns b) _ L2 H2 Hi) as (ds & E & EL & EN).
      rewrite E. cbn [bind]. eexists. split; [reflexivity|]. cbn [md_grad md_rec]. do 2 (split; [reflexivity|]).
      split; [exact L1|]. split; [exact EL|]. split; [exact H1|].
      intros j x Hx. cbn [md_faces]. rewrite (EN _ _ Hx). cbn. destruct (feq f x); reflexivity.
  Qed.

  Lemma last_cell_cons c op ops d : last_cell ceq c (op :: ops) d = last_cell ceq c ops (last_cell (F:=F) ceq c [op] d).
  Proof. destruct op; reflexivity. Qed.
  Lemma last_face_cons f op ops d : last_face feq f (op :: ops) d = last_face feq f ops (last_face (C:=C) feq f [op] d).
  Proof. destruct op; reflexivity. Qed.

  Lemma holds_ext s dc df dc' df' : (forall c, dc c = dc' c) -> (forall f, df f = df' f) -> holds s dc df -> holds s dc' df'.
  Proof.
    intros E1 E2 (L1 & L2 & H1 & H2). repeat split; auto.
    - intros i c Hc. rewrite (H1 _ _ Hc). f_equal. apply E1.
    - intros i f Hf. rewrite (H2 _ _ Hf). f_equal. apply E2.
  Qed.

  Lemma deg_run_spec ops : forall s dc df, holds s dc df -> Forall (about (m_cells m) (m_faces m)) ops ->
    exists s', deg_run C F cltb fltb m ops s = Ok s' /\ md_grad s' = md_grad s /\ md_rec s' = md_rec s /\
      holds s' (fun c => last_cell ceq c ops (dc c)) (fun f => last_face feq f ops (df f)).
  Proof.
    induction ops as [|op ops IH]; intros s dc df H A; cbn [deg_run].
    - exists s. repeat (split; [reflexivity|]). exact H.
    - inversion A as [|? ? A1 A2]; subst.
      destruct (deg_step_spec op s dc df H A1) as (s1 & E1 & G1 & R1 & H1). rewrite E1. cbn [bind].
      destruct (IH s1 _ _ H1 A2) as (s2 & E2 & G2 & R2 & H2).
      exists s2. split; [exact E2|]. split; [congruence|]. split; [congruence|].
      eapply holds_ext; [| |exact H2]; intros x; cbn beta; [rewrite (last_cell_cons x op ops)|rewrite (last_face_cons x op ops)]; reflexivity.
  Qed.

  Lemma deg_step_foreign op s dc df : holds s dc df -> ~ about (m_cells m) (m_faces m) op ->
    deg_step C F cltb fltb m op s = Throw InvalidArgument.
  Proof.
    intros _ A. destruct W as [W1 W2 W3 W4 W5].
    destruct op; cbn [about deg_step] in *; unfold set_cell, set_face;
      [rewrite (lookup_absent cltb OC _ _ W2 A)|rewrite (lookup_absent cltb OC _ _ W2 A)
      |rewrite (lookup_absent fltb OF _ _ W1 A)|rewrite (lookup_absent fltb OF _ _ W1 A)]; reflexivity.
  Qed.

  Lemma get_cell_spec s dc df c : holds s dc df -> In c (m_cells m) -> get_cell C F cltb m c s = Ok (dc c).
  Proof.
    intros (L1 & L2 & H1 & H2) Hc. destruct (in_stored _ _ Hc) as [i Hi]. unfold get_cell.
    rewrite (lookup_stored cltb OC _ _ _ (wf_cells _ _ _ _ W) Hi). cbn [bind]. apply vget_ok. auto.
  Qed.
  Lemma get_face_spec s dc df f : holds s dc df -> In f (m_faces m) -> get_face C F fltb m f s = Ok (df f).
  Proof.
    intros (L1 & L2 & H1 & H2) Hc. destruct (in_stored _ _ Hc) as [i Hi]. unfold get_face.
    rewrite (lookup_stored fltb OF _ _ _ (wf_faces _ _ _ _ W) Hi). cbn [bind]. apply vget_ok. auto.
  Qed.
  Lemma get_faces_spec s dc df fs : holds s dc df -> incl fs (m_faces m) -> get_faces C F fltb m fs s = Ok (map df fs).
  Proof.
    intros H. induction fs as [|f fs IH]; intros I; cbn [get_faces]; [reflexivity|].
    rewrite (get_face_spec _ _ _ _ H) by (apply I; left; reflexivity). cbn [bind].
    rewrite IH by (intros x Hx; apply I; right; exact Hx). reflexivity.
  Qed.
  Lemma cell_info_spec s dc df c i dr dg : holds s dc df -> stored (m_cells m) i c ->
    nth_error (md_rec s) i = Some dr -> nth_error (md_grad s) i = Some dg ->
    cell_info C F cltb fltb faces_of m c s = Ok (mkCDI (dc c) dr dg (map df (faces_of c))).
  Proof.
    intros H Hi Hr Hg. unfold cell_info. rewrite (lookup_stored cltb OC _ _ _ (wf_cells _ _ _ _ W) Hi). cbn [bind].
    pose proof H as (L1 & L2 & H1 & H2). rewrite (vget_ok _ _ _ (H1 _ _ Hi)), (vget_ok _ _ _ Hr), (vget_ok _ _ _ Hg). cbn [bind].
    rewrite (get_faces_spec _ _ _ _ H); [reflexivity|]. apply (wf_stored _ _ _ _ W). eapply nth_error_In; eauto.
  Qed.

  Lemma holds_make d1 d2 g r : holds (mkMD (repeat d1 (length (m_cells m))) (repeat d2 (length (m_faces m))) g r)
    (fun _ => d1) (fun _ => d2).
  Proof.
    unfold holds. cbn. rewrite !repeat_length. do 2 (split; [reflexivity|]).
    split; intros i x Hx; apply nth_error_repeat; eapply stored_lt; eauto.
  Qed.
End Store.
