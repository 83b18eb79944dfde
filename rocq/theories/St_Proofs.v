(** Proofs for St_Properties: the Stokes assemblers. *)
From Coq Require Import List Arith Bool Lia Ring Permutation.
From Verif Require Import Common LinAlg Mesh_Model Mesh_Spec Mesh_Proofs Elem_Model Elem_Proofs Mesh_Properties
  BC_Model BC_Spec BC_Proofs BC_Properties Degree_Model Asm_Model Asm_Spec Asm_Proofs Asm2_Proofs Asm3_Proofs Asm_Properties
  VAsm_Model VAsm_Spec VAsm_Proofs VAsm2_Proofs SAsm_Model SAsm_Spec Scat_Proofs SAsm_Proofs.
Import ListNotations.

(** ** the numbering *)
Section Rank.
  Context (cA fA cB nc nf : nat) (dirf : nat -> bool).
  Definition st_dir : nat -> bool := on_face cA fA nc nf dirf.
  Lemma fou_cell I : I < nc * cA -> face_of_unknown cA fA nc nf I = None.
  Proof. intros H. unfold face_of_unknown. rewrite (proj2 (Nat.leb_gt _ _)) by exact H. reflexivity. Qed.
  Lemma fou_face j i : j < nf -> i < fA -> face_of_unknown cA fA nc nf (nc * cA + (j * fA + i)) = Some (j, i).
  Proof.
    intros Hj Hi. unfold face_of_unknown. rewrite (proj2 (Nat.leb_le _ _)) by lia. rewrite (proj2 (Nat.ltb_lt _ _)) by nia. cbn [andb].
    replace (nc * cA + (j * fA + i) - nc * cA) with (j * fA + i) by lia. destruct (dm_add fA j i Hi) as [-> ->]. reflexivity.
  Qed.
  Lemma fou_rest t : face_of_unknown cA fA nc nf (nc * cA + nf * fA + t) = None.
  Proof. unfold face_of_unknown. rewrite (proj2 (Nat.ltb_ge _ _)) by lia. rewrite andb_false_r. reflexivity. Qed.

  Lemma rank_cell I : I <= nc * cA -> rank st_dir I = I.
  Proof. intros H. rewrite (rank_ext st_dir (fun _ => false)), rank_none; [reflexivity|]. intros i Hi. unfold st_dir, on_face. rewrite fou_cell by lia. reflexivity. Qed.
  Lemma rank_face_start j : j <= nf -> rank st_dir (nc * cA + j * fA) = nc * cA + rank dirf j * fA.
  Proof.
    induction j as [|j IH]; intros H; [cbn [Nat.mul rank]; rewrite Nat.add_0_r, rank_cell by lia; lia|].
    replace (nc * cA + S j * fA) with (nc * cA + j * fA + fA) by lia. rewrite rank_app, IH by lia. cbn [rank]. rewrite Nat.mul_add_distr_r.
    rewrite (rank_ext (fun i => st_dir (nc * cA + j * fA + i)) (fun _ => dirf j) fA).
    - destruct (dirf j); [rewrite rank_all|rewrite rank_none]; cbn [Nat.mul]; lia.
    - intros i Hi. unfold st_dir, on_face. rewrite <- Nat.add_assoc, fou_face by lia. reflexivity.
  Qed.
  Lemma rank_face j i : j < nf -> i < fA -> dirf j = false -> rank st_dir (nc * cA + (j * fA + i)) = nc * cA + rank dirf j * fA + i.
  Proof.
    intros Hj Hi D. rewrite Nat.add_assoc, rank_app, rank_face_start by lia. f_equal. rewrite (rank_ext _ (fun _ => false) i), rank_none; [reflexivity|].
    intros k Hk. unfold st_dir, on_face. rewrite <- Nat.add_assoc, fou_face by lia. exact D.
  Qed.
  Lemma rank_rest t : rank st_dir (nc * cA + nf * fA + t) = nc * cA + rank dirf nf * fA + t.
  Proof.
    rewrite rank_app, rank_face_start by lia. f_equal. rewrite (rank_ext _ (fun _ => false) t), rank_none; [reflexivity|].
    intros k Hk. unfold st_dir, on_face. rewrite fou_rest. reflexivity.
  Qed.
  Lemma rank_total : rank st_dir (all_unknowns cA fA cB nc nf) = cA * nc + fA * rank dirf nf + cB * nc + 1.
  Proof. unfold all_unknowns, multiplier. rewrite <- !Nat.add_assoc, (Nat.add_assoc (nc * cA)), rank_rest. lia. Qed.
End Rank.

(** ** additions to vectors *)
Section Vecs.
  Context {K : cring}.
  Add Ring Kring : (cth K).
  Local Open Scope k_scope.
  Lemma add_duos_app ds ds' (R : vec K) : add_duos (ds ++ ds') R = do R <- add_duos ds R; add_duos ds' R.
  Proof. apply VAsm2_Proofs.floop_app. Qed.
  Lemma add_block_duos o n v : forall (R : vec K), add_block o n v R = add_duos (map (fun k => (o + k, v k)%nat) (seq 0 n)) R.
  Proof.
    unfold add_block, add_duos. generalize (seq 0 n). induction l as [|k l IH]; intros R; [reflexivity|]. cbn [floop map fst snd]. destruct (vec_add R (o + k) (v k)); cbn [bind]; [apply IH|reflexivity|reflexivity].
  Qed.
  Lemma sgood_vec n nb dir dn cs ts ds (R R' : vec K) : vsize R' = vsize R -> (forall k, vent R' k = vent R k) -> sgood n nb dir dn cs ts ds R -> sgood n nb dir dn cs ts ds R'.
  Proof.
    intros E1 E2 (A & B & D & H). split; [congruence|]. split; [exact B|]. split; [exact D|]. intros I HI DI. destruct (H I HI DI) as [H1 H2]. split; [exact H1|]. rewrite E2. exact H2.
  Qed.
  (** two systems added *)
  Lemma full_mat_app nb (cs cs' : list (contribution K)) I J : full_mat nb (cs ++ cs') I J = full_mat nb cs I J + full_mat nb cs' I J.
  Proof. unfold full_mat. rewrite map_app, suml_app. reflexivity. Qed.
  Lemma full_rhs_app nb (cs cs' : list (contribution K)) I : full_rhs nb (cs ++ cs') I = full_rhs nb cs I + full_rhs nb cs' I.
  Proof. unfold full_rhs. rewrite map_app, suml_app. reflexivity. Qed.
  Lemma sgood_sum n nb dir dn cs ts (R : vec K) cs' ts' (R' : vec K) : sgood n nb dir dn cs ts [] R -> sgood n nb dir dn cs' ts' [] R' ->
    sgood n nb dir dn (cs ++ cs') (ts ++ ts') [] (mkVec (nb * rank dir n) (fun k => vent R k + vent R' k)).
  Proof.
    intros (A & B & _ & H) (A' & B' & _ & H'). split; [reflexivity|]. split; [intros t Ht; apply in_app_or in Ht; destruct Ht; auto|]. split; [intros d []|].
    intros I HI DI. destruct (H I HI DI) as [H1 H2]. destruct (H' I HI DI) as [H3 H4]. cbn [dsum filter map suml vent] in *. unfold dsum in *. cbn [filter map suml] in *. split.
    - intros J HJ DJ. rewrite tsum_app, full_mat_app, H1, H3 by assumption. reflexivity.
    - rewrite full_rhs_app. rewrite (elim_ext n nb dir dn (full_mat nb (cs ++ cs')) (fun I J => full_mat nb cs I J + full_mat nb cs' I J)) by (intros; apply full_mat_app).
      rewrite elim_add. match type of H2 with ?x + _ = ?y => assert (E2 : x = y) by (rewrite <- H2; ring) end. match type of H4 with ?x + _ = ?y => assert (E4 : x = y) by (rewrite <- H4; ring) end.
      rewrite E2, E4. ring.
  Qed.
End Vecs.

(** ** the entries of the saddle-point matrix *)
Section Saddle.
  Context {K : cring} (a b : nat) (A B : mat K) (mu : nat -> K).
  Add Ring Kring : (cth K).
  Local Open Scope k_scope.
  Definition b_entries : list (@ent K) := flat_map (fun i => flat_map (fun j => [((a + i)%nat, j, ment B i j); (j, (a + i)%nat, ment B i j)]) (seq 0 a)) (seq 0 b).
  Definition m_entries : list (@ent K) := flat_map (fun i => [((a + i)%nat, (a + b)%nat, mu i); ((a + b)%nat, (a + i)%nat, mu i)]) (seq 0 b).
  Definition st_entries : list (@ent K) := all_entries a a (ment A) ++ b_entries ++ m_entries.
  Let S (E : list (@ent K)) p q := suml (map (fun e => only ((ep e =? p) && (eq' e =? q))%nat (ev e)) E).

  Lemma shift_match n o (f : nat -> K) p : sumn n (fun i => only ((o + i =? p)%nat) (f i)) = only ((o <=? p) && (p <? o + n))%nat (f (p - o)%nat).
  Proof.
    destruct (Nat.leb_spec o p) as [H|H]; cbn [andb].
    - destruct (Nat.ltb_spec p (o + n)) as [H1|H1].
      + transitivity (sumn n (fun i => only (p - o =? i)%nat (f i))); [|apply (sumn_only_match n (p - o) f); lia].
        apply sumn_ext. intros i _. f_equal. destruct (Nat.eqb_spec (o + i) p), (Nat.eqb_spec (p - o) i); try reflexivity; lia.
      + apply sumn_zero. intros i Hi. rewrite (proj2 (Nat.eqb_neq _ _)) by lia. reflexivity.
    - apply sumn_zero. intros i Hi. rewrite (proj2 (Nat.eqb_neq _ _)) by lia. reflexivity.
  Qed.
  Lemma b_sum p q : S b_entries p q = only ((a <=? p) && (p <? a + b) && (q <? a))%nat (ment B (p - a) q) + only ((a <=? q) && (q <? a + b) && (p <? a))%nat (ment B (q - a) p).
  Proof.
    unfold S, b_entries. rewrite map_flat, suml_flat, suml_map_seq.
    transitivity (sumn b (fun i => only (a + i =? p)%nat (sumn a (fun j => only (0 + j =? q)%nat (ment B i j))) + only (a + i =? q)%nat (sumn a (fun j => only (0 + j =? p)%nat (ment B i j))))).
    { apply sumn_ext. intros i _. rewrite map_flat, suml_flat, suml_map_seq, <- !sumn_only, <- sumn_add. apply sumn_ext. intros j _. cbn [map suml Nat.add]. unfold ep, eq', ev. cbn [fst snd]. unfold only.
      destruct (a + i =? p)%nat, (a + i =? q)%nat, (j =? p)%nat, (j =? q)%nat; cbn [andb]; ring. }
    rewrite sumn_add, !shift_match. f_equal.
    - unfold only. destruct ((a <=? p) && (p <? a + b))%nat; cbn [andb]; [|reflexivity]. cbn [Nat.leb andb Nat.add]. rewrite Nat.sub_0_r. reflexivity.
    - unfold only. destruct ((a <=? q) && (q <? a + b))%nat; cbn [andb]; [|reflexivity]. cbn [Nat.leb andb Nat.add]. rewrite Nat.sub_0_r. reflexivity.
  Qed.
  Lemma m_sum p q : S m_entries p q = only ((a <=? p) && (p <? a + b) && (q =? a + b))%nat (mu (p - a)%nat) + only ((a <=? q) && (q <? a + b) && (p =? a + b))%nat (mu (q - a)%nat).
  Proof.
    unfold S, m_entries. rewrite map_flat, suml_flat, suml_map_seq.
    transitivity (sumn b (fun i => only (a + i =? p)%nat (only (q =? a + b)%nat (mu i)) + only (a + i =? q)%nat (only (p =? a + b)%nat (mu i)))).
    { apply sumn_ext. intros i _. cbn [map suml]. unfold ep, eq', ev. cbn [fst snd]. unfold only. rewrite (Nat.eqb_sym (a + b) q), (Nat.eqb_sym (a + b) p).
      destruct (a + i =? p)%nat, (a + i =? q)%nat, (p =? a + b)%nat, (q =? a + b)%nat; cbn [andb]; ring. }
    rewrite sumn_add, !shift_match. f_equal; unfold only.
    - destruct ((a <=? p) && (p <? a + b))%nat; reflexivity.
    - destruct ((a <=? q) && (q <? a + b))%nat; reflexivity.
  Qed.
  Lemma st_entries_sum p q : (p < a + b + 1)%nat -> (q < a + b + 1)%nat -> ment (saddle a b A B mu) p q = S st_entries p q.
  Proof.
    intros Hp Hq. unfold S, st_entries. rewrite !map_app, !suml_app.
    change (suml (map (fun e => only ((ep e =? p) && (eq' e =? q))%nat (ev e)) b_entries)) with (S b_entries p q).
    change (suml (map (fun e => only ((ep e =? p) && (eq' e =? q))%nat (ev e)) m_entries)) with (S m_entries p q).
    rewrite (all_entries_sum 0 0 (fun _ => false)), b_sum, m_sum. cbn [saddle ment]. unfold only.
    destruct (Nat.ltb_spec p a), (Nat.ltb_spec q a), (Nat.ltb_spec p (a + b)), (Nat.ltb_spec q (a + b)), (Nat.leb_spec a p), (Nat.leb_spec a q), (Nat.eqb_spec p (a + b)), (Nat.eqb_spec q (a + b)); try lia; cbn [andb]; ring.
  Qed.
End Saddle.

(** ** the local unknowns, one number each *)
Section One.
  Context {K : cring} (dir : nat -> bool) (c : contribution K).
  Lemma div1 n : n / 1 = n. Proof. apply Nat.div_1_r. Qed.
  Lemma mod1 n : n mod 1 = 0. Proof. apply Nat.mod_1_r. Qed.
  Lemma position1 I : position dir 1 I = rank dir I.
  Proof. unfold position. rewrite div1, mod1. lia. Qed.
  Lemma free1 I : free dir 1 I = negb (dir I).
  Proof. unfold free. rewrite div1. reflexivity. Qed.
  Lemma global1 p : global 1 c p = nth p (c_faces c) 0.
  Proof. unfold global. rewrite div1, mod1. lia. Qed.
  Lemma lab1 p : lab 1 dir c p = if dir (nth p (c_faces c) 0) then None else Some (rank dir (nth p (c_faces c) 0)).
  Proof. unfold lab, isd. rewrite div1, position1, global1. reflexivity. Qed.
  Lemma dofs1 : c_dofs 1 c = length (c_faces c).
  Proof. unfold c_dofs. lia. Qed.
  Lemma dval1 (v : nat -> K) I : dval 1 (fun I _ => v I) I = v I.
  Proof. unfold dval. rewrite div1. reflexivity. Qed.
End One.

Section St.
  Context {K : cring} {C F Sc P V : Type} (cltb : C -> C -> bool) (fltb : F -> F -> bool) (faces_of : C -> list F).
  Context (smul : Sc -> V -> V) (one : Sc) (dim : nat) (sbs : nat -> nat) (cA cB k : nat).
  Context (vproject : nat -> F -> (P -> V) -> nat -> K) (mult : C -> nat -> K).
  Add Ring Kring : (cth K).
  Local Open Scope k_scope.
  Let fA := fA dim sbs k.

  Section Reached.
    Context (OC : strict_total_order cltb) (O : strict_total_order fltb) (m : mesh C F) (ops : list (bc_op Sc P V)) (bnd : bc Sc P V).
    Context (W : wf_mesh cltb fltb faces_of m) (R : reached fltb one m ops bnd).
    Let dirf := dirichlet_face m ops.
    Let nf := length (m_faces m).
    Let nc := length (m_cells m).
    Let N := all_unknowns cA fA cB nc nf.
    Let dir := on_face cA fA nc nf dirf.
    Definition st_val (odi : nat) (I : nat) : K := face_value cA fA nc nf (sp_dn smul one (vproject odi) m ops) I.
    Let dn (odi : nat) (I _ : nat) : K := st_val odi I.

    Definition stbase (a : stokes K) : Prop := tab_ok (m_faces m) dirf nf (st_tab a) /\ st_no a = rank dirf nf /\ st_size a = (1 * rank dir N)%nat.

    Lemma size_rank : (cA * nc + fA * rank dirf nf + cB * nc + 1 = 1 * rank dir N)%nat.
    Proof. rewrite Nat.mul_1_l. symmetry. apply rank_total. Qed.

    Lemma imposed_ok : dim = 2%nat \/ dim = 3%nat -> supported dim m ops -> exists l, fmap (fun id => dirichlet_imposed_dofs dim sbs bnd id k) (seq 0 nf) = Ok l.
    Proof.
      intros D SU.
      assert (H : forall ids, (forall id, In id ids -> (id < nf)%nat) -> exists l, fmap (fun id => dirichlet_imposed_dofs dim sbs bnd id k) ids = Ok l).
      { induction ids as [|id ids IH]; intros H; cbn [fmap]; [eauto|]. pose proof (H id (or_introl eq_refl)) as Hi. unfold dirichlet_imposed_dofs at 1.
        destruct (stored_both cltb fltb faces_of m W id Hi) as (f & d & Hf & Hd).
        rewrite (q_dir (K := K) cltb fltb faces_of smul one (vproject 0%nat) (vproject 0%nat) (fun _ _ _ => 0) O m ops bnd 0 W R id Hi). cbn [bind].
        destruct (IH ltac:(intros; apply H; right; assumption)) as [l El].
        destruct (dirichlet_face m ops id) eqn:Di; cbn [bind]; [|rewrite El; cbn [bind]; eauto].
        pose proof (q_spec m Dirichlet ops _ id d (kinv4_of m Dirichlet _ _ _ (kinv cltb fltb faces_of one O m ops bnd W R)) Hd) as Q. cbn [kst_of] in Q.
        unfold dirichlet_face in Di. rewrite Hd in Di. destruct (last_reg Dirichlet d ops None) as [r|] eqn:LR; [|discriminate]. destruct Q as (_ & Q & _). rewrite Q. cbn [bind].
        destruct (imposed_known dim (r_type r) (sbs k) D) as (i & -> & _); [apply (SU id r); unfold condition; rewrite Hd; exact LR|]. cbn [bind]. rewrite El. cbn [bind]. eauto. }
      apply H. intros id Hid. apply in_seq in Hid. lia.
    Qed.
    Lemma st_make_ok : dim = 2%nat \/ dim = 3%nat -> supported dim m ops -> exists a : stokes K, st_make fltb dim sbs cA cB k m bnd = Ok a /\ stbase a /\ st_trip a = [].
    Proof.
      intros D SU. unfold st_make.
      assert (HD : forall i f, nth_error (m_faces m) i = Some f -> isdir_bnd fltb m bnd f = Ok (dirf i)).
      { intros i f Hf. apply (isdir_bnd_at cltb fltb faces_of smul one (vproject 0%nat) O m ops bnd W R i f Hf). }
      destruct (count_if_spec (m_faces m) (isdir_bnd fltb m bnd) dirf (m_faces m) 0 HD) as (nd & -> & EN).
      cbn [bind]. cbn [Nat.add rank] in EN. rewrite Nat.sub_0_r in EN. fold nf in EN |- *. pose proof (rank_bound dirf nf) as RB. assert (NO : (nf - nd = rank dirf nf)%nat) by lia. rewrite NO.
      destruct (number_faces_spec (m_faces m) (isdir_bnd fltb m bnd) dirf HD (m_faces m) 0 (mkTab (repeat 0%nat nf) (repeat 0%nat (rank dirf nf)))) as (t & H & T).
      - reflexivity.
      - intros j f H. exact H.
      - repeat split; cbn; try (rewrite repeat_length; reflexivity); intros j; try lia. intros _ Hj. fold nf in Hj.
        clear -Hj. revert j Hj. generalize nf. induction nf0 as [|q IH]; intros [|j] Hj; cbn; try lia; auto. apply IH; lia.
      - cbn [rank] in H. rewrite H. cbn [bind]. destruct (imposed_ok D SU) as [l ->]. cbn [bind]. eexists. split; [reflexivity|]. split; [|reflexivity].
        split; [exact T|]. split; [reflexivity|]. cbn [st_size]. fold nc. exact size_rank.
    Qed.

    Lemma tab_free (a : stokes K) j : stbase a -> (j < nf)%nat -> vat (compress_table (st_tab a)) j = Ok (if dirf j then 0%nat else rank dirf j).
    Proof. intros ((_ & _ & T & _) & _) H. unfold vat. rewrite (T j H). reflexivity. Qed.
    (** what the local map holds for unknown [I] *)
    Definition label1 (val : nat -> K) (I : nat) : option nat * K := (if dir I then None else Some (rank dir I), if dir I then val I else 0).
    Lemma st_faces_ok (a : stokes K) odi : stbase a -> forall ids fcs, numbered (m_faces m) ids fcs ->
      st_faces fltb smul dim sbs cA k vproject m bnd a odi fcs =
      Ok (map (label1 (match odi with Some q => st_val q | None => fun _ => 0 end)) (flat_map (face_unknowns_of cA fA nc) ids)).
    Proof.
      intros B ids fcs NF. induction NF as [|j f ids fcs Hf _ IH]; [reflexivity|]. cbn [st_faces flat_map]. assert (Hj : (j < nf)%nat) by (apply nth_error_Some; congruence).
      destruct (pos_ok cltb fltb faces_of O m W j f Hf) as [EL EO]. rewrite EO, EL. cbn [bind]. rewrite (tab_free a j B Hj). cbn [bind].
      rewrite (q_dir (K := K) cltb fltb faces_of smul one (vproject 0%nat) (vproject 0%nat) (fun _ _ _ => 0) O m ops bnd 0 W R j Hj). cbn [bind].
      fold dirf. unfold face_unknowns_of at 1. rewrite (seq_from (nc * cA + j * fA)), map_app, map_map.
      assert (DI : forall i, (i < fA)%nat -> dir (nc * cA + j * fA + i)%nat = dirf j).
      { intros i Hi. unfold dir, on_face. rewrite <- Nat.add_assoc, fou_face by assumption. reflexivity. }
      assert (VL : forall q i, (i < fA)%nat -> st_val q (nc * cA + j * fA + i)%nat = sp_dn smul one (vproject q) m ops j i).
      { intros q i Hi. unfold st_val, face_value. rewrite <- Nat.add_assoc, fou_face by assumption. reflexivity. }
      destruct (dirf j) eqn:Dj.
      - assert (HQ : exists d, (match odi with Some q => do g <- q_func Sc P V smul (b_factor bnd) (b_dir bnd) j; Ok (vproject q f g) | None => Ok (fun _ => 0) end) = Ok d /\
                  forall i, (i < fA)%nat -> d i = (match odi with Some q => st_val q | None => fun _ => 0 end) (nc * cA + j * fA + i)%nat).
        { destruct odi as [q|]; [|eexists; split; reflexivity]. destruct (q_dir_func cltb fltb faces_of smul one (vproject q) O m ops bnd W R j f Hf Dj) as (g & -> & E). cbn [bind]. rewrite E.
          eexists. split; [reflexivity|]. intros i Hi. rewrite VL by exact Hi. reflexivity. }
        destruct HQ as (d & ED & VD). rewrite ED. cbn [bind]. rewrite IH. cbn [bind]. f_equal. f_equal. apply map_ext_in. intros i Hi. apply in_seq in Hi. unfold label1.
        rewrite DI by (fold fA in Hi; lia). rewrite VD by (fold fA in Hi; lia). reflexivity.
      - assert (HQ : (match odi with Some q => Ok (fun _ => 0) | None => Ok (fun _ : nat => 0) end) = Ok (fun _ : nat => (0 : K))) by (destruct odi; reflexivity). rewrite HQ. cbn [bind]. rewrite IH. cbn [bind].
        f_equal. f_equal. apply map_ext_in. intros i Hi. apply in_seq in Hi. unfold label1. fold fA in Hi |- *.
        rewrite DI by lia. fold nc. rewrite <- (Nat.add_assoc (nc * cA)). change dir with (st_dir cA fA nc nf dirf). rewrite rank_face by (assumption || lia). rewrite (Nat.mul_comm cA nc). reflexivity.
    Qed.
    Lemma st_map_ok (a : stokes K) odi i ids fcs : stbase a -> (i < nc)%nat -> numbered (m_faces m) ids fcs ->
      st_map fltb smul dim sbs cA k vproject m bnd a odi i fcs =
      Ok (map (label1 (match odi with Some q => st_val q | None => fun _ => 0 end)) (velocity_unknowns cA fA nc i ids)).
    Proof.
      intros B Hi NF. unfold st_map. rewrite (st_faces_ok a odi B ids fcs NF). cbn [bind]. unfold velocity_unknowns. rewrite map_app. f_equal. f_equal. unfold cell_unknowns. rewrite (seq_from (i * cA)), map_map.
      apply map_ext_in. intros p Hp. apply in_seq in Hp. unfold label1.
      assert (HI : (i * cA + p < nc * cA)%nat) by nia.
      assert (DI : dir (i * cA + p)%nat = false) by (unfold dir, on_face; rewrite fou_cell by exact HI; reflexivity).
      rewrite DI. change dir with (st_dir cA fA nc nf dirf). rewrite rank_cell by lia. reflexivity.
    Qed.

    (** ** one cell *)
    Section Cell.
      Context (i : nat) (ids : list nat) (cl : C) (A B : mat K) (v : vec K) (r : nat).
      Context (Hi : nth_error (m_cells m) i = Some cl) (NF : numbered (m_faces m) ids (faces_of cl)).
      Let av := (cA + length ids * fA)%nat.
      Context (A1 : mrows A = av) (A2 : mcols A = av) (B1 : mrows B = cB) (B2 : mcols B = av).
      Let vu := velocity_unknowns cA fA nc i ids.
      Let pu := pressure_unknowns cA fA cB nc nf i.
      Definition cell_con : contribution K := mkC (vu ++ pu ++ [multiplier cA fA cB nc nf]) (saddle av cB A B (mult cl)) (padded (av + cB + 1) r v).
      Let c := cell_con.
      Lemma i_lt : (i < nc)%nat. Proof. clear A1 A2 B1 B2. apply nth_error_Some. congruence. Qed.
      Lemma vu_length : length vu = av.
      Proof. clear A1 A2 B1 B2.
        unfold vu, velocity_unknowns, cell_unknowns. rewrite app_length, seq_length. unfold av. f_equal. clear. induction ids as [|j l IH]; [reflexivity|]. cbn [flat_map length]. rewrite app_length, IH. unfold face_unknowns_of. rewrite seq_length. reflexivity.
      Qed.
      Lemma pu_length : length pu = cB. Proof. clear A1 A2 B1 B2. apply seq_length. Qed.
      Lemma c_dofs_eq : c_dofs 1 c = (av + cB + 1)%nat.
      Proof. clear A1 A2 B1 B2. rewrite dofs1. unfold c, cell_con. cbn [c_faces]. rewrite !app_length, vu_length, pu_length. cbn. lia. Qed.
      Lemma vu_lt I : In I vu -> (I < nc * cA + nf * fA)%nat.
      Proof. clear A1 A2 B1 B2.
        pose proof i_lt. intros H1. apply in_app_or in H1. destruct H1 as [H1|H1].
        - apply in_seq in H1. nia.
        - apply in_flat_map in H1. destruct H1 as (j & Hj & H1). pose proof (proj1 (Forall_forall _ _) (numbered_lt m ids _ NF) j Hj) as Hn. cbv beta in Hn. fold nf in Hn. apply in_seq in H1. assert (X : (S j * fA <= nf * fA)%nat) by (apply Nat.mul_le_mono_r; lia). cbn [Nat.mul] in X. lia.
      Qed.
      Lemma c_range : Forall (fun I => I < N)%nat (c_faces c).
      Proof. clear A1 A2 B1 B2.
        pose proof i_lt. apply Forall_forall. intros I HI. unfold N, all_unknowns, multiplier. apply in_app_or in HI. destruct HI as [HI|HI]; [apply vu_lt in HI; lia|].
        apply in_app_or in HI. destruct HI as [HI|[<-|[]]]; [|unfold multiplier; lia]. apply in_seq in HI. nia.
      Qed.
      Lemma dir_pressure t : dir (nc * cA + nf * fA + t)%nat = false.
      Proof. clear A1 A2 B1 B2. unfold dir, on_face. rewrite fou_rest. reflexivity. Qed.
      Lemma lab_v p : (p < av)%nat -> lab 1 dir c p = fst (label1 (fun _ => 0) (nth p vu 0%nat)).
      Proof. clear A1 A2 B1 B2. intros Hp. rewrite lab1. unfold c, cell_con. cbn [c_faces]. rewrite app_nth1 by (rewrite vu_length; exact Hp). reflexivity. Qed.
      Lemma global_v p : (p < av)%nat -> global 1 c p = nth p vu 0%nat.
      Proof. clear A1 A2 B1 B2. intros Hp. rewrite global1. unfold c, cell_con. cbn [c_faces]. rewrite app_nth1 by (rewrite vu_length; exact Hp). reflexivity. Qed.
      Lemma global_p p : (p < cB)%nat -> global 1 c (av + p) = (nc * cA + nf * fA + i * cB + p)%nat.
      Proof. clear A1 A2 B1 B2.
        intros Hp. rewrite global1. unfold c, cell_con. cbn [c_faces]. rewrite app_nth2 by (rewrite vu_length; lia). rewrite vu_length. replace (av + p - av)%nat with p by lia.
        rewrite app_nth1 by (rewrite pu_length; exact Hp). unfold pu, pressure_unknowns. rewrite seq_nth by exact Hp. reflexivity.
      Qed.
      Lemma global_m : global 1 c (av + cB) = multiplier cA fA cB nc nf.
      Proof. clear A1 A2 B1 B2.
        rewrite global1. unfold c, cell_con. cbn [c_faces]. rewrite app_nth2 by (rewrite vu_length; lia). rewrite vu_length. replace (av + cB - av)%nat with cB by lia.
        rewrite app_nth2 by (rewrite pu_length; lia). rewrite pu_length, Nat.sub_diag. reflexivity.
      Qed.
      Lemma lab_of p : lab 1 dir c p = if dir (global 1 c p) then None else Some (rank dir (global 1 c p)).
      Proof. clear A1 A2 B1 B2. rewrite lab1, global1. reflexivity. Qed.
      Lemma lab_p (a : stokes K) p : stbase a -> (p < cB)%nat -> lab 1 dir c (av + p) = Some (b_offset dim sbs cA cB k m a i + p)%nat.
      Proof. clear A1 A2 B1 B2.
        intros (_ & NO & _) Hp. rewrite lab_of, global_p by exact Hp. rewrite <- Nat.add_assoc, dir_pressure. f_equal. change dir with (st_dir cA fA nc nf dirf). rewrite rank_rest. unfold b_offset. rewrite NO. fold fA nc. lia.
      Qed.
      Lemma lab_m (a : stokes K) : stbase a -> lab 1 dir c (av + cB) = Some (mult_offset dim sbs cA cB k m a).
      Proof. clear A1 A2 B1 B2.
        intros (_ & NO & _). rewrite lab_of, global_m. unfold multiplier. rewrite dir_pressure. f_equal. change dir with (st_dir cA fA nc nf dirf). rewrite rank_rest. unfold mult_offset. rewrite NO. fold fA nc. lia.
      Qed.
      Lemma c_entries : entries 1 c (st_entries av cB A B (mult cl)).
      Proof. clear A1 A2 B1 B2.
        split.
        - apply Forall_forall. intros e He. unfold inb. rewrite c_dofs_eq. unfold st_entries in He. apply in_app_or in He. destruct He as [He|He]; [|apply in_app_or in He; destruct He as [He|He]].
          + apply in_flat_map in He. destruct He as (p & Hp & He). apply in_map_iff in He. destruct He as (q & <- & Hq). apply in_seq in Hp, Hq. unfold ep, eq'. cbn. lia.
          + apply in_flat_map in He. destruct He as (p & Hp & He). apply in_flat_map in He. destruct He as (q & Hq & He). apply in_seq in Hp, Hq. destruct He as [<-|[<-|[]]]; unfold ep, eq'; cbn; lia.
          + apply in_flat_map in He. destruct He as (p & Hp & He). apply in_seq in Hp. destruct He as [<-|[<-|[]]]; unfold ep, eq'; cbn; lia.
        - intros p q Hp Hq. rewrite c_dofs_eq in Hp, Hq. apply st_entries_sum; assumption.
      Qed.
      Lemma c_rentries : (r <= av)%nat -> rentries 1 c (all_rentries r (vent v)).
      Proof. clear A1 A2 B1 B2.
        intros Hr. split.
        - apply Forall_forall. intros e He. apply in_map_iff in He. destruct He as (q & <- & Hq). apply in_seq in Hq. rewrite c_dofs_eq. cbn. lia.
        - intros p Hp. rewrite (all_rentries_sum 0 0 (fun _ => false)). unfold c, cell_con, padded. cbn [c_rhs vent]. unfold only. reflexivity.
      Qed.

      Section Terms.
        Context (a : stokes K) (Ba : stbase a) (odi : nat).
        Let mp := map (label1 (st_val odi)) vu.
        Lemma mp_at p : (p < av)%nat -> vget mp p = Ok (lab 1 dir c p, if dir (global 1 c p) then dval 1 (dn odi) (global 1 c p) else 0).
        Proof.
          intros Hp. unfold mp, vget. rewrite nth_error_map, (nth_error_nth' _ 0%nat) by (rewrite vu_length; exact Hp). cbn [option_map]. rewrite lab_v, global_v by exact Hp.
          unfold label1, dval. cbn [fst]. rewrite div1. reflexivity.
        Qed.
        Lemma row_terms rhs p st : (p < av)%nat -> match rhs with Some v' => (av <= vsize v')%nat | None => True end ->
          st_row A rhs mp p st = Ok (fst st ++ flat_map (t_of 1 dir c) (map (fun q => (p, q, ment A p q)) (seq 0 av)),
            snd st ++ (match rhs with Some v' => g_of 1 dir c (p, vent v' p) | None => [] end) ++ flat_map (d_of 1 dir (dn odi) c) (map (fun q => (p, q, ment A p q)) (seq 0 av))).
        Proof.
          intros Hp HR. unfold st_row. rewrite mp_at by exact Hp. cbn [bind fst].
          destruct (lab 1 dir c p) as [gi|] eqn:LP.
          - assert (COL : forall st, floop (st_col A mp p gi) (seq 0 (mcols A)) st = Ok (fst st ++ flat_map (t_of 1 dir c) (map (fun q => (p, q, ment A p q)) (seq 0 av)), snd st ++ flat_map (d_of 1 dir (dn odi) c) (map (fun q => (p, q, ment A p q)) (seq 0 av)))).
            { intros st0. rewrite A2, !flat_map_map. apply floop_app. intros q st' Hq. apply in_seq in Hq. unfold st_col. rewrite mp_at by lia. cbn [bind fst snd]. unfold t_of, d_of, ep, eq', ev. cbn [fst snd]. rewrite LP.
              destruct (lab 1 dir c q) as [gj|] eqn:LQ; [rewrite app_nil_r; reflexivity|]. rewrite app_nil_r. rewrite lab_of in LQ. destruct (dir (global 1 c q)); [reflexivity|discriminate]. }
            destruct rhs as [v'|]; cbn [bind].
            + unfold vec_get. rewrite (proj2 (Nat.ltb_lt _ _)) by lia. cbn [bind]. rewrite COL. cbn [fst snd]. unfold g_of. cbn [fst snd]. rewrite LP, app_assoc. reflexivity.
            + rewrite COL. reflexivity.
          - assert (Z1 : forall l, flat_map (t_of 1 dir c) (map (fun q => (p, q, ment A p q)) l) = []).
            { intros l. rewrite flat_map_map. induction l as [|q l IH]; [reflexivity|]. cbn [flat_map]. rewrite IH. unfold t_of, ep. cbn [fst snd]. rewrite LP. reflexivity. }
            assert (Z2 : forall l, flat_map (d_of 1 dir (dn odi) c) (map (fun q => (p, q, ment A p q)) l) = []).
            { intros l. rewrite flat_map_map. induction l as [|q l IH]; [reflexivity|]. cbn [flat_map]. rewrite IH. unfold d_of, ep. cbn [fst snd]. rewrite LP. reflexivity. }
            rewrite Z1, Z2. destruct rhs; [unfold g_of; cbn [fst]; rewrite LP|]; cbn [app]; rewrite !app_nil_r; destruct st; reflexivity.
        Qed.
        Lemma b_terms p st : (p < cB)%nat ->
          st_b_row B mp (b_offset dim sbs cA cB k m a i) p st = Ok (fst st ++ flat_map (t_of 1 dir c) (flat_map (fun q => [((av + p)%nat, q, ment B p q); (q, (av + p)%nat, ment B p q)]) (seq 0 av)),
            snd st ++ flat_map (d_of 1 dir (dn odi) c) (flat_map (fun q => [((av + p)%nat, q, ment B p q); (q, (av + p)%nat, ment B p q)]) (seq 0 av))).
        Proof.
          intros Hp. unfold st_b_row. rewrite B2, !flat_map_flat_map. apply floop_app. intros q st' Hq. apply in_seq in Hq. unfold st_b_col. rewrite mp_at by lia. cbn [bind fst snd].
          cbn [flat_map]. unfold t_of, d_of, ep, eq', ev. cbn [fst snd]. rewrite (lab_p a p Ba Hp).
          destruct (lab 1 dir c q) as [gj|] eqn:LQ; [rewrite ?app_nil_r; reflexivity|]. rewrite ?app_nil_r. rewrite lab_of in LQ. destruct (dir (global 1 c q)); [reflexivity|discriminate].
        Qed.
        Lemma m_terms : st_mult cB (b_offset dim sbs cA cB k m a i) (mult_offset dim sbs cA cB k m a) (mult cl) = flat_map (t_of 1 dir c) (m_entries av cB (mult cl)) /\
          flat_map (d_of 1 dir (dn odi) c) (m_entries av cB (mult cl)) = [].
        Proof.
          unfold st_mult, m_entries. rewrite !flat_map_flat_map. split.
          - apply flat_map_ext_in. intros p Hp. apply in_seq in Hp. cbn [flat_map]. unfold t_of, ep, eq', ev. cbn [fst snd]. rewrite (lab_p a p Ba) by lia. rewrite (lab_m a Ba). reflexivity.
          - rewrite (flat_map_ext_in _ (fun _ => [])); [clear; induction (seq 0 cB); [reflexivity|exact IHl]|]. intros p Hp. apply in_seq in Hp. cbn [flat_map]. unfold d_of, ep, eq', ev. cbn [fst snd]. rewrite (lab_p a p Ba) by lia. rewrite (lab_m a Ba). reflexivity.
        Qed.
        Lemma st_terms_ok rhs : match rhs with Some v' => (av <= vsize v')%nat | None => True end -> exists ds,
          st_terms cltb fltb faces_of smul dim sbs cA cB k vproject mult m bnd odi cl A B rhs a = Ok (i, (flat_map (t_of 1 dir c) (st_entries av cB A B (mult cl)), ds)) /\
          Permutation ds (flat_map (d_of 1 dir (dn odi) c) (st_entries av cB A B (mult cl)) ++ match rhs with Some v' => flat_map (g_of 1 dir c) (all_rentries av (vent v')) | None => [] end).
        Proof.
          intros HR. unfold st_terms. rewrite (offset_stored cltb OC _ _ _ (wf_cells _ _ _ _ W) Hi). cbn [bind]. rewrite (st_map_ok a (Some odi) i ids _ Ba i_lt NF). cbn [bind]. fold vu mp.
          rewrite (floop_app (st_row A rhs mp) (fun p => flat_map (t_of 1 dir c) (map (fun q => (p, q, ment A p q)) (seq 0 av)))
             (fun p => (match rhs with Some v' => g_of 1 dir c (p, vent v' p) | None => [] end) ++ flat_map (d_of 1 dir (dn odi) c) (map (fun q => (p, q, ment A p q)) (seq 0 av)))).
          2:{ intros p st Hp. apply in_seq in Hp. apply row_terms; [lia|exact HR]. }
          cbn [bind fst snd app].
          rewrite (floop_app (st_b_row B mp (b_offset dim sbs cA cB k m a i)) (fun p => flat_map (t_of 1 dir c) (flat_map (fun q => [((av + p)%nat, q, ment B p q); (q, (av + p)%nat, ment B p q)]) (seq 0 av)))
             (fun p => flat_map (d_of 1 dir (dn odi) c) (flat_map (fun q => [((av + p)%nat, q, ment B p q); (q, (av + p)%nat, ment B p q)]) (seq 0 av)))).
          2:{ intros p st Hp. apply in_seq in Hp. apply b_terms. lia. }
          cbn [bind fst snd]. destruct m_terms as [-> M2]. eexists. split.
          - f_equal. f_equal. f_equal. unfold st_entries, all_entries, b_entries. rewrite !flat_map_app, !flat_map_flat_map, A1, B1, app_assoc. reflexivity.
          - unfold st_entries, all_entries, b_entries. rewrite !flat_map_app, M2, app_nil_r. rewrite !(flat_map_flat_map _ (d_of 1 dir (dn odi) c)), A1, B1.
            rewrite flat_map_split. destruct rhs as [v'|].
            + unfold all_rentries. rewrite flat_map_map. rewrite <- !app_assoc. etransitivity; [apply Permutation_app_comm|]. rewrite <- !app_assoc. reflexivity.
            + assert (Z : forall l : list nat, flat_map (fun _ => []) l = ([] : list (nat * K))) by (induction l; [reflexivity|exact IHl]). rewrite Z, app_nil_r. reflexivity.
        Qed.
      End Terms.
    End Cell.

    (** ** the calls *)
    Definition stinv (odi : nat) (cs : list (contribution K)) (a : stokes K) : Prop := stbase a /\ sgood N 1 dir (dn odi) cs (st_trip a) [] (st_RHS a).
    Definition stidle (a : stokes K) : Prop := stbase a /\ st_trip a = [].
    Lemma st_init_ok odi a : stidle a -> stinv odi [] (st_initialize a).
    Proof.
      intros (B & T). split; [exact B|]. cbn [st_initialize with_st st_trip st_RHS]. rewrite T. destruct B as (_ & _ & ->). apply sgood_nil.
    Qed.
    Lemma sgood_to odi cs ts R0 c E G ts' ds' : Forall (fun id => id < N)%nat (c_faces c) -> sgood N 1 dir (dn odi) cs ts [] R0 -> entries 1 c E -> rentries 1 c G ->
      ts' = flat_map (t_of 1 dir c) E -> Permutation ds' (flat_map (d_of 1 dir (dn odi) c) E ++ flat_map (g_of 1 dir c) G) ->
      exists R', add_duos ds' R0 = Ok R' /\ sgood N 1 dir (dn odi) (cs ++ [c]) (ts ++ ts') [] R'.
    Proof.
      intros HA G0 HE HG -> PD. apply sgood_flush. apply (sgood_step N 1 dir (dn odi) c HA cs ts [] R0 E G _ ds' G0 HE HG); [reflexivity|exact PD].
    Qed.
    Lemma no_load (i : nat) ids cl (A B : mat K) v : rentries 1 (cell_con i ids cl A B v 0) ([] : list (nat * K)).
    Proof. split; [constructor|]. intros p Hp. cbn. reflexivity. Qed.

    Lemma st_assemble_ok a cs cl A B v c : stinv k cs a -> stokes_contributes cA fA cB m faces_of mult cl A B v (fun _ => cA) c ->
      exists a', st_assemble cltb fltb faces_of smul dim sbs cA cB k vproject mult m bnd cl A B v a = Ok a' /\ stinv k (cs ++ [c]) a'.
    Proof.
      intros (Ba & G) (i & ids & Hi & NF & -> & A1 & A2 & B1 & B2 & HV). fold nc nf. change (mkC _ _ _) with (cell_con i ids cl A B v cA).
      unfold st_assemble. destruct (st_terms_ok i ids cl A B v cA Hi NF A1 A2 B1 B2 a Ba k None I) as (ds & -> & PD). cbn [bind fst snd]. rewrite (proj2 (Nat.leb_le _ _) HV).
      assert (GE : flat_map (g_of 1 dir (cell_con i ids cl A B v cA)) (all_rentries cA (vent v)) = map (fun p => (i * cA + p, vent v p)%nat) (seq 0 cA)).
      { unfold all_rentries. rewrite flat_map_map. rewrite (flat_map_ext_in _ (fun p => [(i * cA + p, vent v p)%nat])); [clear; induction (seq 0 cA); [reflexivity|cbn; rewrite IHl; reflexivity]|].
        intros p Hp. apply in_seq in Hp. unfold g_of. cbn [fst snd]. rewrite lab_v by (exact Hi || lia). pose proof (i_lt i cl Hi). unfold velocity_unknowns, cell_unknowns. rewrite app_nth1 by (rewrite seq_length; lia). rewrite seq_nth by lia.
        assert (HI : (i * cA + p < nc * cA)%nat) by nia. unfold label1. cbn [fst]. assert (DI : dir (i * cA + p)%nat = false) by (unfold dir, on_face; rewrite fou_cell by exact HI; reflexivity).
        rewrite DI. change dir with (st_dir cA fA nc nf dirf). rewrite rank_cell by lia. reflexivity. }
      destruct (sgood_to k cs (st_trip a) (st_RHS a) (cell_con i ids cl A B v cA) _ (all_rentries cA (vent v)) _ (ds ++ map (fun p => (i * cA + p, vent v p)%nat) (seq 0 cA)) (c_range i ids cl A B v cA Hi NF) G
        (c_entries i ids cl A B v cA) (c_rentries i ids cl A B v cA ltac:(lia)) eq_refl) as (R' & ER & G').
      { rewrite app_nil_r in PD. rewrite GE, PD. reflexivity. }
      rewrite add_duos_app in ER. destruct (add_duos ds (st_RHS a)) as [R1| |]; try discriminate. cbn [bind] in ER |- *. rewrite add_block_duos, ER. cbn [bind]. eexists. split; [reflexivity|]. split; [exact Ba|exact G'].
    Qed.
    Lemma st_assemble_alg_ok a cs cl A B v c : stinv 2 cs a -> stokes_contributes cA fA cB m faces_of mult cl A B v (fun n => n) c ->
      exists a', st_assemble_alg cltb fltb faces_of smul dim sbs cA cB k vproject mult m bnd cl A B v a = Ok a' /\ stinv 2 (cs ++ [c]) a'.
    Proof.
      intros (Ba & G) (i & ids & Hi & NF & -> & A1 & A2 & B1 & B2 & HV). fold nc nf. change (mkC _ _ _) with (cell_con i ids cl A B v (cA + length ids * fA)).
      unfold st_assemble_alg. destruct (st_terms_ok i ids cl A B v (cA + length ids * fA) Hi NF A1 A2 B1 B2 a Ba 2 (Some v) HV) as (ds & -> & PD). cbn [bind fst snd].
      destruct (sgood_to 2 cs (st_trip a) (st_RHS a) (cell_con i ids cl A B v (cA + length ids * fA)) _ _ _ ds (c_range i ids cl A B v _ Hi NF) G
        (c_entries i ids cl A B v _) (c_rentries i ids cl A B v _ (le_n _)) eq_refl PD) as (R' & -> & G').
      cbn [bind]. eexists. split; [reflexivity|]. split; [exact Ba|exact G'].
    Qed.
    Lemma st_finalize_ok odi cs a : stinv odi cs a -> exists a', st_finalize a = Ok a' /\ stidle a' /\ assembled dir N 1 (st_val odi) cs (st_LHS a') (st_RHS a').
    Proof.
      intros (B & G). unfold st_finalize. destruct (sgood_final _ _ _ _ _ _ _ G) as (L & EL & AS). destruct B as (B1 & B2 & B3). rewrite B3, EL. cbn [bind]. eexists. split; [reflexivity|].
      split; [split; [split; [exact B1|split; [exact B2|exact B3]]|reflexivity]|]. cbn [with_st st_LHS st_RHS].
      destruct AS as [Q1 Q2 Q3 Q4 Q5]. constructor; try assumption. intros I HI FI. rewrite (Q5 I HI FI). f_equal. apply sumn_ext. intros J _. unfold dval. rewrite div1. reflexivity.
    Qed.

    (** stokes_assembler_alg *)
    Definition linv (cs : list (contribution K)) (a : stokes K) : Prop := stbase a /\ sgood N 1 dir (dn 2) cs (st_trip a) [] (st_DIR a).
    Lemma alg_assemble_lhs_ok a cs cl A B c : linv cs a -> stokes_contributes cA fA cB m faces_of mult cl A B (mkVec 0 (fun _ => 0)) (fun _ => 0%nat) c ->
      exists a', alg_assemble_lhs cltb fltb faces_of smul dim sbs cA cB k vproject mult m bnd cl A B a = Ok a' /\ linv (cs ++ [c]) a'.
    Proof.
      intros (Ba & G) (i & ids & Hi & NF & -> & A1 & A2 & B1 & B2 & HV). fold nc nf. set (v := mkVec _ _). change (mkC _ _ _) with (cell_con i ids cl A B v 0).
      unfold alg_assemble_lhs. destruct (st_terms_ok i ids cl A B v 0 Hi NF A1 A2 B1 B2 a Ba 2 None I) as (ds & -> & PD). cbn [bind fst snd].
      destruct (sgood_to 2 cs (st_trip a) (st_DIR a) (cell_con i ids cl A B v 0) _ [] _ ds (c_range i ids cl A B v _ Hi NF) G
        (c_entries i ids cl A B v _) (no_load i ids cl A B v) eq_refl PD) as (R' & -> & G').
      cbn [bind]. eexists. split; [reflexivity|]. split; [exact Ba|exact G'].
    Qed.
    Definition rinv (cs : list (contribution K)) (a : stokes K) : Prop := stbase a /\ st_trip a = [] /\ sgood N 1 dir (dn 2) cs [] [] (st_RHS a).
    Lemma alg_assemble_rhs_ok a cs cl v c : rinv cs a -> load_contributes cA fA m faces_of cl v c ->
      exists a', alg_assemble_rhs cltb fltb faces_of smul dim sbs cA k vproject m bnd cl v a = Ok a' /\ rinv (cs ++ [c]) a' /\ st_LHS a' = st_LHS a /\ st_DIR a' = st_DIR a.
    Proof.
      intros (Ba & T & G) (i & ids & Hi & NF & E & HV). subst c. set (c := mkC _ _ _). fold nc in c.
      pose proof (i_lt i cl Hi) as Hn. pose proof (vu_length i ids) as LV.
      unfold alg_assemble_rhs. rewrite (offset_stored cltb OC _ _ _ (wf_cells _ _ _ _ W) Hi). cbn [bind]. rewrite (st_map_ok a None i ids _ Ba Hn NF). cbn [bind].
      assert (RL : forall l R0, (forall p, In p l -> (p < vsize v)%nat) -> floop (alg_rhs_row v (map (label1 (fun _ => 0)) (velocity_unknowns cA fA nc i ids))) l R0 = add_duos (flat_map (g_of 1 dir c) (map (fun p => (p, vent v p)) l)) R0).
      { induction l as [|p l IH]; intros R0 Hl; [reflexivity|]. cbn [floop map flat_map]. pose proof (Hl p (or_introl eq_refl)) as Hp. unfold alg_rhs_row at 1. unfold vget. rewrite nth_error_map, (nth_error_nth' _ 0%nat) by (rewrite LV; lia). cbn [option_map bind].
        unfold g_of at 1. cbn [fst snd]. rewrite lab1. cbn [c c_faces]. unfold label1. cbn [fst]. destruct (dir (nth p _ 0%nat)); cbn [app].
        - cbn [bind]. apply IH. intros; apply Hl; right; assumption.
        - unfold vec_get. rewrite (proj2 (Nat.ltb_lt _ _) Hp). cbn [bind]. unfold add_duos. cbn [floop fst snd]. destruct (vec_add R0 _ (vent v p)); cbn [bind]; [|reflexivity|reflexivity]. apply IH. intros; apply Hl; right; assumption. }
      rewrite RL by (intros p Hp; apply in_seq in Hp; lia).
      assert (DO : c_dofs 1 c = vsize v) by (rewrite dofs1; cbn [c c_faces]; rewrite LV, HV; reflexivity).
      assert (HA : Forall (fun I => I < N)%nat (c_faces c)).
      { apply Forall_forall. intros I HI. apply (vu_lt i ids cl Hi NF) in HI. unfold N, all_unknowns, multiplier. lia. }
      destruct (sgood_to 2 cs [] (st_RHS a) c [] (all_rentries (vsize v) (vent v)) [] (flat_map (g_of 1 dir c) (map (fun p => (p, vent v p)) (seq 0 (vsize v)))) HA G) as (R' & -> & G').
      - split; [constructor|]. intros p q _ _. reflexivity.
      - split; [apply Forall_forall; intros e He; apply in_map_iff in He; destruct He as (q & <- & Hq); apply in_seq in Hq; rewrite DO; cbn; lia|].
        intros p Hp. rewrite (all_rentries_sum 0 0 (fun _ => false)). rewrite DO in Hp. rewrite (proj2 (Nat.ltb_lt _ _) Hp). reflexivity.
      - reflexivity.
      - reflexivity.
      - cbn [bind]. eexists. split; [reflexivity|]. split; [|split; reflexivity]. split; [exact Ba|]. split; [exact T|exact G'].
    Qed.

    (** ** reading a solution back *)
    Lemma segment_ok (x : vec K) o n : (o + n <= vsize x)%nat -> segment x o n = Ok (map (fun p => vent x (o + p)%nat) (seq 0 n)).
    Proof. intros H. unfold segment. rewrite (proj2 (Nat.leb_le _ _) H). reflexivity. Qed.
    Lemma completed1 odi x I : completed dir 1 (st_val odi) x I = if dir I then st_val odi I else vent x (rank dir I).
    Proof. unfold completed. rewrite free1, position1. destruct (dir I); reflexivity. Qed.
    Lemma take_velocity_ok a x i cl ids : stbase a -> (rank dir N <= vsize x)%nat -> nth_error (m_cells m) i = Some cl -> numbered (m_faces m) ids (faces_of cl) ->
      take_velocity cltb fltb faces_of smul dim sbs cA k vproject m bnd cl x a = Ok (map (completed dir 1 (st_val 2) x) (velocity_unknowns cA fA nc i ids)).
    Proof.
      intros B VX Hi NF. pose proof (i_lt i cl Hi) as Hn. pose proof size_rank as SR. rewrite Nat.mul_1_l in SR.
      unfold take_velocity. rewrite (offset_stored cltb OC _ _ _ (wf_cells _ _ _ _ W) Hi). cbn [bind]. rewrite segment_ok by nia. cbn [bind].
      assert (FV : forall ids fs, numbered (m_faces m) ids fs -> exists l, fmap (st_face_values fltb smul dim sbs cA k vproject m bnd x a) fs = Ok l /\ concat l = map (completed dir 1 (st_val 2) x) (flat_map (face_unknowns_of cA fA nc) ids)).
      { clear ids NF. induction 1 as [|j f ids fs Hf _ IH]; [exists []; split; reflexivity|]. destruct IH as (l & El & Cl). cbn [fmap]. assert (Hj : (j < nf)%nat) by (apply nth_error_Some; congruence).
        destruct (pos_ok cltb fltb faces_of O m W j f Hf) as [EL EO]. unfold st_face_values at 1. rewrite EL. cbn [bind].
        rewrite (q_dir (K := K) cltb fltb faces_of smul one (vproject 0%nat) (vproject 0%nat) (fun _ _ _ => 0) O m ops bnd 0 W R j Hj). cbn [bind]. fold dirf.
        assert (DI : forall p, (p < fA)%nat -> dir (nc * cA + j * fA + p)%nat = dirf j) by (intros p Hp; unfold dir, on_face; rewrite <- Nat.add_assoc, fou_face by assumption; reflexivity).
        assert (ST : exists y, (if dirf j then do g <- q_func Sc P V smul (b_factor bnd) (b_dir bnd) j; Ok (map (vproject 2%nat f g) (seq 0 fA))
             else do fo <- offset F fltb (m_faces m) f; do c <- vat (compress_table (st_tab a)) fo; segment x (cA * length (m_cells m) + c * fA) fA) = Ok y /\ y = map (completed dir 1 (st_val 2) x) (face_unknowns_of cA fA nc j)).
        { unfold face_unknowns_of. rewrite (seq_from (nc * cA + j * fA)), map_map. destruct (dirf j) eqn:Dj.
          - destruct (q_dir_func cltb fltb faces_of smul one (vproject 2%nat) O m ops bnd W R j f Hf Dj) as (g & -> & E). cbn [bind]. rewrite E. eexists. split; [reflexivity|]. apply map_ext_in. intros p Hp. apply in_seq in Hp.
            rewrite completed1, DI by lia. unfold st_val, face_value. rewrite <- Nat.add_assoc, fou_face by (assumption || lia). reflexivity.
          - rewrite EO. cbn [bind]. rewrite (tab_free a j B Hj), Dj. cbn [bind]. fold nc. rewrite segment_ok.
            + eexists. split; [reflexivity|]. apply map_ext_in. intros p Hp. apply in_seq in Hp. rewrite completed1, DI by lia. rewrite <- (Nat.add_assoc (nc * cA)). change dir with (st_dir cA fA nc nf dirf). rewrite rank_face by (assumption || lia). rewrite (Nat.mul_comm cA nc). reflexivity.
            + pose proof (rank_lt dirf j nf Hj Dj) as RL. assert (X : (S (rank dirf j) * fA <= rank dirf nf * fA)%nat) by (apply Nat.mul_le_mono_r; lia). cbn [Nat.mul] in X. lia. }
        destruct ST as (y & EY & VY). fold fA. rewrite EY. cbn [bind]. rewrite El. cbn [bind]. eexists. split; [reflexivity|]. cbn [concat flat_map]. rewrite map_app, Cl, VY. reflexivity. }
      destruct (FV ids _ NF) as (l & EF & CF). rewrite EF. cbn [bind]. rewrite CF. unfold velocity_unknowns. rewrite map_app. f_equal. f_equal. unfold cell_unknowns. rewrite (seq_from (i * cA)), map_map. apply map_ext_in. intros p Hp. apply in_seq in Hp.
      assert (HI : (i * cA + p < nc * cA)%nat) by nia. rewrite completed1. assert (DI : dir (i * cA + p)%nat = false) by (unfold dir, on_face; rewrite fou_cell by exact HI; reflexivity).
      rewrite DI. change dir with (st_dir cA fA nc nf dirf). rewrite rank_cell by lia. reflexivity.
    Qed.
    Lemma take_pressure_ok odi a x i cl : stbase a -> (rank dir N <= vsize x)%nat -> nth_error (m_cells m) i = Some cl ->
      take_pressure cltb dim sbs cA cB k m cl x a = Ok (map (completed dir 1 (st_val odi) x) (pressure_unknowns cA fA cB nc nf i)).
    Proof.
      intros (_ & NO & _) VX Hi. pose proof (i_lt i cl Hi) as Hn. pose proof size_rank as SR. rewrite Nat.mul_1_l in SR.
      unfold take_pressure. rewrite (offset_stored cltb OC _ _ _ (wf_cells _ _ _ _ W) Hi). cbn [bind]. unfold b_offset. rewrite NO. fold fA nc. rewrite segment_ok by nia. f_equal.
      unfold pressure_unknowns. rewrite (seq_from (nc * cA + nf * fA + i * cB)), map_map. apply map_ext_in. intros p Hp. apply in_seq in Hp. rewrite completed1, <- (Nat.add_assoc (nc * cA + nf * fA)), dir_pressure.
      change dir with (st_dir cA fA nc nf dirf). rewrite rank_rest. f_equal. lia.
    Qed.
    Lemma face_offset_ok a f j : stbase a -> nth_error (m_faces m) j = Some f -> dirf j = false -> global_face_offset fltb dim sbs cA k m f a = Ok (rank dir (nc * cA + j * fA)).
    Proof.
      intros B Hf Dj. assert (Hj : (j < nf)%nat) by (apply nth_error_Some; congruence). destruct (pos_ok cltb fltb faces_of O m W j f Hf) as [EL EO]. unfold global_face_offset. rewrite EO. cbn [bind].
      rewrite (tab_free a j B Hj), Dj. cbn [bind]. change dir with (st_dir cA fA nc nf dirf). rewrite rank_face_start by lia. fold fA nc. rewrite (Nat.mul_comm cA nc). reflexivity.
    Qed.

    (** ** the pressure integrals *)
    Lemma sumn_S n (f : nat -> K) : sumn (S n) f = sumn n f + f n. Proof. reflexivity. Qed.
    Lemma mult_row i ids cl A B v r y : nth_error (m_cells m) i = Some cl -> numbered (m_faces m) ids (faces_of cl) ->
      sumn (N * 1) (fun J => full_mat 1 [cell_con i ids cl A B v r] (multiplier cA fA cB nc nf) J * y J) = sumn cB (fun p => mult cl p * y (nc * cA + nf * fA + i * cB + p)%nat).
    Proof.
      intros Hi NF. set (c := cell_con i ids cl A B v r). set (av := (cA + length ids * fA)%nat). pose proof (c_range i ids cl A B v r Hi NF) as CR. fold c in CR.
      transitivity (sumn (c_dofs 1 c) (fun p => only (global 1 c p =? multiplier cA fA cB nc nf)%nat (sumn (c_dofs 1 c) (fun q => ment (c_lhs c) p q * y (global 1 c q))))).
      { unfold full_mat. cbn [map suml].
        transitivity (sumn (N * 1) (fun J => sumn (c_dofs 1 c) (fun p => sumn (c_dofs 1 c) (fun q => only (global 1 c q =? J)%nat (only (global 1 c p =? multiplier cA fA cB nc nf)%nat (ment (c_lhs c) p q * y J)))))).
        { apply sumn_ext. intros J _. transitivity (sumn (c_dofs 1 c) (fun p => sumn (c_dofs 1 c) (fun q => only ((global 1 c p =? multiplier cA fA cB nc nf) && (global 1 c q =? J))%nat (ment (c_lhs c) p q))) * y J); [ring|].
          rewrite <- sumn_mul_r. apply sumn_ext. intros p _. rewrite <- sumn_mul_r. apply sumn_ext. intros q _. unfold only. destruct (global 1 c p =? _)%nat, (global 1 c q =? J)%nat; cbn [andb]; ring. }
        rewrite sumn_swap. apply sumn_ext. intros p Hp. rewrite sumn_swap, <- sumn_only. apply sumn_ext. intros q Hq.
        rewrite (sumn_only_match (N * 1) (global 1 c q) (fun J => only (global 1 c p =? multiplier cA fA cB nc nf)%nat (ment (c_lhs c) p q * y J))); [reflexivity|].
        apply global_lt; assumption. }
      assert (DO : c_dofs 1 c = S (av + cB)) by (unfold c; rewrite (c_dofs_eq i ids cl A B v r); unfold av; lia). rewrite DO. rewrite sumn_S.
      assert (LOW : forall p, (p < av + cB)%nat -> (global 1 c p =? multiplier cA fA cB nc nf)%nat = false).
      { intros p Hp. apply Nat.eqb_neq. pose proof (i_lt i cl Hi). destruct (Nat.lt_ge_cases p av) as [L|L].
        - unfold c. rewrite (global_v i ids cl A B v r) by exact L. pose proof (vu_lt i ids cl Hi NF (nth p (velocity_unknowns cA fA nc i ids) 0%nat)) as Q. unfold multiplier. assert (X := Q (nth_In _ _ ltac:(rewrite vu_length; exact L))). lia.
        - replace p with (av + (p - av))%nat by lia. unfold c, av. rewrite (global_p i ids cl A B v r) by (fold av; lia). fold av. unfold multiplier. nia. }
      rewrite sumn_zero by (intros p Hp; rewrite LOW by exact Hp; reflexivity). unfold c at 1, av at 1. rewrite (global_m i ids cl A B v r), Nat.eqb_refl. cbn [only].
      rewrite sumn_S. cbn [c cell_con c_lhs saddle ment]. fold av.
      assert (E1 : (av + cB <? av)%nat = false) by (apply Nat.ltb_ge; lia). assert (E2 : (av + cB <? av + cB)%nat = false) by (apply Nat.ltb_ge; lia). rewrite E1, E2, andb_false_r.
      rewrite sumn_app. rewrite (sumn_zero av) by (intros q Hq; rewrite (proj2 (Nat.leb_gt _ _)) by exact Hq; cbn [andb]; ring).
      transitivity (sumn cB (fun q => mult cl q * y (nc * cA + nf * fA + i * cB + q)%nat)); [|reflexivity].
      match goal with |- 0 + (0 + ?s + 0 * ?z) = _ => transitivity s; [ring|] end. apply sumn_ext. intros q Hq. fold c. unfold c, av. rewrite (global_p i ids cl A B v r) by exact Hq.
      rewrite (proj2 (Nat.leb_le _ _)) by lia. rewrite (proj2 (Nat.ltb_lt _ _)) by lia. cbn [andb]. f_equal. f_equal. lia.
    Qed.
  End Reached.
End St.
