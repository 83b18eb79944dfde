(** Blocks of triplets and of the right-hand side; Neumann and Robin terms, the basic and the
    discontinuous Galerkin assemblers. *)
From Coq Require Import List Arith Bool Lia Ring.
From Verif Require Import Common LinAlg Mesh_Model Mesh_Spec Mesh_Proofs BC_Model Asm_Model Asm_Spec Asm_Proofs Asm2_Proofs.
Import ListNotations.

Section Blocks.
  Context {K : cring}.
  Add Ring Kring : (cth K).
  Local Open Scope k_scope.

  Lemma add_block_spec base v : forall n (R : vec K) k0, (base + k0 + n <= vsize R)%nat ->
    exists R', floop (fun i r => vec_add r (base + i) (v i)) (seq k0 n) R = Ok R' /\ vsize R' = vsize R /\
      forall k, vent R' k = vent R k + sumn n (fun i => only (base + (k0 + i) =? k)%nat (v (k0 + i)%nat)).
  Proof.
    induction n as [|n IH]; intros R k0 H; cbn [seq floop].
    - exists R. split; [reflexivity|]. split; [reflexivity|]. intros k. cbn. ring.
    - unfold vec_add at 1. rewrite (proj2 (Nat.ltb_lt _ _)) by lia. cbn [bind].
      destruct (IH (mkVec (vsize R) (fun k => if (k =? base + k0)%nat then vent R k + v k0 else vent R k)) (S k0)) as (R' & -> & S1 & S2); [cbn [vsize]; lia|].
      exists R'. split; [reflexivity|]. split; [exact S1|]. intros k. rewrite S2, sumn_shift. cbn [vent].
      rewrite Nat.add_0_r. rewrite (sumn_ext n _ (fun i => only (base + (k0 + S i) =? k)%nat (v (k0 + S i)%nat))).
      2:{ intros i Hi. rewrite <- plus_n_Sm. reflexivity. }
      unfold only at 2. rewrite (Nat.eqb_sym k). destruct (base + k0 =? k)%nat; ring.
  Qed.
  Lemma add_block_ok base n v (R : vec K) : (base + n <= vsize R)%nat ->
    exists R', add_block base n v R = Ok R' /\ vsize R' = vsize R /\
      forall k, vent R' k = vent R k + sumn n (fun i => only (base + i =? k)%nat (v i)).
  Proof. intros H. destruct (add_block_spec base v n R 0 ltac:(lia)) as (R' & E & S1 & S2). exists R'. auto. Qed.

  Lemma tsum_flat (g : nat -> list (triplet K)) n r c : tsum (flat_map g (seq 0 n)) r c = sumn n (fun i => tsum (g i) r c).
  Proof.
    rewrite <- suml_map_seq. generalize (seq 0 n). induction l as [|a l IH]; [reflexivity|]. cbn [flat_map map suml]. rewrite tsum_app, IH. reflexivity.
  Qed.
  Lemma tsum_map (g : nat -> triplet K) n r c : tsum (map g (seq 0 n)) r c =
    sumn n (fun i => only ((t_row (g i) =? r) && (t_col (g i) =? c))%nat (t_val (g i))).
  Proof.
    rewrite <- suml_map_seq. generalize (seq 0 n). induction l as [|a l IH]; [reflexivity|]. cbn [map suml].
    change (g a :: map g l) with ([g a] ++ map g l). rewrite tsum_app, tsum_one, IH. reflexivity.
  Qed.
  Lemma push_block_tsum gi gj n M (ts : list (triplet K)) r c :
    tsum (push_block gi gj n M ts) r c = tsum ts r c + sumn n (fun i => sumn n (fun j => only ((gi + i =? r) && (gj + j =? c))%nat (M i j))).
  Proof.
    unfold push_block. rewrite tsum_app, tsum_flat. f_equal. apply sumn_ext. intros i Hi. rewrite tsum_map. reflexivity.
  Qed.
  Lemma push_block_range gi gj n M (ts : list (triplet K)) N : in_range N ts -> (gi + n <= N)%nat -> (gj + n <= N)%nat -> in_range N (push_block gi gj n M ts).
  Proof.
    intros H H1 H2 t Ht. unfold push_block in Ht. apply in_app_or in Ht. destruct Ht as [Ht|Ht]; [apply H; exact Ht|].
    apply in_flat_map in Ht. destruct Ht as (i & Hi & Ht). apply in_map_iff in Ht. destruct Ht as (j & <- & Hj). apply in_seq in Hi, Hj. cbn. lia.
  Qed.
  Lemma sumn_blocks nb a (f : nat -> K) : sumn (a * nb) f = sumn a (fun l => sumn nb (fun i => f (l * nb + i)%nat)).
  Proof.
    induction a as [|a IH]; [reflexivity|]. cbn [Nat.mul]. rewrite (Nat.add_comm nb), sumn_app, IH. cbn [sumn]. reflexivity.
  Qed.
  Lemma only_true (x : K) : only true x = x. Proof. reflexivity. Qed.
  Lemma sumn_only n b (f : nat -> K) : sumn n (fun i => only b (f i)) = only b (sumn n f).
  Proof. destruct b; [reflexivity|]. apply sumn_zero. reflexivity. Qed.
  Lemma fmap_forall2 {A B} (f : A -> outcome B) (l : list A) l' : Forall2 (fun b a => f a = Ok b) l' l -> fmap f l = Ok l'.
  Proof. induction 1 as [|b a l' l H _ IH]; [reflexivity|]. cbn [fmap]. rewrite H. cbn [bind]. rewrite IH. reflexivity. Qed.
  Lemma from_triplets_ok n (ts : list (triplet K)) : in_range n ts -> from_triplets n ts = Ok (mkMat n n (tsum ts)).
  Proof.
    intros H. unfold from_triplets. assert (FB : forallb (fun t => (t_row t <? n) && (t_col t <? n))%nat ts = true).
    { apply forallb_forall. intros t Ht. destruct (H t Ht). apply andb_true_iff. rewrite !Nat.ltb_lt. auto. }
    rewrite FB. reflexivity.
  Qed.
End Blocks.

Section FaceTerms.
  Context {K : cring}.
  Add Ring Kring2 : (cth K).
  Local Open Scope k_scope.
  Context (n nb : nat) (dir : nat -> bool) (dn : nat -> nat -> K).

  (** contribution of a single face *)
  Definition face_c (id : nat) (M : nat -> nat -> K) (v : nat -> K) : contribution K := mkC [id] (mkMat nb nb M) (mkVec nb v).

  Lemma face_global id M v p : (p < nb)%nat -> global nb (face_c id M v) p = (id * nb + p)%nat.
  Proof. intros H. unfold global, face_c. cbn [c_faces]. rewrite Nat.div_small, Nat.mod_small by exact H. reflexivity. Qed.

  Lemma match_face id p I : (id < n)%nat -> dir id = false -> (p < nb)%nat -> (I < n * nb)%nat -> dir (I / nb) = false ->
    (rank dir id * nb + p =? position dir nb I)%nat = (id * nb + p =? I)%nat.
  Proof.
    intros H D Hp HI DI. pose proof (match_free (K:=K) n nb dir (face_c id (fun _ _ => 0) (fun _ => 0)) p I) as Q.
    rewrite face_global in Q by exact Hp. rewrite <- Q; auto; [|unfold c_dofs, face_c; cbn; lia].
    unfold face_c. cbn [c_faces]. rewrite Nat.div_small, Nat.mod_small by exact Hp. cbn [nth]. rewrite D. reflexivity.
  Qed.

  Lemma face_cell_rhs id M v I : cell_rhs nb (face_c id M v) I = sumn nb (fun p => only (id * nb + p =? I)%nat (v p)).
  Proof.
    unfold cell_rhs. unfold c_dofs, face_c. cbn [c_faces length]. rewrite Nat.mul_1_l. apply sumn_ext. intros p Hp. fold (face_c id M v).
    rewrite face_global by exact Hp. reflexivity.
  Qed.
  Lemma face_cell_mat id M v I J : cell_mat nb (face_c id M v) I J = sumn nb (fun p => sumn nb (fun q => only ((id * nb + p =? I) && (id * nb + q =? J))%nat (M p q))).
  Proof.
    unfold cell_mat. unfold c_dofs, face_c. cbn [c_faces length]. rewrite Nat.mul_1_l. apply sumn_ext. intros p Hp. apply sumn_ext. intros q Hq. fold (face_c id M v).
    rewrite !face_global by assumption. reflexivity.
  Qed.
  Lemma face_elim id M v I : (id < n)%nat -> dir id = false -> elim n nb dir dn (cell_mat nb (face_c id M v)) I = 0.
  Proof.
    intros H D. rewrite elim_cell.
    - apply sumn_zero. intros p Hp. rewrite sumn_zero; [destruct (global nb (face_c id M v) p =? I)%nat; reflexivity|]. intros q Hq.
      unfold c_dofs, face_c in Hq. cbn in Hq. unfold face_c. cbn [c_faces]. rewrite Nat.div_small by lia. cbn [nth]. rewrite D. reflexivity.
    - constructor; [exact H|constructor].
  Qed.

  (** adding a block to the right-hand side, and optionally a block of triplets, at a free face *)
  Lemma good_face a cs id M v : good n nb dir dn cs a -> (id < n)%nat -> dir id = false ->
    exists R, add_block (rank dir id * nb) nb v (RHS a) = Ok R /\
      good n nb dir dn (cs ++ [face_c id M v]) (with_sys a (push_block (rank dir id * nb) (rank dir id * nb) nb M (triplets a)) R) /\
      ((forall i j, M i j = 0) -> good n nb dir dn (cs ++ [face_c id M v]) (with_sys a (triplets a) R)).
  Proof.
    intros (T & E & S1 & S2 & IR & H) Hid D. pose proof (rank_lt dir id n Hid D) as RL.
    destruct (add_block_ok (rank dir id * nb) nb v (RHS a)) as (R & ER & R1 & R2); [rewrite S2; nia|].
    exists R. split; [exact ER|].
    assert (RHSG : forall I, (I < n * nb)%nat -> dir (I / nb) = false ->
      vent R (position dir nb I) = full_rhs nb (cs ++ [face_c id M v]) I - elim n nb dir dn (full_mat nb (cs ++ [face_c id M v])) I).
    { intros I HI DI. rewrite R2, (proj2 (H I HI DI)), full_rhs_snoc.
      rewrite (elim_ext n nb dir dn (full_mat nb (cs ++ [face_c id M v])) (fun I J => full_mat nb cs I J + cell_mat nb (face_c id M v) I J)) by (intros; apply full_mat_snoc).
      rewrite elim_add, face_elim, face_cell_rhs by assumption.
      rewrite (sumn_ext nb _ (fun p => only (id * nb + p =? I)%nat (v p))); [ring|]. intros p Hp. rewrite match_face by assumption. reflexivity. }
    split.
    - split; [exact T|]. split; [exact E|]. split; [exact S1|]. split; [cbn; congruence|]. split; [apply push_block_range; [exact IR|nia|nia]|].
      intros I HI DI. split; [|apply RHSG; assumption]. intros J HJ DJ. cbn [with_sys triplets]. rewrite push_block_tsum, (proj1 (H I HI DI) J HJ DJ), full_mat_snoc, face_cell_mat.
      f_equal. apply sumn_ext. intros p Hp. apply sumn_ext. intros q Hq. rewrite !match_face by assumption. reflexivity.
    - intros MZ. split; [exact T|]. split; [exact E|]. split; [exact S1|]. split; [cbn; congruence|]. split; [exact IR|].
      intros I HI DI. split; [|apply RHSG; assumption]. intros J HJ DJ. cbn [with_sys triplets]. rewrite (proj1 (H I HI DI) J HJ DJ), full_mat_snoc, face_cell_mat.
      rewrite sumn_zero; [ring|]. intros p Hp. apply sumn_zero. intros q Hq. rewrite MZ. destruct ((id * nb + p =? I) && (id * nb + q =? J))%nat; reflexivity.
  Qed.
End FaceTerms.

(** ** basic_condensed_assembler *)
Section Basic.
  Context {K : cring}.
  Add Ring Kring3 : (cth K).
  Local Open Scope k_scope.
  Context (n nb : nat) (dir : nat -> bool).
  Let dn (i k : nat) : K := 0.

  Definition bgood (cs : list (contribution K)) (b : basm K) : Prop :=
    good n nb dir dn cs (b_asm b) /\ forall i, (i < n)%nat -> nth_error (dirichlet_faces b) i = Some (dir i).

  Lemma elim_zero M I : elim n nb dir dn M I = 0.
  Proof. unfold elim. apply sumn_zero. intros J _. unfold dval, dn, only. destruct (dir (J / nb)); ring. Qed.

  Context (c : contribution K) (b : basm K).
  Context (HB : forall i, (i < n)%nat -> nth_error (dirichlet_faces b) i = Some (dir i)) (HT : tabs n dir (tab (b_asm b))) (HE : fbs (b_asm b) = nb).
  Context (HA : Forall (fun id => id < n)%nat (c_faces c)) (HF : fits nb c).
  Let id l := nth l (c_faces c) 0%nat.
  Let sz := (nb * rank dir n)%nat.

  Lemma id_lt l : (l < length (c_faces c))%nat -> (id l < n)%nat.
  Proof. intros H. apply (proj1 (Forall_forall _ _) HA). apply nth_In. exact H. Qed.
  Lemma get_id l : (l < length (c_faces c))%nat -> vget (c_faces c) l = Ok (id l).
  Proof. intros H. unfold vget. rewrite (nth_error_nth' _ 0%nat H). reflexivity. Qed.
  Lemma blk_range l : (l < length (c_faces c))%nat -> dir (id l) = false -> (rank dir (id l) * nb + nb <= sz)%nat.
  Proof. intros H D. pose proof (rank_lt dir _ n (id_lt l H) D). unfold sz. nia. Qed.

  Lemma basic_col_spec li : (li < length (c_faces c))%nat -> dir (id li) = false ->
    forall ljs ts, (forall l, In l ljs -> (l < length (c_faces c))%nat) -> in_range sz ts ->
    exists ts', floop (basic_col b (c_lhs c) (c_faces c) li (rank dir (id li))) ljs ts = Ok ts' /\ in_range sz ts' /\
      forall r s, tsum ts' r s = tsum ts r s + suml (map (fun lj => only (negb (dir (id lj))) (sumn nb (fun i => sumn nb (fun j =>
         only ((rank dir (id li) * nb + i =? r) && (rank dir (id lj) * nb + j =? s))%nat (ment (c_lhs c) (li * nb + i) (lj * nb + j)))))) ljs).
  Proof.
    intros Hli Di. induction ljs as [|lj ljs IH]; intros ts Hl IR; cbn [floop].
    - exists ts. split; [reflexivity|]. split; [exact IR|]. intros. cbn. ring.
    - assert (Hlj : (lj < length (c_faces c))%nat) by (apply Hl; left; reflexivity).
      unfold basic_col at 1. rewrite get_id by exact Hlj. cbn [bind]. unfold vget at 1. rewrite HB by (apply id_lt; exact Hlj). cbn [bind].
      destruct (dir (id lj)) eqn:Dj.
      + cbn [bind]. destruct (IH ts) as (ts' & -> & IR' & Q); [intros; apply Hl; right; assumption|exact IR|].
        exists ts'. split; [reflexivity|]. split; [exact IR'|]. intros r s. rewrite Q. cbn [map suml]. rewrite Dj. cbn [negb only]. ring.
      + unfold vget at 1. rewrite (HT _ (id_lt lj Hlj)), Dj. cbn [bind]. rewrite HE.
        destruct (IH (push_block (rank dir (id li) * nb) (rank dir (id lj) * nb) nb (fun i j => ment (c_lhs c) (li * nb + i) (lj * nb + j)) ts)) as (ts' & -> & IR' & Q).
        { intros; apply Hl; right; assumption. }
        { apply push_block_range; [exact IR|apply blk_range; assumption|apply blk_range; assumption]. }
        exists ts'. split; [reflexivity|]. split; [exact IR'|]. intros r s. rewrite Q, push_block_tsum. cbn [map suml]. rewrite Dj. cbn [negb]. rewrite only_true. ring.
  Qed.

  Lemma basic_row_spec : forall lis ts R, (forall l, In l lis -> (l < length (c_faces c))%nat) -> in_range sz ts -> vsize R = sz ->
    exists ts' R', floop (basic_row b (c_lhs c) (c_rhs c) (c_faces c)) lis (ts, R) = Ok (ts', R') /\ in_range sz ts' /\ vsize R' = sz /\
      (forall r s, tsum ts' r s = tsum ts r s + suml (map (fun li => only (negb (dir (id li))) (sumn (length (c_faces c)) (fun lj => only (negb (dir (id lj))) (sumn nb (fun i => sumn nb (fun j =>
         only ((rank dir (id li) * nb + i =? r) && (rank dir (id lj) * nb + j =? s))%nat (ment (c_lhs c) (li * nb + i) (lj * nb + j)))))))) lis)) /\
      (forall k, vent R' k = vent R k + suml (map (fun li => only (negb (dir (id li))) (sumn nb (fun i => only (rank dir (id li) * nb + i =? k)%nat (vent (c_rhs c) (li * nb + i))))) lis)).
  Proof.
    induction lis as [|li lis IH]; intros ts R Hl IR HR; cbn [floop].
    - exists ts, R. split; [reflexivity|]. split; [exact IR|]. split; [exact HR|]. split; intros; cbn; ring.
    - assert (Hli : (li < length (c_faces c))%nat) by (apply Hl; left; reflexivity).
      unfold basic_row at 1. rewrite get_id by exact Hli. cbn [bind]. unfold vget at 1. rewrite HB by (apply id_lt; exact Hli). cbn [bind].
      destruct (dir (id li)) eqn:Di.
      + cbn [bind]. destruct (IH ts R) as (ts' & R' & -> & Q1 & Q2 & Q3 & Q4); [intros; apply Hl; right; assumption|exact IR|exact HR|].
        exists ts', R'. split; [reflexivity|]. split; [exact Q1|]. split; [exact Q2|].
        split; intros; [rewrite Q3|rewrite Q4]; cbn [map suml]; rewrite Di; cbn [negb only]; ring.
      + unfold vget at 1. rewrite (HT _ (id_lt li Hli)), Di. cbn [bind fst snd].
        destruct (basic_col_spec li Hli Di (seq 0 (length (c_faces c))) ts) as (ts1 & -> & IR1 & C1); [intros l H; apply in_seq in H; lia|exact IR|].
        cbn [bind]. destruct HF as (F1 & F2 & F3). rewrite HE, F3. unfold c_dofs. rewrite (proj2 (Nat.leb_le _ _)) by nia.
        destruct (add_block_ok (rank dir (id li) * nb) nb (fun i => vent (c_rhs c) (li * nb + i)) R) as (R1 & -> & RS & RV); [rewrite HR; apply blk_range; assumption|].
        cbn [bind]. destruct (IH ts1 R1) as (ts' & R' & -> & Q1 & Q2 & Q3 & Q4); [intros; apply Hl; right; assumption|exact IR1|congruence|].
        exists ts', R'. split; [reflexivity|]. split; [exact Q1|]. split; [exact Q2|]. split; intros.
        * rewrite Q3, C1. cbn [map suml]. rewrite Di, suml_map_seq. cbn [negb]. rewrite only_true. ring.
        * rewrite Q4, RV. cbn [map suml]. rewrite Di. cbn [negb]. rewrite only_true. ring.
  Qed.

  Lemma blk_global l i : (i < nb)%nat -> global nb c (l * nb + i) = (id l * nb + i)%nat.
  Proof. intros H. unfold global. destruct (dm_add nb l i H) as [-> ->]. reflexivity. Qed.

  Lemma match_blk l i I : (l < length (c_faces c))%nat -> (i < nb)%nat -> (I < n * nb)%nat -> dir (I / nb) = false ->
    negb (dir (id l)) && (rank dir (id l) * nb + i =? position dir nb I)%nat = (global nb c (l * nb + i) =? I)%nat.
  Proof.
    intros Hl Hi HI DI. rewrite blk_global by exact Hi. destruct (dir (id l)) eqn:D; cbn [negb andb].
    - symmetry. apply Nat.eqb_neq. intros E. destruct (dm_add nb (id l) i Hi) as [X _]. rewrite E in X. congruence.
    - apply (match_face (K:=K) n nb dir); auto. apply id_lt; exact Hl.
  Qed.

  Lemma basic_rows_good cs : good n nb dir dn cs (b_asm b) ->
    exists st, floop (basic_row b (c_lhs c) (c_rhs c) (c_faces c)) (seq 0 (length (c_faces c))) (triplets (b_asm b), RHS (b_asm b)) = Ok st /\
      good n nb dir dn (cs ++ [c]) (with_sys (b_asm b) (fst st) (snd st)).
  Proof.
    intros (T & E & S1 & S2 & IR & H).
    destruct (basic_row_spec (seq 0 (length (c_faces c))) (triplets (b_asm b)) (RHS (b_asm b))) as (ts & R & ER & Q1 & Q2 & Q3 & Q4);
      [intros l Hl; apply in_seq in Hl; lia|exact IR|exact S2|].
    exists (ts, R). split; [exact ER|]. split; [exact T|]. split; [exact E|]. split; [exact S1|]. split; [exact Q2|]. split; [exact Q1|].
    intros I HI DI. cbn [with_sys triplets RHS fst snd]. split.
    - intros J HJ DJ. rewrite Q3, (proj1 (H I HI DI) J HJ DJ), full_mat_snoc. f_equal. rewrite suml_map_seq. unfold cell_mat, c_dofs. rewrite sumn_blocks.
      apply sumn_ext. intros li Hli. rewrite <- sumn_only.
      transitivity (sumn nb (fun i => sumn (length (c_faces c)) (fun lj => sumn nb (fun j => only ((global nb c (li * nb + i) =? I) && (global nb c (lj * nb + j) =? J))%nat (ment (c_lhs c) (li * nb + i) (lj * nb + j)))))).
      2:{ apply sumn_ext. intros i Hi. rewrite sumn_blocks. reflexivity. }
      rewrite sumn_swap. apply sumn_ext. intros lj Hlj. rewrite <- !sumn_only. apply sumn_ext. intros i Hi. rewrite <- !sumn_only. apply sumn_ext. intros j Hj.
      rewrite <- !match_blk by assumption. unfold only. destruct (dir (id li)), (dir (id lj)); cbn [negb andb]; try reflexivity. rewrite andb_false_r. reflexivity.
    - rewrite Q4, (proj2 (H I HI DI)), full_rhs_snoc, !elim_zero, suml_map_seq. unfold cell_rhs, c_dofs. rewrite sumn_blocks.
      rewrite (sumn_ext (length (c_faces c)) _ (fun l => sumn nb (fun i => only (global nb c (l * nb + i) =? I)%nat (vent (c_rhs c) (l * nb + i))))); [ring|].
      intros l Hl. rewrite <- sumn_only. apply sumn_ext. intros i Hi. rewrite <- match_blk by assumption. unfold only. destruct (dir (id l)); reflexivity.
  Qed.
End Basic.
