From Coq Require Import List Arith Bool Lia Ring.
From Verif Require Import Common LinAlg Mesh_Model Mesh_Spec Mesh_Proofs BC_Model BC_Spec Degree_Model Asm_Model Asm_Spec Asm_Proofs Asm2_Proofs Asm3_Proofs
  VAsm_Model VAsm_Spec.
Import ListNotations.

(** ** counting *)
Lemma start_0 ns : start ns 0 = 0. Proof. reflexivity. Qed.
Lemma start_S ns i : start ns (S i) = start ns i + nth i ns 0.
Proof.
  unfold start. revert i. induction ns as [|n ns IH]; intros i; [destruct i; reflexivity|]. destruct i as [|i].
  - cbn. lia.
  - change (n + list_sum (firstn (S i) ns) = n + list_sum (firstn i ns) + nth i ns 0). rewrite IH. lia.
Qed.
Lemma start_all ns : start ns (length ns) = list_sum ns.
Proof. unfold start. rewrite firstn_all. reflexivity. Qed.
Lemma start_mono ns i j : i <= j -> start ns i <= start ns j.
Proof. induction 1; [lia|]. rewrite start_S. lia. Qed.
Lemma start_le ns i : start ns i <= list_sum ns.
Proof.
  destruct (Nat.le_gt_cases i (length ns)) as [H|H].
  - rewrite <- start_all. apply start_mono; exact H.
  - unfold start. rewrite firstn_all2 by lia. lia.
Qed.
Lemma start_block ns i : start ns i + nth i ns 0 <= list_sum ns.
Proof. rewrite <- start_S. apply start_le. Qed.
Lemma locate_start : forall ns i k, k < nth i ns 0 -> locate ns (start ns i + k) = (i, k).
Proof.
  induction ns as [|n ns IH]; intros i k H; [destruct i; cbn in H; lia|]. destruct i as [|i]; cbn [locate].
  - cbn [nth] in H. rewrite start_0, Nat.add_0_l. rewrite (proj2 (Nat.ltb_lt _ _)) by exact H. reflexivity.
  - change (start (n :: ns) (S i)) with (n + start ns i). rewrite (proj2 (Nat.ltb_ge _ _)) by lia.
    replace (n + start ns i + k - n) with (start ns i + k) by lia. rewrite IH by exact H. reflexivity.
Qed.
Lemma locate_inv : forall ns I, I < list_sum ns -> let (i, k) := locate ns I in i < length ns /\ k < nth i ns 0 /\ I = start ns i + k.
Proof.
  induction ns as [|n ns IH]; intros I H; [cbn in H; lia|]. cbn [locate]. destruct (I <? n) eqn:E.
  - apply Nat.ltb_lt in E. cbn. lia.
  - apply Nat.ltb_ge in E. change (list_sum (n :: ns)) with (n + list_sum ns) in H. specialize (IH (I - n) ltac:(lia)).
    destruct (locate ns (I - n)) as [i k]. cbn [fst snd length nth]. change (start (n :: ns) (S i)) with (n + start ns i). lia.
Qed.
Lemma offsets_nth : forall ns o i, i < length ns -> nth_error (offsets o ns) i = Some (o + start ns i).
Proof.
  induction ns as [|n ns IH]; intros o i H; [cbn in H; lia|]. destruct i as [|i]; cbn [offsets nth_error].
  - now rewrite start_0, Nat.add_0_r.
  - rewrite IH by (cbn in H; lia). change (start (n :: ns) (S i)) with (n + start ns i). f_equal. lia.
Qed.

Section Count.
  Context (ns : list nat) (fd : nat -> nat -> bool).
  Let dir I := fd (fst (locate ns I)) (snd (locate ns I)).

  Lemma dir_at i k : k < nth i ns 0 -> dir (start ns i + k) = fd i k.
  Proof. intros H. unfold dir. rewrite locate_start by exact H. reflexivity. Qed.
  Lemma rank_at i k : k <= nth i ns 0 -> rank dir (start ns i + k) = rank dir (start ns i) + rank (fd i) k.
  Proof.
    induction k as [|k IH]; intros H; [cbn; now rewrite !Nat.add_0_r|].
    rewrite Nat.add_succ_r. cbn [rank]. rewrite IH, dir_at by lia. lia.
  Qed.
  Lemma rank_next i : rank dir (start ns (S i)) = rank dir (start ns i) + rank (fd i) (nth i ns 0).
  Proof. rewrite start_S. apply rank_at. lia. Qed.

  Lemma number_from_spec (free : nat -> outcome nat) : forall k i, i + k <= length ns ->
    (forall j, i <= j -> j < i + k -> free j = Ok (rank (fd j) (nth j ns 0))) ->
    number_from free (seq i k) (rank dir (start ns i)) = Ok (map (fun j => rank dir (start ns j)) (seq i k), rank dir (start ns (i + k))).
  Proof.
    induction k as [|k IH]; intros i L H; cbn [seq number_from map]; [now rewrite Nat.add_0_r|].
    rewrite H by lia. cbn [bind]. rewrite <- rank_next, IH; [|lia|intros; apply H; lia]. cbn [bind fst snd]. rewrite Nat.add_succ_r. reflexivity.
  Qed.
End Count.

Lemma rank_none n : rank (fun _ => false) n = n.
Proof. induction n; cbn; lia. Qed.
Lemma rank_all n : rank (fun _ => true) n = 0.
Proof. induction n; cbn; lia. Qed.
Lemma rank_ext p q n : (forall i, i < n -> p i = q i) -> rank p n = rank q n.
Proof. induction n as [|n IH]; intros H; cbn; [reflexivity|]. rewrite IH, H by (auto; lia). reflexivity. Qed.
Lemma rank_app p a b : rank p (a + b) = rank p a + rank (fun i => p (a + i)) b.
Proof. induction b as [|b IH]; [cbn; now rewrite !Nat.add_0_r|]. rewrite Nat.add_succ_r. cbn [rank]. lia. Qed.

(** ** the switches *)
Definition slot_of (b : bool) : slot := if b then Fixed else Unknown.
Lemma blocks_spec dim nb (l : list slot) p : 0 < dim -> l = map (fun c => slot_of (p c)) (seq 0 dim) ->
  blocks nb l = map (fun k => slot_of (p (k mod dim))) (seq 0 (dim * nb)).
Proof.
  intros D ->. unfold blocks. induction nb as [|nb IH]; [now rewrite Nat.mul_0_r|].
  cbn [repeat concat]. rewrite IH, Nat.mul_succ_r, Nat.add_comm, seq_app, map_app. f_equal.
  - apply map_ext_in. intros c Hc. apply in_seq in Hc. now rewrite Nat.mod_small by lia.
  - assert (G : forall n o, map (fun k => slot_of (p (k mod dim))) (seq o n) = map (fun k => slot_of (p (k mod dim))) (seq (dim + o) n)).
    { induction n as [|n IHn]; intros o; [reflexivity|]. cbn [seq map]. f_equal; [f_equal; f_equal|rewrite <- Nat.add_succ_r; apply IHn].
      rewrite <- (Nat.mul_1_l dim) at 2. rewrite (Nat.add_comm (1 * dim)), Nat.mod_add by lia. reflexivity. }
    rewrite (G _ 0), Nat.add_0_r. reflexivity.
Qed.
Lemma number_slots_spec off fd : forall n k, number_slots off (rank fd k) (map (fun k => slot_of (fd k)) (seq k n)) =
  map (fun k => if fd k then None else Some (off + rank fd k)) (seq k n).
Proof.
  induction n as [|n IH]; intros k; [reflexivity|]. cbn [seq map]. pose proof (IH (S k)) as E. cbn [rank] in E.
  destruct (fd k); cbn [slot_of number_slots]; [rewrite Nat.add_0_r in E|rewrite Nat.add_1_r in E]; rewrite E; reflexivity.
Qed.

Lemma known_cases dim t (Q : nat -> Prop) : dim = 2 \/ dim = 3 -> known dim t ->
  Q DIRICHLET -> Q CLAMPED -> Q DX -> Q DY -> Q DXDY -> (dim = 3 -> Q DZ /\ Q DXDZ /\ Q DYDZ) -> Q t.
Proof. intros D [K|[D3 K]] Q1 Q2 Q3 Q4 Q5 Q6; cbn in K; [|destruct (Q6 D3) as (Q7 & Q8 & Q9)]; intuition (subst; assumption). Qed.

Lemma dir_case_known dim t : dim = 2 \/ dim = 3 -> known dim t ->
  exists zs, dir_case dim t = Ok (map (fun c => slot_of (imposes t c)) (seq 0 dim), zs) /\ forall c, c < dim -> existsb (Nat.eqb c) zs = negb (imposes t c).
Proof.
  intros D Kn. pattern t. apply (known_cases dim t _ D Kn); try (intros D3);
    destruct D as [D|D]; subst dim; try discriminate; repeat match goal with |- _ /\ _ => split end; (eexists; split; [reflexivity|]); intros [|[|[|c]]] Hc; try reflexivity; lia.
Qed.
Lemma take_case_known dim t : dim = 2 \/ dim = 3 -> known dim t -> take_case dim t = Ok (map (fun c => slot_of (imposes t c)) (seq 0 dim)).
Proof.
  intros D Kn. pattern t. apply (known_cases dim t _ D Kn); try (intros D3);
    destruct D as [D|D]; subst dim; try discriminate; repeat match goal with |- _ /\ _ => split end; reflexivity.
Qed.
Lemma rank_blocks dim p : 0 < dim -> forall nb, rank (fun k => p (k mod dim)) (dim * nb) = nb * rank p dim.
Proof.
  intros D. induction nb as [|nb IH]; [rewrite Nat.mul_0_r; reflexivity|].
  rewrite Nat.mul_succ_r, Nat.add_comm, rank_app. cbn [Nat.mul]. f_equal.
  - apply rank_ext. intros i Hi. now rewrite Nat.mod_small.
  - rewrite <- IH. apply rank_ext. intros i Hi. f_equal. rewrite <- (Nat.mul_1_l dim) at 1. rewrite (Nat.add_comm (1 * dim)), Nat.mod_add by lia. reflexivity.
Qed.
Lemma imposed_known dim t nb : dim = 2 \/ dim = 3 -> known dim t ->
  exists i, imposed_count dim t (dim * nb) = Ok i /\ dim * nb - i = rank (fun k => imposes t (k mod dim)) (dim * nb).
Proof.
  intros D Kn. rewrite (rank_blocks dim (imposes t)) by lia. unfold imposed_count. rewrite (Nat.mul_comm dim nb), Nat.div_mul by lia. revert nb.
  pattern t. apply (known_cases dim t _ D Kn); try (intros D3);
    destruct D as [D|D]; subst dim; try discriminate; repeat match goal with |- _ /\ _ => split end; try intros nb; (eexists; split; [reflexivity|]); cbn [rank imposes Nat.eqb orb andb DIRICHLET CLAMPED DX DY DZ DXDY DXDZ DYDZ]; lia.
Qed.
Lemma imposed_unknown dim t n : dim = 2 \/ dim = 3 -> ~ known dim t -> t <> NOTHING ->
  imposed_count dim t n = Throw (if (t =? DZ) || (t =? DXDZ) || (t =? DYDZ) then InvalidArgument else LogicError).
Proof.
  intros D Kn N. unfold imposed_count, known in *. cbn in Kn. unfold only_3d.
  assert (NE : forall c, In c [DIRICHLET; CLAMPED; DX; DY; DXDY] -> t <> c) by (intros c Hc ->; apply Kn; left; exact Hc).
  rewrite !(fun c => proj2 (Nat.eqb_neq t c)) with (c := DIRICHLET) by (apply NE; cbn; tauto).
  rewrite !(fun c => proj2 (Nat.eqb_neq t c)) with (c := CLAMPED) by (apply NE; cbn; tauto).
  rewrite !(fun c => proj2 (Nat.eqb_neq t c)) with (c := DX) by (apply NE; cbn; tauto).
  rewrite !(fun c => proj2 (Nat.eqb_neq t c)) with (c := DY) by (apply NE; cbn; tauto).
  rewrite !(fun c => proj2 (Nat.eqb_neq t c)) with (c := DXDY) by (apply NE; cbn; tauto).
  rewrite !(fun c => proj2 (Nat.eqb_neq t c)) with (c := NOTHING) by exact N.
  destruct (Nat.eqb_spec t DZ), (Nat.eqb_spec t DXDZ), (Nat.eqb_spec t DYDZ); cbn [orb]; try reflexivity;
    destruct D as [D|D]; subst dim; try reflexivity; exfalso; apply Kn; right; (split; [reflexivity|]); subst; cbn; auto.
Qed.
