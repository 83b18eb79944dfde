From Coq Require Import List Arith Bool Lia Ring.
From Verif Require Import Common LinAlg Cond_Model Cond_Spec.
Import ListNotations.

Section Proofs.
  Context {K : cring}.
  Add Ring Kring : (cth K).
  Local Open Scope k_scope.
  Context (ldlt : mat K -> option (vec K -> vec K)) (EX : exact_factorisation ldlt).

  Definition TT (L : mat K) nT := mkMat nT nT (ment L).
  Definition TF (L : mat K) nT nF := mkMat nT nF (fun i j => ment L i (nT + j)%nat).
  Definition FT (L : mat K) nT nF := mkMat nF nT (fun i j => ment L (nT + i)%nat j).
  Definition FF (L : mat K) nT nF := mkMat nF nF (fun i j => ment L (nT + i)%nat (nT + j)%nat).

  Lemma corners L nT nF : mrows L = (nT + nF)%nat -> mcols L = (nT + nF)%nat ->
    topLeftCorner L nT nT = Ok (TT L nT) /\ topRightCorner L nT nF = Ok (TF L nT nF) /\
    bottomLeftCorner L nF nT = Ok (FT L nT nF) /\ bottomRightCorner L nF nF = Ok (FF L nT nF).
  Proof.
    intros R C. unfold topLeftCorner, topRightCorner, bottomLeftCorner, bottomRightCorner, block.
    rewrite R, C, (proj2 (Nat.leb_le nF (nT + nF))) by lia. cbn [andb].
    replace (nT + nF - nF)%nat with nT by lia. rewrite !(proj2 (Nat.leb_le _ _)) by lia. cbn. auto.
  Qed.

  (** the full system, split *)
  Lemma solves_split L nT nF (xT xF b : vec K) : mrows L = (nT + nF)%nat -> mcols L = (nT + nF)%nat ->
    vsize xT = nT -> vsize xF = nF -> vsize b = (nT + nF)%nat ->
    (solves L (stack xT xF) b <->
     (forall i, (i < nT)%nat -> mv nT (ment L) (vent xT) i + mv nF (ment (TF L nT nF)) (vent xF) i = vent b i) /\
     (forall i, (i < nF)%nat -> mv nT (ment (FT L nT nF)) (vent xT) i + mv nF (ment (FF L nT nF)) (vent xF) i = vent b (nT + i)%nat)).
  Proof.
    intros R C ET EF EB.
    assert (ROW : forall i, sumn (nT + nF) (fun j => ment L i j * vent (stack xT xF) j) =
              sumn nT (fun j => ment L i j * vent xT j) + sumn nF (fun j => ment L i (nT + j)%nat * vent xF j)).
    { intros i. rewrite sumn_app. f_equal; apply sumn_ext; intros j Hj; cbn [stack vent]; rewrite ET.
      - now rewrite (proj2 (Nat.ltb_lt j nT)) by lia.
      - rewrite (proj2 (Nat.ltb_ge (nT + j) nT)) by lia. now replace (nT + j - nT)%nat with j by lia. }
    unfold solves. rewrite R, C. cbn [stack vsize]. rewrite ET, EF, EB. split.
    - intros (_ & _ & H). split; intros i Hi.
      + rewrite <- (H i) by lia. rewrite ROW. reflexivity.
      + rewrite <- (H (nT + i)%nat) by lia. rewrite ROW. reflexivity.
    - intros [H1 H2]. split; [reflexivity|]. split; [reflexivity|]. intros i Hi. rewrite ROW.
      destruct (Nat.lt_ge_cases i nT) as [Hl|Hg]; [rewrite <- (H1 i Hl); reflexivity|].
      replace (vent b i) with (vent b (nT + (i - nT))%nat) by (f_equal; lia). rewrite <- (H2 (i - nT)%nat) by lia.
      unfold mv. cbn [FT FF ment]. replace (nT + (i - nT))%nat with i by lia. reflexivity.
  Qed.

  Context (L : mat K) (nT nF : nat) (HR : mrows L = (nT + nF)%nat) (HC : mcols L = (nT + nF)%nat).
  Context (s : vec K -> vec K) (HS : ldlt (TT L nT) = Some s).

  Lemma s_solves b : vsize b = nT -> vsize (s b) = nT /\ forall i, (i < nT)%nat -> mv nT (ment L) (vent (s b)) i = vent b i.
  Proof.
    intros Hb. destruct (EX (TT L nT) s eq_refl HS b Hb) as [(C & _ & H) _]. cbn [TT mcols mrows ment] in *. split; [auto|exact H].
  Qed.
  Lemma s_unique b x : vsize b = nT -> vsize x = nT -> (forall i, (i < nT)%nat -> mv nT (ment L) (vent x) i = vent b i) ->
    forall i, (i < nT)%nat -> vent x i = vent (s b) i.
  Proof.
    intros Hb Hx H. destruct (EX (TT L nT) s eq_refl HS b Hb) as [_ U].
    destruct (U x) as (_ & _ & E); [|exact E]. split; [cbn; auto|]. split; [cbn; auto|]. exact H.
  Qed.

  Definition AL := solve_m s (TF L nT nF).
  (** K_TT AL = K_TF *)
  Lemma AL_spec xF i : (i < nT)%nat -> mv nT (ment L) (mv nF (ment AL) xF) i = mv nF (ment (TF L nT nF)) xF i.
  Proof.
    intros Hi. rewrite <- mv_mm. apply sumn_ext. intros j Hj. f_equal. unfold mm, AL, solve_m. cbn [ment TF mrows].
    destruct (s_solves (mkVec nT (fun k => ment L k (nT + j)%nat)) eq_refl) as [_ E]. exact (E i Hi).
  Qed.
  (** the cell unknowns *)
  Lemma cell_iff bT xT xF : vsize bT = nT -> vsize xT = nT ->
    ((forall i, (i < nT)%nat -> mv nT (ment L) (vent xT) i + mv nF (ment (TF L nT nF)) xF i = vent bT i) <->
     (forall i, (i < nT)%nat -> vent xT i = vent (s bT) i - mv nF (ment AL) xF i)).
  Proof.
    intros Hb Hx. split.
    - intros H. pose (y := mkVec nT (fun i => vent xT i + mv nF (ment AL) xF i) : vec K).
      assert (Y : forall i, (i < nT)%nat -> vent y i = vent (s bT) i).
      { apply s_unique; [exact Hb|reflexivity|]. intros i Hi. cbn [y vent]. rewrite mv_add, AL_spec by exact Hi. apply H. exact Hi. }
      intros i Hi. rewrite <- (Y i Hi). cbn [y vent]. ring.
    - intros H i Hi. rewrite (mv_ext _ _ _ _ _ H), mv_sub, AL_spec by exact Hi.
      destruct (s_solves bT Hb) as [_ E]. rewrite E by exact Hi. ring.
  Qed.
  (** the face unknowns *)
  Lemma face_iff bT xT xF c i : (forall i, (i < nT)%nat -> vent xT i = vent (s bT) i - mv nF (ment AL) xF i) ->
    (mv nT (ment (FT L nT nF)) (vent xT) i + mv nF (ment (FF L nT nF)) xF i = c <->
     mv nF (fun i j => ment (FF L nT nF) i j - mm nT (ment (FT L nT nF)) (ment AL) i j) xF i
       = c - mv nT (ment (FT L nT nF)) (vent (s bT)) i).
  Proof.
    intros H. rewrite (mv_ext _ _ _ _ _ H), mv_sub, mv_mat_sub, mv_mm.
    set (a := mv nT _ (vent (s bT)) i). set (b := mv nT _ (mv nF (ment AL) xF) i). set (d := mv nF _ xF i).
    split; intros E; [rewrite <- E; ring|]. replace (a - b + d) with ((d - b) + a) by ring. rewrite E. ring.
  Qed.

  Definition AC := sub_m (FF L nT nF) (mul_mm (FT L nT nF) AL).

  (** condensation equivalence, for a right-hand side given by its two parts *)
  Lemma condensation_iff bT bF xT xF : vsize bT = nT -> vsize bF = nF -> vsize xT = nT -> vsize xF = nF ->
    (solves L (stack xT xF) (stack bT bF) <->
     solves AC xF (sub_v bF (mul_mv (FT L nT nF) (s bT))) /\
     forall i, (i < nT)%nat -> vent xT i = vent (s bT) i - mv nF (ment AL) (vent xF) i).
  Proof.
    intros E1 E2 E3 E4. rewrite (solves_split L nT nF) by (try assumption; cbn; lia).
    assert (B1 : forall i, (i < nT)%nat -> vent (stack bT bF) i = vent bT i).
    { intros i Hi. cbn [stack vent]. rewrite E1. now rewrite (proj2 (Nat.ltb_lt _ _)) by lia. }
    assert (B2 : forall i, (i < nF)%nat -> vent (stack bT bF) (nT + i)%nat = vent bF i).
    { intros i Hi. cbn [stack vent]. rewrite E1. rewrite (proj2 (Nat.ltb_ge _ _)) by lia. f_equal. lia. }
    assert (C1 : (forall i, (i < nT)%nat -> mv nT (ment L) (vent xT) i + mv nF (ment (TF L nT nF)) (vent xF) i = vent (stack bT bF) i) <->
      (forall i, (i < nT)%nat -> vent xT i = vent (s bT) i - mv nF (ment AL) (vent xF) i)).
    { rewrite <- (cell_iff bT xT (vent xF) E1 E3). split; intros H i Hi; [rewrite <- B1 by exact Hi|rewrite B1 by exact Hi]; apply H; exact Hi. }
    rewrite C1. split.
    - intros [H1 H2]. split; [|exact H1]. unfold solves. cbn [AC sub_m mul_mm mul_mv sub_v mrows mcols ment vsize vent FF FT].
      split; [lia|]. split; [lia|]. intros i Hi. apply (face_iff bT xT (vent xF) (vent bF i) i H1). rewrite <- B2 by exact Hi. apply H2. exact Hi.
    - intros [(_ & _ & H) H1]. split; [exact H1|]. intros i Hi. rewrite B2 by exact Hi. apply (face_iff bT xT (vent xF) (vent bF i) i H1).
      apply H. exact Hi.
  Qed.
End Proofs.
