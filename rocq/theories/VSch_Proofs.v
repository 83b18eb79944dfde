From Coq Require Import List Arith Bool Lia Ring.
From Verif Require Import Common LinAlg Cond_Model Cond_Spec VSch_Model.
Import ListNotations.

Section Proofs.
  Context {K : cring}.
  Add Ring Kring : (cth K).
  Local Open Scope k_scope.
  Context (ldlt : mat K -> option (vec K -> vec K)) (EX : exact_factorisation ldlt).
  Context (L : mat K) (nF nT : nat) (HR : mrows L = (nF + nT)%nat) (HC : mcols L = (nF + nT)%nat).

  Definition bFF := mkMat nF nF (fun i j => ment L i j).
  Definition bFT := mkMat nF nT (fun i j => ment L i (nF + j)%nat).
  Definition bTF := mkMat nT nF (fun i j => ment L (nF + i)%nat j).
  Definition bTT := mkMat nT nT (fun i j => ment L (nF + i)%nat (nF + j)%nat).
  Lemma bcorners : topLeftCorner L nF nF = Ok bFF /\ topRightCorner L nF nT = Ok bFT /\ bottomLeftCorner L nT nF = Ok bTF /\ bottomRightCorner L nT nT = Ok bTT.
  Proof.
    unfold topLeftCorner, topRightCorner, bottomLeftCorner, bottomRightCorner, block.
    rewrite HR, HC, (proj2 (Nat.leb_le nT (nF + nT))) by lia. cbn [andb].
    replace (nF + nT - nT)%nat with nF by lia. rewrite !(proj2 (Nat.leb_le _ _)) by lia. cbn. auto.
  Qed.
  (** the system, split *)
  Lemma bsplit (xF xT b : vec K) : vsize xF = nF -> vsize xT = nT -> vsize b = (nF + nT)%nat ->
    (solves L (stack xF xT) b <->
     (forall i, (i < nF)%nat -> mv nF (ment bFF) (vent xF) i + mv nT (ment bFT) (vent xT) i = vent b i) /\
     (forall i, (i < nT)%nat -> mv nF (ment bTF) (vent xF) i + mv nT (ment bTT) (vent xT) i = vent b (nF + i)%nat)).
  Proof.
    intros EF ET EB.
    assert (ROW : forall i, sumn (nF + nT) (fun j => ment L i j * vent (stack xF xT) j) =
              sumn nF (fun j => ment L i j * vent xF j) + sumn nT (fun j => ment L i (nF + j)%nat * vent xT j)).
    { intros i. rewrite sumn_app. f_equal; apply sumn_ext; intros j Hj; cbn [stack vent]; rewrite EF.
      - now rewrite (proj2 (Nat.ltb_lt j nF)) by lia.
      - rewrite (proj2 (Nat.ltb_ge (nF + j) nF)) by lia. now replace (nF + j - nF)%nat with j by lia. }
    unfold solves. rewrite HR, HC. cbn [stack vsize]. rewrite ET, EF, EB. split.
    - intros (_ & _ & H). split; intros i Hi.
      + rewrite <- (H i) by lia. rewrite ROW. reflexivity.
      + rewrite <- (H (nF + i)%nat) by lia. rewrite ROW. reflexivity.
    - intros [H1 H2]. split; [reflexivity|]. split; [reflexivity|]. intros i Hi. rewrite ROW.
      destruct (Nat.lt_ge_cases i nF) as [Hl|Hg]; [rewrite <- (H1 i Hl); reflexivity|].
      replace (vent b i) with (vent b (nF + (i - nF))%nat) by (f_equal; lia). rewrite <- (H2 (i - nF)%nat) by lia.
      unfold mv. cbn [bTF bTT ment]. replace (nF + (i - nF))%nat with i by lia. reflexivity.
  Qed.

  Context (s : vec K -> vec K) (HS : ldlt bTT = Some s).
  Lemma bs_solves b : vsize b = nT -> vsize (s b) = nT /\ forall i, (i < nT)%nat -> mv nT (ment bTT) (vent (s b)) i = vent b i.
  Proof. intros Hb. destruct (EX bTT s eq_refl HS b Hb) as [(C & _ & H) _]. cbn [mcols mrows bTT] in *. split; [auto|exact H]. Qed.
  Lemma bs_unique b x : vsize b = nT -> vsize x = nT -> (forall i, (i < nT)%nat -> mv nT (ment bTT) (vent x) i = vent b i) ->
    forall i, (i < nT)%nat -> vent x i = vent (s b) i.
  Proof.
    intros Hb Hx H. destruct (EX bTT s eq_refl HS b Hb) as [_ U].
    destruct (U x) as (_ & _ & E); [|exact E]. split; [cbn; auto|]. split; [cbn; auto|]. exact H.
  Qed.
  Definition bA := solve_m s bTF.
  Lemma bA_spec xF i : (i < nT)%nat -> mv nT (ment bTT) (mv nF (ment bA) xF) i = mv nF (ment bTF) xF i.
  Proof.
    intros Hi. rewrite <- mv_mm. apply sumn_ext. intros j Hj. f_equal. unfold mm, bA, solve_m. cbn [ment bTF mrows].
    destruct (bs_solves (mkVec nT (fun k => ment L (nF + k)%nat j)) eq_refl) as [_ E]. exact (E i Hi).
  Qed.
  Lemma inner_iff bT xT xF : vsize bT = nT -> vsize xT = nT ->
    ((forall i, (i < nT)%nat -> mv nF (ment bTF) xF i + mv nT (ment bTT) (vent xT) i = vent bT i) <->
     (forall i, (i < nT)%nat -> vent xT i = vent (s bT) i - mv nF (ment bA) xF i)).
  Proof.
    intros Hb Hx. split.
    - intros H. pose (y := mkVec nT (fun i => vent xT i + mv nF (ment bA) xF i) : vec K).
      assert (Y : forall i, (i < nT)%nat -> vent y i = vent (s bT) i).
      { apply bs_unique; [exact Hb|reflexivity|]. intros i Hi. cbn [y vent]. rewrite mv_add, bA_spec by exact Hi. rewrite <- (H i Hi). ring. }
      intros i Hi. rewrite <- (Y i Hi). cbn [y vent]. ring.
    - intros H i Hi. rewrite (mv_ext _ _ _ _ _ H), mv_sub, bA_spec by exact Hi.
      destruct (bs_solves bT Hb) as [_ E]. rewrite E by exact Hi. ring.
  Qed.
  Lemma outer_iff bT xT xF c i : (forall i, (i < nT)%nat -> vent xT i = vent (s bT) i - mv nF (ment bA) xF i) ->
    (mv nF (ment bFF) xF i + mv nT (ment bFT) (vent xT) i = c <->
     mv nF (fun i j => ment bFF i j - mm nT (ment bFT) (ment bA) i j) xF i = c - mv nT (ment bFT) (vent (s bT)) i).
  Proof.
    intros H. rewrite (mv_ext _ _ _ _ _ H), mv_sub, mv_mat_sub, mv_mm.
    set (a := mv nT _ (vent (s bT)) i). set (b := mv nT _ (mv nF (ment bA) xF) i). set (d := mv nF _ xF i).
    split; intros E; [rewrite <- E; ring|]. replace (d + (a - b)) with ((d - b) + a) by ring. rewrite E. ring.
  Qed.
  Definition bC := sub_m bFF (mul_mm bFT bA).
  Lemma bcondensed R xF xT : vsize R = (nF + nT)%nat -> vsize xF = nF -> vsize xT = nT ->
    let RT := mkVec nT (fun i => vent R (nF + i)%nat) in let RF := mkVec nF (vent R) in
    (solves L (stack xF xT) R <-> solves bC xF (sub_v RF (mul_mv bFT (s RT))) /\
      forall i, (i < nT)%nat -> vent xT i = vent (s (sub_v RT (mul_mv bTF xF))) i).
  Proof.
    intros ER EF ET RT RF. rewrite (bsplit xF xT R EF ET ER).
    assert (I1 : forall y : vec K, vsize y = nT -> ((forall i, (i < nT)%nat -> mv nF (ment bTF) (vent xF) i + mv nT (ment bTT) (vent y) i = vent R (nF + i)%nat) <->
      (forall i, (i < nT)%nat -> vent y i = vent (s RT) i - mv nF (ment bA) (vent xF) i))).
    { intros y Hy. rewrite <- (inner_iff RT y (vent xF) eq_refl Hy). cbn [RT vent]. reflexivity. }
    set (z := s (sub_v RT (mul_mv bTF xF))). destruct (bs_solves (sub_v RT (mul_mv bTF xF)) eq_refl) as [SZ EZ]. fold z in SZ, EZ.
    assert (Z : forall i, (i < nT)%nat -> vent z i = vent (s RT) i - mv nF (ment bA) (vent xF) i).
    { apply (I1 z SZ). intros i Hi. rewrite EZ by exact Hi. cbn [sub_v mul_mv vent RT mcols bTF ment]. ring. }
    rewrite (I1 xT ET). split.
    - intros [H1 H2]. split; [|intros i Hi; rewrite H2, Z by exact Hi; reflexivity]. unfold solves. cbn [bC sub_m mul_mm mul_mv sub_v mrows mcols ment vsize vent bFF bFT RF].
      split; [lia|]. split; [lia|]. intros i Hi. apply (outer_iff RT xT (vent xF) (vent R i) i H2). apply H1. exact Hi.
    - intros [(_ & _ & H) H2]. assert (forall i, (i < nT)%nat -> vent xT i = vent (s RT) i - mv nF (ment bA) (vent xF) i) as H3
        by (intros i Hi; rewrite H2, Z by exact Hi; reflexivity).
      split; [|exact H3]. intros i Hi. apply (outer_iff RT xT (vent xF) (vent R i) i H3). apply H. exact Hi.
  Qed.
End Proofs.
