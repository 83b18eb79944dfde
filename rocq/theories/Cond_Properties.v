(** C31: static condensation. *)
From Coq Require Import List Arith Bool Lia Ring ZArith.
From Verif Require Import Common LinAlg Cond_Model Cond_Spec Cond_Proofs.
Import ListNotations.
Local Open Scope k_scope.

Lemma solves_rhs_ext {K : cring} (A : mat K) x b b' : vsize b = vsize b' -> (forall i, (i < vsize b)%nat -> vent b i = vent b' i) ->
  (solves A x b <-> solves A x b').
Proof.
  intros Hs He. unfold solves. rewrite <- Hs. split; intros (H1 & H2 & H3); (split; [exact H1|]); (split; [exact H2|]); intros i Hi.
  - rewrite <- He by lia. apply H3; exact Hi.
  - rewrite He by lia. apply H3; exact Hi.
Qed.

(** When the sizes are right and the cell block can be factorised, condensation succeeds. *)
Theorem C31_condensation_defined : forall (K : cring) ldlt (lhs : mat K) rhs nT nF,
  mrows lhs = (nT + nF)%nat -> mcols lhs = (nT + nF)%nat -> (vsize rhs = nT \/ vsize rhs = nT + nF)%nat ->
  ldlt (mkMat nT nT (ment lhs)) <> None ->
  exists AC bC AL bL, static_condensation ldlt lhs rhs nT nF = Ok ((AC, bC), AL, bL).
Proof.
  intros K ldlt lhs rhs nT nF HR HC HB HL. unfold static_condensation.
  destruct (corners lhs nT nF HR HC) as (-> & -> & -> & ->). cbn [bind].
  replace (negb (vsize rhs =? nT) && negb (vsize rhs =? nT + nF))%nat with false
    by (symmetry; apply andb_false_iff; rewrite !negb_false_iff, !Nat.eqb_eq; exact HB).
  unfold vhead. rewrite (proj2 (Nat.leb_le _ _)) by lia. cbn [bind].
  destruct (Nat.eqb_spec (vsize rhs) (nT + nF)) as [E|E]; unfold vtail;
    [rewrite (proj2 (Nat.leb_le _ _)) by lia|]; cbn [bind]; unfold TT;
    destruct (ldlt (mkMat nT nT (ment lhs))) as [s|]; try congruence; do 4 eexists; reflexivity.
Qed.

(** A right-hand side that has neither the size of the cell block nor the full size is rejected. *)
Theorem C31_wrong_rhs_rejected : forall (K : cring) ldlt (lhs : mat K) rhs nT nF,
  vsize rhs <> nT -> vsize rhs <> (nT + nF)%nat -> static_condensation ldlt lhs rhs nT nF = Throw InvalidArgument.
Proof.
  intros K ldlt lhs rhs nT nF H1 H2. unfold static_condensation.
  apply Nat.eqb_neq in H1. apply Nat.eqb_neq in H2. rewrite H1, H2. reflexivity.
Qed.
Theorem C31_singular_block_rejected : forall (K : cring) ldlt (lhs : mat K) rhs nT nF,
  mrows lhs = (nT + nF)%nat -> mcols lhs = (nT + nF)%nat -> (vsize rhs = nT \/ vsize rhs = nT + nF)%nat ->
  ldlt (mkMat nT nT (ment lhs)) = None -> static_condensation ldlt lhs rhs nT nF = Throw InvalidArgument.
Proof.
  intros K ldlt lhs rhs nT nF HR HC HB HL. unfold static_condensation.
  destruct (corners lhs nT nF HR HC) as (-> & -> & -> & ->). cbn [bind].
  replace (negb (vsize rhs =? nT) && negb (vsize rhs =? nT + nF))%nat with false
    by (symmetry; apply andb_false_iff; rewrite !negb_false_iff, !Nat.eqb_eq; exact HB).
  unfold vhead. rewrite (proj2 (Nat.leb_le _ _)) by lia. cbn [bind].
  destruct (Nat.eqb_spec (vsize rhs) (nT + nF)) as [E|E]; unfold vtail;
    [rewrite (proj2 (Nat.leb_le _ _)) by lia|]; cbn [bind]; unfold TT; rewrite HL; reflexivity.
Qed.

(** (xT, xF) solves the local system (whose right-hand side has a zero face part when only the cell
    part was given) iff xF solves the condensed system and xT is the decondensed cell part.  Both
    decondensation routines return it. *)
Theorem C31_condensation_equivalent : forall (K : cring) ldlt (lhs : mat K) rhs nT nF AC bC AL bL,
  exact_factorisation ldlt -> mrows lhs = (nT + nF)%nat -> mcols lhs = (nT + nF)%nat ->
  static_condensation ldlt lhs rhs nT nF = Ok ((AC, bC), AL, bL) ->
  forall xT xF, vsize xT = nT -> vsize xF = nF ->
  (solves lhs (stack xT xF) (extend rhs (nT + nF)) <->
   solves AC xF bC /\
   exists u, static_decondensation ldlt lhs rhs xF nT nF = Ok u /\ eqv (nT + nF) u (stack xT xF)).
Proof.
  intros K ldlt lhs rhs nT nF AC bC AL bL EX HR HC H xT xF HT HF. unfold static_condensation in H.
  destruct (corners lhs nT nF HR HC) as (C1 & C2 & C3 & C4).
  destruct (negb (vsize rhs =? nT) && negb (vsize rhs =? nT + nF))%nat eqn:B; [discriminate|].
  apply andb_false_iff in B. rewrite !negb_false_iff, !Nat.eqb_eq in B.
  rewrite C1, C2, C3, C4 in H. cbn [bind] in H. unfold vhead in H. rewrite (proj2 (Nat.leb_le _ _)) in H by lia. cbn [bind] in H.
  unfold static_decondensation. rewrite C1, C2. cbn [bind]. unfold vhead. rewrite (proj2 (Nat.ltb_ge _ _)) by lia.
  rewrite (proj2 (Nat.leb_le nT (vsize rhs))) by lia. cbn [bind]. rewrite HF, Nat.eqb_refl. cbn [negb].
  destruct (ldlt (TT lhs nT)) as [s|] eqn:HS.
  2:{ destruct (vsize rhs =? nT + nF)%nat; [unfold vtail in H; destruct (nF <=? vsize rhs)%nat|]; discriminate. }
  set (bT := mkVec nT (vent rhs)) in *.
  pose (bF := mkVec nF (fun i => if (vsize rhs =? nT + nF)%nat then vent rhs (nT + i)%nat else 0) : vec K).
  assert (EB : AC = Cond_Proofs.AC lhs nT nF s /\ (forall i, (i < nF)%nat -> vent bC i = vent (sub_v bF (mul_mv (FT lhs nT nF) (s bT))) i) /\ vsize bC = nF).
  { destruct (Nat.eqb_spec (vsize rhs) (nT + nF)) as [E|E].
    - unfold vtail in H. rewrite (proj2 (Nat.leb_le _ _)) in H by lia. cbn [bind] in H. injection H as <- <- _ _.
      split; [reflexivity|]. split; [|reflexivity]. intros i Hi. cbn. f_equal. f_equal. lia.
    - injection H as <- <- _ _. auto. }
  destruct EB as (-> & EB & SB). clear H.
  rewrite (solves_rhs_ext lhs (stack xT xF) (extend rhs (nT + nF)) (stack bT bF)) by
    (try reflexivity; cbn [extend stack vsize vent bT bF]; intros i Hi;
     destruct (Nat.ltb_spec i (vsize rhs)), (Nat.ltb_spec i nT); try lia; try reflexivity;
     destruct (Nat.eqb_spec (vsize rhs) (nT + nF)); try lia; f_equal; lia).
  rewrite (condensation_iff ldlt EX lhs nT nF HR HC s HS bT bF xT xF eq_refl eq_refl HT HF).
  rewrite (solves_rhs_ext _ xF bC (sub_v bF (mul_mv (FT lhs nT nF) (s bT)))) by (rewrite SB; auto).
  assert (Z : forall i, (i < nT)%nat -> vent (s (sub_v bT (mul_mv (TF lhs nT nF) xF))) i = vent (s bT) i - mv nF (ment (Cond_Proofs.AL lhs nT nF s)) (vent xF) i).
  { apply (cell_iff ldlt EX lhs nT nF s HS bT (s (sub_v bT (mul_mv (TF lhs nT nF) xF))) (vent xF) eq_refl).
    - apply (s_solves ldlt EX lhs nT s HS). reflexivity.
    - intros i Hi. destruct (s_solves ldlt EX lhs nT s HS (sub_v bT (mul_mv (TF lhs nT nF) xF)) eq_refl) as [_ E]. rewrite E by exact Hi.
      cbn [sub_v mul_mv vent mcols TF ment]. pose proof (cth K) as RT. destruct RT. rewrite Rsub_def, <- Radd_assoc, (Radd_comm (- _)), Ropp_def, Radd_comm, Radd_0_l. reflexivity. }
  assert (SZ : vsize (s (sub_v bT (mul_mv (TF lhs nT nF) xF))) = nT) by (apply (s_solves ldlt EX lhs nT s HS); reflexivity).
  assert (D : (forall i, (i < nT)%nat -> vent xT i = vent (s bT) i - mv nF (ment (Cond_Proofs.AL lhs nT nF s)) (vent xF) i) <->
    exists u, Ok (vconcat (s (sub_v bT (mul_mv (TF lhs nT nF) xF))) xF) = Ok u /\ eqv (nT + nF) u (stack xT xF)).
  { split.
    - intros E. eexists. split; [reflexivity|]. split; [cbn; lia|]. split; [cbn; lia|]. intros i Hi. cbn [vconcat stack vent].
      rewrite SZ, HT. destruct (Nat.ltb_spec i nT) as [Hl|Hl]; [|reflexivity]. rewrite Z, E by exact Hl. reflexivity.
    - intros (u & [= <-] & _ & _ & E) i Hi. specialize (E i ltac:(lia)). cbn [vconcat stack vent] in E. rewrite SZ, HT in E.
      rewrite (proj2 (Nat.ltb_lt _ _)) in E by lia. rewrite <- E. apply Z. exact Hi. }
  rewrite D. reflexivity.
Qed.

(** Both decondensation routines agree. *)
Theorem C31_decondensations_agree : forall (K : cring) ldlt (lhs : mat K) rhs nT nF AC bC AL bL,
  exact_factorisation ldlt -> mrows lhs = (nT + nF)%nat -> mcols lhs = (nT + nF)%nat ->
  static_condensation ldlt lhs rhs nT nF = Ok ((AC, bC), AL, bL) ->
  forall xF, vsize xF = nF ->
  exists u v, static_decondensation ldlt lhs rhs xF nT nF = Ok u /\
    static_decondensation_withMatrix AL bL xF = Ok v /\ eqv (nT + nF) u v /\
    (* the face part is the given one *)
    forall i, (i < nF)%nat -> vent u (nT + i)%nat = vent xF i.
Proof.
  intros K ldlt lhs rhs nT nF AC bC AL bL EX HR HC H xF HF. unfold static_condensation in H.
  destruct (corners lhs nT nF HR HC) as (C1 & C2 & C3 & C4).
  destruct (negb (vsize rhs =? nT) && negb (vsize rhs =? nT + nF))%nat eqn:B; [discriminate|].
  apply andb_false_iff in B. rewrite !negb_false_iff, !Nat.eqb_eq in B.
  rewrite C1, C2, C3, C4 in H. cbn [bind] in H. unfold vhead in H. rewrite (proj2 (Nat.leb_le _ _)) in H by lia. cbn [bind] in H.
  unfold static_decondensation. rewrite C1, C2. cbn [bind]. unfold vhead. rewrite (proj2 (Nat.ltb_ge _ _)) by lia.
  rewrite (proj2 (Nat.leb_le nT (vsize rhs))) by lia. cbn [bind]. rewrite HF, Nat.eqb_refl. cbn [negb].
  destruct (ldlt (TT lhs nT)) as [s|] eqn:HS.
  2:{ destruct (vsize rhs =? nT + nF)%nat; [unfold vtail in H; destruct (nF <=? vsize rhs)%nat|]; discriminate. }
  set (bT := mkVec nT (vent rhs)) in *.
  assert (EB : AL = Cond_Proofs.AL lhs nT nF s /\ bL = s bT).
  { destruct (Nat.eqb_spec (vsize rhs) (nT + nF)) as [E|E].
    - unfold vtail in H. rewrite (proj2 (Nat.leb_le _ _)) in H by lia. cbn [bind] in H. injection H as _ _ <- <-. auto.
    - injection H as _ _ <- <-. auto. }
  destruct EB as (-> & ->). clear H.
  destruct (s_solves ldlt EX lhs nT s HS bT eq_refl) as [SB _].
  assert (SZ : vsize (s (sub_v bT (mul_mv (TF lhs nT nF) xF))) = nT) by (apply (s_solves ldlt EX lhs nT s HS); reflexivity).
  eexists. eexists. split; [reflexivity|]. split.
  { unfold static_decondensation_withMatrix. cbn [Cond_Proofs.AL solve_m mrows mcols TF]. rewrite SB, HF, !Nat.eqb_refl. reflexivity. }
  split.
  - split; [cbn; lia|]. split; [cbn; lia|]. intros i Hi. cbn [vconcat vent sub_v vsize]. rewrite SZ, SB.
    destruct (Nat.ltb_spec i nT) as [Hl|Hl]; [|reflexivity].
    apply (proj1 (cell_iff ldlt EX lhs nT nF s HS bT (s (sub_v bT (mul_mv (TF lhs nT nF) xF))) (vent xF) eq_refl SZ)); [|exact Hl].
    intros j Hj. destruct (s_solves ldlt EX lhs nT s HS (sub_v bT (mul_mv (TF lhs nT nF) xF)) eq_refl) as [_ E]. rewrite E by exact Hj.
    cbn [sub_v mul_mv vent mcols TF ment]. pose proof (cth K) as RT. destruct RT. rewrite Rsub_def, <- Radd_assoc, (Radd_comm (- _)), Ropp_def, Radd_comm, Radd_0_l. reflexivity.
  - intros i Hi. cbn [vconcat vent]. rewrite SZ, (proj2 (Nat.ltb_ge _ _)) by lia. f_equal. lia.
Qed.

(** The newer interface (schur / deschur) computes the same. *)
Theorem C31_schur_agrees : forall (K : cring) ldlt (lhs : mat K) rhs nT nF AC bC AL bL,
  mrows lhs = (nT + nF)%nat -> mcols lhs = (nT + nF)%nat -> vsize rhs = (nT + nF)%nat ->
  static_condensation ldlt lhs rhs nT nF = Ok ((AC, bC), AL, bL) ->
  schur ldlt lhs rhs nT = Ok (AC, bC) /\
  forall xF, vsize xF = nF -> deschur ldlt lhs rhs xF nT = static_decondensation ldlt lhs rhs xF nT nF.
Proof.
  intros K ldlt lhs rhs nT nF AC bC AL bL HR HC HB H. unfold static_condensation in H. unfold schur, deschur, static_decondensation.
  rewrite HC. replace (nT + nF - nT)%nat with nF by lia. rewrite !(proj2 (Nat.ltb_ge (nT + nF) nT)) by lia.
  destruct (corners lhs nT nF HR HC) as (C1 & C2 & C3 & C4). rewrite C1, C2, C3, C4. rewrite C1, C2, C3, C4 in H. cbn [bind] in *.
  rewrite HB in *. rewrite Nat.eqb_refl in H. rewrite andb_false_r in H. unfold vhead, vtail in *. rewrite HB in *.
  rewrite !(proj2 (Nat.leb_le _ _)) in * by lia. cbn [bind] in *.
  destruct (ldlt (TT lhs nT)) as [s|] eqn:HS; [|discriminate]. injection H as <- <- _ _. split; [reflexivity|].
  intros xF HF. rewrite (proj2 (Nat.ltb_ge (nT + nF) nT)) by lia. rewrite HF, Nat.eqb_refl. reflexivity.
Qed.

Print Assumptions C31_condensation_defined.
Print Assumptions C31_wrong_rhs_rejected.
Print Assumptions C31_singular_block_rejected.
Print Assumptions C31_condensation_equivalent.
Print Assumptions C31_decondensations_agree.
Print Assumptions C31_schur_agrees.

(** Non-vacuity: an exact factorisation on 1x1 cell blocks with entry -1 or 1 over the integers,
    and a 2x2 system that is condensed and solved. *)
Definition Zring : cring := mkRing Z 0%Z 1%Z Z.add Z.mul Z.sub Z.opp
  (mk_rt 0%Z 1%Z Z.add Z.mul Z.sub Z.opp eq Z.add_0_l Z.add_comm Z.add_assoc Z.mul_1_l Z.mul_comm Z.mul_assoc Z.mul_add_distr_r
     (fun x y => eq_sym (Z.add_opp_r x y)) Z.add_opp_diag_r).
Definition unit_ldlt (A : mat Zring) : option (vec Zring -> vec Zring) :=
  if (mrows A =? 1)%nat && (mcols A =? 1)%nat && (Z.eqb (ment A 0%nat 0%nat * ment A 0%nat 0%nat) 1)
  then Some (fun b : vec Zring => mkVec 1 (fun i => cmul (ment A 0%nat 0%nat) (vent b i))) else None.
Example C31_exact_factorisation_exists : exact_factorisation unit_ldlt.
Proof.
  intros A s SQ H b Hb. unfold unit_ldlt in H.
  destruct ((mrows A =? 1)%nat && (mcols A =? 1)%nat && (Z.eqb (ment A 0%nat 0%nat * ment A 0%nat 0%nat) 1)) eqn:E; [|discriminate].
  apply andb_true_iff in E. destruct E as [E E3]. apply andb_true_iff in E. destruct E as [E1 E2].
  apply Nat.eqb_eq in E1. apply Nat.eqb_eq in E2. apply Z.eqb_eq in E3. injection H as <-.
  unfold solves, eqv. rewrite E1, E2. cbn [vsize]. split.
  - split; [reflexivity|]. split; [lia|]. intros i Hi. assert (i = 0)%nat as -> by lia. cbn [sumn cadd cmul c0 Zring vent].
    rewrite Z.add_0_l, Z.mul_assoc. change (Z.mul (ment A 0%nat 0%nat) (ment A 0%nat 0%nat) = 1%Z) in E3. rewrite E3. apply Z.mul_1_l.
  - intros x (X1 & X2 & X3). split; [lia|]. split; [reflexivity|]. intros i Hi. assert (i = 0)%nat as -> by lia.
    specialize (X3 0%nat ltac:(lia)).
    cbn [sumn cadd cmul c0 Zring] in X3. cbn [vent cmul Zring]. rewrite <- X3, Z.add_0_l, Z.mul_assoc.
    change (Z.mul (ment A 0%nat 0%nat) (ment A 0%nat 0%nat) = 1%Z) in E3. rewrite E3. symmetry. apply Z.mul_1_l.
Qed.
Definition ex_lhs : mat Zring := mkMat 2 2 (fun i j => match i, j with 0%nat, 0%nat => (-1)%Z | 0%nat, _ => 2%Z | _, 0%nat => 3%Z | _, _ => 5%Z end : Zring).
Definition ex_rhs : vec Zring := mkVec 2 (fun i => match i with 0%nat => 4%Z | _ => 7%Z end : Zring).
Example C31_case : match static_condensation unit_ldlt ex_lhs ex_rhs 1 1 with
  | Ok ((AC, bC), _, _) => ment AC 0%nat 0%nat = 11%Z /\ vent bC 0%nat = 19%Z
  | _ => False end.
Proof. vm_compute. split; reflexivity. Qed.
