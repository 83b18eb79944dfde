(** C154: condensation of the inner unknowns of a virtual element *)
From Coq Require Import List Arith Bool Lia Ring ZArith.
From Verif Require Import Common LinAlg Cond_Model Cond_Spec Cond_Properties VSch_Model VSch_Proofs.
Import ListNotations.
Local Open Scope k_scope.

(** C154: schur answers when the inner block can be factorised and refuses when it cannot; so does deschur. *)
Theorem C154_defined : forall (K : cring) ldlt (L : mat K) R xF nF nT,
  mrows L = (nF + nT)%nat -> mcols L = (nF + nT)%nat -> vsize R = (nF + nT)%nat -> vsize xF = nF ->
  let MTT := mkMat nT nT (fun i j => ment L (nF + i)%nat (nF + j)%nat) in
  (ldlt MTT = None -> vem_schur ldlt L R nF = Throw InvalidArgument /\ vem_deschur ldlt L R xF nF = Throw InvalidArgument) /\
  (ldlt MTT <> None -> (exists Lc Rc, vem_schur ldlt L R nF = Ok (Lc, Rc) /\ mrows Lc = nF /\ mcols Lc = nF /\ vsize Rc = nF) /\
     exists u, vem_deschur ldlt L R xF nF = Ok u).
Proof.
  intros K ldlt L R xF nF nT HR HC ER EF MTT. unfold vem_schur, vem_deschur. rewrite HC, !(proj2 (Nat.ltb_ge _ _)) by lia.
  replace (nF + nT - nF)%nat with nT by lia. destruct (bcorners L nF nT HR HC) as (-> & -> & -> & ->). cbn [bind].
  change (bTT L nF nT) with MTT. split.
  - intros ->. split; reflexivity.
  - intros H. destruct (ldlt MTT) as [s|]; [|congruence]. unfold vtail, vhead. rewrite ER, !(proj2 (Nat.leb_le _ _)) by lia. cbn [bind].
    rewrite EF, Nat.eqb_refl. cbn [negb]. split; [do 2 eexists; split; [reflexivity|repeat split]|eexists; reflexivity].
Qed.
(** C154: (xF, xT) solves the local system iff xF solves the condensed one and deschur returns (xF, xT). *)
Theorem C154_equivalent : forall (K : cring) ldlt (L : mat K) R nF nT Lc Rc,
  exact_factorisation ldlt -> mrows L = (nF + nT)%nat -> mcols L = (nF + nT)%nat -> vsize R = (nF + nT)%nat ->
  vem_schur ldlt L R nF = Ok (Lc, Rc) ->
  forall xF xT, vsize xF = nF -> vsize xT = nT ->
  (solves L (stack xF xT) R <->
   solves Lc xF Rc /\ exists u, vem_deschur ldlt L R xF nF = Ok u /\ eqv (nF + nT) u (stack xF xT)).
Proof.
  intros K ldlt L R nF nT Lc Rc EX HR HC ER H xF xT EF ET. unfold vem_schur in H. unfold vem_deschur.
  rewrite HC in H |- *. rewrite (proj2 (Nat.ltb_ge (nF + nT) nF)) in H |- * by lia. replace (nF + nT - nF)%nat with nT in H |- * by lia.
  destruct (bcorners L nF nT HR HC) as (C1 & C2 & C3 & C4). rewrite C1, C2, C3, C4 in H. rewrite C3, C4. cbn [bind] in H |- *.
  destruct (ldlt (bTT L nF nT)) as [s|] eqn:HS; [|discriminate]. unfold vtail, vhead in H |- *. rewrite ER in H |- *.
  rewrite !(proj2 (Nat.leb_le _ _)) in H by lia. rewrite (proj2 (Nat.leb_le nT (nF + nT))) by lia. cbn [bind] in H |- *. injection H as <- <-.
  rewrite EF, Nat.eqb_refl. cbn [negb]. replace (nF + nT - nT)%nat with nF by lia.
  rewrite (bcondensed ldlt EX L nF nT HR HC s HS R xF xT ER EF ET). set (RT := mkVec nT (fun i => vent R (nF + i)%nat)).
  destruct (bs_solves ldlt EX L nF nT s HS (sub_v RT (mul_mv (bTF L nF nT) xF)) eq_refl) as [SZ _].
  assert (D : (forall i, (i < nT)%nat -> vent xT i = vent (s (sub_v RT (mul_mv (bTF L nF nT) xF))) i) <->
    exists u, Ok (vconcat xF (s (sub_v RT (mul_mv (bTF L nF nT) xF)))) = Ok u /\ eqv (nF + nT) u (stack xF xT)).
  { split.
    - intros E. eexists. split; [reflexivity|]. split; [cbn; lia|]. split; [cbn; lia|]. intros i Hi. cbn [vconcat stack vent]. rewrite EF.
      destruct (Nat.ltb_spec i nF); [reflexivity|]. symmetry. apply E. lia.
    - intros (u & [= <-] & _ & _ & E) i Hi. specialize (E (nF + i)%nat ltac:(lia)). cbn [vconcat stack vent] in E. rewrite EF in E.
      rewrite (proj2 (Nat.ltb_ge _ _)) in E by lia. replace (nF + i - nF)%nat with i in E by lia. symmetry. exact E. }
  rewrite D. reflexivity.
Qed.
(** C154: without inner unknowns (degree 1) the system is returned as it is. *)
Theorem C154_nothing_to_condense : forall (K : cring) ldlt (L : mat K) R nF Lc Rc,
  mrows L = nF -> mcols L = nF -> vsize R = nF -> vem_schur ldlt L R nF = Ok (Lc, Rc) ->
  (forall i j, (i < nF)%nat -> (j < nF)%nat -> ment Lc i j = ment L i j) /\ (forall i, (i < nF)%nat -> vent Rc i = vent R i).
Proof.
  intros K ldlt L R nF Lc Rc HR HC ER H. pose proof (cth K) as RT. assert (forall x : K, x - 0 = x) as Z.
  { intros x. destruct RT. rewrite Rsub_def. transitivity (x + (0 + - 0)); [rewrite Radd_0_l; reflexivity|]. rewrite Ropp_def, Radd_comm. apply Radd_0_l. }
  unfold vem_schur in H. rewrite HC in H. rewrite (proj2 (Nat.ltb_ge nF nF)), Nat.sub_diag in H by lia.
  destruct (bcorners L nF 0 ltac:(lia) ltac:(lia)) as (C1 & C2 & C3 & C4). rewrite C1, C2, C3, C4 in H. cbn [bind] in H.
  destruct (ldlt (bTT L nF 0)) as [s|]; [|discriminate]. unfold vtail, vhead in H. rewrite ER in H. rewrite !(proj2 (Nat.leb_le _ _)) in H by lia. cbn [bind] in H.
  injection H as <- <-. split; intros; cbn; apply Z.
Qed.

(** Non-vacuity: the factorisation of Cond_Properties; boundary unknown first *)
Definition vs_lhs : mat Zring := mkMat 2 2 (fun i j => match i, j with 0%nat, 0%nat => 5%Z | 0%nat, _ => 3%Z | _, 0%nat => 2%Z | _, _ => (-1)%Z end : Zring).
Definition vs_rhs : vec Zring := mkVec 2 (fun i => match i with 0%nat => 7%Z | _ => 4%Z end : Zring).
Example C154_case : exact_factorisation unit_ldlt /\ match vem_schur unit_ldlt vs_lhs vs_rhs 1 with
  | Ok (Lc, Rc) => ment Lc 0%nat 0%nat = 11%Z /\ vent Rc 0%nat = 19%Z
  | _ => False end.
Proof. split; [exact C31_exact_factorisation_exists|]. vm_compute. split; reflexivity. Qed.

Print Assumptions C154_defined.
Print Assumptions C154_equivalent.
Print Assumptions C154_nothing_to_condense.
