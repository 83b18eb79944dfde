(** Strain and stress measures, material parameters. *)
From Coq Require Import List Arith Bool Reals Lra Lia Permutation Setoid Morphisms.
From Verif Require Import Common Tensor_Model Tensor_Spec Tensor_Proofs Law_Model Law_Spec Law_Proofs Law2_Proofs Law3_Proofs.
Import ListNotations.
Local Open Scope R_scope.

(** ** matrices up to their D x D entries *)
#[global] Instance meq_equiv D : Equivalence (meq D).
Proof.
  split; [intros A i j _ _; reflexivity|intros A B H i j Hi Hj; symmetry; auto|].
  intros A B C H1 H2 i j Hi Hj. rewrite H1, H2 by assumption. reflexivity.
Qed.
Lemma tsum_ext n f g : (forall k, (k < n)%nat -> f k = g k) -> tsum n f = tsum n g.
Proof. induction n as [|n IH]; intros H; cbn [tsum]; [reflexivity|]. rewrite IH by (intros; apply H; lia). rewrite H by lia. reflexivity. Qed.
#[global] Instance mprod_proper D : Proper (meq D ==> meq D ==> meq D) (mprod D).
Proof. intros A A' HA B B' HB i j Hi Hj. unfold mprod. apply tsum_ext. intros k Hk. rewrite (HA i k), (HB k j) by assumption. reflexivity. Qed.
#[global] Instance mtransp_proper D : Proper (meq D ==> meq D) mtransp.
Proof. intros A A' H i j Hi Hj. unfold mtransp. auto. Qed.
#[global] Instance mtimes_proper D c : Proper (meq D ==> meq D) (mtimes c).
Proof. intros A A' H i j Hi Hj. unfold mtimes. rewrite H by assumption. reflexivity. Qed.
#[global] Instance mdivs_proper D : Proper (meq D ==> eq ==> meq D) mdivs.
Proof. intros A A' H c c' <- i j Hi Hj. unfold mdivs. rewrite H by assumption. reflexivity. Qed.

Section Dim.
  Context (D : nat) (HD : D = 2%nat \/ D = 3%nat).
  Ltac entries := intros i j Hi Hj; destruct HD as [-> | ->]; [destruct i as [|[|]], j as [|[|]]|destruct i as [|[|[|]]], j as [|[|[|]]]]; try (exfalso; lia).
  Lemma mprod_assoc A B C : meq D (mprod D (mprod D A B) C) (mprod D A (mprod D B C)).
  Proof. intros i j _ _. destruct HD as [-> | ->]; unfold mprod; cbn [tsum]; ring. Qed.
  Lemma eye_l A : meq D (mprod D mident A) A.
  Proof. entries; unfold mprod, mident; cbn; ring. Qed.
  Lemma eye_r A : meq D (mprod D A mident) A.
  Proof. entries; unfold mprod, mident; cbn; ring. Qed.
  Lemma times_l c A B : meq D (mprod D (mtimes c A) B) (mtimes c (mprod D A B)).
  Proof. intros i j _ _. destruct HD as [-> | ->]; unfold mprod, mtimes; cbn [tsum]; ring. Qed.
  Lemma times_r c A B : meq D (mprod D A (mtimes c B)) (mtimes c (mprod D A B)).
  Proof. intros i j _ _. destruct HD as [-> | ->]; unfold mprod, mtimes; cbn [tsum]; ring. Qed.
  Lemma divs_l c A B : meq D (mprod D (mdivs A c) B) (mdivs (mprod D A B) c).
  Proof. intros i j _ _. destruct HD as [-> | ->]; unfold mprod, mdivs, Rdiv; cbn [tsum]; ring. Qed.
  Lemma divs_r c A B : meq D (mprod D A (mdivs B c)) (mdivs (mprod D A B) c).
  Proof. intros i j _ _. destruct HD as [-> | ->]; unfold mprod, mdivs, Rdiv; cbn [tsum]; ring. Qed.
  Lemma times_divs c A : c <> 0 -> meq D (mtimes c (mdivs A c)) A.
  Proof. intros H i j _ _. unfold mtimes, mdivs. field. exact H. Qed.
  Lemma divs_times c A : c <> 0 -> meq D (mdivs (mtimes c A) c) A.
  Proof. intros H i j _ _. unfold mtimes, mdivs. field. exact H. Qed.
  Lemma transp_prod A B : meq D (mtransp (mprod D A B)) (mprod D (mtransp B) (mtransp A)).
  Proof. intros i j _ _. destruct HD as [-> | ->]; unfold mtransp, mprod; cbn [tsum]; ring. Qed.
  Lemma transp_eye : meq D (mtransp mident) mident.
  Proof. entries; reflexivity. Qed.
  Context (F : mtx) (HF : mdet D F <> 0).
  Lemma inv_l : meq D (mprod D (minv D F) F) mident.
  Proof.
    entries; unfold mdet in HF; cbn [Nat.eqb] in HF; unfold minv, mprod, mident; cbn [Nat.eqb tsum]; unfold inv2, inv3; field_simplify_eq; try exact HF;
      unfold sgn; cbn [Nat.even Nat.add]; unfold det2, det3, minor3; ring.
  Qed.
  Lemma inv_r : meq D (mprod D F (minv D F)) mident.
  Proof.
    entries; unfold mdet in HF; cbn [Nat.eqb] in HF; unfold minv, mprod, mident; cbn [Nat.eqb tsum]; unfold inv2, inv3; field_simplify_eq; try exact HF;
      unfold sgn; cbn [Nat.even Nat.add]; unfold det2, det3, minor3; ring.
  Qed.
  Lemma inv_tl : meq D (mprod D (mtransp (minv D F)) (mtransp F)) mident.
  Proof. rewrite <- transp_prod, inv_r. apply transp_eye. Qed.
  Lemma inv_tr : meq D (mprod D (mtransp F) (mtransp (minv D F))) mident.
  Proof. rewrite <- transp_prod, inv_l. apply transp_eye. Qed.

  Lemma pk12 S : meq D (convertPK1toPK2 D (convertPK2toPK1 D S F) F) S.
  Proof. unfold convertPK1toPK2, convertPK2toPK1. rewrite <- mprod_assoc, inv_l. apply eye_l. Qed.
  Lemma pk21 P : meq D (convertPK2toPK1 D (convertPK1toPK2 D P F) F) P.
  Proof. unfold convertPK1toPK2, convertPK2toPK1. rewrite <- mprod_assoc, inv_r. apply eye_l. Qed.
  Lemma pk1c S : meq D (convertPK1toCauchy D (convertCauchytoPK1 D S F) F) S.
  Proof. unfold convertPK1toCauchy, convertCauchytoPK1. rewrite mprod_assoc, inv_tl, eye_r. apply divs_times, HF. Qed.
  Lemma cpk1 P : meq D (convertCauchytoPK1 D (convertPK1toCauchy D P F) F) P.
  Proof. unfold convertPK1toCauchy, convertCauchytoPK1. rewrite times_divs by exact HF. rewrite mprod_assoc, inv_tr. apply eye_r. Qed.
  Lemma pk2c S : meq D (convertPK2toCauchy D (convertCauchytoPK2 D S F) F) S.
  Proof.
    unfold convertPK2toCauchy, convertCauchytoPK2. rewrite !mprod_assoc, inv_tl, eye_r, times_l, times_r. rewrite <- mprod_assoc, inv_r, eye_l. apply divs_times, HF.
  Qed.
  Lemma cpk2 S : meq D (convertCauchytoPK2 D (convertPK2toCauchy D S F) F) S.
  Proof.
    unfold convertPK2toCauchy, convertCauchytoPK2. rewrite times_l, divs_r, times_divs by exact HF.
    rewrite <- (mprod_assoc (minv D F) (mprod D F S)). rewrite <- (mprod_assoc (minv D F) F S), inv_l, eye_l, mprod_assoc, inv_tr. apply eye_r.
  Qed.
  Lemma comp1 S : meq D (convertCauchytoPK2 D S F) (convertPK1toPK2 D (convertCauchytoPK1 D S F) F).
  Proof. unfold convertCauchytoPK2, convertPK1toPK2, convertCauchytoPK1. rewrite !times_l, !times_r, mprod_assoc. reflexivity. Qed.
  Lemma comp2 S : meq D (convertPK2toCauchy D S F) (convertPK1toCauchy D (convertPK2toPK1 D S F) F).
  Proof. reflexivity. Qed.
End Dim.

(** ** sorted curves *)
Lemma ins_perm a l : Permutation (a :: l) (ins_pt a l).
Proof.
  induction l as [|b l IH]; [reflexivity|]. cbn [ins_pt]. destruct (Rlt_dec _ _); [|reflexivity].
  transitivity (b :: a :: l); [constructor|]. constructor. exact IH.
Qed.
Lemma sort_perm l : Permutation l (sort_pts l).
Proof. induction l as [|a l IH]; [constructor|]. cbn [sort_pts fold_right]. etransitivity; [|apply ins_perm]. constructor. exact IH. Qed.
Definition le_pt (a b : R * R) : Prop := fst a <= fst b.
Lemma ins_sorted a l : ForallOrdPairs le_pt l -> ForallOrdPairs le_pt (ins_pt a l).
Proof.
  induction 1 as [|b l HB HL IH]; [repeat constructor|]. cbn [ins_pt]. destruct (Rlt_dec _ _) as [L|L].
  - constructor; [|exact IH]. eapply Permutation_Forall; [apply ins_perm|]. constructor; [unfold le_pt; lra|exact HB].
  - constructor; [|constructor; assumption]. constructor; [unfold le_pt; lra|]. eapply Forall_impl; [|exact HB]. intros c. unfold le_pt. lra.
Qed.
Lemma sort_sorted l : ForallOrdPairs le_pt (sort_pts l).
Proof. induction l; [constructor|]. cbn [sort_pts fold_right]. apply ins_sorted. assumption. Qed.
Definition far (eps : R) (a b : R * R) : Prop := eps <= Rabs (fst a - fst b).
Lemma far_perm eps l l' : Permutation l l' -> ForallOrdPairs (far eps) l -> ForallOrdPairs (far eps) l'.
Proof.
  induction 1 as [|a l l' P IH|a b l|l l2 l3 P1 I1 P2 I2]; intros H; auto.
  - inversion H; subst. constructor; [eapply Permutation_Forall; eassumption|auto].
  - inversion H as [|? ? HB HL]; subst. inversion HL as [|? ? HA HL']; subst. inversion HB; subst. constructor; [constructor; [|assumption]|constructor; assumption].
    unfold far in *. rewrite Rabs_minus_sym. assumption.
Qed.
Lemma close_far eps l : 0 < eps -> ForallOrdPairs le_pt l -> close_pts eps l = false <-> ForallOrdPairs (far eps) l.
Proof.
  intros HE. induction 1 as [|a l HA HL IH]; [split; [constructor|reflexivity]|]. destruct l as [|b l].
  - split; [repeat constructor|reflexivity].
  - change (close_pts eps (a :: b :: l)) with ((if Rlt_dec (Rabs (fst a - fst b)) eps then true else false) || close_pts eps (b :: l))%bool.
    rewrite orb_false_iff, IH. inversion HA as [|? ? L1 L2]; subst. inversion HL as [|? ? M1 M2]; subst. unfold le_pt in *. split.
    + intros [A B]. constructor; [|exact B]. destruct (Rlt_dec _ _) as [|N]; [discriminate|]. constructor; [unfold far; lra|].
      rewrite Forall_forall in *. intros c Hc. specialize (M1 c Hc). unfold far. rewrite Rabs_minus_sym, Rabs_right by (specialize (L2 c Hc); lra).
      rewrite Rabs_minus_sym, Rabs_right in N by lra. lra.
    + intros A. inversion A as [|? ? F1 F2]; subst. split; [|exact F2]. inversion F1; subst. unfold far in *. destruct (Rlt_dec _ _); [lra|reflexivity].
Qed.
Lemma sorted_far_inc eps l : 0 < eps -> ForallOrdPairs le_pt l -> ForallOrdPairs (far eps) l ->
  forall i x0 y0 x1 y1, nth_error l i = Some (x0, y0) -> nth_error l (S i) = Some (x1, y1) -> x0 + eps <= x1.
Proof.
  intros HE. induction 1 as [|a l HA HL IH]; intros HF; [intros [|i]; discriminate|]. inversion HF as [|? ? F1 F2]; subst.
  intros [|i] x0 y0 x1 y1 A B; [|apply (IH F2 i _ _ _ _ A B)].
  cbn in A, B. destruct l as [|b l]; [discriminate|]. injection A as ->. injection B as ->. inversion HA; subst. inversion F1; subst. unfold le_pt, far in *. cbn [fst] in *.
  rewrite Rabs_minus_sym, Rabs_right in * by lra. lra.
Qed.
