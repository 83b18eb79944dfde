(** Complex, duality, normals and edge numbers of the discrete geometric approach. *)
From Coq Require Import Reals Lra Lia List Arith Bool.
From Verif Require Import Common Poly_Spec Poly_Proofs Quad_Spec Quad_Model Geo_Model Mesh_Spec Mesh_Model Mesh_Proofs Elem_Spec Elem_Model Elem_Proofs
  DGA_Spec DGA_Model DGA_Proofs DGA2_Proofs.
Import ListNotations.
Open Scope R_scope.

Lemma int_affine p q : is_int1 (fun s => p + q * s) 0 1 (p + q / 2).
Proof.
  pose proof (is_int1_plus _ _ _ _ _ _ (is_int1_scal p _ _ _ _ (is_int1_pow 0 0 1)) (is_int1_scal q _ _ _ _ (is_int1_pow 1 0 1))) as H.
  cbn [pow INR] in H. replace (p + q / 2) with (p * ((1 * 1 - 0 * 1) / 1) + q * ((1 * (1 * 1) - 0 * (0 * 1)) / (1 + 1))) by field.
  eapply is_int1_ext; [|exact H]. intros x. cbv beta. ring.
Qed.
(** the circulation of an affine field is its value at the middle of the edge times the edge *)
Lemma circ_value P c A a b I : circulation P (affine c A) [a; b] I -> I = sp (affine c A (bar2 (P a) (P b))) (vdiff (P b) (P a)).
Proof.
  intros (G & HG & HI). cbn in HG.
  set (p := sp (affine c A (P a)) (vdiff (P b) (P a))). set (q := sp (tapp A (vdiff (P b) (P a))) (vdiff (P b) (P a))).
  assert (K : is_int1 (fun s => p + q * s) 0 1 I).
  { eapply is_int1_ext; [|exact HI]. intros s. rewrite HG. unfold p, q, affine. unf. cbn. ring. }
  rewrite (is_int1_unique _ _ _ _ _ K (int_affine p q)). unfold p, q, affine, bar2. unf. field.
Qed.
Lemma circ_exists P c A a b : exists I, circulation P (affine c A) [a; b] I.
Proof.
  set (p := sp (affine c A (P a)) (vdiff (P b) (P a))). set (q := sp (tapp A (vdiff (P b) (P a))) (vdiff (P b) (P a))).
  exists (p + q / 2). exists (fun s => p + q * s). split; [|apply int_affine].
  intros s. unfold p, q, affine. unf. cbn. ring.
Qed.

Lemma unit_some p : nonzero3 p -> exists s, 0 < s /\ unit p = Some (pscale s p) /\ s * s * sp p p = 1.
Proof.
  intros H. assert (K : 0 < sp p p).
  { destruct H as (i & Hi & E). unfold sp. pose proof (Rle_0_sqr (p 0%nat)) as Q0. pose proof (Rle_0_sqr (p 1%nat)) as Q1. pose proof (Rle_0_sqr (p 2%nat)) as Q2.
    pose proof (Rlt_0_sqr _ E) as Q. unfold Rsqr in *. destruct i as [|[|[|i]]]; try lia; lra. }
  assert (N : 0 < norm 3 p) by (unfold norm; rewrite dot3_sp; apply sqrt_lt_R0, K).
  exists (/ norm 3 p). unfold unit. destruct (Req_EM_T (norm 3 p) 0) as [E|E]; [lra|]. repeat split; [apply Rinv_0_lt_compat, N|].
  assert (Q : norm 3 p * norm 3 p = sp p p) by (unfold norm; rewrite dot3_sp; apply sqrt_sqrt; lra).
  rewrite <- Q. field. exact E.
Qed.
Lemma nz_of_sp u w : sp u w <> 0 -> nonzero3 u.
Proof.
  intros H. destruct (Req_dec (u 0%nat) 0) as [E0|E0]; [|exists 0%nat; split; [lia|exact E0]].
  destruct (Req_dec (u 1%nat) 0) as [E1|E1]; [|exists 1%nat; split; [lia|exact E1]].
  destruct (Req_dec (u 2%nat) 0) as [E2|E2]; [|exists 2%nat; split; [lia|exact E2]].
  exfalso. apply H. unfold sp. rewrite E0, E1, E2. ring.
Qed.

(** a positive multiple of a vector with the right products *)
Lemma outward_of P a b c x p s t : 0 < s -> s * s * sp p p = 1 -> t * t = 1 ->
  sp p (vdiff (P b) (P a)) = 0 -> sp p (vdiff (P c) (P a)) = 0 -> t * sp p (vdiff x (P a)) < 0 ->
  outward_unit P [a; b; c] x (pscale t (pscale s p)).
Proof.
  intros H1 H2 Ht H3 H4 H5. assert (L : forall u, sp (pscale t (pscale s p)) u = s * (t * sp p u)) by (intros u; unfold sp, pscale; ring).
  cbn. repeat split.
  - rewrite L. transitivity ((s * s * sp p p) * (t * t)); [unfold sp, pscale; ring|rewrite H2, Ht; ring].
  - rewrite L, H3. ring.
  - rewrite L, H4. ring.
  - rewrite L. apply Rmult_lt_reg_l with (/ s); [apply Rinv_0_lt_compat, H1|]. rewrite <- Rmult_assoc, Rinv_l by lra. lra.
Qed.
Lemma outward_of_edge P a b x p s t : 0 < s -> s * s * sp p p = 1 -> t * t = 1 ->
  sp p (vdiff (P b) (P a)) = 0 -> sp p (xp (vdiff (P b) (P a)) (vdiff x (P a))) = 0 -> t * sp p (vdiff x (P a)) < 0 ->
  outward_unit_edge P [a; b] x (pscale t (pscale s p)).
Proof.
  intros H1 H2 Ht H3 H4 H5. assert (L : forall u, sp (pscale t (pscale s p)) u = s * (t * sp p u)) by (intros u; unfold sp, pscale; ring).
  cbn. repeat split.
  - rewrite L. transitivity ((s * s * sp p p) * (t * t)); [unfold sp, pscale; ring|rewrite H2, Ht; ring].
  - rewrite L, H3. ring.
  - rewrite L, H4. ring.
  - rewrite L. apply Rmult_lt_reg_l with (/ s); [apply Rinv_0_lt_compat, H1|]. rewrite <- Rmult_assoc, Rinv_l by lra. lra.
Qed.

(** the numbers of the edges *)
Lemma edge_offset_stored edges e i : sorted_unique lex_ltb edges -> nth_error edges i = Some e -> edge_offset edges e = Ok i.
Proof.
  intros S H. unfold edge_offset. rewrite (lower_bound_correct lex_ltb _ _ _ (stored_partition _ lex_ltb_sto _ _ _ S H)). cbn [bind].
  rewrite H. replace (arr_eqb e e) with true by (symmetry; apply arr_eqb_iff; reflexivity). reflexivity.
Qed.
Lemma edge_offset_absent edges e : sorted_unique lex_ltb edges -> ~ In e edges -> edge_offset edges e = Throw InvalidArgument.
Proof.
  intros S H. unfold edge_offset. destruct (sorted_partition _ lex_ltb_sto edges e S) as (p & Pp).
  rewrite (lower_bound_correct lex_ltb _ _ _ Pp). cbn [bind]. destruct (nth_error edges p) as [x|] eqn:E; [|reflexivity].
  destruct (arr_eqb x e) eqn:Q; [|reflexivity]. apply arr_eqb_iff in Q. subst. exfalso. apply H. eapply nth_error_In; eauto.
Qed.
Lemma offsets_ok edges es is : sorted_unique lex_ltb edges -> (offsets edges es = Ok is <-> Forall2 (fun e i => nth_error edges i = Some e) es is).
Proof.
  intros S. revert is. induction es as [|e es IH]; intros is; cbn [offsets].
  - split; [intros H; injection H as <-; constructor|intros H; inversion H; reflexivity].
  - destruct (in_dec (list_eq_dec Nat.eq_dec) e edges) as [I|I].
    + destruct (In_nth_error _ _ I) as (i & Hi). rewrite (edge_offset_stored _ _ _ S Hi). cbn [bind].
      destruct (offsets edges es) as [l|x|] eqn:Q; cbn [bind].
      * split.
        -- intros H. injection H as <-. constructor; [exact Hi|apply IH; reflexivity].
        -- intros H. inversion H as [|? j ? js Hj Hr]; subst. apply IH in Hr. injection Hr as ->.
           rewrite (stored_unique _ lex_ltb_sto _ _ _ _ S Hi Hj). reflexivity.
      * split; [discriminate|]. intros H. inversion H as [|? j ? js Hj Hr]; subst. apply IH in Hr. discriminate.
      * split; [discriminate|]. intros H. inversion H as [|? j ? js Hj Hr]; subst. apply IH in Hr. discriminate.
    + rewrite (edge_offset_absent _ _ S I). cbn [bind]. split; [discriminate|]. intros H. inversion H as [|? j ? js Hj Hr]; subst.
      exfalso. apply I. eapply nth_error_In; eauto.
Qed.
Lemma offsets_throw edges es : sorted_unique lex_ltb edges -> (exists e, In e es /\ ~ In e edges) -> offsets edges es = Throw InvalidArgument.
Proof.
  intros S. induction es as [|e es IH]; intros (x & Hx & N); [contradiction|]. cbn [offsets].
  destruct (in_dec (list_eq_dec Nat.eq_dec) e edges) as [I|I].
  - destruct (In_nth_error _ _ I) as (i & Hi). rewrite (edge_offset_stored _ _ _ S Hi). cbn [bind].
    rewrite IH; [reflexivity|]. exists x. split; [|exact N]. destruct Hx as [->|]; [contradiction|assumption].
  - rewrite (edge_offset_absent _ _ S I). reflexivity.
Qed.
