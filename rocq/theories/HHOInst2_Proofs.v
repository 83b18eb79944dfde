(** Every triangle is a cell that the theorems on the HHO operators speak about. *)
From Coq Require Import List Arith Reals Lra Lia Bool Factorial.
From Verif Require Import Poly_Spec Poly_Proofs HHO_Spec HHO_Model HHO_Setting HHO_Proofs HHOInst_Proofs GM4_Proofs.
Import ListNotations.
Open Scope R_scope.

(** derivative along a line *)
Lemma line_deriv n q x v t : pvars n q ->
  derivable_pt_lim (fun u => peval q (fun i => x i + u * v i)) t (sg n (fun i => v i * peval (pdiff i q) (fun i => x i + t * v i))).
Proof.
  intros V. induction q as [c|j|p IHp q IHq|p IHp q IHq]; cbn [pvars peval pdiff] in *.
  - rewrite sg_zero by (intros; ring). apply derivable_pt_lim_const.
  - replace (sg n _) with (v j).
    + assert (D : derivable_pt_lim (fun u => x j + u * v j) t (0 + (1 * v j + t * 0))).
      { apply derivable_pt_lim_plus; [apply derivable_pt_lim_const|].
        apply (derivable_pt_lim_mult (fun u => u) (fun _ => v j)); [apply derivable_pt_lim_id|apply derivable_pt_lim_const]. }
      replace (0 + (1 * v j + t * 0)) with (v j) in D by ring. exact D.
    + symmetry. rewrite (sg_ext n _ (fun i => delta j i * v i)) by (intros i _; unfold delta; rewrite (Nat.eqb_sym j i); destruct (i =? j)%nat; ring).
      apply sg_delta, V.
  - rewrite (sg_ext n _ (fun i => v i * peval (pdiff i p) (fun i => x i + t * v i) + v i * peval (pdiff i q) (fun i => x i + t * v i))) by (intros; ring).
    rewrite sg_plus. apply derivable_pt_lim_plus; [apply IHp|apply IHq]; tauto.
  - rewrite (sg_ext n _ (fun i => peval q (fun i => x i + t * v i) * (v i * peval (pdiff i p) (fun i => x i + t * v i)) +
                                  peval p (fun i => x i + t * v i) * (v i * peval (pdiff i q) (fun i => x i + t * v i)))) by (intros; ring).
    rewrite sg_plus, !sg_scal, (Rmult_comm (peval q _)).
    apply (derivable_pt_lim_mult (fun u => peval p (fun i => x i + u * v i)) (fun u => peval q (fun i => x i + u * v i))); [apply IHp|apply IHq]; tauto.
Qed.

(** integrals over the segment and the triangle of reference *)
Lemma seg_int f I : is_int_simplex 1 1 f I <-> is_int1 (fun s => f (scons s (fun _ => 0))) 0 1 I.
Proof.
  split.
  - intros (G & HG & H). eapply is_int1_ext; [|exact H]. intros s. specialize (HG s). cbn in HG. exact HG.
  - intros H. exists (fun s => f (scons s (fun _ => 0))). split; [intros s; reflexivity|exact H].
Qed.
Definition pt2 (a b : R) : pt := fun i => match i with O => a | S O => b | _ => 0 end.
Lemma seg_poly (a b : pexp) q : pvars 1 a -> pvars 1 b -> pvars 2 q ->
  exists I, is_int1 (fun s => peval q (pt2 (peval a (fun _ => s)) (peval b (fun _ => s)))) 0 1 I.
Proof.
  intros Va Vb V. set (sb := fun i => match i with O => a | S O => b | _ => PC 0 end).
  assert (Vs : forall i, pvars 1 (sb i)) by (intros [|[|i]]; cbn; auto).
  exists (Isimp 1 (psub sb q)). pose proof (Isimp_int 1 (psub sb q) (psub_vars 1 sb q Vs)) as H. apply seg_int in H.
  eapply is_int1_ext; [|exact H]. intros s. cbv beta. rewrite psub_eval. apply peval_ext. intros [|[|k]]; cbn [sb pt2 peval]; try reflexivity;
    apply (pvars_ext 1); try assumption; intros [|i] Hi; try lia; reflexivity.
Qed.
Lemma is_int1_flip f I : is_int1 f 0 1 I -> is_int1 (fun s => f (1 - s)) 0 1 I.
Proof.
  intros (F & HF & ->). exists (fun s => - F (1 - s)). split.
  - intros x. replace (f (1 - x)) with (- (f (1 - x) * (0 - 1))) by ring.
    apply (derivable_pt_lim_opp (fun s => F (1 - s))). apply (derivable_pt_lim_comp (fun s => 1 - s) F).
    + apply derivable_pt_lim_minus; [apply derivable_pt_lim_const|apply derivable_pt_lim_id].
    + apply HF.
  - replace (1 - 1) with 0 by ring. rewrite Rminus_0_r. ring.
Qed.
Lemma is_int1_minus f g a b I J : is_int1 f a b I -> is_int1 g a b J -> is_int1 (fun x => f x - g x) a b (I - J).
Proof.
  intros H K. pose proof (is_int1_plus _ _ _ _ _ _ H (is_int1_scal (-1) _ _ _ _ K)) as M. replace (I - J) with (I + -1 * J) by ring.
  eapply is_int1_ext; [|exact M]. intros x. cbv beta. ring.
Qed.
Lemma pvars_diff n p c : pvars n p -> pvars n (pdiff c p).
Proof. induction p; cbn [pdiff pvars]; tauto. Qed.
Lemma ref_d1 q e1 e2 : pvars 2 q -> is_int1 (fun t => peval q (pt2 t 0)) 0 1 e1 -> is_int1 (fun t => peval q (pt2 (1 - t) t)) 0 1 e2 ->
  Isimp 2 (pdiff 1 q) = e2 - e1.
Proof.
  intros V H1 H2. apply Isimp_eq; [apply pvars_diff, V|].
  exists (fun s => peval q (pt2 s (1 - s)) - peval q (pt2 s 0)). split.
  - intros s. exists (fun t => peval (pdiff 1 q) (pt2 s t)). split.
    + intros t. cbn. apply peval_ext. intros [|[|k]]; reflexivity.
    + exists (fun t => peval q (pt2 s t)). split; [|reflexivity]. intros t.
      pose proof (line_deriv 2 q (pt2 s 0) (pt2 0 1) t V) as D. cbn [sg pt2] in D.
      eapply dl_ext; [|replace (peval (pdiff 1 q) (pt2 s t)) with (0 + 0 * peval (pdiff 0 q) (fun i => pt2 s 0 i + t * pt2 0 1 i) + 1 * peval (pdiff 1 q) (fun i => pt2 s 0 i + t * pt2 0 1 i)); [exact D|]].
      * intros y. cbv beta. apply peval_ext. intros [|[|k]]; cbn; ring.
      * assert (E : peval (pdiff 1 q) (fun i => pt2 s 0 i + t * pt2 0 1 i) = peval (pdiff 1 q) (pt2 s t)) by (apply peval_ext; intros [|[|k]]; cbn; ring).
        rewrite E. ring.
  - apply is_int1_minus; [|exact H1]. apply is_int1_flip in H2. eapply is_int1_ext; [|exact H2]. intros t. cbv beta. f_equal.
    replace (1 - (1 - t)) with t by ring. reflexivity.
Qed.
(** swapping the two coordinates *)
Definition swp (i : nat) : pexp := match i with O => PX 1 | S O => PX 0 | _ => PC 0 end.
Lemma swp_vars i : pvars 2 (swp i).
Proof. destruct i as [|[|i]]; cbn; auto. Qed.
Definition swl (a : list nat) : list nat := match a with [x; y] => [y; x] | _ => a end.
Lemma ref_swap p : pvars 2 p -> Isimp 2 (psub swp p) = Isimp 2 p.
Proof.
  intros V. apply Isimp_eq; [apply psub_vars, swp_vars|].
  pose proof (monos_ok 2 p) as OK. set (m := monos 2 p) in *.
  set (m' := map (fun t => (fst t, swl (snd t))) m).
  assert (OK' : mok 2 (pdeg p) m').
  { unfold mok, m' in *. apply Forall_map. eapply Forall_impl; [|exact OK]. intros [k [|x [|y [|z l]]]] [L N]; cbn in *; try discriminate. lia. }
  assert (E : forall y, meval m' y = peval (psub swp p) y).
  { intros y. rewrite psub_eval, <- (monos_eval 2 p _ V). fold m. unfold m'. clear -OK. unfold mok in OK. induction OK as [|[k a] m [L N] OK IH]; [reflexivity|].
    cbn [map meval fst snd]. rewrite IH. f_equal. f_equal. destruct a as [|x [|z [|w l]]]; cbn in L; try discriminate. cbn. ring. }
  eapply is_int_simplex_ext; [exact E|]. replace (Isimp 2 p) with (fold_right (fun t s => fst t * smoment 2 (snd t) 1 + s) 0 m').
  - eapply is_int_simplex_meval, OK'.
  - unfold Isimp. fold m. unfold m'. clear -OK. unfold mok in OK. induction OK as [|[k a] m [L N] OK IH]; [reflexivity|]. cbn [map fold_right fst snd]. rewrite IH. f_equal. f_equal.
    destruct a as [|x [|z [|w l]]]; cbn in L; try discriminate. unfold smoment, swl. cbn [lsum pfact]. replace (z + (x + 0) + 2)%nat with (x + (z + 0) + 2)%nat by lia. f_equal. f_equal. ring.
Qed.
(** chain rule for maps that fix the coordinates after the second *)
Lemma chain2 (sb : nat -> pexp) p i y : (forall k, sb (S (S k)) = PC 0) ->
  peval (pdiff i (psub sb p)) y = peval (pdiff 0 p) (fun k => peval (sb k) y) * peval (pdiff i (sb O)) y
    + peval (pdiff 1 p) (fun k => peval (sb k) y) * peval (pdiff i (sb 1%nat)) y.
Proof.
  intros H. induction p as [c|j|p IHp q IHq|p IHp q IHq]; cbn [psub pdiff peval].
  - ring.
  - destruct j as [|[|j]]; cbn [Nat.eqb]; [ring|ring|]. rewrite H. cbn. ring.
  - rewrite IHp, IHq. ring.
  - rewrite IHp, IHq, !psub_eval. ring.
Qed.
Lemma ref_d0 q e2 e3 : pvars 2 q -> is_int1 (fun t => peval q (pt2 (1 - t) t)) 0 1 e2 -> is_int1 (fun t => peval q (pt2 0 t)) 0 1 e3 ->
  Isimp 2 (pdiff 0 q) = e2 - e3.
Proof.
  intros V H2 H3. rewrite <- (ref_swap (pdiff 0 q)) by (apply pvars_diff, V).
  assert (S : forall a b, peval (psub swp q) (pt2 a b) = peval q (pt2 b a)).
  { intros a b. rewrite psub_eval. apply peval_ext. intros [|[|k]]; reflexivity. }
  rewrite <- (ref_d1 (psub swp q) e3 e2).
  - apply Isimp_eq; [apply psub_vars, swp_vars|]. eapply is_int_simplex_ext; [|apply Isimp_int, pvars_diff, psub_vars, swp_vars].
    intros y. rewrite chain2 by reflexivity. rewrite psub_eval. cbn. ring.
  - apply psub_vars, swp_vars.
  - eapply is_int1_ext; [|exact H3]. intros t. cbv beta. rewrite S. reflexivity.
  - apply is_int1_flip in H2. eapply is_int1_ext; [|exact H2]. intros t. cbv beta. rewrite S. f_equal. replace (1 - (1 - t)) with t by ring. reflexivity.
Qed.

(** * the triangle with vertices (ax,ay), (bx,by), (cx,cy) *)
Section Triangle.
  Context (ax ay bx by' cx cy : R).
  Definition aff1 (a b : R) : pexp := PAdd (PC a) (pscal b (PX 0)).
  Definition aff2 (a b c : R) : pexp := PAdd (PC a) (PAdd (pscal b (PX 0)) (pscal c (PX 1))).
  Definition tri_sb (i : nat) : pexp :=
    match i with O => aff2 ax (bx - ax) (cx - ax) | S O => aff2 ay (by' - ay) (cy - ay) | _ => PC 0 end.
  Let J := (bx - ax) * (cy - ay) - (by' - ay) * (cx - ax).
  Context (HJ : J <> 0).
  (** solving for the coordinates in the triangle *)
  Definition tri_inv (i : nat) : pexp :=
    match i with
    | O => aff2 ((- ax * (cy - ay) + ay * (cx - ax)) / J) ((cy - ay) / J) (- (cx - ax) / J)
    | S O => aff2 ((ax * (by' - ay) - ay * (bx - ax)) / J) (- (by' - ay) / J) ((bx - ax) / J)
    | _ => PC 0
    end.
  Definition tri_elem (h : R) : selem := el_of 2 tri_sb tri_inv (Rabs J) h.
  Definition tri_on : pt -> Prop := el_on 2 tri_sb.
  Definition tri_int : pexp -> R := el_int 2 tri_sb (Rabs J).
  Lemma tri_vars i : pvars 2 (tri_sb i).
  Proof. destruct i as [|[|i]]; cbn; repeat split; lia. Qed.
  Lemma tri_deg i : (pdeg (tri_sb i) <= 1)%nat.
  Proof. destruct i as [|[|i]]; cbn; lia. Qed.
  Lemma tri_ideg i : (pdeg (tri_inv i) <= 1)%nat.
  Proof. destruct i as [|[|i]]; cbn; lia. Qed.
  Lemma tri_ivars i : pvars 2 (tri_inv i).
  Proof. destruct i as [|[|i]]; cbn; repeat split; lia. Qed.
  Lemma tri_left y i : (i < 2)%nat -> peval (tri_inv i) (fun k => peval (tri_sb k) y) = y i.
  Proof. intros Hi. destruct i as [|[|i]]; [| |lia]; cbn; unfold J in *; field; exact HJ. Qed.
  Lemma tri_right x i : (i < 2)%nat -> peval (tri_sb i) (fun k => peval (tri_inv k) x) = x i.
  Proof. intros Hi. destruct i as [|[|i]]; [| |lia]; cbn; unfold J in *; field; exact HJ. Qed.
  Lemma tri_scale : 0 < Rabs J.
  Proof. apply Rabs_pos_lt, HJ. Qed.
End Triangle.
(** segments *)
Section Segment.
  Context (ax ay bx by' : R).
  Definition seg_len : R := sqrt ((bx - ax) ^ 2 + (by' - ay) ^ 2).
  Let L2 := (bx - ax) ^ 2 + (by' - ay) ^ 2.
  Context (HL : L2 <> 0).
  Definition seg_sb (i : nat) : pexp := match i with O => aff1 ax (bx - ax) | S O => aff1 ay (by' - ay) | _ => PC 0 end.
  Definition seg_inv (i : nat) : pexp :=
    match i with O => aff2 ((- ax * (bx - ax) - ay * (by' - ay)) / L2) ((bx - ax) / L2) ((by' - ay) / L2) | _ => PC 0 end.
  Lemma seg_pos : 0 < seg_len.
  Proof.
    unfold seg_len. apply sqrt_lt_R0. fold L2. pose proof (pow2_ge_0 (bx - ax)). pose proof (pow2_ge_0 (by' - ay)).
    assert (0 <= L2) by (unfold L2; lra). lra.
  Qed.
  Lemma seg_left y i : (i < 1)%nat -> peval (seg_inv i) (fun k => peval (seg_sb k) y) = y i.
  Proof. intros Hi. destruct i as [|i]; [|lia]. cbn. unfold L2 in *. field. exact HL. Qed.
  Lemma seg_vars i : pvars 1 (seg_sb i).
  Proof. destruct i as [|[|i]]; cbn; repeat split; lia. Qed.
  Lemma seg_deg i : (pdeg (seg_sb i) <= 1)%nat.
  Proof. destruct i as [|[|i]]; cbn; lia. Qed.
  Lemma seg_ideg i : (pdeg (seg_inv i) <= 1)%nat.
  Proof. destruct i as [|i]; cbn; lia. Qed.
  (** the face with the normal on the right of the direction of the segment, times [o] *)
  Definition seg_normal (o : R) : pt := pt2 (o * (by' - ay) / seg_len) (- (o * (bx - ax) / seg_len)).
  Definition seg_facet (o : R) : facet := mkFacet (el_on 1 seg_sb) (seg_normal o) seg_len (el_int 1 seg_sb seg_len).
  Definition seg_face (o : R) : sface := mkFace (el_of 1 seg_sb seg_inv seg_len seg_len) (seg_normal o).
  Lemma seg_integral : integral (el_on 1 seg_sb) (el_int 1 seg_sb seg_len).
  Proof. apply el_is_integral; [exact seg_pos|exact seg_vars]. Qed.
  Lemma seg_fits : elem_fits (el_on 1 seg_sb) (el_int 1 seg_sb seg_len) (el_of 1 seg_sb seg_inv seg_len seg_len).
  Proof. apply el_fits; [lia|exact seg_vars|exact seg_deg|exact seg_ideg|exact seg_left]. Qed.
  Lemma seg_value p I : is_int1 (fun t => peval p (pt2 (ax + (bx - ax) * t) (ay + (by' - ay) * t))) 0 1 I -> el_int 1 seg_sb seg_len p = seg_len * I.
  Proof.
    intros H. apply el_val; [exact seg_vars|]. apply seg_int. eapply is_int1_ext; [|exact H]. intros t. cbv beta. apply peval_ext. intros [|[|k]]; cbn; ring.
  Qed.
End Segment.

(** * the triangle as a polytope and as a cell *)
Definition sgnJ (J : R) : R := J / Rabs J.
Definition tri_poly (ax ay bx by' cx cy h : R) : polytope :=
  let o := sgnJ ((bx - ax) * (cy - ay) - (by' - ay) * (cx - ax)) in
  mkPoly (tri_on ax ay bx by' cx cy) h (tri_int ax ay bx by' cx cy)
    [seg_facet ax ay bx by' o; seg_facet bx by' cx cy o; seg_facet ax ay cx cy (- o)].
Definition tri_cell (ax ay bx by' cx cy h : R) : scell :=
  let o := sgnJ ((bx - ax) * (cy - ay) - (by' - ay) * (cx - ax)) in
  mkCell (tri_elem ax ay bx by' cx cy h)
    [seg_face ax ay bx by' o; seg_face bx by' cx cy o; seg_face ax ay cx cy (- o)].
Section TriCell.
  Context (ax ay bx by' cx cy h : R) (Hh : 0 < h).
  Let J := (bx - ax) * (cy - ay) - (by' - ay) * (cx - ax).
  Context (HJ : J <> 0).
  Let sb := tri_sb ax ay bx by' cx cy.
  Lemma sq0 a b : a ^ 2 + b ^ 2 = 0 -> a = 0 /\ b = 0.
  Proof. intros H. pose proof (pow2_ge_0 a). pose proof (pow2_ge_0 b). split; apply Rsqr_0_uniq; unfold Rsqr; nra. Qed.
  Lemma HAB : (bx - ax) ^ 2 + (by' - ay) ^ 2 <> 0.
  Proof. intros E. apply sq0 in E as [E F]. apply HJ. unfold J. rewrite E, F. ring. Qed.
  Lemma HBC : (cx - bx) ^ 2 + (cy - by') ^ 2 <> 0.
  Proof. intros E. apply sq0 in E as [E F]. apply HJ. unfold J. replace (cx - ax) with (bx - ax) by lra. replace (cy - ay) with (by' - ay) by lra. ring. Qed.
  Lemma HAC : (cx - ax) ^ 2 + (cy - ay) ^ 2 <> 0.
  Proof. intros E. apply sq0 in E as [E F]. apply HJ. unfold J. rewrite E, F. ring. Qed.
  Lemma tri_green c p : (c < 2)%nat ->
    tri_int ax ay bx by' cx cy (pdiff c p) = fsum (po_facets (tri_poly ax ay bx by' cx cy h)) (fun f => fa_normal f c * fa_int f p).
  Proof.
    intros Hc. set (q := psub sb p).
    assert (V : pvars 2 q) by (apply psub_vars; intros; apply tri_vars).
    destruct (seg_poly (PX 0) (PC 0) q) as (e1 & H1); [cbn; lia|exact Logic.I|exact V|]. cbn [peval] in H1.
    destruct (seg_poly (PAdd (PC 1) (pscal (-1) (PX 0))) (PX 0) q) as (e2 & H2); [cbn; repeat split; lia|cbn; lia|exact V|]. cbn [peval pscal] in H2.
    assert (H2' : is_int1 (fun t => peval q (pt2 (1 - t) t)) 0 1 e2).
    { eapply is_int1_ext; [|exact H2]. intros t. cbv beta. apply peval_ext. intros [|[|k]]; cbn; ring. }
    destruct (seg_poly (PC 0) (PX 0) q) as (e3 & H3); [exact Logic.I|cbn; lia|exact V|]. cbn [peval] in H3.
    pose proof (ref_d1 q e1 e2 V H1 H2') as D1. pose proof (ref_d0 q e2 e3 V H2' H3) as D0.
    assert (Q : forall a b, peval q (pt2 a b) = peval p (pt2 (ax + ((bx - ax) * a + (cx - ax) * b)) (ay + ((by' - ay) * a + (cy - ay) * b)))).
    { intros a b. unfold q. rewrite psub_eval. apply peval_ext. intros [|[|k]]; reflexivity. }
    cbn [tri_poly po_facets fsum seg_facet fa_normal fa_int].
    rewrite (seg_value ax ay bx by' p e1); [|eapply is_int1_ext; [|exact H1]; intros t; cbv beta; rewrite Q; apply peval_ext; intros [|[|k]]; cbn; ring].
    rewrite (seg_value bx by' cx cy p e2); [|eapply is_int1_ext; [|exact H2']; intros t; cbv beta; rewrite Q; apply peval_ext; intros [|[|k]]; cbn; ring].
    rewrite (seg_value ax ay cx cy p e3); [|eapply is_int1_ext; [|exact H3]; intros t; cbv beta; rewrite Q; apply peval_ext; intros [|[|k]]; cbn; ring].
    pose proof (seg_pos ax ay bx by' HAB) as L1. pose proof (seg_pos bx by' cx cy HBC) as L2. pose proof (seg_pos ax ay cx cy HAC) as L3.
    fold J. set (o := sgnJ J). pose proof (tri_scale ax ay bx by' cx cy HJ) as SC. fold J in SC.
    unfold tri_int, el_int. fold J. fold sb.
    (* the reference integral of the derivative *)
    assert (K : J * Isimp 2 (psub sb (pdiff c p)) =
                (match c with O => cy - ay | _ => - (cx - ax) end) * Isimp 2 (pdiff 0 q) + (match c with O => - (by' - ay) | _ => bx - ax end) * Isimp 2 (pdiff 1 q)).
    { apply (is_int_simplex_unique 2 1 (fun y => J * peval (psub sb (pdiff c p)) y)).
      - apply is_int_simplex_scal, Isimp_int, psub_vars. intros; apply tri_vars.
      - eapply is_int_simplex_ext; [|apply is_int_simplex_plus; apply is_int_simplex_scal; apply Isimp_int, pvars_diff, V].
        intros y. cbv beta. unfold q. rewrite !chain2 by reflexivity. rewrite psub_eval. unfold J. destruct c as [|[|c]]; [| |lia]; cbn; ring. }
    rewrite D0, D1 in K. assert (SJ : o * o = 1 /\ Rabs J = o * J).
    { unfold o, sgnJ. split; [|].
      - replace (J / Rabs J * (J / Rabs J)) with (Rsqr J / Rsqr (Rabs J)) by (unfold Rsqr; field; lra). rewrite <- Rsqr_abs. field. unfold Rsqr. apply Rmult_integral_contrapositive. tauto.
      - replace (J / Rabs J * J) with (Rsqr J / Rabs J) by (unfold Rsqr; field; lra). rewrite Rsqr_abs. unfold Rsqr. field. lra. }
    destruct SJ as [SJ1 SJ2]. replace (Rabs J) with (o * J) by (symmetry; exact SJ2). rewrite Rmult_assoc, K.
    destruct c as [|[|c]]; [| |lia]; cbn [seg_normal pt2]; field; repeat split; lra.
  Qed.
  Lemma tri_conn p : (forall c x, (c < 2)%nat -> tri_on ax ay bx by' cx cy x -> peval (pdiff c p) x = 0) ->
    forall x y, tri_on ax ay bx by' cx cy x -> tri_on ax ay bx by' cx cy y -> peval p x = peval p y.
  Proof.
    intros H x y (u & Hu & Eu) (v & Hv & Ev). fold sb in Eu, Ev. set (q := psub sb p).
    assert (V : pvars 2 q) by (apply psub_vars; intros; apply tri_vars).
    set (w := fun i => v i - u i).
    assert (Z : forall t, 0 <= t <= 1 -> forall i, peval (pdiff i q) (fun k => u k + t * w k) = 0).
    { intros t Ht i. unfold q. rewrite chain2 by reflexivity.
      assert (On : tri_on ax ay bx by' cx cy (fun k => peval (sb k) (fun k => u k + t * w k))).
      { exists (fun k => u k + t * w k). split; [|reflexivity]. destruct Hu as (U1 & U2). destruct Hv as (V1 & V2). split.
        - intros k Hk. unfold w. specialize (U1 k Hk). specialize (V1 k Hk). replace (u k + t * (v k - u k)) with ((1 - t) * u k + t * v k) by ring.
          pose proof (Rmult_le_pos (1 - t) (u k) ltac:(lra) U1). pose proof (Rmult_le_pos t (v k) ltac:(lra) V1). lra.
        - cbn [sg] in *. unfold w. replace (0 + (u 0%nat + t * (v 0%nat - u 0%nat)) + (u 1%nat + t * (v 1%nat - u 1%nat))) with
            ((1 - t) * (u 0%nat + u 1%nat) + t * (v 0%nat + v 1%nat)) by ring.
          pose proof (Rmult_le_compat_l (1 - t) (u 0%nat + u 1%nat) 1 ltac:(lra) ltac:(lra)).
          pose proof (Rmult_le_compat_l t (v 0%nat + v 1%nat) 1 ltac:(lra) ltac:(lra)). lra. }
      rewrite (H 0%nat _ ltac:(lia) On), (H 1%nat _ ltac:(lia) On). ring. }
    destruct (MVT_cor2 (fun t => peval q (fun k => u k + t * w k)) (fun t => sg 2 (fun i => w i * peval (pdiff i q) (fun k => u k + t * w k))) 0 1 ltac:(lra)
      (fun t _ => line_deriv 2 q u w t V)) as (t & E & Ht).
    rewrite sg_zero in E by (intros i _; rewrite Z by lra; ring).
    rewrite (peval_ext p x _ Eu), (peval_ext p y _ Ev), <- !psub_eval. fold q.
    rewrite (peval_ext q u (fun k => u k + 0 * w k)) by (intros; ring). rewrite (peval_ext q v (fun k => u k + 1 * w k)) by (intros; unfold w; ring). lra.
  Qed.
  Lemma tri_is_polytope : is_polytope 2 (tri_poly ax ay bx by' cx cy h).
  Proof.
    constructor; cbn [tri_poly po_on po_int po_diam].
    - apply el_is_integral; [apply tri_scale, HJ|apply tri_vars].
    - exists (fun i => peval (sb i) (fun _ => 0)). exists (fun _ => 0). split; [|reflexivity]. split; [intros; lra|cbn; lra].
    - split; [exact Hh|]. intros f [<-|[<-|[<-|[]]]]; cbn [seg_facet fa_diam]; apply seg_pos; [exact HAB|exact HBC|exact HAC].
    - assert (Incl : forall a b c d (g : R -> pt), (forall t, 0 <= t <= 1 -> insimp 2 1 (g t)) ->
        (forall t, a + (c - a) * t = peval (sb 0%nat) (g t)) -> (forall t, b + (d - b) * t = peval (sb 1%nat) (g t)) ->
        forall x, el_on 1 (seg_sb a b c d) x -> tri_on ax ay bx by' cx cy x).
      { intros a b c d g Hg E0 E1 x (z & (Z1 & Z2) & Ez). cbn [sg] in Z2. specialize (Z1 0%nat ltac:(lia)). exists (g (z 0%nat)). split; [apply Hg; lra|].
        intros i. rewrite Ez. destruct i as [|[|i]]; [| |reflexivity]; cbn [seg_sb aff1 peval pscal]; [apply E0|apply E1]. }
      intros f [<-|[<-|[<-|[]]]]; cbn [seg_facet fa_on fa_int]; (split; [apply seg_integral|]).
      + exact HAB.
      + apply (Incl _ _ _ _ (fun t => pt2 t 0)); intros t; [|cbn; ring|cbn; ring]. intros Ht. split; [intros [|[|i]] Hi; cbn; lra|cbn; lra].
      + exact HBC.
      + apply (Incl _ _ _ _ (fun t => pt2 (1 - t) t)); intros t; [|cbn; ring|cbn; ring]. intros Ht. split; [intros [|[|i]] Hi; cbn; lra|cbn; lra].
      + exact HAC.
      + apply (Incl _ _ _ _ (fun t => pt2 0 t)); intros t; [|cbn; ring|cbn; ring]. intros Ht. split; [intros [|[|i]] Hi; cbn; lra|cbn; lra].
    - exact tri_green.
    - exact tri_conn.
  Qed.
  Lemma tri_cell_fits : cell_fits 2 (tri_poly ax ay bx by' cx cy h) (tri_cell ax ay bx by' cx cy h).
  Proof.
    constructor; cbn [tri_poly tri_cell po_on po_int po_diam po_facets cl_elem cl_faces tri_elem el_of el_basis el_diam].
    - exact tri_is_polytope.
    - apply el_fits; [lia|apply tri_vars|apply tri_deg|apply tri_ideg|apply tri_left, HJ].
    - reflexivity.
    - apply el_one; lia.
    - intros deg j. apply el_basvars, tri_ivars.
    - intros deg p V Hp. destruct (el_span 2 (Nat.lt_0_succ 1) sb (tri_inv ax ay bx by' cx cy) (tri_vars _ _ _ _ _ _) (tri_deg _ _ _ _ _ _) p deg Hp) as (k & Hk).
      exists k. intros x. apply (Hk x (fun i => peval (tri_inv ax ay bx by' cx cy i) x)).
      + apply (pvars_ext 2); [exact V|]. intros i Hi. apply tri_right; [exact HJ|exact Hi].
      + reflexivity.
    - apply el_nested; apply Nat.lt_0_succ.
    - fold J. apply Forall2_cons; [|apply Forall2_cons; [|apply Forall2_cons; [|apply Forall2_nil]]];
        (split; [|split; reflexivity]); apply seg_fits; [exact HAB|exact HBC|exact HAC].
  Qed.
End TriCell.
