(** Proofs about the discrete geometric approach. *)
From Coq Require Import Reals Lra Lia List Arith Bool.
From Verif Require Import Common Poly_Spec Poly_Proofs Quad_Spec Quad_Model Geo_Model Elem_Spec Elem_Model Elem_Proofs Mesh_Model DGA_Spec DGA_Model.
Import ListNotations.
Open Scope R_scope.

Lemma simplex2 a b : (a < b)%nat -> simplex [a; b] = [a; b].
Proof. intros H. unfold simplex. cbn [std_sort sort_insert]. replace (b <? a)%nat with false by (symmetry; apply Nat.ltb_ge; lia). reflexivity. Qed.
Lemma simplex3 a b c : (a < b)%nat -> (b < c)%nat -> simplex [a; b; c] = [a; b; c].
Proof.
  intros H K. unfold simplex. cbn [std_sort sort_insert].
  replace (c <? b)%nat with false by (symmetry; apply Nat.ltb_ge; lia). cbn [sort_insert].
  replace (b <? a)%nat with false by (symmetry; apply Nat.ltb_ge; lia). reflexivity.
Qed.
Lemma edges_vol_eq v : tet_ids v -> edges_vol v = tet_edges v.
Proof. intros (a & b & c & d & -> & ? & ? & ?). unfold edges_vol. cbn [pid nth]. rewrite !simplex2 by lia. reflexivity. Qed.
Lemma faces_vol_eq v : tet_ids v -> faces_vol v = tet_faces v.
Proof. intros (a & b & c & d & -> & ? & ? & ?). unfold faces_vol. cbn [pid nth]. rewrite !simplex3 by lia. reflexivity. Qed.

Ltac unf := cbv [pev_vol pev_surf pev_edge P_ pid pav_vol dav_vol dev_vol bary barycenter map nth vnth fold_left padd psubt pscale vcross pt3 dot
  volume_signed volume_unsigned tet_edges tet_faces sp xp vdiff tapp tmul tdiv edge_vec area_vec tet_det tet_volume triple length integrate_on dyads sumprod matvec
  edge_element face_element edge_matrix edge_matrix_scalar face_matrix face_matrix_scalar entry].

Lemma vol_signed_eq P v : tet_ids v -> volume_signed P v = tet_det P v / 6.
Proof. intros (a & b & c & d & -> & ? & ? & ?). unf. field. Qed.
Lemma vol_unsigned_eq P v : tet_ids v -> volume_unsigned P v = tet_volume P v.
Proof. intros H. unfold volume_unsigned, tet_volume. change (Rabs (volume_signed P v) = Rabs (tet_det P v) / 6).
  rewrite vol_signed_eq by exact H. unfold Rdiv. rewrite Rabs_mult, (Rabs_pos_eq (/ 6)) by lra. reflexivity. Qed.

(** the sign of the orientation *)
Definition sg (P : nat -> pt) (v : list nat) : R := if Rlt_dec (tet_det P v) 0 then -1 else 1.
Lemma sg_sq P v : sg P v * sg P v = 1.
Proof. unfold sg. destruct (Rlt_dec _ _); lra. Qed.
Lemma sg_abs P v : Rabs (tet_det P v) = sg P v * tet_det P v.
Proof. unfold sg. destruct (Rlt_dec _ _); [rewrite Rabs_left by lra|rewrite Rabs_pos_eq by lra]; lra. Qed.
Lemma vol_sg P v : tet_volume P v = sg P v * tet_det P v / 6.
Proof. unfold tet_volume. rewrite sg_abs. reflexivity. Qed.

(** explicit forms *)
Definition bar2 (p q : pt) : pt := fun i => (p i + q i) / 2.
Definition bar3 (p q r : pt) : pt := fun i => (p i + q i + r i) / 3.
Definition bar4 (p q r s : pt) : pt := fun i => (p i + q i + r i + s i) / 4.
Lemma pev_eq P v : tet_ids v -> pev_vol P v = map (edge_vec P) (tet_edges v).
Proof. intros (a & b & c & d & -> & ? & ? & ?). reflexivity. Qed.

Lemma INR4 : INR 4 = 4. Proof. cbn. lra. Qed.
Lemma INR3 : INR 3 = 3. Proof. cbn. lra. Qed.

(** components of the lists *)
Lemma pav_eq P v : tet_ids v -> Forall2 eq3 (pav_vol P v) (map (area_vec P) (tet_faces v)).
Proof.
  intros H. unfold pav_vol. rewrite edges_vol_eq by exact H. destruct H as (a & b & c & d & -> & ? & ? & ?).
  unf. repeat constructor; intros [|[|[|i]]] Hi; try lia; cbv beta iota; field.
Qed.

Definition dif12 (s : R) (x y : pt) : pt := fun i => s * (x i - y i) / 12.
Definition davT (P : nat -> pt) (v : list nat) : list pt :=
  match v with
  | [a; b; c; d] =>
    let n0 := area_vec P [b; c; d] in let n1 := fun i => - area_vec P [a; c; d] i in
    let n2 := area_vec P [a; b; d] in let n3 := fun i => - area_vec P [a; b; c] i in
    let w := dif12 (sg P v) in
    [w n0 n1; w n0 n2; w n0 n3; w n1 n2; w n1 n3; w n2 n3]
  | _ => []
  end.
Lemma sg_signed P v : tet_ids v -> (if Rlt_dec (volume_signed P v) 0 then -1 else 1) = sg P v.
Proof. intros H. unfold sg. rewrite vol_signed_eq by exact H. destruct (Rlt_dec (tet_det P v / 6) 0), (Rlt_dec (tet_det P v) 0); lra. Qed.
Lemma dav_eq P v : tet_ids v -> Forall2 eq3 (dav_vol P v) (davT P v).
Proof.
  intros H. unfold dav_vol.
  replace (if Rlt_dec (volume_signed P v) 0 then - / 2 else / 2) with (sg P v / 2)
    by (rewrite <- (sg_signed P v H); destruct (Rlt_dec _ _); lra).
  rewrite edges_vol_eq, faces_vol_eq by exact H. destruct H as (a & b & c & d & -> & ? & ? & ?).
  cbv [davT dif12]. generalize (sg P [a; b; c; d]). intros s. unf. rewrite ?INR4, ?INR3. change (INR 2) with (1 + 1).
  repeat constructor; intros [|[|[|i]]] Hi; try lia; cbv beta iota; field.
Qed.
Definition dif3 (s t : R) (g x : pt) : pt := fun i => s * t * (g i - x i) / 3.
Definition devT (P : nat -> pt) (v : list nat) : list pt :=
  match v with
  | [a; b; c; d] =>
    let g := bar4 (P a) (P b) (P c) (P d) in
    let w s x := dif3 (sg P v) s g x in
    [w 1 (P a); w (-1) (P b); w 1 (P c); w (-1) (P d)]
  | _ => []
  end.
Lemma dev_eq P v : tet_ids v -> Forall2 eq3 (dev_vol P v) (devT P v).
Proof.
  intros H. unfold dev_vol. rewrite (sg_signed P v H).
  rewrite faces_vol_eq by exact H. destruct H as (a & b & c & d & -> & ? & ? & ?).
  cbv [devT dif3 bar4]. generalize (sg P [a; b; c; d]). intros s. unf. rewrite ?INR4, ?INR3.
  repeat constructor; intros [|[|[|i]]] Hi; try lia; cbv beta iota; field.
Qed.

(** the lists only matter through the three coordinates *)
Lemma dot3_sp u v : dot 3 u v = sp u v.
Proof. unf. ring. Qed.
Lemma sp_ext u u' v v' : eq3 u u' -> eq3 v v' -> sp u v = sp u' v'.
Proof. intros H K. unfold sp. rewrite !H, !K by lia. reflexivity. Qed.
Lemma eq3_refl u : eq3 u u.
Proof. intros i _. reflexivity. Qed.
Lemma eq3_tmul k u u' : eq3 u u' -> eq3 (tmul k u) (tmul k u').
Proof. intros H i _. unfold tmul. rewrite !dot3_sp. apply sp_ext; [apply eq3_refl|exact H]. Qed.
Lemma eq3_pscale k u u' : eq3 u u' -> eq3 (pscale k u) (pscale k u').
Proof. intros H i Hi. unfold pscale. rewrite H by exact Hi. reflexivity. Qed.
Lemma F2_map (f g : pt -> pt) l l' : Forall2 eq3 l l' -> (forall u u', eq3 u u' -> eq3 (f u) (g u')) -> Forall2 eq3 (map f l) (map g l').
Proof. intros H K. induction H; cbn; constructor; auto. Qed.
Lemma F2_vnth l l' i : Forall2 eq3 l l' -> eq3 (vnth l i) (vnth l' i).
Proof. intros H. revert i. induction H; intros [|i]; cbn; try apply eq3_refl; [assumption|apply IHForall2]. Qed.
Lemma integrate_ext l l' f : Forall2 eq3 l l' -> integrate_on l f = integrate_on l' f.
Proof. intros H. induction H; cbn [integrate_on map]; [reflexivity|]. unfold integrate_on in *. rewrite IHForall2, !dot3_sp. f_equal. apply sp_ext; [apply eq3_refl|assumption]. Qed.
Lemma integrate_map l f : integrate_on l f = map (fun u => sp f u) l.
Proof. apply map_ext. intros u. apply dot3_sp. Qed.
Lemma edge_element_ext a a' b b' : Forall2 eq3 a a' -> Forall2 eq3 b b' -> edge_element a b = edge_element a' b'.
Proof.
  intros H K. assert (D : forall i j, dot 3 (vnth a i) (vnth b j) = dot 3 (vnth a' i) (vnth b' j)).
  { intros. rewrite !dot3_sp. apply sp_ext; apply F2_vnth; assumption. }
  unfold edge_element. rewrite !D. reflexivity.
Qed.

Section Edge.
  Context (P : nat -> pt) (a b c d : nat) (k : nat -> nat -> R).
  Local Notation v := [a; b; c; d].
  Context (Hv : tet_ids v) (V0 : tet_det P v <> 0).
  Local Notation rho := (/ (36 * tet_volume P v)).
  Lemma rho_eq : 6 * (sg P v * tet_det P v) * rho = 1.
  Proof. rewrite vol_sg. field. split; [exact V0|]. pose proof (sg_sq P v). intros E. rewrite E in *. lra. Qed.
  Lemma rho_pos : 0 < rho.
  Proof. apply Rinv_0_lt_compat. unfold tet_volume. pose proof (Rabs_pos_lt _ V0). lra. Qed.
  Lemma edge_matrix_eq : edge_matrix P v k =
    edge_element (map (area_vec P) (tet_faces v)) (map (fun u => pscale rho (tapp k u)) (map (area_vec P) (tet_faces v))).
  Proof.
    unfold edge_matrix. apply edge_element_ext; [apply pav_eq, Hv|]. apply F2_map; [apply pav_eq, Hv|].
    intros u u' H i Hi. unfold tmul, tdiv, pscale, tapp. rewrite dot3_sp, vol_unsigned_eq by exact Hv. unfold sp. rewrite !H by lia.
    unfold Rdiv. ring.
  Qed.
  Hypothesis Ks : symm3 k.
  Lemma edge_consistent e : matvec (edge_matrix P v k) (map (fun u => sp u e) (map (edge_vec P) (tet_edges v))) =
    map (fun n => sp n (tapp k e)) (davT P v).
  Proof.
    rewrite edge_matrix_eq. pose proof rho_eq as E. revert E. cbv [davT].
    generalize (sg_sq P v). generalize (sg P v). intros s S. generalize rho. intros r E.
    assert (X : forall z, s * z = r * 6 * tet_det P v * z).
    { intros z. replace (s * z) with (s * z * (6 * (s * tet_det P v) * r)) by (rewrite E; ring).
      replace (r * 6 * tet_det P v * z) with (s * s * (r * 6 * tet_det P v * z)) by (rewrite S; ring). ring. }
    assert (k10 : k 1%nat 0%nat = k 0%nat 1%nat) by (apply Ks; lia).
    assert (k20 : k 2%nat 0%nat = k 0%nat 2%nat) by (apply Ks; lia).
    assert (k21 : k 2%nat 1%nat = k 1%nat 2%nat) by (apply Ks; lia).
    assert (Y : forall x y, sp (dif12 s x y) (tapp k e) = r * / 2 * tet_det P v * (sp x (tapp k e) - sp y (tapp k e))).
    { intros x y. unfold dif12. replace (sp _ _) with (s * (/ 12 * (sp x (tapp k e) - sp y (tapp k e)))) by (unfold sp; field).
      rewrite X. field. }
    cbn [map]. rewrite !Y.
    clear E X Y S s.
    unf. rewrite k10, k20, k21.
    generalize (P a 0%nat) (P a 1%nat) (P a 2%nat). intros a0 a1 a2.
    replace (P b 0%nat) with (a0 + (P b 0%nat - a0)) by ring. replace (P b 1%nat) with (a1 + (P b 1%nat - a1)) by ring.
    replace (P b 2%nat) with (a2 + (P b 2%nat - a2)) by ring.
    generalize (P b 0%nat - a0) (P b 1%nat - a1) (P b 2%nat - a2). intros b0 b1 b2.
    replace (P c 0%nat) with (a0 + (P c 0%nat - a0)) by ring. replace (P c 1%nat) with (a1 + (P c 1%nat - a1)) by ring.
    replace (P c 2%nat) with (a2 + (P c 2%nat - a2)) by ring.
    generalize (P c 0%nat - a0) (P c 1%nat - a1) (P c 2%nat - a2). intros c0 c1 c2.
    replace (P d 0%nat) with (a0 + (P d 0%nat - a0)) by ring. replace (P d 1%nat) with (a1 + (P d 1%nat - a1)) by ring.
    replace (P d 2%nat) with (a2 + (P d 2%nat - a2)) by ring.
    generalize (P d 0%nat - a0) (P d 1%nat - a1) (P d 2%nat - a2). intros d0 d1 d2.
    repeat (apply f_equal2; [field|]). reflexivity.
  Qed.

  (** the quadratic form is a sum over the vertices *)
  Definition comb3 (x y z : R) (p q r : pt) : pt := fun i => x * p i + y * q i + z * r i.
  Lemma edge_form p0 p1 p2 p3 r x0 x1 x2 x3 x4 x5 :
    sumprod [x0; x1; x2; x3; x4; x5]
      (matvec (edge_element [p0; p1; p2; p3] (map (fun u => pscale r (tapp k u)) [p0; p1; p2; p3])) [x0; x1; x2; x3; x4; x5]) =
    r * (let w0 := comb3 x0 (- x1) x2 p1 p2 p3 in let w1 := comb3 x0 (- x3) x4 p0 p2 p3 in
         let w2 := comb3 x1 (- x3) x5 p0 p1 p3 in let w3 := comb3 x2 (- x4) x5 p0 p1 p2 in
         sp w0 (tapp k w0) + sp w1 (tapp k w1) + sp w2 (tapp k w2) + sp w3 (tapp k w3)).
  Proof.
    assert (k10 : k 1%nat 0%nat = k 0%nat 1%nat) by (apply Ks; lia).
    assert (k20 : k 2%nat 0%nat = k 0%nat 2%nat) by (apply Ks; lia).
    assert (k21 : k 2%nat 1%nat = k 1%nat 2%nat) by (apply Ks; lia).
    cbv zeta. unfold comb3. unf. rewrite k10, k20, k21. ring.
  Qed.
End Edge.
