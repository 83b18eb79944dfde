(** Positive definiteness of the edge matrix; the face matrix. *)
From Coq Require Import Reals Lra Lia List Arith Bool.
From Verif Require Import Common Poly_Spec Poly_Proofs Quad_Spec Quad_Model Geo_Model Mesh_Model DGA_Spec DGA_Model DGA_Proofs.
Import ListNotations.
Open Scope R_scope.

Lemma posdef_dec k u : posdef3 k -> (forall i, (i < 3)%nat -> u i = 0) \/ 0 < sp u (tapp k u).
Proof.
  intros H. destruct (Req_dec (u 0%nat) 0) as [E0|E0]; [|right; apply H; exists 0%nat; split; [lia|exact E0]].
  destruct (Req_dec (u 1%nat) 0) as [E1|E1]; [|right; apply H; exists 1%nat; split; [lia|exact E1]].
  destruct (Req_dec (u 2%nat) 0) as [E2|E2]; [|right; apply H; exists 2%nat; split; [lia|exact E2]].
  left. intros [|[|[|i]]] Hi; try lia; assumption.
Qed.
Lemma posdef_nonneg k u : posdef3 k -> 0 <= sp u (tapp k u).
Proof. intros H. destruct (posdef_dec k u H) as [E|E]; [|lra]. unfold sp, tapp. rewrite !E by lia. lra. Qed.
Lemma zero_sp u v : (forall i, (i < 3)%nat -> u i = 0) -> sp u v = 0.
Proof. intros E. unfold sp. rewrite !E by lia. ring. Qed.
Lemma nonzero_list (x : list R) : Exists (fun t => t <> 0) x \/ Forall (fun t => t = 0) x.
Proof. induction x as [|t x IH]; [right; constructor|]. destruct (Req_dec t 0) as [E|E]; [|left; left; exact E]. destruct IH; [left; right; assumption|right; constructor; assumption]. Qed.
Lemma not_zero (x : list R) : Exists (fun t => t <> 0) x -> Forall (fun t => t = 0) x -> False.
Proof. intros H K. induction H; inversion K; subst; auto. Qed.

Ltac shift P a b c d :=
    generalize (P a 0%nat) (P a 1%nat) (P a 2%nat);
    let a0 := fresh "a0" in let a1 := fresh "a1" in let a2 := fresh "a2" in intros a0 a1 a2;
    replace (P b 0%nat) with (a0 + (P b 0%nat - a0)) by ring; replace (P b 1%nat) with (a1 + (P b 1%nat - a1)) by ring;
    replace (P b 2%nat) with (a2 + (P b 2%nat - a2)) by ring;
    generalize (P b 0%nat - a0) (P b 1%nat - a1) (P b 2%nat - a2); intros ? ? ?;
    replace (P c 0%nat) with (a0 + (P c 0%nat - a0)) by ring; replace (P c 1%nat) with (a1 + (P c 1%nat - a1)) by ring;
    replace (P c 2%nat) with (a2 + (P c 2%nat - a2)) by ring;
    generalize (P c 0%nat - a0) (P c 1%nat - a1) (P c 2%nat - a2); intros ? ? ?;
    replace (P d 0%nat) with (a0 + (P d 0%nat - a0)) by ring; replace (P d 1%nat) with (a1 + (P d 1%nat - a1)) by ring;
    replace (P d 2%nat) with (a2 + (P d 2%nat - a2)) by ring;
    generalize (P d 0%nat - a0) (P d 1%nat - a1) (P d 2%nat - a2); intros ? ? ?.

Section Tet.
  Context (P : nat -> pt) (a b c d : nat) (k : nat -> nat -> R).
  Local Notation v := [a; b; c; d].
  Context (Hv : tet_ids v) (V0 : tet_det P v <> 0) (Ks : symm3 k).
  Local Notation rho := (/ (36 * tet_volume P v)).
  Lemma edge_posdef x : posdef3 k -> length x = 6%nat -> Exists (fun t => t <> 0) x -> 0 < sumprod x (matvec (edge_matrix P v k) x).
  Proof.
    intros K L NZ. destruct x as [|x0 [|x1 [|x2 [|x3 [|x4 [|x5 [|? ?]]]]]]]; try discriminate L. clear L.
    rewrite (edge_matrix_eq P a b c d k Hv).
    change (map (area_vec P) (tet_faces v)) with [area_vec P [b; c; d]; area_vec P [a; c; d]; area_vec P [a; b; d]; area_vec P [a; b; c]].
    rewrite (edge_form k Ks (area_vec P [b; c; d]) (area_vec P [a; c; d]) (area_vec P [a; b; d]) (area_vec P [a; b; c])).
    cbv zeta. pose proof (rho_pos P a b c d V0) as R0.
    apply Rmult_lt_0_compat; [exact R0|]. clear R0.
    set (n0 := area_vec P [b; c; d]). set (n1 := area_vec P [a; c; d]). set (n2 := area_vec P [a; b; d]). set (n3 := area_vec P [a; b; c]).
    set (w0 := comb3 x0 (- x1) x2 n1 n2 n3). set (w1 := comb3 x0 (- x3) x4 n0 n2 n3).
    set (w2 := comb3 x1 (- x3) x5 n0 n1 n3). set (w3 := comb3 x2 (- x4) x5 n0 n1 n2).
    pose proof (posdef_nonneg k w3 K) as N3.
    pose proof (posdef_nonneg k w2 K) as N2. pose proof (posdef_nonneg k w1 K) as N1. pose proof (posdef_nonneg k w0 K) as N0.
    destruct (posdef_dec k w0 K) as [Z0|Z0]; [|lra]. destruct (posdef_dec k w1 K) as [Z1|Z1]; [|lra].
    destruct (posdef_dec k w2 K) as [Z2|Z2]; [|lra]. exfalso. apply (not_zero _ NZ).
    assert (C : forall x, x * tet_det P v = 0 -> x = 0) by (intros x H; destruct (Rmult_integral _ _ H); [assumption|contradiction]).
    assert (E0 : x0 = 0). { apply C. pose proof (zero_sp w0 (vdiff (P b) (P a)) Z0) as E. transitivity (2 * sp w0 (vdiff (P b) (P a))); [|rewrite E; ring].
      unfold w0, comb3, n1, n2, n3. unf. field. }
    assert (E1 : x1 = 0). { apply C. pose proof (zero_sp w0 (vdiff (P c) (P a)) Z0) as E. transitivity (2 * sp w0 (vdiff (P c) (P a))); [|rewrite E; ring].
      unfold w0, comb3, n1, n2, n3. unf. field. }
    assert (E2 : x2 = 0). { apply C. pose proof (zero_sp w0 (vdiff (P d) (P a)) Z0) as E. transitivity (2 * sp w0 (vdiff (P d) (P a))); [|rewrite E; ring].
      unfold w0, comb3, n1, n2, n3. unf. field. }
    assert (E3 : x3 = 0). { apply C. pose proof (zero_sp w1 (vdiff (P c) (P b)) Z1) as E. transitivity (2 * sp w1 (vdiff (P c) (P b))); [|rewrite E; ring].
      unfold w1, comb3, n0, n2, n3. unf. field. }
    assert (E4 : x4 = 0). { apply C. pose proof (zero_sp w1 (vdiff (P d) (P b)) Z1) as E. transitivity (2 * sp w1 (vdiff (P d) (P b))); [|rewrite E; ring].
      unfold w1, comb3, n0, n2, n3. unf. field. }
    assert (E5 : x5 = 0). { apply C. pose proof (zero_sp w2 (vdiff (P d) (P c)) Z2) as E. transitivity (2 * sp w2 (vdiff (P d) (P c))); [|rewrite E; ring].
      unfold w2, comb3, n0, n1, n3. unf. field. }
    repeat constructor; assumption.
  Qed.

  Lemma face_element_ext p q q' : Forall2 eq3 q q' -> face_element p q = face_element p q'.
  Proof.
    intros K. assert (D : forall i j, dot 3 (vnth p i) (vnth q j) = dot 3 (vnth p i) (vnth q' j)).
    { intros. rewrite !dot3_sp. apply sp_ext; [apply eq3_refl|apply F2_vnth; assumption]. }
    unfold face_element. rewrite !D. reflexivity.
  Qed.
  Lemma F2_refl l : Forall2 eq3 l l.
  Proof. induction l; constructor; [apply eq3_refl|assumption]. Qed.
  Lemma face_matrix_eq : face_matrix P v k =
    face_element (map (edge_vec P) (tet_edges v)) (map (fun u => pscale rho (tapp k u)) (map (edge_vec P) (tet_edges v))).
  Proof.
    unfold face_matrix. rewrite (pev_eq P v Hv). apply face_element_ext. apply F2_map; [apply F2_refl|].
    intros u u' H i Hi. unfold tmul, tdiv, pscale, tapp. rewrite dot3_sp, vol_unsigned_eq by exact Hv. unfold sp. rewrite !H by lia.
    unfold Rdiv. ring.
  Qed.
  (** the quadratic form as a sum over the vertices *)
  Lemma face_form r x0 x1 x2 x3 : let ev := map (edge_vec P) (tet_edges v) in
    sumprod [x0; x1; x2; x3] (matvec (face_element ev (map (fun u => pscale r (tapp k u)) ev)) [x0; x1; x2; x3]) =
    r * (let w p := (fun i => x0 * (P a i - p i) - x1 * (P b i - p i) + x2 * (P c i - p i) - x3 * (P d i - p i)) : pt in
         sp (w (P a)) (tapp k (w (P a))) + sp (w (P b)) (tapp k (w (P b))) + sp (w (P c)) (tapp k (w (P c))) + sp (w (P d)) (tapp k (w (P d)))).
  Proof.
    assert (k10 : k 1%nat 0%nat = k 0%nat 1%nat) by (apply Ks; lia).
    assert (k20 : k 2%nat 0%nat = k 0%nat 2%nat) by (apply Ks; lia).
    assert (k21 : k 2%nat 1%nat = k 1%nat 2%nat) by (apply Ks; lia).
    cbv zeta. unf. rewrite k10, k20, k21. shift P a b c d. ring.
  Qed.
  Lemma face_posdef x : posdef3 k -> length x = 4%nat -> Exists (fun t => t <> 0) x -> 0 < sumprod x (matvec (face_matrix P v k) x).
  Proof.
    intros K L NZ. destruct x as [|x0 [|x1 [|x2 [|x3 [|? ?]]]]]; try discriminate L. clear L.
    rewrite face_matrix_eq, face_form. pose proof (rho_pos P a b c d V0) as R0.
    apply Rmult_lt_0_compat; [exact R0|]. clear R0. cbv zeta.
    set (w := fun p : pt => (fun i => x0 * (P a i - p i) - x1 * (P b i - p i) + x2 * (P c i - p i) - x3 * (P d i - p i)) : pt).
    change (0 < sp (w (P a)) (tapp k (w (P a))) + sp (w (P b)) (tapp k (w (P b))) + sp (w (P c)) (tapp k (w (P c))) + sp (w (P d)) (tapp k (w (P d)))).
    pose proof (posdef_nonneg k (w (P a)) K) as N3.
    pose proof (posdef_nonneg k (w (P b)) K) as N2. pose proof (posdef_nonneg k (w (P c)) K) as N1. pose proof (posdef_nonneg k (w (P d)) K) as N0.
    destruct (posdef_dec k (w (P a)) K) as [Z0|Z0]; [|lra]. destruct (posdef_dec k (w (P b)) K) as [Z1|Z1]; [|lra].
    exfalso. apply (not_zero _ NZ).
    assert (C : forall x, x * tet_det P v = 0 -> x = 0) by (intros x H; destruct (Rmult_integral _ _ H); [assumption|contradiction]).
    assert (E1 : x1 = 0). { apply C. pose proof (zero_sp (w (P a)) (area_vec P [a; c; d]) Z0) as E. transitivity (- 2 * sp (w (P a)) (area_vec P [a; c; d])); [|rewrite E; ring].
      unfold w. unf. field. }
    assert (E2 : x2 = 0). { apply C. pose proof (zero_sp (w (P a)) (area_vec P [a; b; d]) Z0) as E. transitivity (- 2 * sp (w (P a)) (area_vec P [a; b; d])); [|rewrite E; ring].
      unfold w. unf. field. }
    assert (E3 : x3 = 0). { apply C. pose proof (zero_sp (w (P a)) (area_vec P [a; b; c]) Z0) as E. transitivity (- 2 * sp (w (P a)) (area_vec P [a; b; c])); [|rewrite E; ring].
      unfold w. unf. field. }
    assert (E0 : x0 = 0). { apply C. pose proof (zero_sp (w (P b)) (area_vec P [b; c; d]) Z1) as E. transitivity (- 2 * sp (w (P b)) (area_vec P [b; c; d])); [|rewrite E; ring].
      unfold w. unf. field. }
    repeat constructor; assumption.
  Qed.
  Lemma face_consistent e : matvec (face_matrix P v k) (map (fun u => sp u e) (map (area_vec P) (tet_faces v))) =
    map (fun n => sp n (tapp k e)) (devT P v).
  Proof.
    rewrite face_matrix_eq. pose proof (rho_eq P a b c d V0) as E. revert E. cbv [devT].
    generalize (sg_sq P v). generalize (sg P v). intros s S. generalize rho. intros r E.
    assert (X : forall z, s * z = r * 6 * tet_det P v * z).
    { intros z. replace (s * z) with (s * z * (6 * (s * tet_det P v) * r)) by (rewrite E; ring).
      replace (r * 6 * tet_det P v * z) with (s * s * (r * 6 * tet_det P v * z)) by (rewrite S; ring). ring. }
    assert (k10 : k 1%nat 0%nat = k 0%nat 1%nat) by (apply Ks; lia).
    assert (k20 : k 2%nat 0%nat = k 0%nat 2%nat) by (apply Ks; lia).
    assert (k21 : k 2%nat 1%nat = k 1%nat 2%nat) by (apply Ks; lia).
    set (g := bar4 (P a) (P b) (P c) (P d)).
    assert (Y : forall t x, sp (dif3 s t g x) (tapp k e) = r * 2 * tet_det P v * (t * sp (vdiff g x) (tapp k e))).
    { intros t x. replace (sp _ _) with (s * (t * / 3 * sp (vdiff g x) (tapp k e))) by (unfold sp, vdiff, dif3; field).
      rewrite X. field. }
    cbv zeta. fold g. cbn [map]. rewrite !Y. unfold g, bar4.
    clear E X Y S s g.
    unf. rewrite k10, k20, k21. shift P a b c d.
    repeat (apply f_equal2; [field|]). reflexivity.
  Qed.
End Tet.
