(** Non-vacuity of C94-C100: every non-degenerate triangle, with Grundmann-Moeller quadratures and monomials in the
    coordinates of the triangle, is a cell the theorems speak about, and elimination is a solver they speak about. *)
From Coq Require Import List Arith Reals Lra Lia Bool.
From Verif Require Import Poly_Spec HHO_Spec HHO_Model HHO_Setting HHO_Proofs HHO9_Proofs HHOInst_Proofs HHOInst2_Proofs HHO_Properties.
Import ListNotations.
Open Scope R_scope.

Example every_triangle_fits : forall ax ay bx by' cx cy h, 0 < h -> (bx - ax) * (cy - ay) - (by' - ay) * (cx - ax) <> 0 ->
  cell_fits 2 (tri_poly ax ay bx by' cx cy h) (tri_cell ax ay bx by' cx cy h).
Proof. intros. apply tri_cell_fits; assumption. Qed.
(** what that triangle is: its points and the integral over it *)
Example triangle_points : forall ax ay bx by' cx cy h x, po_on (tri_poly ax ay bx by' cx cy h) x <->
  exists s t, 0 <= s /\ 0 <= t /\ s + t <= 1 /\ x 0%nat = ax + s * (bx - ax) + t * (cx - ax) /\ x 1%nat = ay + s * (by' - ay) + t * (cy - ay) /\
    forall i, (2 <= i)%nat -> x i = 0.
Proof.
  intros. cbn [tri_poly po_on]. unfold tri_on, el_on. split.
  - intros (y & (P & Q) & E). exists (y 0%nat), (y 1%nat). pose proof (P 0%nat ltac:(lia)). pose proof (P 1%nat ltac:(lia)). cbn [sg] in Q.
    repeat split; try lra.
    + rewrite E. cbn. ring.
    + rewrite E. cbn. ring.
    + intros [|[|i]] Hi; try lia. rewrite E. reflexivity.
  - intros (s & t & A & B & C & E0 & E1 & E). exists (pt2 s t). split.
    + split; [intros [|[|i]] Hi; cbn; lra|cbn; lra].
    + intros [|[|i]]; [rewrite E0; cbn; ring|rewrite E1; cbn; ring|apply E; lia].
Qed.
Example triangle_integral : forall ax ay bx by' cx cy h p I,
  is_int_simplex 2 1 (fun y => peval p (pt2 (ax + y 0%nat * (bx - ax) + y 1%nat * (cx - ax)) (ay + y 0%nat * (by' - ay) + y 1%nat * (cy - ay)))) I ->
  po_int (tri_poly ax ay bx by' cx cy h) p = Rabs ((bx - ax) * (cy - ay) - (by' - ay) * (cx - ax)) * I.
Proof.
  intros. cbn [tri_poly po_int]. unfold tri_int. apply el_val; [apply tri_vars|]. eapply Poly_Proofs.is_int_simplex_ext; [|exact H].
  intros y. cbv beta. apply Poly_Proofs.peval_ext. intros [|[|k]]; cbn; ring.
Qed.
Example elimination_solves : solves_spd elim_solve.
Proof. exact elim_solves. Qed.
Example identity_spd : spd 2 (tensor_of None).
Proof.
  split; [intros i j _ _; unfold tensor_of, delta; rewrite Nat.eqb_sym; reflexivity|]. intros x. unfold quadf, tensor_of, delta. cbn.
  pose proof (Rle_0_sqr (x 0%nat)). pose proof (Rle_0_sqr (x 1%nat)). unfold Rsqr in *. split; [lra|]. intros E [|[|i]] Hi; [| |lia]; apply Rsqr_0_uniq; unfold Rsqr; lra.
Qed.
Example tensor_spd : spd 2 (tensor_of (Some (fun i j => if Nat.eqb i j then 2 else 1))).
Proof.
  split; [intros i j _ _; cbn [tensor_of]; rewrite Nat.eqb_sym; reflexivity|]. intros x. unfold quadf, tensor_of. cbn.
  pose proof (Rle_0_sqr (x 0%nat)). pose proof (Rle_0_sqr (x 1%nat)). pose proof (Rle_0_sqr (x 0%nat + x 1%nat)). unfold Rsqr in *. split; [lra|].
  intros E [|[|i]] Hi; [| |lia]; apply Rsqr_0_uniq; unfold Rsqr; lra.
Qed.
(** the degrees of the usual methods meet the hypotheses: equal order with k = 1 on the triangle (0,0), (2,0), (0,1) *)
Definition T1 := tri_poly 0 0 2 0 0 1 3.
Definition c1 := tri_cell 0 0 2 0 0 1 3.
Lemma c1_fits : cell_fits 2 T1 c1.
Proof. apply every_triangle_fits; lra. Qed.
Example kernel_equal_order : forall u,
  let '(oper, data) := make_scalar_hho_laplacian elim_solve 2 None false c1 (mkDegs 1 1 2) in
  let A := maddm data (make_scalar_hho_stabilization elim_solve c1 (mkDegs 1 1 2) oper) in
  quadf (num_dofs c1 1 (all_faces c1 1)) A u u = 0 <->
  exists k, (forall x, po_on T1 x -> peval (cell_fun c1 1 u) x = k) /\
    on_facets (po_facets T1) (faces_funs c1 1 (all_faces c1 1) u) (fun f uF => forall x, fa_on f x -> peval uF x = k).
Proof.
  intros u. pose proof (C98_kernel elim_solve elim_solves 2 T1 c1 c1_fits None identity_spd 1 1 2 false ltac:(lia) ltac:(lia) ltac:(discriminate)) as K.
  cbv zeta in K. destruct (make_scalar_hho_laplacian elim_solve 2 None false c1 (mkDegs 1 1 2)) as [oper data]. exact (proj2 (K u)).
Qed.
(** its unknowns: 3 of the cell and 2 on each of the 3 faces *)
Example dofs_equal_order : num_dofs c1 1 (all_faces c1 1) = 9%nat.
Proof. reflexivity. Qed.
Example patch_mixed_order : forall v p, pvars 2 p -> deg_le p 2 ->
  let '(oper, data) := make_scalar_hho_laplacian elim_solve 2 None true c1 (mkDegs 2 1 2) in
  quadf (num_dofs c1 2 (all_faces c1 1)) (make_scalar_hho_stabilization elim_solve c1 (mkDegs 2 1 2) oper) v
    (project_hho elim_solve c1 (mkDegs 2 1 2) (peval p) 1) = 0.
Proof.
  intros v p V D. pose proof (C99_patch elim_solve elim_solves 2 T1 c1 c1_fits None identity_spd 2 1 2 true 1 p ltac:(lia) ltac:(lia) ltac:(lia) ltac:(lia) ltac:(lia) ltac:(lia) V D) as K.
  cbv zeta in K. destruct (make_scalar_hho_laplacian elim_solve 2 None true c1 (mkDegs 2 1 2)) as [oper data]. exact (proj1 (K v)).
Qed.
