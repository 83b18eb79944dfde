(** Properties C18, C19, C20, C80-C84: the scalar bases. *)
From Coq Require Import List Arith ZArith Reals Lia Lra Factorial.
From Verif Require Import Common Util_Model Tensor_Spec Poly_Spec Poly_Proofs Law2_Proofs Bases_Model Bases_Spec Bases_Proofs Bases2_Proofs Bases3_Proofs.
Import ListNotations.
Open Scope R_scope.

(** ** C18: the number of functions is size(), which is binomial(k+d, d); they are the monomials *)
(** size() in any dimension, as long as the product (k+1)...(k+d) fits a size_t *)
Theorem C18_size k d n : fits k d -> is_binomial k d n -> scalar_basis_size k d = n.
Proof. apply scalar_size_spec. Qed.
(** the guard is needed: at degree 2^32 in two dimensions the product wraps around *)
Theorem C18_size_overflow : (scalar_basis_size_u (2 ^ 32) 2 * 2 <> (2 ^ 32 + 1) * (2 ^ 32 + 2))%Z.
Proof. vm_compute. discriminate. Qed.
Theorem C18_cell1 deg bar h x : fits deg 1 -> exists l, mono1_functions deg bar h x = Ok l /\ length l = scalar_basis_size deg 1 /\ is_binomial deg 1 (length l).
Proof.
  intros F. eexists. split; [apply mono1_eval|]. rewrite map_length, seq_length. split; [symmetry; apply scalar_size_spec; [exact F|]|]; apply binomial1.
Qed.
Theorem C18_cell1_values deg bar h x i : (i <= deg)%nat -> function_of (mono1_functions deg bar h) i x = (2 * (x - bar) / h) ^ i.
Proof.
  intros H. unfold function_of. rewrite mono1_eval. apply nth_error_nth. rewrite (map_nth_error _ i (seq 0 (S deg)) (d := i)); [reflexivity|].
  rewrite (nth_error_nth' _ 0%nat) by (rewrite seq_length; lia). rewrite seq_nth by lia. reflexivity.
Qed.
Theorem C18_face1 deg : mono0_functions deg = Ok [1].
Proof. reflexivity. Qed.
Theorem C18_cell2 deg F : fits deg 2 ->
  lists_monomials deg 2 (scalar_basis_size deg 2) (local_coord 2 (f_bar F) (f_axes F) (f_len F)) (mono2_functions deg F).
Proof. apply mono2_list. Qed.
Theorem C18_face2 deg F :
  lists_monomials deg 1 (S deg) (local_coord 2 (f_bar F) (f_axes F) (f_len F)) (mono2f_functions deg F).
Proof. apply mono2f_list. Qed.
Theorem C18_cell3 deg F : fits deg 3 ->
  lists_monomials deg 3 (scalar_basis_size deg 3) (local_coord 3 (f_bar F) (f_axes F) (f_len F)) (mono3_functions deg F).
Proof. apply mono3_list. Qed.
Theorem C18_face3 deg F : fits deg 2 ->
  lists_monomials deg 2 (scalar_basis_size deg 2) (local_coord 3 (f_bar F) (f_axes F) (f_len F)) (mono3f_functions deg F).
Proof. apply mono3f_list. Qed.
(** the bases of bases_new.hpp and bases_raw.hpp, through any transformation matrix *)
Theorem C18_new2 d deg tr bar : lists_monomials deg 2 (new_size2 deg) (matrix_coord d tr bar) (new2_functions d deg tr bar).
Proof. apply new2_list. Qed.
Theorem C18_new3 deg tr bar : lists_monomials deg 3 (new_size3 deg) (matrix_coord 3 tr bar) (new3_functions deg tr bar).
Proof. apply new3_list. Qed.
Theorem C18_new_face2 deg pa pb : lists_monomials deg 1 (S deg) (fun x _ => new2f_ref pa pb x) (new2f_functions deg pa pb).
Proof. apply new2f_list. Qed.
Theorem C18_raw2 d deg v bar : lists_monomials deg 2 (new_size2 deg) (matrix_coord d v bar) (raw2_functions d deg v bar).
Proof.
  destruct (new2_list d deg v bar) as (E & H1 & H2 & H3 & H4). exists E. repeat split; try apply H1; try assumption.
  intros x. rewrite raw2_as_new2. apply H4.
Qed.
Print Assumptions C18_size.
Print Assumptions C18_size_overflow.
Print Assumptions C18_cell1.
Print Assumptions C18_cell1_values.
Print Assumptions C18_face1.
Print Assumptions C18_cell2.
Print Assumptions C18_face2.
Print Assumptions C18_cell3.
Print Assumptions C18_face3.
Print Assumptions C18_new2.
Print Assumptions C18_new3.
Print Assumptions C18_new_face2.
Print Assumptions C18_raw2.
Example C18_ex : fits 1000 3 /\ is_binomial 4 3 35 /\ scalar_basis_size 4 3 = 35%nat.
Proof. split; [unfold fits; cbn; lia|]. split; reflexivity. Qed.
Example C18_order : exps2 2 = [(0, 0); (1, 0); (0, 1); (2, 0); (1, 1); (0, 2)]%nat.
Proof. reflexivity. Qed.

(** ** C19: gradients are derivatives *)
Theorem C19_cell1 deg bar h : derivatives_ok (S deg) (mono1_functions deg bar h) (mono1_gradients deg bar h).
Proof. apply mono1_derivatives. Qed.
Theorem C19_cell2 deg F : fits deg 2 -> gradients_ok 2 (scalar_basis_size deg 2) (mono2_functions deg F) (mono2_gradients deg F).
Proof. apply mono2_gradients_ok. Qed.
Theorem C19_cell3 deg F : fits deg 3 -> gradients_ok 3 (scalar_basis_size deg 3) (mono3_functions deg F) (mono3_gradients deg F).
Proof. apply mono3_gradients_ok. Qed.
Theorem C19_new2 deg tr bar : gradients_ok 2 (new_size2 deg) (new2_functions 2 deg tr bar) (new2_gradients 2 deg tr bar).
Proof. apply new2_gradients_ok. Qed.
Theorem C19_new3 deg tr bar : gradients_ok 3 (new_size3 deg) (new3_functions deg tr bar) (new3_gradients deg tr bar).
Proof. apply new3_gradients_ok. Qed.
Theorem C19_raw2 d deg v bar : gradients_ok d (new_size2 deg) (raw2_functions d deg v bar) (raw2_gradients d deg v bar).
Proof. apply raw2_gradients_ok. Qed.
(** the 2D curls are the gradients turned by a quarter: (df/dy, -df/dx) *)
Theorem C19_curls2 deg F x : fits deg 2 -> exists C, mono2_curls deg F x = Ok C /\ length C = scalar_basis_size deg 2 /\
  forall j, (j < scalar_basis_size deg 2)%nat -> exists c0 c1, nth_error C j = Some [c0; c1] /\
    derivable_pt_lim (fun t => function_of (mono2_functions deg F) j (move x 1 t)) (x 1%nat) c0 /\
    derivable_pt_lim (fun t => function_of (mono2_functions deg F) j (move x 0 t)) (x 0%nat) (- c1).
Proof.
  intros H. destruct (mono2_gradients_ok deg F H x) as (G & E & L & D). unfold mono2_curls. rewrite E. cbn [bind].
  set (n := scalar_basis_size deg 2) in *.
  set (g := fun i => [nth 1 (nth i G []) 0; - nth 0 (nth i G []) 0]).
  assert (K : fold_left (fun st i => do r <- st; do row <- vget G i; do d0 <- vget row 0; do d1 <- vget row 1; vset r i [d1; - d0]) (seq 0 n) (Ok (zero_rows n 2)) = Ok (map g (seq 0 n))).
  { rewrite (fold_ext_in _ (fun st i => do r <- st; vset r i (g i))).
    - pose proof (fold_vset g n [] (zero_rows n 2)) as K. cbn [length app] in K. rewrite K by (rewrite len_rows; lia).
      rewrite skipn_all2 by (rewrite len_rows; lia). rewrite app_nil_r. reflexivity.
    - intros st i I. apply in_seq in I. destruct st as [r| |]; cbn [bind]; [|reflexivity|reflexivity].
      destruct (D i ltac:(lia)) as (row & N & LR & _). unfold vget at 1. rewrite N. cbn [bind]. unfold g. rewrite (nth_error_nth _ _ [] N).
      destruct row as [|a [|b [|]]]; try discriminate LR. reflexivity. }
  exists (map g (seq 0 n)). split; [exact K|]. split; [rewrite map_length, seq_length; reflexivity|]. intros j Hj.
  destruct (D j Hj) as (row & N & LR & DD). exists (nth 1 row 0), (- nth 0 row 0). split; [|split].
  - rewrite (map_nth_error g j (seq 0 n) (d := j)); [unfold g; rewrite (nth_error_nth _ _ [] N); reflexivity|].
    rewrite (nth_error_nth' _ 0%nat) by (rewrite seq_length; lia). rewrite seq_nth by lia. reflexivity.
  - apply (DD 1%nat). lia.
  - rewrite Ropp_involutive. apply (DD 0%nat). lia.
Qed.
Print Assumptions C19_cell1.
Print Assumptions C19_cell2.
Print Assumptions C19_cell3.
Print Assumptions C19_new2.
Print Assumptions C19_new3.
Print Assumptions C19_raw2.
Print Assumptions C19_curls2.
(** the gradient of x^2 in a frame scaled by 2/4 around (1, 0) *)
Example C19_ex : exists G, mono2_gradients 2 (box_frame (xy 1 0) (xy 4 4)) (xy 5 0) = Ok G /\ nth 3 G [] = [2; 0].
Proof.
  eexists. split; [apply mono2_grad; unfold fits; cbn; lia|]. rewrite (nth_error_nth _ 3 [] (x := row2 (box_frame (xy 1 0) (xy 4 4)) (xy 5 0) (2, 0)%nat)) by reflexivity.
  unfold row2, passage, scaling_factor, scaling_point, passage, scaling_factor, box_frame. cbn [fst snd sig f_axes f_len f_bar xy Nat.eqb pred pow INR]. f_equal; [field|f_equal; field].
Qed.

(** ** C20: Legendre polynomials *)
Theorem C20_orthonormal deg : (deg <= 10)%nat -> (forall x, exists l, leg_functions deg x = Ok l /\ length l = S deg) /\
  orthonormal_on (-1) 1 (S deg) (fun i x => function_of (leg_functions deg) i x).
Proof.
  intros H. split.
  - intros x. eexists. split; [apply leg_functions_eq, H|]. rewrite map_length, seq_length. reflexivity.
  - intros i j Hi Hj. assert (V : forall k x, (k <= deg)%nat -> lp k x = function_of (leg_functions deg) k x).
    { intros k x Hk. unfold function_of. rewrite leg_functions_eq by lia. symmetry. apply nth_error_nth.
      rewrite (map_nth_error _ k (seq 0 (S deg)) (d := k)); [reflexivity|]. rewrite (nth_error_nth' _ 0%nat) by (rewrite seq_length; lia). rewrite seq_nth by lia. reflexivity. }
    eapply is_int1_ext; [|apply leg_orthonormal; lia]. intros x. cbv beta. rewrite !V by lia. reflexivity.
Qed.
(** degrees above 10 are rejected *)
Theorem C20_rejects degree F x : (10 < degree)%nat -> legendre_1D degree = Throw InvalidArgument /\
  sleg2_functions degree F x = Throw InvalidArgument /\ sleg3_functions degree F x = Throw InvalidArgument /\
  sleg2f_functions degree F x = Throw InvalidArgument /\ sleg3f_functions degree F x = Throw InvalidArgument.
Proof.
  intros H. assert (E : legendre_1D degree = Throw InvalidArgument) by (unfold legendre_1D; destruct (Nat.ltb_spec 10 degree); [reflexivity|lia]).
  unfold sleg2_functions, sleg3_functions, sleg2f_functions, sleg3f_functions. rewrite E. repeat split.
Qed.
(** the values given as derivatives are derivatives for the functions 0 to 7 and 9; missing: functions 8 and 10 *)
Theorem C20_derivative_partial deg x : (deg <= 10)%nat -> exists G, leg_gradients deg x = Ok G /\ length G = S deg /\
  forall j, (j <= deg)%nat -> j <> 8%nat -> j <> 10%nat -> derivable_pt_lim (function_of (leg_functions deg) j) x (nth j G 0).
Proof.
  intros H. eexists. split; [apply leg_gradients_eq, H|]. split; [rewrite map_length, seq_length; reflexivity|]. intros j Hj H8 H10.
  assert (EE : nth_error (seq 0 (S deg)) j = Some j) by (rewrite (nth_error_nth' _ 0%nat) by (rewrite seq_length; lia); rewrite seq_nth by lia; reflexivity).
  assert (EN : nth j (map (fun i => ld i x) (seq 0 (S deg))) 0 = ld j x) by (apply nth_error_nth; apply (map_nth_error (fun i => ld i x)); exact EE). rewrite EN.
  rewrite ld_right by lia. apply (d_ext (lp j)); [|apply d_lp]. intros t. unfold function_of. rewrite leg_functions_eq by lia. symmetry. apply nth_error_nth. apply (map_nth_error (fun i => lp i t)). exact EE.
Qed.
(** at x = 1 the derivatives given for functions 8 and 10 are wrong *)
Theorem C20_derivative_refuted j : j = 8%nat \/ j = 10%nat ->
  exists G, leg_gradients 10 1 = Ok G /\ ~ derivable_pt_lim (function_of (leg_functions 10) j) 1 (nth j G 0).
Proof.
  intros Hj. eexists. split; [apply leg_gradients_eq; lia|]. intros D.
  assert (B : (j <= 10)%nat) by lia.
  assert (EE : nth_error (seq 0 11) j = Some j) by (rewrite (nth_error_nth' _ 0%nat) by (rewrite seq_length; lia); rewrite seq_nth by lia; reflexivity).
  assert (EN : nth j (map (fun i => ld i 1) (seq 0 11)) 0 = ld j 1) by (apply nth_error_nth; apply (map_nth_error (fun i => ld i 1)); exact EE). rewrite EN in D.
  assert (D2 : derivable_pt_lim (function_of (leg_functions 10) j) 1 (ldx j 1)).
  { apply (d_ext (lp j)); [|apply d_lp]. intros t. unfold function_of. rewrite leg_functions_eq by lia. symmetry. apply nth_error_nth. apply (map_nth_error (fun i => lp i t)). exact EE. }
  pose proof (uniqueness_limite _ _ _ _ D D2) as U. destruct Hj as [-> | ->]; [exact (ld_wrong8 U)|exact (ld_wrong10 U)].
Qed.
Print Assumptions C20_orthonormal.
Print Assumptions C20_rejects.
Print Assumptions C20_derivative_partial.
Print Assumptions C20_derivative_refuted.

(** ** C80: gradients of the 1D basis of bases_new.hpp *)
Theorem C80_gradient1_partial deg pa pb : (1 <= deg)%nat -> pa < pb ->
  derivatives_ok (S deg) (new1_functions deg pb ((pa + pb) / 2) (pb - pa) 2) (new1_gradients deg pb ((pa + pb) / 2) (pb - pa) 2).
Proof. apply new1_derivatives. Qed.
(** at degree 0 the gradient is written past the end of the array *)
Theorem C80_degree0_refuted pb bar h scale x : (exists l, new1_functions 0 pb bar h scale x = Ok l) /\ new1_gradients 0 pb bar h scale x = UB.
Proof. split; [eexists; apply new1_eval|apply new1_grad_0]. Qed.
(** another scale factor (here 1), or a cell whose second point is on the left: wrong derivative *)
Theorem C80_scale_refuted : exists G, new1_gradients 1 1 (1 / 2) 1 1 0 = Ok G /\
  ~ derivable_pt_lim (function_of (new1_functions 1 1 (1 / 2) 1 1) 1) 0 (nth 1 G 0).
Proof.
  eexists. split; [apply new1_grad; lia|]. intros D.
  assert (D2 : derivable_pt_lim (function_of (new1_functions 1 1 (1 / 2) 1 1) 1) 0 (1 / 2)).
  { apply (d_ext (new1_ref 1 (1 / 2) 1 1)).
    - intros t. unfold function_of. rewrite new1_eval. cbn [seq map nth pow]. ring.
    - eapply d_eq; [|apply d_new1]. field. }
  pose proof (uniqueness_limite _ _ _ _ D D2) as U. cbn [seq map nth pow pred INR] in U. lra.
Qed.
Theorem C80_orientation_refuted : exists G, new1_gradients 1 0 (1 / 2) 1 2 0 = Ok G /\
  ~ derivable_pt_lim (function_of (new1_functions 1 0 (1 / 2) 1 2) 1) 0 (nth 1 G 0).
Proof.
  eexists. split; [apply new1_grad; lia|]. intros D.
  assert (D2 : derivable_pt_lim (function_of (new1_functions 1 0 (1 / 2) 1 2) 1) 0 (- 2)).
  { apply (d_ext (new1_ref 0 (1 / 2) 1 2)).
    - intros t. unfold function_of. rewrite new1_eval. cbn [seq map nth pow]. ring.
    - eapply d_eq; [|apply d_new1]. field. }
  pose proof (uniqueness_limite _ _ _ _ D D2) as U. cbn [seq map nth pow pred INR] in U. lra.
Qed.
Print Assumptions C80_gradient1_partial.
Print Assumptions C80_degree0_refuted.
Print Assumptions C80_scale_refuted.
Print Assumptions C80_orientation_refuted.

(** ** C81: gradients on faces in bases_new.hpp *)
(** on 3D faces every evaluation reads an entry that was never set; on 2D faces the call throws *)
Theorem C81_face_gradients_refuted deg tr bar x : new2_gradients 3 deg tr bar x = UB /\
  forall pa pb, new2f_gradients deg pa pb x = Throw LogicError.
Proof. split; [apply new3f_grad_ub|reflexivity]. Qed.
(** the functions themselves are defined, and the raw basis gives their gradients through the same matrix *)
Theorem C81_face_gradients_partial deg tr bar : gradients_ok 3 (new_size2 deg) (new2_functions 3 deg tr bar) (raw2_gradients 3 deg tr bar).
Proof.
  intros x. destruct (raw2_gradients_ok 3 deg tr bar x) as (G & E & L & D). exists G. split; [exact E|]. split; [exact L|]. intros j Hj.
  destruct (D j Hj) as (row & N & LR & DD). exists row. split; [exact N|]. split; [exact LR|]. intros c Hc.
  apply (d_ext (fun t => function_of (raw2_functions 3 deg tr bar) j (move x c t))); [|apply DD, Hc].
  intros t. unfold function_of. rewrite raw2_as_new2. reflexivity.
Qed.
Print Assumptions C81_face_gradients_refuted.
Print Assumptions C81_face_gradients_partial.

(** ** C82: the scaled Legendre bases of cells *)
(** L2-orthonormal on axis-parallel boxes *)
Theorem C82_orthonormal2 deg bar len i j : (deg <= 10)%nat -> 0 < len 0%nat -> 0 < len 1%nat ->
  (i < scalar_basis_size deg 2)%nat -> (j < scalar_basis_size deg 2)%nat ->
  let phi := fun k s t => function_of (sleg2_functions deg (mkFrame bar (fun r c => if (r =? c)%nat then 1 else 0) len)) k (xy s t) in
  is_int_box2 (fun s t => phi i s t * phi j s t) bar len (if (i =? j)%nat then 1 else 0).
Proof. intros. apply sleg2_orthonormal; assumption. Qed.
Theorem C82_orthonormal3 deg bar len i j : (deg <= 10)%nat -> 0 < len 0%nat -> 0 < len 1%nat -> 0 < len 2%nat ->
  (i < scalar_basis_size deg 3)%nat -> (j < scalar_basis_size deg 3)%nat ->
  let phi := fun k s t u => function_of (sleg3_functions deg (mkFrame bar (fun r c => if (r =? c)%nat then 1 else 0) len)) k (xyz s t u) in
  is_int_box3 (fun s t u => phi i s t u * phi j s t u) bar len (if (i =? j)%nat then 1 else 0).
Proof. intros. apply sleg3_orthonormal; assumption. Qed.
(** as many functions as the size, in any frame, and right gradients up to degree 7 *)
Theorem C82_sizes deg F x : (deg <= 10)%nat ->
  (exists l, sleg2_functions deg F x = Ok l /\ length l = scalar_basis_size deg 2) /\
  (exists l, sleg3_functions deg F x = Ok l /\ length l = scalar_basis_size deg 3).
Proof.
  intros H. split; eexists.
  - split; [apply sleg2_eval, H|]. rewrite map_length. symmetry. apply size2, fits_small; lia.
  - split; [apply sleg3_eval, H|]. rewrite map_length. symmetry. apply size3, fits_small; lia.
Qed.
Theorem C82_gradients deg F : (deg <= 7)%nat ->
  gradients_ok 2 (scalar_basis_size deg 2) (sleg2_functions deg F) (sleg2_gradients deg F) /\
  gradients_ok 3 (scalar_basis_size deg 3) (sleg3_functions deg F) (sleg3_gradients deg F).
Proof. intros H. split; [apply sleg2_gradients_ok|apply sleg3_gradients_ok]; lia. Qed.
Print Assumptions C82_orthonormal2.
Print Assumptions C82_orthonormal3.
Print Assumptions C82_sizes.
Print Assumptions C82_gradients.

(** ** C83: the Legendre basis of a 2D face, which says it is orthonormal *)
(** s is the arc length along the face *)
Theorem C83_face_gram_partial deg p0 p1 i j : let L := norm 2 (fun i => p1 i - p0 i) in
  let phi := fun k s => function_of (sleg2f_functions deg (face2_frame (fun i => (p0 i + p1 i) / 2) p0 L)) k (fun i => p0 i + s / L * (p1 i - p0 i)) in
  0 < L -> (deg <= 10)%nat -> (i <= deg)%nat -> (j <= deg)%nat ->
  is_int1 (fun s => phi i s * phi j s) 0 L (if (i =? j)%nat then 2 / L else 0).
Proof. apply sleg2f_gram. Qed.
Theorem C83_face_orthonormal_refuted : sleg2f_is_orthonormal = true /\
  exists p0 p1, let L := norm 2 (fun i => p1 i - p0 i) in L = 1 /\
    ~ is_int1 (fun s => function_of (sleg2f_functions 0 (face2_frame (fun i => (p0 i + p1 i) / 2) p0 L)) 0 (fun i => p0 i + s / L * (p1 i - p0 i)) *
      function_of (sleg2f_functions 0 (face2_frame (fun i => (p0 i + p1 i) / 2) p0 L)) 0 (fun i => p0 i + s / L * (p1 i - p0 i))) 0 L 1.
Proof.
  split; [reflexivity|]. exists (xy 0 0), (xy 1 0). cbv zeta.
  assert (L1 : norm 2 (fun i => xy 1 0 i - xy 0 0 i) = 1) by (unfold norm; cbn [sig xy]; replace (0 + _ + _) with 1 by ring; apply sqrt_1).
  split; [exact L1|]. intros K. pose proof (C83_face_gram_partial 0 (xy 0 0) (xy 1 0) 0 0) as G. cbv zeta in G.
  specialize (G ltac:(rewrite L1; lra) ltac:(lia) ltac:(lia) ltac:(lia)). pose proof (is_int1_unique _ _ _ _ _ K G) as U. rewrite L1 in U. cbn [Nat.eqb] in U. lra.
Qed.
Print Assumptions C83_face_gram_partial.
Print Assumptions C83_face_orthonormal_refuted.

(** ** C84: the frame of a 3D face built from two of its edges *)
Lemma axis_loop_found pts k : forall m s, (1 <= s)%nat -> (s + m = S (length pts))%nat -> (s <= k < length pts)%nat ->
  (forall i p q r, (s <= i < length pts)%nat -> nth_error pts ((i + 1) mod length pts) = Some p -> nth_error pts i = Some q -> nth_error pts (i - 1) = Some r -> corner p q r) ->
  (exists p q r, nth_error pts ((k + 1) mod length pts) = Some p /\ nth_error pts k = Some q /\ nth_error pts (k - 1) = Some r /\ wide_corner p q r) ->
  exists i p q r, (1 <= i < length pts)%nat /\ nth_error pts ((i + 1) mod length pts) = Some p /\ nth_error pts i = Some q /\ nth_error pts (i - 1) = Some r /\
    corner p q r /\ axis_loop pts (seq s m) = Ok (Some (vsub p q, vsub r q)).
Proof.
  induction m as [|m IH]; intros s Hs Hm Hk HC HW; [lia|]. cbn [seq axis_loop].
  assert (B : ((s - 1) mod length pts = s - 1)%nat) by (apply Nat.mod_small; lia).
  assert (P : exists p, nth_error pts ((s + 1) mod length pts) = Some p).
  { destruct (nth_error pts ((s + 1) mod length pts)) as [p|] eqn:E; [eauto|]. apply nth_error_None in E. pose proof (Nat.mod_upper_bound (s + 1) (length pts) ltac:(lia)). lia. }
  destruct P as (p & EP). assert (Q : exists q, nth_error pts s = Some q) by (destruct (nth_error pts s) eqn:E; [eauto|apply nth_error_None in E; lia]). destruct Q as (q & EQ).
  assert (Q : exists r, nth_error pts (s - 1) = Some r) by (destruct (nth_error pts (s - 1)) eqn:E; [eauto|apply nth_error_None in E; lia]). destruct Q as (r & ER).
  unfold vget. rewrite EP. cbn [bind]. rewrite EQ. cbn [bind]. rewrite B, ER. cbn [bind].
  pose proof (HC s p q r ltac:(lia) EP EQ ER) as CO. destruct (wide (vsub p q) (vsub r q)) eqn:W.
  - exists s, p, q, r. repeat split; try assumption; lia.
  - destruct (Nat.eq_dec s k) as [->|NK].
    + destruct HW as (p' & q' & r' & E1 & E2 & E3 & WC). rewrite EP in E1. rewrite EQ in E2. rewrite ER in E3. injection E1 as <-. injection E2 as <-. injection E3 as <-.
      exfalso. destruct (corner_pos p q r CO) as (A1 & A2). assert (T : wide (vsub p q) (vsub r q) = true) by (apply wide_spec; assumption). congruence.
    + apply (IH (S s)); [lia|lia|lia| |exact HW]. intros i p' q' r' Hi. apply HC. lia.
Qed.
(** if no corner of the face is flat and some corner other than the first point's is wider than 8 degrees,
    the frame is orthonormal and spanned by two edges *)
Theorem C84_face_axes_partial pts k : (1 <= k < length pts)%nat ->
  (forall i p q r, (1 <= i < length pts)%nat -> nth_error pts ((i + 1) mod length pts) = Some p -> nth_error pts i = Some q -> nth_error pts (i - 1) = Some r -> corner p q r) ->
  (exists p q r, nth_error pts ((k + 1) mod length pts) = Some p /\ nth_error pts k = Some q /\ nth_error pts (k - 1) = Some r /\ wide_corner p q r) ->
  exists e0 e1 i p q r, compute_axis pts = Ok (Some e0, Some e1) /\ orthonormal2 e0 e1 /\
    nth_error pts ((i + 1) mod length pts) = Some p /\ nth_error pts i = Some q /\ nth_error pts (i - 1) = Some r /\
    spanned (fun c => p c - q c) (fun c => r c - q c) e0 /\ spanned (fun c => p c - q c) (fun c => r c - q c) e1.
Proof.
  intros Hk HC HW. destruct (axis_loop_found pts k (length pts) 1 ltac:(lia) ltac:(lia) ltac:(lia) HC HW) as (i & p & q & r & Hi & E1 & E2 & E3 & CO & EL).
  destruct (corner_pos p q r CO) as (A1 & _). destruct (axis_frame (vsub p q) (vsub r q) CO A1) as (e0 & e1 & N0 & N1 & ON & S0 & S1).
  exists e0, e1, i, p, q, r. unfold compute_axis. rewrite EL. cbn [bind]. rewrite N0, N1. repeat split; try assumption; apply ON.
Qed.
(** a face whose only wide corner is at its first point: the points are read past the end *)
Theorem C84_first_corner_refuted : compute_axis [xyz 0 0 0; xyz 10 1 0; xyz (-10) 1 0] = UB /\
  corner (xyz 10 1 0) (xyz 0 0 0) (xyz (-10) 1 0) /\ wide_corner (xyz 10 1 0) (xyz 0 0 0) (xyz (-10) 1 0).
Proof.
  assert (NW : forall u v, inner u u * inner v v = 40400 -> 0 < inner u u -> 0 < inner v v -> inner u v = 200 -> wide u v = false).
  { intros u v E U V I. destruct (wide u v) eqn:W; [|reflexivity]. exfalso. apply wide_spec in W; [|assumption|assumption]. rewrite E, I in W.
    assert (sqrt 40400 <= sqrt (202 * 202)) by (apply sqrt_le_1; lra). rewrite sqrt_square in H by lra. lra. }
  split; [|split].
  - unfold compute_axis. cbn [length seq axis_loop]. change ((1 + 1) mod 3)%nat with 2%nat. change ((1 - 1) mod 3)%nat with 0%nat. unfold vget. cbn [nth_error bind].
    rewrite NW by (unfold inner, vsub; cbn [xyz]; lra). change ((2 + 1) mod 3)%nat with 0%nat. change ((2 - 1) mod 3)%nat with 1%nat. cbn [nth_error bind].
    rewrite NW by (unfold inner, vsub; cbn [xyz]; lra). change ((3 + 1) mod 3)%nat with 1%nat. cbn [nth_error bind]. reflexivity.
  - unfold corner, inner. cbn [xyz]. lra.
  - unfold wide_corner. cbv zeta. replace (inner _ _) with (-99) by (unfold inner; cbn [xyz]; lra). assert (0 <= sqrt (inner (fun i => xyz 10 1 0 i - xyz 0 0 0 i) (fun i => xyz 10 1 0 i - xyz 0 0 0 i) * inner (fun i => xyz (-10) 1 0 i - xyz 0 0 0 i) (fun i => xyz (-10) 1 0 i - xyz 0 0 0 i))) by apply sqrt_pos. lra.
Qed.
(** a straight corner (a hanging node) is accepted, and the second axis is not a number *)
Theorem C84_straight_corner_refuted : exists e0, compute_axis [xyz 0 0 0; xyz 1 0 0; xyz 2 0 0; xyz 1 2 0] = Ok (Some e0, None).
Proof.
  assert (U : 0 < inner (vsub (xyz 2 0 0) (xyz 1 0 0)) (vsub (xyz 2 0 0) (xyz 1 0 0))) by (unfold inner, vsub; cbn [xyz]; lra).
  assert (V : 0 < inner (vsub (xyz 0 0 0) (xyz 1 0 0)) (vsub (xyz 0 0 0) (xyz 1 0 0))) by (unfold inner, vsub; cbn [xyz]; lra).
  assert (W : wide (vsub (xyz 2 0 0) (xyz 1 0 0)) (vsub (xyz 0 0 0) (xyz 1 0 0)) = true).
  { apply wide_spec; [exact U|exact V|]. replace (inner (vsub (xyz 2 0 0) (xyz 1 0 0)) (vsub (xyz 0 0 0) (xyz 1 0 0))) with (-1) by (unfold inner, vsub; cbn [xyz]; lra).
    pose proof (sqrt_pos (inner (vsub (xyz 2 0 0) (xyz 1 0 0)) (vsub (xyz 2 0 0) (xyz 1 0 0)) * inner (vsub (xyz 0 0 0) (xyz 1 0 0)) (vsub (xyz 0 0 0) (xyz 1 0 0)))). lra. }
  unfold compute_axis. cbn [length seq axis_loop]. change ((1 + 1) mod 4)%nat with 2%nat. change ((1 - 1) mod 4)%nat with 0%nat. unfold vget. cbn [nth_error bind]. rewrite W. cbn [bind].
  rewrite (proj1 (normalized_pos _ U)). eexists. do 2 f_equal. unfold normalized. destruct (Req_EM_T _ 0) as [|N]; [reflexivity|]. exfalso. apply N.
  rewrite norm3_inner. rewrite <- sqrt_0. f_equal. rewrite !dot3_inner. unfold inner, vsub. cbn [xyz]. field; lra.
Qed.
Print Assumptions C84_face_axes_partial.
Print Assumptions C84_first_corner_refuted.
Print Assumptions C84_straight_corner_refuted.
(** the unit square meets the hypotheses *)
Example C84_ex : wide_corner (xyz 1 1 0) (xyz 1 0 0) (xyz 0 0 0) /\ corner (xyz 1 1 0) (xyz 1 0 0) (xyz 0 0 0) /\
  corner (xyz 0 1 0) (xyz 1 1 0) (xyz 1 0 0) /\ corner (xyz 0 0 0) (xyz 0 1 0) (xyz 1 1 0).
Proof.
  unfold wide_corner, corner, inner. cbv zeta. cbn [xyz]. split; [|repeat split; lra].
  match goal with |- _ < _ * sqrt ?e => replace e with 1 by ring end. rewrite sqrt_1. lra.
Qed.
