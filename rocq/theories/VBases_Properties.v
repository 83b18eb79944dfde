(** Theorems about the vector and matrix bases (C21, C86, C87). *)
From Coq Require Import List Arith ZArith Bool Reals Lia Lra.
From Verif Require Import Common Tensor_Spec Tensor_Proofs Bases_Model Bases_Spec Bases_Proofs Bases2_Proofs Bases3_Proofs
  VBases_Model VBases_Spec VBases_Proofs VBases2_Proofs VBases3_Proofs VBases4_Proofs VBases5_Proofs.
Import ListNotations.
Open Scope R_scope.

(** ** C21: exactly size() functions, linearly independent (so none is zero), no access out of range *)
Lemma lists_vec {d dm deg n ref es ev} : lists_monomials deg dm n ref es -> onto dm ref ->
  (forall x phi, es x = Ok phi -> length phi = n -> ev x = Ok (vrows d phi)) -> returns_vectors d (d * n) ev /\ vindependent d (d * n) ev.
Proof.
  intros (E & (ND & HE) & LE & _ & EV) ON H. subst n.
  assert (EV' : forall x, ev x = Ok (vrows d (map (fun e => monomial e (ref x) 0) E))) by (intros x; apply H; [apply EV|apply map_length]).
  split; [apply (vec_returns d E ref), EV'|]. apply (vec_indep d dm E ref); [exact ND| |exact ON|exact EV']. intros a I. apply HE, I.
Qed.
Theorem C21_vector_cell2 deg F : fits deg 2 -> onto 2 (local_coord 2 (f_bar F) (f_axes F) (f_len F)) ->
  returns_vectors 2 (vector_basis_size deg 2 2) (vec2c_functions deg F) /\ vindependent 2 (vector_basis_size deg 2 2) (vec2c_functions deg F).
Proof.
  intros H ON. apply (lists_vec (mono2_list deg F H) ON). intros x phi E L. unfold vec2c_functions. rewrite E. apply vec_functions_eq, L.
Qed.
Theorem C21_vector_cell3 deg F : fits deg 3 -> onto 3 (local_coord 3 (f_bar F) (f_axes F) (f_len F)) ->
  returns_vectors 3 (vector_basis_size deg 3 3) (vec3c_functions deg F) /\ vindependent 3 (vector_basis_size deg 3 3) (vec3c_functions deg F).
Proof.
  intros H ON. apply (lists_vec (mono3_list deg F H) ON). intros x phi E L. unfold vec3c_functions. rewrite E. apply vec_functions_eq, L.
Qed.
Theorem C21_vector_face3 deg F : fits deg 2 -> onto 2 (local_coord 3 (f_bar F) (f_axes F) (f_len F)) ->
  returns_vectors 3 (vector_basis_size deg 2 3) (vec3f_functions deg F) /\ vindependent 3 (vector_basis_size deg 2 3) (vec3f_functions deg F).
Proof.
  intros H ON. apply (lists_vec (mono3f_list deg F H) ON). intros x phi E L. unfold vec3f_functions. rewrite E. apply vec_functions_eq, L.
Qed.
Theorem C21_vector_face2 deg F : fits deg 1 -> onto 1 (local_coord 2 (f_bar F) (f_axes F) (f_len F)) ->
  returns_vectors 2 (vector_basis_size deg 1 2) (vec2f_functions deg F) /\ vindependent 2 (vector_basis_size deg 1 2) (vec2f_functions deg F).
Proof.
  intros H ON. assert (E1 : scalar_basis_size deg 1 = S deg) by (apply scalar_size_spec; [exact H|apply binomial1]).
  unfold vector_basis_size. rewrite E1. apply (lists_vec (mono2f_list deg F) ON). intros x phi E L. unfold vec2f_functions, vector_basis_size. rewrite E, E1. apply vec_functions_eq, L.
Qed.
Theorem C21_tangential deg bar e0 e1 : fits deg 2 -> orthonormal2 e0 e1 ->
  returns_vectors 3 (vector_basis_size deg 2 2) (tangential_functions deg bar e0 e1) /\ vindependent 3 (vector_basis_size deg 2 2) (tangential_functions deg bar e0 e1).
Proof. intros H ON. split; [apply tan_returns; assumption|apply tan_indep; assumption]. Qed.
Theorem C21_nedelec deg bar e0 e1 : fits (S deg) 2 -> orthonormal2 e0 e1 ->
  returns_vectors 3 (nedelec_size deg) (nedelec_functions deg bar e0 e1) /\ vindependent 3 (nedelec_size deg) (nedelec_functions deg bar e0 e1).
Proof. intros H ON. split; [apply ned_returns; assumption|apply ned_indep; assumption]. Qed.
(** twice the monomials of degree below k, and the k + 2 monomials of degree k + 1; also at degree 0 where degree - 1 wraps around *)
Theorem C21_nedelec_size deg : fits (S deg) 2 -> nedelec_size deg = (deg * (deg + 1) + (deg + 2))%nat.
Proof.
  intros H. rewrite nedelec_size_eq by exact H. destruct deg as [|m]; [reflexivity|]. rewrite lower2_S. pose proof (length_exps2 m). nia.
Qed.
(** Raviart-Thomas of degree k on a simplex: the sizes are those of the literature *)
Theorem C21_rt2 m bar len : fits m 2 -> (forall i, (i < 2)%nat -> len i <> 0) ->
  let ev := rt2_functions (S m) (box_frame bar len) bar in
  exists size, rt_make 2 (S m) 3 = Ok size /\ size = (S m * (S m + 2))%nat /\ returns_vectors 2 size ev /\ vindependent 2 size ev.
Proof.
  intros H HL ev. exists (2 * length (EE 2 m) + length (TT 2 m))%nat. split; [unfold rt_make; rewrite rt_size2; reflexivity|].
  split; [rewrite len_TT2; pose proof (len_EE2 m); nia|].
  split; [apply (rt_returns 2 m (box_frame bar len) bar)|apply (rt_indep 2 m bar len); [auto|exact HL|]]; intros x; apply rt2_eq, H.
Qed.
Theorem C21_rt3_partial m bar len : fits (S m) 3 -> (forall i, (i < 3)%nat -> len i <> 0) ->
  let ev := rt3_functions (S (S m)) (box_frame bar len) bar in
  exists size, rt_make 3 (S (S m)) 4 = Ok size /\ (2 * size = (m + 2) * (m + 3) * (m + 5))%nat /\ returns_vectors 3 size ev /\ vindependent 3 size ev.
Proof.
  intros H HL ev. exists (3 * length (EE 3 (S m)) + length (TT 3 (S m)))%nat. split; [unfold rt_make; rewrite rt_size3; reflexivity|].
  split; [pose proof (len_TT3 (S m)); pose proof (len_EE3 (S m)); nia|].
  split; [apply (rt_returns 3 (S m) (box_frame bar len) bar)|apply (rt_indep 3 (S m) bar len); [auto|exact HL|]]; intros x; apply rt3_eq, H.
Qed.
(** at degree 1 in 3D the basis announces 4 functions and the last one is zero on every cell *)
Theorem C21_rt3_degree1_refuted F bar : rt_make 3 1 4 = Ok 4%nat /\
  (forall x a, vcomp (rt3_functions 1 F bar) 3 a x = 0) /\ ~ vindependent 3 4 (rt3_functions 1 F bar).
Proof.
  assert (Z : forall x a, vcomp (rt3_functions 1 F bar) 3 a x = 0).
  { intros x a. unfold vcomp. destruct (rt3_one F bar x) as (v & _ & L & ->). rewrite app_nth2 by lia. rewrite L. cbn [Nat.sub nth]. destruct a as [|[|[|[|a]]]]; reflexivity. }
  split; [reflexivity|]. split; [exact Z|]. intros H. specialize (H (fun j => if (j =? 3)%nat then 1 else 0)).
  assert (K : (if (3 =? 3)%nat then 1 else 0) = 0).
  { apply H; [|lia]. intros x a _. apply sig_zero. intros j _. destruct (Nat.eqb_spec j 3) as [->|]; [rewrite Z; ring|ring]. }
  cbn in K. lra.
Qed.
Theorem C21_matrix2 deg F : fits deg 2 -> onto 2 (local_coord 2 (f_bar F) (f_axes F) (f_len F)) ->
  returns_matrices 2 (matrix_basis_size deg 2 2) (mat2_functions deg F) /\ mindependent 2 (matrix_basis_size deg 2 2) (mat2_functions deg F).
Proof.
  intros H ON. unfold matrix_basis_size. rewrite (EE_len 2) by (auto || exact H).
  split; [apply (blocks_returns 2 4 (T_full 2) _ (loc 2 F))|apply (blocks_indep 2 4 (T_full 2) (sel_full 2)) with (dm := 2%nat) (ref := loc 2 F)].
  - intros x. apply mat2_eq, H.
  - intros q Hq. apply full_sel_dim; lia.
  - intros q _. apply full_sel_one.
  - intros q q' _ _ N. apply full_sel_other; [lia|exact N].
  - apply EE_nodup. auto.
  - intros a. apply EE_dim. auto.
  - exact ON.
  - intros x. apply mat2_eq, H.
Qed.
Theorem C21_matrix3 deg F : fits deg 3 -> onto 3 (local_coord 3 (f_bar F) (f_axes F) (f_len F)) ->
  returns_matrices 3 (matrix_basis_size deg 3 3) (mat3_functions deg F) /\ mindependent 3 (matrix_basis_size deg 3 3) (mat3_functions deg F).
Proof.
  intros H ON. unfold matrix_basis_size. rewrite (EE_len 3) by (auto || exact H).
  split; [apply (blocks_returns 3 9 (T_full 3) _ (loc 3 F))|apply (blocks_indep 3 9 (T_full 3) (sel_full 3)) with (dm := 3%nat) (ref := loc 3 F)].
  - intros x. apply mat3_eq, H.
  - intros q Hq. apply full_sel_dim; lia.
  - intros q _. apply full_sel_one.
  - intros q q' _ _ N. apply full_sel_other; [lia|exact N].
  - apply EE_nodup. auto.
  - intros a. apply EE_dim. auto.
  - exact ON.
  - intros x. apply mat3_eq, H.
Qed.
(** every function of the symmetric basis is a symmetric matrix *)
Definition symmetric_values (d size : nat) (eval : (nat -> R) -> outcome (list (list (list R)))) : Prop :=
  forall x j a b, (j < size)%nat -> (a < d)%nat -> (b < d)%nat -> mcomp eval j a b x = mcomp eval j b a x.
Lemma T_sym_sym q a b : T_sym q a b = T_sym q b a.
Proof.
  unfold T_sym. destruct (sym_pos q) as [i j]. destruct (Nat.eqb_spec i j) as [->|N]; [rewrite (andb_comm (a =? j)%nat); reflexivity|].
  rewrite (orb_comm ((a =? i)%nat && (b =? j)%nat)), (andb_comm (a =? j)%nat), (andb_comm (a =? i)%nat). reflexivity.
Qed.
Lemma B_sym_sym d bar x r a c : B_sym (from_bar d bar x) r a c = B_sym (from_bar d bar x) r c a.
Proof. unfold B_sym. destruct (a =? r)%nat eqn:A, (c =? r)%nat eqn:C; cbn [andb]; reflexivity. Qed.
Lemma blocks_symmetric d w T (T_s : forall q a b, T q a b = T q b a) phi j a b : (j < w * length phi)%nat -> (a < d)%nat -> (b < d)%nat ->
  entry (nth j (blocks d w T phi) []) a b = entry (nth j (blocks d w T phi) []) b a.
Proof. intros Hj Ha Hb. destruct (split_index _ _ _ Hj) as (i & q & Hi & Hq & ->). rewrite !entry_blocks by assumption. rewrite (T_s q a b). reflexivity. Qed.
Theorem C21_symmetric2 deg F : fits deg 2 -> onto 2 (local_coord 2 (f_bar F) (f_axes F) (f_len F)) ->
  returns_matrices 2 (sym_matrix_basis_size deg 2 2) (sym2_functions deg F) /\ mindependent 2 (sym_matrix_basis_size deg 2 2) (sym2_functions deg F)
  /\ symmetric_values 2 (sym_matrix_basis_size deg 2 2) (sym2_functions deg F).
Proof.
  intros H ON. rewrite (sym_size 2) by (auto || exact H). cbn [Nat.eqb].
  split; [apply (blocks_returns 2 3 T_sym _ (loc 2 F))|split; [apply (blocks_indep 2 3 T_sym sym_pos) with (dm := 2%nat) (ref := loc 2 F)|]].
  - intros x. apply sym2_eq, H.
  - apply sym_sel_dim2.
  - intros q Hq. apply sym_sel_one. lia.
  - intros q q' Hq Hq' N. apply sym_sel_other; lia.
  - apply EE_nodup. auto.
  - intros a. apply EE_dim. auto.
  - exact ON.
  - intros x. apply sym2_eq, H.
  - intros x j a b Hj Ha Hb. unfold mcomp. rewrite sym2_eq by exact H. apply blocks_symmetric; [apply T_sym_sym|rewrite map_length; exact Hj|exact Ha|exact Hb].
Qed.
Theorem C21_symmetric3 deg F : fits deg 3 -> onto 3 (local_coord 3 (f_bar F) (f_axes F) (f_len F)) ->
  returns_matrices 3 (sym_matrix_basis_size deg 3 3) (sym3_functions deg F) /\ mindependent 3 (sym_matrix_basis_size deg 3 3) (sym3_functions deg F)
  /\ symmetric_values 3 (sym_matrix_basis_size deg 3 3) (sym3_functions deg F).
Proof.
  intros H ON. rewrite (sym_size 3) by (auto || exact H). cbn [Nat.eqb].
  split; [apply (blocks_returns 3 6 T_sym _ (loc 3 F))|split; [apply (blocks_indep 3 6 T_sym sym_pos) with (dm := 3%nat) (ref := loc 3 F)|]].
  - intros x. apply sym3_eq, H.
  - apply sym_sel_dim3.
  - intros q Hq. apply sym_sel_one. lia.
  - intros q q' Hq Hq' N. apply sym_sel_other; lia.
  - apply EE_nodup. auto.
  - intros a. apply EE_dim. auto.
  - exact ON.
  - intros x. apply sym3_eq, H.
  - intros x j a b Hj Ha Hb. unfold mcomp. rewrite sym3_eq by exact H. apply blocks_symmetric; [apply T_sym_sym|rewrite map_length; exact Hj|exact Ha|exact Hb].
Qed.
(** other dimensions are meant to be refused; the exception is built and dropped, the size is 0 *)
Theorem C21_symmetric_size_refuted k sd vd : vd <> 2%nat -> vd <> 3%nat -> sym_matrix_basis_size k sd vd = 0%nat.
Proof. intros H2 H3. unfold sym_matrix_basis_size. destruct vd as [|[|[|[|]]]]; try congruence; destruct (k =? 0)%nat; reflexivity. Qed.
Theorem C21_rt_matrix2 m bar len : fits m 2 -> (forall i, (i < 2)%nat -> len i <> 0) ->
  let ev := rtmat2_functions (S m) (box_frame bar len) bar in
  exists size, rtmat_make 2 (S m) 3 = Ok size /\ size = (2 * (S m * (S m + 2)))%nat /\ returns_matrices 2 size ev /\ mindependent 2 size ev.
Proof.
  intros H HL ev. exists (4 * length (EE 2 m) + 2 * length (TT 2 m))%nat. split; [unfold rtmat_make; rewrite rtmat_size by auto; reflexivity|].
  split; [rewrite len_TT2; pose proof (len_EE2 m); nia|].
  split; [apply (rtblocks_returns 2 4 (T_full 2) m (box_frame bar len) (fun x => B_row (from_bar 2 bar x)))|
          apply (rtblocks_indep 2 4 (T_full 2) (sel_full 2)) with (dq := dq_full 2) (bar := bar) (len := len) (B := fun x => B_row (from_bar 2 bar x))].
  - intros x. apply rtmat2_eq, H.
  - intros q Hq. apply full_sel_dim; lia.
  - intros q _. apply full_sel_one.
  - intros q q' _ _ N. apply full_sel_other; [lia|exact N].
  - intros r Hr. apply dq_full_ok, Hr.
  - auto.
  - exact HL.
  - intros x r r' Hr Hr'. apply B_row_diag; assumption.
  - intros x. apply rtmat2_eq, H.
Qed.
Theorem C21_rt_matrix3 m bar len : fits m 3 -> (forall i, (i < 3)%nat -> len i <> 0) ->
  let ev := rtmat3_functions (S m) (box_frame bar len) bar in
  exists size, rtmat_make 3 (S m) 4 = Ok size /\ (2 * size = 3 * (S m * (S m + 1) * (S m + 3)))%nat /\ returns_matrices 3 size ev /\ mindependent 3 size ev.
Proof.
  intros H HL ev. exists (9 * length (EE 3 m) + 3 * length (TT 3 m))%nat. split; [unfold rtmat_make; rewrite rtmat_size by auto; reflexivity|].
  split; [pose proof (len_TT3 m); pose proof (len_EE3 m); nia|].
  split; [apply (rtblocks_returns 3 9 (T_full 3) m (box_frame bar len) (fun x => B_row (from_bar 3 bar x)))|
          apply (rtblocks_indep 3 9 (T_full 3) (sel_full 3)) with (dq := dq_full 3) (bar := bar) (len := len) (B := fun x => B_row (from_bar 3 bar x))].
  - intros x. apply rtmat3_eq, H.
  - intros q Hq. apply full_sel_dim; lia.
  - intros q _. apply full_sel_one.
  - intros q q' _ _ N. apply full_sel_other; [lia|exact N].
  - intros r Hr. apply dq_full_ok, Hr.
  - auto.
  - exact HL.
  - intros x r r' Hr Hr'. apply B_row_diag; assumption.
  - intros x. apply rtmat3_eq, H.
Qed.
Lemma dq_sym_ok w r : (r < 3)%nat -> (dq_sym r < w)%nat -> (dq_sym r < w)%nat /\ sym_pos (dq_sym r) = (r, r).
Proof. intros Hr H. split; [exact H|]. upto 3%nat r; reflexivity. Qed.
Theorem C21_rt_symmetric2 m bar len : fits m 2 -> (forall i, (i < 2)%nat -> len i <> 0) ->
  let ev := rtsym2_functions (S m) (box_frame bar len) bar in
  exists size, rtsym_make 2 (S m) 3 = Ok size /\ (2 * size = (m + 1) * (3 * m + 10))%nat /\ returns_matrices 2 size ev /\ mindependent 2 size ev.
Proof.
  intros H HL ev. exists (3 * length (EE 2 m) + 2 * length (TT 2 m))%nat. split; [unfold rtsym_make; rewrite rtsym_size by auto; reflexivity|].
  split; [rewrite len_TT2; pose proof (len_EE2 m); nia|].
  split; [apply (rtblocks_returns 2 3 T_sym m (box_frame bar len) (fun x => B_sym (from_bar 2 bar x)))|
          apply (rtblocks_indep 2 3 T_sym sym_pos) with (dq := dq_sym) (bar := bar) (len := len) (B := fun x => B_sym (from_bar 2 bar x))].
  - intros x. apply rtsym2_eq, H.
  - apply sym_sel_dim2.
  - intros q Hq. apply sym_sel_one. lia.
  - intros q q' Hq Hq' N. apply sym_sel_other; lia.
  - intros r Hr. apply dq_sym_ok; [lia|]. upto 2%nat r; cbn; lia.
  - auto.
  - exact HL.
  - intros x r r' Hr Hr'. apply B_sym_diag; assumption.
  - intros x. apply rtsym2_eq, H.
Qed.
(** the 3D class is right for degrees 1 and 2 only *)
Theorem C21_rt_symmetric3_partial m bar len : (m <= 1)%nat -> (forall i, (i < 3)%nat -> len i <> 0) ->
  let ev := rtsym3_functions (S m) (box_frame bar len) bar in
  exists size, rtsym_make 3 (S m) 4 = Ok size /\ returns_matrices 3 size ev /\ mindependent 3 size ev.
Proof.
  intros Hm HL ev. exists (6 * length (EE 3 m) + 3 * length (TT 3 m))%nat.
  assert (H : fits m 3) by (destruct m as [|[|m]]; [| |lia]; unfold fits; cbn; lia).
  split; [unfold rtsym_make; rewrite rtsym_size by auto; reflexivity|].
  split; [apply (rtblocks_returns 3 6 T_sym m (box_frame bar len) (fun x => B_sym (from_bar 3 bar x)))|
          apply (rtblocks_indep 3 6 T_sym sym_pos) with (dq := dq_sym) (bar := bar) (len := len) (B := fun x => B_sym (from_bar 3 bar x))].
  - intros x. apply rtsym3_low, Hm.
  - apply sym_sel_dim3.
  - intros q Hq. apply sym_sel_one. lia.
  - intros q q' Hq Hq' N. apply sym_sel_other; lia.
  - intros r Hr. apply dq_sym_ok; [exact Hr|]. upto 3%nat r; cbn; lia.
  - auto.
  - exact HL.
  - intros x r r' Hr Hr'. apply B_sym_diag; assumption.
  - intros x. apply rtsym3_low, Hm.
Qed.
(** from degree 3 on, on every cell and at every point, more functions are returned than announced *)
Theorem C21_rt_symmetric3_refuted m F bar x : (2 <= m)%nat -> fits m 3 -> fits m 2 ->
  exists L size, rtsym3_functions (S m) F bar x = Ok L /\ rtsym_make 3 (S m) 4 = Ok size /\ (size < length L)%nat.
Proof.
  intros Hm H H2. destruct (rtsym3_many m F bar x Hm H H2) as (L & size & EL & ES & HL). exists L, size. split; [exact EL|]. split; [|exact HL].
  unfold rtsym_make. rewrite ES. reflexivity.
Qed.
(** degree 0 and cells that are no simplices are refused *)
Theorem C21_rt_refused d k npts : k = 0%nat \/ npts <> S d -> d = 2%nat \/ d = 3%nat ->
  rt_make d k npts = Throw InvalidArgument /\ rtmat_make d k npts = Throw InvalidArgument /\ rtsym_make d k npts = Throw InvalidArgument.
Proof.
  intros H Hd. destruct H as [->|H].
  - destruct Hd as [-> | ->]; repeat split; reflexivity.
  - apply Nat.eqb_neq in H. unfold rt_make, rtmat_make, rtsym_make, matrix_basis_size_RT, sym_matrix_basis_size_RT, vector_basis_size_RT.
    destruct k as [|k]; [destruct Hd as [-> | ->]; repeat split; reflexivity|]. rewrite H. destruct Hd as [-> | ->]; repeat split; reflexivity.
Qed.
(** the hypotheses hold on a box *)
Example onto_box2 : onto 2 (local_coord 2 (fun _ => 1) (fun r c => if (r =? c)%nat then 1 else 0) (fun _ => 3)).
Proof. apply (box_onto 2 (fun _ => 1) (fun _ => 3)). intros. lra. Qed.
Example onto_box3 : onto 3 (local_coord 3 (fun _ => 1) (fun r c => if (r =? c)%nat then 1 else 0) (fun _ => 3)).
Proof. apply (box_onto 3 (fun _ => 1) (fun _ => 3)). intros. lra. Qed.
Example fits_10 : fits 10 3 /\ fits 11 2. Proof. unfold fits. cbn. lia. Qed.
Example frame_ok : orthonormal2 (fun i => if (i =? 0)%nat then 3 / 5 else if (i =? 1)%nat then 4 / 5 else 0) (fun i => if (i =? 2)%nat then 1 else 0).
Proof. unfold orthonormal2, inner. cbn [Nat.eqb]. repeat split; lra. Qed.
Print Assumptions C21_vector_cell2.
Print Assumptions C21_vector_cell3.
Print Assumptions C21_vector_face2.
Print Assumptions C21_vector_face3.
Print Assumptions C21_tangential.
Print Assumptions C21_nedelec.
Print Assumptions C21_nedelec_size.
Print Assumptions C21_rt2.
Print Assumptions C21_rt3_partial.
Print Assumptions C21_rt3_degree1_refuted.
Print Assumptions C21_matrix2.
Print Assumptions C21_matrix3.
Print Assumptions C21_symmetric2.
Print Assumptions C21_symmetric3.
Print Assumptions C21_symmetric_size_refuted.
Print Assumptions C21_rt_matrix2.
Print Assumptions C21_rt_matrix3.
Print Assumptions C21_rt_symmetric2.
Print Assumptions C21_rt_symmetric3_partial.
Print Assumptions C21_rt_symmetric3_refuted.
Print Assumptions C21_rt_refused.

(** ** C86: the differential operators of the vector bases *)
Theorem C86_gradients2 deg F : fits deg 2 -> operator_ok 2 (vector_basis_size deg 2 2) (vec2c_functions deg F) (vec2c_gradients deg F) (as_matrix 2).
Proof. apply vec2_grad. Qed.
Theorem C86_sgradients2 deg F : fits deg 2 -> operator_ok 2 (vector_basis_size deg 2 2) (vec2c_functions deg F) (vec2c_sgradients deg F) (sym_gradient 2).
Proof. apply vec2_sgrad. Qed.
Theorem C86_divergences2 deg F : fits deg 2 -> operator_ok 2 (vector_basis_size deg 2 2) (vec2c_functions deg F) (vec2c_divergences deg F) (divergence 2).
Proof. apply vec2_div. Qed.
Theorem C86_gradients3 deg F : fits deg 3 -> operator_ok 3 (vector_basis_size deg 3 3) (vec3c_functions deg F) (vec3c_gradients deg F) (as_matrix 3).
Proof. apply vec3_grad. Qed.
Theorem C86_sgradients3 deg F : fits deg 3 -> operator_ok 3 (vector_basis_size deg 3 3) (vec3c_functions deg F) (vec3c_sgradients deg F) (sym_gradient 3).
Proof. apply vec3_sgrad. Qed.
Theorem C86_divergences3 deg F : fits deg 3 -> operator_ok 3 (vector_basis_size deg 3 3) (vec3c_functions deg F) (vec3c_divergences deg F) (divergence 3).
Proof. apply vec3_div. Qed.
Theorem C86_curls3 deg F : fits deg 3 -> operator_ok 3 (vector_basis_size deg 3 3) (vec3c_functions deg F) (vec3c_curls2 deg F) curl3.
Proof. apply vec3_curl. Qed.
(** in 2D the value returned is the opposite of the curl *)
Theorem C86_curls2_opposite deg F : fits deg 2 ->
  operator_ok 2 (vector_basis_size deg 2 2) (vec2c_functions deg F) (vec2c_curls deg F) (fun D => - curl2 D).
Proof. apply vec2_curl. Qed.
(** the deprecated eval_curls of the 3D class does not compute a curl *)
Theorem C86_old_curls3_refuted : ~ operator_ok 3 (vector_basis_size 1 3 3) (vec3c_functions 1 (box_frame (fun _ => 0) (fun _ => 2)))
  (vec3c_curls 1 (box_frame (fun _ => 0) (fun _ => 2))) curl3.
Proof. exact old_curl. Qed.
Print Assumptions C86_gradients2.
Print Assumptions C86_sgradients2.
Print Assumptions C86_divergences2.
Print Assumptions C86_gradients3.
Print Assumptions C86_sgradients3.
Print Assumptions C86_divergences3.
Print Assumptions C86_curls3.
Print Assumptions C86_curls2_opposite.
Print Assumptions C86_old_curls3_refuted.

(** ** C87: Raviart-Thomas divergences, the gradients in the Nedelec space *)
Theorem C87_rt2_divergences m F bar : fits m 2 -> exists size, rt_make 2 (S m) 3 = Ok size /\
  operator_ok 2 size (rt2_functions (S m) F bar) (rt2_divergences (S m) F bar) (divergence 2).
Proof. intros H. eexists. split; [unfold rt_make; rewrite rt_size2; reflexivity|]. apply rt2_div, H. Qed.
Theorem C87_rt3_divergences m F bar : fits (S m) 3 -> exists size, rt_make 3 (S (S m)) 4 = Ok size /\
  operator_ok 3 size (rt3_functions (S (S m)) F bar) (rt3_divergences (S (S m)) F bar) (divergence 3).
Proof. intros H. eexists. split; [unfold rt_make; rewrite rt_size3; reflexivity|]. apply rt3_div, H. Qed.
(** the last deg + 2 functions are the gradients of the monomials of degree deg + 1 of the face *)
Theorem C87_nedelec_gradients deg bar e0 e1 l x c : fits (S deg) 2 -> (l < deg + 2)%nat -> (c < 3)%nat ->
  derivable_pt_lim (fun t => face_coord bar e0 (move x c t) ^ (S deg - l) * face_coord bar e1 (move x c t) ^ l) (x c)
    (vcomp (nedelec_functions deg bar e0 e1) (nedelec_size deg - (deg + 2) + l) c x).
Proof.
  intros H Hl Hc. pose proof (ned_grad bar e0 e1 deg H l x c Hl Hc) as K. rewrite nedelec_size_eq by exact H.
  replace (2 * length (lower2 deg) + (deg + 2) - (deg + 2) + l)%nat with (2 * length (lower2 deg) + l)%nat by lia.
  eapply Law2_Proofs.d_ext; [|exact K]. intros t. exact (as2_mono bar e0 e1 (move x c t) ((S deg - l)%nat, l)).
Qed.
(** every function of the two tangential bases is tangent to the face *)
Theorem C87_tangent deg bar e0 e1 nrm x j : fits (S deg) 2 -> inner nrm e0 = 0 -> inner nrm e1 = 0 ->
  inner nrm (fun c => vcomp (tangential_functions deg bar e0 e1) j c x) = 0 /\ inner nrm (fun c => vcomp (nedelec_functions deg bar e0 e1) j c x) = 0.
Proof.
  intros H N0 N1. unfold vcomp. rewrite nedelec_eq by exact H. apply fits_pred in H. rewrite tangential_eq by exact H.
  assert (T : forall L : list (list R), (forall r, In r L -> inner nrm (fun c => nth c r 0) = 0) -> inner nrm (fun c => nth c (nth j L []) 0) = 0).
  { intros L HL. destruct (Nat.lt_ge_cases j (length L)) as [C|C]; [apply HL, nth_In, C|]. rewrite (nth_overflow L) by exact C. unfold inner. cbn [nth]. ring. }
  assert (TR : forall l r, In r (flat_map (tan_rows (face_coord bar e0 x) (face_coord bar e1 x) e0 e1) l) -> inner nrm (fun c => nth c r 0) = 0).
  { intros l r I. apply in_flat_map in I. destruct I as (e & _ & [<-|[<-|[]]]); unfold vec_row, inner in *; cbn [nth];
      [transitivity ((nrm 0%nat * e0 0%nat + nrm 1%nat * e0 1%nat + nrm 2%nat * e0 2%nat) * (face_coord bar e0 x ^ fst e * face_coord bar e1 x ^ snd e)); [ring|rewrite N0; ring]|
       transitivity ((nrm 0%nat * e1 0%nat + nrm 1%nat * e1 1%nat + nrm 2%nat * e1 2%nat) * (face_coord bar e0 x ^ fst e * face_coord bar e1 x ^ snd e)); [ring|rewrite N1; ring]]. }
  split; apply T; [apply TR|]. intros r I. unfold ned_all in I. apply in_app_iff in I. destruct I as [I|I]; [exact (TR _ r I)|].
  apply in_map_iff in I. destruct I as (i & <- & _). unfold ned_row, vec_row, inner in *. cbn [nth].
  set (s := INR (S deg - i) * _ * _). set (t := face_coord bar e0 x ^ (S deg - i) * _).
  transitivity ((nrm 0%nat * e0 0%nat + nrm 1%nat * e0 1%nat + nrm 2%nat * e0 2%nat) * s + (nrm 0%nat * e1 0%nat + nrm 1%nat * e1 1%nat + nrm 2%nat * e1 2%nat) * t); [ring|].
  rewrite N0, N1. ring.
Qed.
Example C87_hyp : fits 11 2 /\ inner (fun i => if (i =? 2)%nat then 1 else 0) (fun i => if (i =? 0)%nat then 1 else 0) = 0.
Proof. split; [unfold fits; cbn; lia|]. unfold inner. cbn [Nat.eqb]. ring. Qed.
Print Assumptions C87_rt2_divergences.
Print Assumptions C87_rt3_divergences.
Print Assumptions C87_nedelec_gradients.
Print Assumptions C87_tangent.
