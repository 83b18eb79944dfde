(** C141-C147: the discrete geometric approach on tetrahedra. *)
From Coq Require Import Reals Lra Lia List Arith Bool Classical_Prop.
From Verif Require Import Common Poly_Spec Quad_Spec Quad_Model Geo_Model Mesh_Spec Elem_Model Mesh_Model DGA_Spec DGA_Model DGA_Proofs DGA2_Proofs DGA3_Proofs.
Import ListNotations.
Open Scope R_scope.

(** ** C141: the incidence matrices form a complex and satisfy Stokes' theorem *)
Theorem C141_incidence v : tet_ids v ->
  (forall phi : nat -> R, matvec grad_matrix (map phi v) =
     map (fun e => match e with [a; b] => phi b - phi a | _ => 0 end) (edges_vol v)) /\
  (forall om : list nat -> R, matvec curl_matrix (map om (edges_vol v)) =
     map (fun f => match f with [a; b; c] => om [a; b] + om [b; c] - om [a; c] | _ => 0 end) (faces_vol v)) /\
  (forall u, length u = 4%nat -> matvec curl_matrix (matvec grad_matrix u) = [0; 0; 0; 0]) /\
  (forall x, length x = 6%nat -> sumprod [1; -1; 1; -1] (matvec curl_matrix x) = 0).
Proof.
  intros H. rewrite edges_vol_eq, faces_vol_eq by exact H. destruct H as (a & b & c & d & -> & ? & ? & ?). repeat split.
  - intros phi. unfold grad_matrix. unf. repeat (apply f_equal2; [ring|]). reflexivity.
  - intros om. unfold curl_matrix. unf. repeat (apply f_equal2; [ring|]). reflexivity.
  - intros u L. destruct u as [|u0 [|u1 [|u2 [|u3 [|? ?]]]]]; try discriminate L. unfold curl_matrix, grad_matrix. unf.
    repeat (apply f_equal2; [ring|]). reflexivity.
  - intros x L. destruct x as [|x0 [|x1 [|x2 [|x3 [|x4 [|x5 [|? ?]]]]]]]; try discriminate L. unfold curl_matrix. unf. ring.
Qed.

Theorem C141_stokes P v c A ws : tet_ids v -> Forall2 (circulation P (affine c A)) (edges_vol v) ws ->
  matvec curl_matrix ws = map (fun n => sp (curl_affine A) n) (pav_vol P v).
Proof.
  intros H. rewrite edges_vol_eq by exact H. intros K. pose proof (pav_eq P v H) as Q. pose proof (integrate_ext _ _ (curl_affine A) Q) as Q'.
  rewrite !integrate_map in Q'. rewrite Q'. clear Q Q'. destruct H as (a & b & cc & d & -> & ? & ? & ?). cbn [tet_edges] in K.
  repeat match goal with HH : Forall2 _ (_ :: _) _ |- _ => inversion HH; subst; clear HH end.
  match goal with HH : Forall2 _ [] _ |- _ => inversion HH; subst; clear HH end.
  repeat match goal with HH : circulation _ _ _ _ |- _ => apply circ_value in HH; subst end.
  unfold curl_matrix, affine, bar2, curl_affine. unf. repeat (apply f_equal2; [field|]). reflexivity.
Qed.

(** ** C142: edges and dual faces, faces and dual edges *)
Lemma F2_dyads us us' vs vs' e i : (i < 3)%nat -> Forall2 eq3 us us' -> Forall2 eq3 vs vs' -> dyads us vs e i = dyads us' vs' e i.
Proof.
  intros Hi H. revert vs vs'. induction H as [|u u' us us' E HE IH]; intros vs vs' K; [reflexivity|]. destruct K as [|w w' vs vs' F HF]; [reflexivity|].
  cbn [dyads]. rewrite (E i Hi), (IH _ _ HF), (sp_ext w w' e e F (eq3_refl e)). reflexivity.
Qed.
Lemma F2_sp us us' vs vs' : Forall2 eq3 us us' -> Forall2 eq3 vs vs' ->
  map (fun p => sp (fst p) (snd p)) (combine us vs) = map (fun p => sp (fst p) (snd p)) (combine us' vs').
Proof.
  intros H. revert vs vs'. induction H as [|u u' us us' E HE IH]; intros vs vs' K; [reflexivity|]. destruct K as [|w w' vs vs' F HF]; [reflexivity|].
  cbn [combine map fst snd]. rewrite (IH _ _ HF), (sp_ext u u' w w' E F). reflexivity.
Qed.
Lemma sgT P v : forall z, sg P v * (sg P v * z) = z.
Proof. intros z. rewrite <- Rmult_assoc, sg_sq. ring. Qed.

Theorem C142_primal_vectors P v : tet_ids v ->
  Forall2 eq3 (pev_vol P v) (map (edge_vec P) (edges_vol v)) /\
  Forall2 eq3 (pav_vol P v) (map (area_vec P) (faces_vol v)) /\
  volume_unsigned P v = tet_volume P v /\
  forall i, (i < 3)%nat -> vnth (pav_vol P v) 0 i - vnth (pav_vol P v) 1 i + vnth (pav_vol P v) 2 i - vnth (pav_vol P v) 3 i = 0.
Proof.
  intros H. rewrite edges_vol_eq, faces_vol_eq by exact H. split; [rewrite pev_eq by exact H; apply F2_refl|].
  split; [apply pav_eq, H|]. split; [apply vol_unsigned_eq, H|]. intros i Hi. pose proof (pav_eq P v H) as Q.
  rewrite !(F2_vnth _ _ _ Q i Hi). destruct H as (a & b & c & d & -> & ? & ? & ?). unf. destruct i as [|[|[|i]]]; try lia; field.
Qed.

Theorem C142_duality P v : tet_ids v ->
  (forall e, eq3 (dyads (pev_vol P v) (dav_vol P v) e) (fun i => tet_volume P v * e i)) /\
  (forall e, eq3 (dyads (pav_vol P v) (dev_vol P v) e) (fun i => tet_volume P v * e i)) /\
  map (fun p => sp (fst p) (snd p)) (combine (pev_vol P v) (dav_vol P v)) = repeat (tet_volume P v / 2) 6 /\
  map (fun p => sp (fst p) (snd p)) (combine (pav_vol P v) (dev_vol P v)) = repeat (3 / 4 * tet_volume P v) 4.
Proof.
  intros H. pose proof (pav_eq P v H) as Qa. pose proof (dav_eq P v H) as Qd. pose proof (dev_eq P v H) as Qe.
  rewrite (F2_sp _ _ _ _ (F2_refl _) Qd), (F2_sp _ _ _ _ Qa Qe).
  repeat split.
  - intros e i Hi. rewrite (F2_dyads _ _ _ _ e i Hi (F2_refl _) Qd), vol_sg. destruct H as (a & b & c & d & -> & ? & ? & ?).
    cbv [davT dif12]. generalize (sg P [a; b; c; d]). intros s. unf. destruct i as [|[|[|i]]]; try lia; field.
  - intros e i Hi. rewrite (F2_dyads _ _ _ _ e i Hi Qa Qe), vol_sg. destruct H as (a & b & c & d & -> & ? & ? & ?).
    cbv [devT dif3 bar4]. generalize (sg P [a; b; c; d]). intros s. unf. destruct i as [|[|[|i]]]; try lia; field.
  - rewrite vol_sg. destruct H as (a & b & c & d & -> & ? & ? & ?).
    cbv [davT dif12]. generalize (sg P [a; b; c; d]). intros s. cbv [combine repeat fst snd pev_vol map tet_faces tet_edges]. unf. repeat (apply f_equal2; [field|]). reflexivity.
  - rewrite vol_sg. destruct H as (a & b & c & d & -> & ? & ? & ?).
    cbv [devT dif3 bar4]. generalize (sg P [a; b; c; d]). intros s. cbv [combine repeat fst snd pev_vol map tet_faces tet_edges]. unf. repeat (apply f_equal2; [field|]). reflexivity.
Qed.

(** ** C143: the material matrices *)
Definition iso (k : R) : nat -> nat -> R := fun i j => if (i =? j)%nat then k else 0.
Lemma edge_scalar P v k : edge_matrix_scalar P v k = edge_matrix P v (iso k).
Proof.
  unfold edge_matrix_scalar, edge_matrix. apply edge_element_ext; [apply F2_refl|]. apply F2_map; [apply F2_refl|]. intros u u' E i Hi.
  unfold pscale, tmul, tdiv, iso. rewrite dot3_sp. unfold sp. rewrite !E by lia. destruct i as [|[|[|i]]]; try lia; cbn [Nat.eqb]; unfold Rdiv; ring.
Qed.
Lemma face_scalar P v k : face_matrix_scalar P v k = face_matrix P v (iso k).
Proof.
  unfold face_matrix_scalar, face_matrix. apply face_element_ext. apply F2_map; [apply F2_refl|]. intros u u' E i Hi.
  unfold pscale, tmul, tdiv, iso. rewrite dot3_sp. unfold sp. rewrite !E by lia. destruct i as [|[|[|i]]]; try lia; cbn [Nat.eqb]; unfold Rdiv; ring.
Qed.
Lemma iso_symm k : symm3 (iso k).
Proof. intros i j _ _. unfold iso. rewrite Nat.eqb_sym. reflexivity. Qed.
Lemma iso_app k e : eq3 (tapp (iso k) e) (fun i => k * e i).
Proof. intros [|[|[|i]]] Hi; try lia; unfold tapp, iso; cbn [Nat.eqb]; ring. Qed.
Lemma iso_posdef k : 0 < k -> posdef3 (iso k).
Proof.
  intros Hk e (i & Hi & E). replace (sp e (tapp (iso k) e)) with (k * sp e e) by (unfold sp; rewrite !iso_app by lia; ring).
  apply Rmult_lt_0_compat; [exact Hk|]. unfold sp. pose proof (Rlt_0_sqr _ E) as Q. pose proof (Rle_0_sqr (e 0%nat)) as Q0.
  pose proof (Rle_0_sqr (e 1%nat)) as Q1. pose proof (Rle_0_sqr (e 2%nat)) as Q2. unfold Rsqr in *. destruct i as [|[|[|i]]]; try lia; lra.
Qed.

Theorem C143_symmetric P v k : symmetric 6 (edge_matrix P v k) /\ symmetric 4 (face_matrix P v k).
Proof.
  split; (split; [split; [reflexivity|repeat constructor]|]); intros i j Hi Hj.
  - destruct i as [|[|[|[|[|[|i]]]]]]; try lia; destruct j as [|[|[|[|[|[|j]]]]]]; try lia; reflexivity.
  - destruct i as [|[|[|[|i]]]]; try lia; destruct j as [|[|[|[|j]]]]; try lia; reflexivity.
Qed.

(** constant fields: the edge matrix turns voltages into the fluxes of k e through the dual faces, the
    face matrix turns fluxes into the voltages of k b along the dual edges *)
Theorem C143_constant_fields P v k e : tet_ids v -> tet_det P v <> 0 -> symm3 k ->
  matvec (edge_matrix P v k) (integrate_on (pev_vol P v) e) = integrate_on (dav_vol P v) (tapp k e) /\
  matvec (face_matrix P v k) (integrate_on (pav_vol P v) e) = integrate_on (dev_vol P v) (tapp k e).
Proof.
  intros H V0 Ks.
  assert (comm : forall l u, map (fun n => sp n u) l = map (fun n => sp u n) l) by (intros l u; apply map_ext; intros n; unfold sp; ring).
  split.
  - rewrite (integrate_ext _ _ (tapp k e) (dav_eq P v H)). rewrite (pev_eq P v H), !integrate_map, <- !comm.
    destruct H as (a & b & c & d & -> & H1). apply edge_consistent; [exists a, b, c, d; auto|assumption|assumption].
  - rewrite (integrate_ext _ _ (tapp k e) (dev_eq P v H)). rewrite (integrate_ext _ _ e (pav_eq P v H)), !integrate_map, <- !comm.
    destruct H as (a & b & c & d & -> & H1). apply face_consistent; [exists a, b, c, d; auto|assumption|assumption].
Qed.
Theorem C143_constant_fields_scalar P v k e : tet_ids v -> tet_det P v <> 0 ->
  matvec (edge_matrix_scalar P v k) (integrate_on (pev_vol P v) e) = integrate_on (dav_vol P v) (fun i => k * e i) /\
  matvec (face_matrix_scalar P v k) (integrate_on (pav_vol P v) e) = integrate_on (dev_vol P v) (fun i => k * e i).
Proof.
  intros H V0. rewrite edge_scalar, face_scalar. destruct (C143_constant_fields P v (iso k) e H V0 (iso_symm k)) as [H1 H2].
  assert (E : forall l, integrate_on l (fun i => k * e i) = integrate_on l (tapp (iso k) e)).
  { intros l. rewrite !integrate_map. apply map_ext. intros u. apply sp_ext; [intros i Hi; symmetry; apply iso_app, Hi|apply eq3_refl]. }
  rewrite !E. split; assumption.
Qed.

Theorem C143_positive_definite P v k : tet_ids v -> tet_det P v <> 0 -> symm3 k -> posdef3 k ->
  (forall x, length x = 6%nat -> Exists (fun t => t <> 0) x -> 0 < sumprod x (matvec (edge_matrix P v k) x)) /\
  (forall x, length x = 4%nat -> Exists (fun t => t <> 0) x -> 0 < sumprod x (matvec (face_matrix P v k) x)).
Proof.
  intros H V0 Ks K. destruct H as (a & b & c & d & -> & H1).
  split; intros x L N; [apply edge_posdef|apply face_posdef]; try assumption; exists a, b, c, d; auto.
Qed.
Theorem C143_positive_definite_scalar P v k : tet_ids v -> tet_det P v <> 0 -> 0 < k ->
  (forall x, length x = 6%nat -> Exists (fun t => t <> 0) x -> 0 < sumprod x (matvec (edge_matrix_scalar P v k) x)) /\
  (forall x, length x = 4%nat -> Exists (fun t => t <> 0) x -> 0 < sumprod x (matvec (face_matrix_scalar P v k) x)).
Proof. intros H V0 K. rewrite edge_scalar, face_scalar. apply C143_positive_definite; [assumption|assumption|apply iso_symm|apply iso_posdef, K]. Qed.

Lemma sumprod_dyads us vs e f : length us = length vs -> sumprod (map (fun u => sp e u) us) (map (fun u => sp f u) vs) = sp e (dyads us vs f).
Proof.
  revert vs. induction us as [|u us IH]; intros [|w vs] L; try discriminate; cbn [map sumprod dyads]; [unfold sp; ring|].
  injection L as L. rewrite (IH _ L). unfold sp. cbn [dyads]. ring.
Qed.
(** the energy of a constant field is exact *)
Theorem C143_energy P v k e : tet_ids v -> tet_det P v <> 0 -> symm3 k ->
  (let x := integrate_on (pev_vol P v) e in sumprod x (matvec (edge_matrix P v k) x) = tet_volume P v * sp e (tapp k e)) /\
  (let x := integrate_on (pav_vol P v) e in sumprod x (matvec (face_matrix P v k) x) = tet_volume P v * sp e (tapp k e)).
Proof.
  intros H V0 Ks. destruct (C143_constant_fields P v k e H V0 Ks) as [H1 H2]. cbv zeta. rewrite H1, H2. clear H1 H2.
  rewrite !integrate_map. destruct (C142_duality P v H) as (D1 & D2 & _).
  split; rewrite sumprod_dyads by reflexivity; unfold sp; rewrite ?D1, ?D2 by lia; ring.
Qed.

(** ** C144: normals of the faces of a tetrahedron *)
Theorem C144_outward_normals P v : tet_ids v -> tet_det P v <> 0 ->
  Forall2 (fun fx o => exists n, o = Some n /\ outward_unit P (fst fx) (snd fx) n) (combine (tet_faces v) (map P v)) (normals_vol P v).
Proof.
  intros H V0. pose proof (vol_signed_eq P v H) as VS. unfold normals_vol. rewrite VS.
  pose proof (pav_eq P v H) as Q.
  assert (G : forall i t x a b c, nth i (tet_faces v) [] = [a; b; c] -> (i < 4)%nat -> t * t = 1 -> t * sp (area_vec P [a; b; c]) (vdiff x (P a)) < 0 ->
    exists p, unit (vnth (pav_vol P v) i) = Some p /\ (outward_unit P [a; b; c] x (pscale t p))).
  { intros i t x a b c E Hi Ht S. pose proof (F2_vnth _ _ i Q) as E3. unfold vnth at 2 in E3.
    rewrite (nth_indep _ _ (area_vec P [])) in E3 by (destruct H as (? & ? & ? & ? & -> & _); cbn; lia). rewrite map_nth, E in E3.
    set (u := vnth (pav_vol P v) i) in *.
    assert (N : nonzero3 u). { apply (nz_of_sp u (vdiff x (P a))). rewrite (sp_ext _ _ _ _ E3 (eq3_refl _)). intros Z. rewrite Z in S. lra. }
    destruct (unit_some u N) as (s & S1 & S2 & S3). exists (pscale s u). split; [exact S2|].
    apply outward_of; try assumption; rewrite (sp_ext _ _ _ _ E3 (eq3_refl _)).
    - unf. field.
    - unf. field.
    - exact S. }
  assert (one : forall n f x, outward_unit P f x (pscale 1 n) -> outward_unit P f x n).
  { intros n f x O. destruct f as [|? [|? [|? [|? ?]]]]; try contradiction O. destruct O as (O1 & O2 & O3 & O4). cbn.
    assert (L : forall u w, sp (pscale 1 u) w = sp u w) by (intros; unfold sp, pscale; ring).
    rewrite !L in *. assert (L' : sp n (pscale 1 n) = sp n n) by (unfold sp, pscale; ring). rewrite L' in O1. auto. }
  destruct H as (a & b & c & d & -> & H1). cbn [tet_faces map combine] in *.
  assert (S0 : sp (area_vec P [b; c; d]) (vdiff (P a) (P b)) = - tet_det P [a; b; c; d] / 2) by (unf; field).
  assert (S1 : sp (area_vec P [a; c; d]) (vdiff (P b) (P a)) = tet_det P [a; b; c; d] / 2) by (unf; field).
  assert (S2 : sp (area_vec P [a; b; d]) (vdiff (P c) (P a)) = - tet_det P [a; b; c; d] / 2) by (unf; field).
  assert (S3 : sp (area_vec P [a; b; c]) (vdiff (P d) (P a)) = tet_det P [a; b; c; d] / 2) by (unf; field).
  destruct (Rlt_dec 0 (tet_det P [a; b; c; d] / 6)) as [L|L].
  - destruct (G 0%nat 1 (P a) b c d eq_refl ltac:(lia) ltac:(lra) ltac:(lra)) as (p0 & -> & O0).
    destruct (G 1%nat (-1) (P b) a c d eq_refl ltac:(lia) ltac:(lra) ltac:(lra)) as (p1 & -> & O1).
    destruct (G 2%nat 1 (P c) a b d eq_refl ltac:(lia) ltac:(lra) ltac:(lra)) as (p2 & -> & O2).
    destruct (G 3%nat (-1) (P d) a b c eq_refl ltac:(lia) ltac:(lra) ltac:(lra)) as (p3 & -> & O3).
    repeat constructor; eexists; (split; [reflexivity|]); cbn [fst snd]; auto.
  - destruct (G 0%nat (-1) (P a) b c d eq_refl ltac:(lia) ltac:(lra) ltac:(lra)) as (p0 & -> & O0).
    destruct (G 1%nat 1 (P b) a c d eq_refl ltac:(lia) ltac:(lra) ltac:(lra)) as (p1 & -> & O1).
    destruct (G 2%nat (-1) (P c) a b d eq_refl ltac:(lia) ltac:(lra) ltac:(lra)) as (p2 & -> & O2).
    destruct (G 3%nat 1 (P d) a b c eq_refl ltac:(lia) ltac:(lra) ltac:(lra)) as (p3 & -> & O3).
    repeat constructor; eexists; (split; [reflexivity|]); cbn [fst snd]; auto.
Qed.

(** ** C147: the numbers of the edges *)
Theorem C147_edge_numbers edges v : tet_ids v -> sorted_unique lex_ltb edges ->
  (forall is, edge_ids_vol edges v = Ok is <-> Forall2 (fun e i => nth_error edges i = Some e) (tet_edges v) is) /\
  ((exists e, In e (tet_edges v) /\ ~ In e edges) <-> edge_ids_vol edges v = Throw InvalidArgument).
Proof.
  intros H S. unfold edge_ids_vol. rewrite edges_vol_eq by exact H. split; [intros is; apply offsets_ok, S|].
  split; [apply offsets_throw, S|]. intros E.
  destruct (Exists_dec (fun e => ~ In e edges) (tet_edges v)) as [X|X].
  - intros e. destruct (in_dec (list_eq_dec Nat.eq_dec) e edges); [right; tauto|left; assumption].
  - apply Exists_exists in X. exact X.
  - exfalso. assert (A : exists is, Forall2 (fun e i => nth_error edges i = Some e) (tet_edges v) is).
    { clear E. induction (tet_edges v) as [|e l IH]; [exists []; constructor|]. destruct IH as (is & I); [intros Y; apply X; right; exact Y|].
      destruct (in_dec (list_eq_dec Nat.eq_dec) e edges) as [J|J]; [|exfalso; apply X; left; exact J].
      destruct (In_nth_error _ _ J) as (i & Hi). exists (i :: is). constructor; assumption. }
    destruct A as (is & A). apply (offsets_ok _ _ _ S) in A. rewrite A in E. discriminate.
Qed.
Theorem C147_edge_numbers_face edges t a b c : t = [a; b; c] -> (a < b)%nat -> (b < c)%nat -> sorted_unique lex_ltb edges ->
  (forall is, edge_ids_surf edges t = Ok is <-> Forall2 (fun e i => nth_error edges i = Some e) [[a; b]; [a; c]; [b; c]] is) /\
  ((exists e, In e [[a; b]; [a; c]; [b; c]] /\ ~ In e edges) -> edge_ids_surf edges t = Throw InvalidArgument).
Proof.
  intros -> H1 H2 S. unfold edge_ids_surf, edges_surf. cbn [pid nth]. rewrite !simplex2 by lia.
  split; [intros is; apply offsets_ok, S|apply offsets_throw, S].
Qed.

(** ** C145: orientation on a face (refuted as stated, with what holds) *)
Definition tri_normal (P : nat -> pt) (t : list nat) : pt :=
  match t with [a; b; c] => xp (vdiff (P b) (P a)) (vdiff (P c) (P a)) | _ => fun _ => 0 end.
(** the three normals are unit and orthogonal to the edges in the plane of the triangle; the first points
    outwards, the other two inwards *)
Theorem C145_triangle_normals_partial P a b c : nonzero3 (tri_normal P [a; b; c]) ->
  exists n0 n1 n2, normals_surf P [a; b; c] = [Some n0; Some n1; Some n2] /\
    outward_unit_edge P [a; b] (P c) n0 /\ outward_unit_edge P [a; c] (P b) (pscale (-1) n1) /\ outward_unit_edge P [b; c] (P a) (pscale (-1) n2).
Proof.
  intros H. unfold normals_surf. set (N := vcross (vnth (pev_surf P [a; b; c]) 0) (vnth (pev_surf P [a; b; c]) 2)).
  assert (NN : eq3 N (tri_normal P [a; b; c])) by (intros i Hi; unfold N, tri_normal; unf; destruct i as [|[|[|i]]]; try lia; ring).
  assert (K : 0 < sp N N).
  { rewrite (sp_ext _ _ _ _ NN NN). destruct H as (i & Hi & E). unfold sp. set (p := tri_normal P [a; b; c]) in *.
    pose proof (Rle_0_sqr (p 0%nat)) as Q0. pose proof (Rle_0_sqr (p 1%nat)) as Q1. pose proof (Rle_0_sqr (p 2%nat)) as Q2.
    pose proof (Rlt_0_sqr _ E) as Q. unfold Rsqr in *. destruct i as [|[|[|i]]]; try lia; lra. }
  assert (G : forall p t x e0 e1, t * t = 1 -> sp p (vdiff (P e1) (P e0)) = 0 -> sp p (xp (vdiff (P e1) (P e0)) (vdiff x (P e0))) = 0 ->
     t * sp p (vdiff x (P e0)) = - sp N N -> exists n, unit p = Some n /\ outward_unit_edge P [e0; e1] x (pscale t n)).
  { intros p t x e0 e1 Ht H1 H2 H3. assert (Z : nonzero3 p) by (apply (nz_of_sp p (vdiff x (P e0))); intros Z; rewrite Z in H3; lra).
    destruct (unit_some p Z) as (s & S1 & S2 & S3). exists (pscale s p). split; [exact S2|]. apply outward_of_edge; try assumption. lra. }
  assert (one : forall n e x, outward_unit_edge P e x (pscale 1 n) -> outward_unit_edge P e x n).
  { intros n f x O. destruct f as [|? [|? [|? ?]]]; try contradiction O. destruct O as (O1 & O2 & O3 & O4). cbn.
    assert (L : forall u w, sp (pscale 1 u) w = sp u w) by (intros; unfold sp, pscale; ring).
    rewrite !L in *. assert (L' : sp n (pscale 1 n) = sp n n) by (unfold sp, pscale; ring). rewrite L' in O1. auto. }
  destruct (G (vcross (vnth (pev_surf P [a; b; c]) 0) N) 1 (P c) a b) as (n0 & -> & O0).
  { ring. } { unfold N. unf. ring. } { unfold N. unf. ring. } { unfold N. unf. ring. }
  destruct (G (vcross (vnth (pev_surf P [a; b; c]) 1) N) (-1) (P b) a c) as (n1 & -> & O1).
  { ring. } { unfold N. unf. ring. } { unfold N. unf. ring. } { unfold N. unf. ring. }
  destruct (G (pscale (-1) (vcross (vnth (pev_surf P [a; b; c]) 2) N)) (-1) (P a) b c) as (n2 & -> & O2).
  { ring. } { unfold N. unf. ring. } { unfold N. unf. ring. } { unfold N. unf. ring. }
  exists n0, n1, n2. auto.
Qed.

(** the dual edges of a face turn around the outward area vector for the first edge, and against it for the other two;
    a triangle that is not a face of the tetrahedron is refused *)
Theorem C145_face_dual_edges_partial P v : tet_ids v -> tet_det P v <> 0 ->
  (forall i, (i < 4)%nat -> let f := nth i (tet_faces v) [] in
     exists d0 d1 d2 s, dev_surf P f v = Ok [d0; d1; d2] /\ (s = 1 \/ s = -1) /\
       s * sp (area_vec P f) (vdiff (P (nth i v 0%nat)) (P (nth 0 f 0%nat))) < 0 /\
       let out j := s * (2 / 3) * area_vec P f j in
       eq3 (xp (vnth (pev_surf P f) 0) d0) out /\ eq3 (xp (vnth (pev_surf P f) 1) d1) (fun j => - out j) /\
       eq3 (xp (vnth (pev_surf P f) 2) d2) (fun j => - out j)) /\
  (forall t, ~ In t (tet_faces v) -> dev_surf P t v = Throw InvalidArgument).
Proof.
  intros H V0. pose proof (vol_signed_eq P v H) as VS. split.
  - intros i Hi f.
    assert (FS : exists a b c, f = [a; b; c] /\ (a < b)%nat /\ (b < c)%nat).
    { destruct H as (a & b & c & d & -> & ? & ? & ?). destruct i as [|[|[|[|i]]]]; try lia; unfold f; cbn;
        [exists b, c, d|exists a, c, d|exists a, b, d|exists a, b, c]; repeat split; lia. }
    assert (EB : forall a b, (a < b)%nat -> simplex [a; b] = [a; b]) by (intros; apply simplex2; assumption).
    set (s := sg P v * (if Nat.even i then 1 else -1)).
    assert (DV : dev_surf P f v = Ok [pscale s (psubt (bary P f) (bary P (nth 0 (edges_surf f) []))); pscale s (psubt (bary P f) (bary P (nth 1 (edges_surf f) [])));
       pscale s (pscale (-1) (psubt (bary P f) (bary P (nth 2 (edges_surf f) []))))]).
    { unfold dev_surf. rewrite faces_vol_eq, VS by exact H.
      assert (SAME : forall j, (j < 4)%nat -> arr_eqb (nth j (tet_faces v) []) f = (j =? i)%nat).
      { intros j Hj. destruct (Nat.eqb_spec j i) as [->|N]; [apply Elem_Proofs.arr_eqb_iff; reflexivity|].
        destruct (arr_eqb (nth j (tet_faces v) []) f) eqn:Q; [|reflexivity]. exfalso. apply Elem_Proofs.arr_eqb_iff in Q. unfold f in Q.
        destruct H as (a & b & c & d & -> & ? & ? & ?).
        destruct i as [|[|[|[|i]]]]; try lia; destruct j as [|[|[|[|j]]]]; try lia; cbn in Q; injection Q; intros; lia. }
      rewrite !SAME by lia. unfold s, sg.
      destruct (Rlt_dec (tet_det P v / 6) 0) as [L|L], (Rlt_dec (tet_det P v) 0) as [L'|L']; try lra;
        destruct i as [|[|[|[|i]]]]; try lia; cbn [Nat.eqb Nat.even negb andb orb];
        repeat first [apply f_equal2; [apply f_equal2; [ring|reflexivity]|] | apply f_equal]; reflexivity. }
    do 3 eexists. exists s. split; [exact DV|].
    assert (S2 : s = 1 \/ s = -1) by (unfold s, sg; destruct (Rlt_dec _ _), (Nat.even i); lra). split; [exact S2|].
    assert (SD : s * sp (area_vec P f) (vdiff (P (nth i v 0%nat)) (P (nth 0 f 0%nat))) < 0).
    { unfold s. pose proof (sg_abs P v) as A. pose proof (Rabs_pos_lt _ V0) as B. rewrite A in B.
      destruct H as (a & b & c & d & -> & ? & ? & ?).
      replace (_ * sp _ _) with (- (sg P [a; b; c; d] * tet_det P [a; b; c; d]) / 2); [lra|].
      generalize (sg P [a; b; c; d]). intros g. unfold f. destruct i as [|[|[|[|i]]]]; try lia; cbn [Nat.even]; unf; field. }
    split; [exact SD|]. clear SD DV. destruct FS as (a & b & c & -> & L1 & L2). unfold edges_surf. cbn [pid nth]. rewrite !EB by lia.
    clearbody s. clear - s. cbv zeta. repeat split; intros j Hj; unf; rewrite ?INR3; change (INR 2) with (1 + 1); destruct j as [|[|[|j]]]; try lia; field.
  - intros t N. unfold dev_surf. rewrite faces_vol_eq by exact H.
    assert (SAME : forall j, (j < 4)%nat -> arr_eqb (nth j (tet_faces v) []) t = false).
    { intros j Hj. destruct (arr_eqb (nth j (tet_faces v) []) t) eqn:Q; [|reflexivity]. apply Elem_Proofs.arr_eqb_iff in Q. exfalso. apply N. rewrite <- Q.
      apply nth_In. destruct H as (a & b & c & d & -> & _). exact Hj. }
    rewrite !SAME by lia. reflexivity.
Qed.

(** ** Examples *)
Definition ex_P (i : nat) : pt :=
  match i with 2%nat => pt3 1 0 0 | 5%nat => pt3 3 1 0 | 7%nat => pt3 0 2 1 | 9%nat => pt3 1 1 4 | _ => pt3 0 0 0 end.
Definition ex_k : nat -> nat -> R := fun i j =>
  match i, j with 0%nat, 0%nat => 2 | 1%nat, 1%nat => 2 | 2%nat, 2%nat => 1 | 0%nat, 1%nat => 1 | 1%nat, 0%nat => 1 | _, _ => 0 end.
Example ex_ids : tet_ids [2; 5; 7; 9]%nat.
Proof. exists 2%nat, 5%nat, 7%nat, 9%nat. repeat split; lia. Qed.
Example ex_det : tet_det ex_P [2; 5; 7; 9]%nat = 18.
Proof. unfold ex_P. unf. ring. Qed.
Example ex_symm : symm3 ex_k.
Proof. intros [|[|[|i]]] [|[|[|j]]] Hi Hj; try lia; reflexivity. Qed.
Example ex_posdef : posdef3 ex_k.
Proof.
  intros e (i & Hi & E). replace (sp e (tapp ex_k e)) with (e 0%nat * e 0%nat + e 1%nat * e 1%nat + e 2%nat * e 2%nat + (e 0%nat + e 1%nat) * (e 0%nat + e 1%nat)) by (unfold ex_k; unf; ring).
  pose proof (Rlt_0_sqr _ E) as Q. pose proof (Rle_0_sqr (e 0%nat)) as Q0. pose proof (Rle_0_sqr (e 1%nat)) as Q1. pose proof (Rle_0_sqr (e 2%nat)) as Q2.
  pose proof (Rle_0_sqr (e 0%nat + e 1%nat)) as Q3. unfold Rsqr in *. destruct i as [|[|[|i]]]; try lia; lra.
Qed.
Example ex_circ : exists ws, Forall2 (circulation ex_P (affine (pt3 1 2 3) ex_k)) (edges_vol [2; 5; 7; 9]%nat) ws.
Proof.
  rewrite edges_vol_eq by apply ex_ids. cbn [tet_edges].
  destruct (circ_exists ex_P (pt3 1 2 3) ex_k 2 5) as (w0 & ?), (circ_exists ex_P (pt3 1 2 3) ex_k 2 7) as (w1 & ?),
    (circ_exists ex_P (pt3 1 2 3) ex_k 2 9) as (w2 & ?), (circ_exists ex_P (pt3 1 2 3) ex_k 5 7) as (w3 & ?),
    (circ_exists ex_P (pt3 1 2 3) ex_k 5 9) as (w4 & ?), (circ_exists ex_P (pt3 1 2 3) ex_k 7 9) as (w5 & ?).
  exists [w0; w1; w2; w3; w4; w5]. repeat constructor; assumption.
Qed.
Example ex_matrix : 0 < sumprod [1; 0; 0; 0; 0; -2] (matvec (edge_matrix ex_P [2; 5; 7; 9]%nat ex_k) [1; 0; 0; 0; 0; -2]).
Proof. apply (proj1 (C143_positive_definite ex_P [2; 5; 7; 9]%nat ex_k ex_ids ltac:(rewrite ex_det; lra) ex_symm ex_posdef)); [reflexivity|left; lra]. Qed.
Example ex_ids_found : edge_ids_vol [[2; 3]; [2; 5]; [2; 7]; [2; 9]; [3; 4]; [5; 7]; [5; 9]; [7; 9]]%nat [2; 5; 7; 9]%nat = Ok [1; 2; 3; 5; 6; 7]%nat.
Proof. vm_compute. reflexivity. Qed.
Example ex_ids_missing : edge_ids_vol [[2; 3]; [2; 5]; [2; 7]; [2; 9]; [3; 4]; [5; 9]; [7; 9]]%nat [2; 5; 7; 9]%nat = Throw InvalidArgument.
Proof. vm_compute. reflexivity. Qed.
Example ex_tri : nonzero3 (tri_normal ex_P [2; 5; 7]%nat).
Proof. exists 2%nat. split; [lia|]. unfold tri_normal, ex_P. unf. lra. Qed.

(** not all the normals of a triangle point outwards *)
Theorem C145_triangle_normals_refuted :
  exists P t, tri_ids t /\ nonzero3 (tri_normal P t) /\
    ~ (exists n0 n1 n2, normals_surf P t = [Some n0; Some n1; Some n2] /\
        outward_unit_edge P [nth 0 t 0; nth 1 t 0]%nat (P (nth 2 t 0%nat)) n0 /\ outward_unit_edge P [nth 0 t 0; nth 2 t 0]%nat (P (nth 1 t 0%nat)) n1 /\
        outward_unit_edge P [nth 1 t 0; nth 2 t 0]%nat (P (nth 0 t 0%nat)) n2).
Proof.
  exists ex_P, [2; 5; 7]%nat. split; [exists 2%nat, 5%nat, 7%nat; repeat split; lia|]. split; [exact ex_tri|].
  intros (n0 & n1 & n2 & E & _ & O1 & _). destruct (C145_triangle_normals_partial ex_P 2 5 7 ex_tri) as (m0 & m1 & m2 & E' & _ & O1' & _).
  rewrite E' in E. injection E as -> -> ->. cbn [nth] in O1. destruct O1 as (_ & _ & _ & A). destruct O1' as (_ & _ & _ & B).
  replace (sp (pscale (-1) n1) (vdiff (ex_P 5%nat) (ex_P 2%nat))) with (- sp n1 (vdiff (ex_P 5%nat) (ex_P 2%nat))) in B by (unfold sp, pscale; ring). lra.
Qed.

(** the comment "cross(pev, dev) = outward" fails *)
Theorem C145_face_dual_edges_refuted :
  exists P v, tet_ids v /\ tet_det P v <> 0 /\ exists f x ds, In (f, x) (combine (tet_faces v) (map P v)) /\ dev_surf P f v = Ok ds /\
    exists i, (i < 3)%nat /\ 0 < sp (xp (vnth (pev_surf P f) i) (vnth ds i)) (vdiff x (P (nth 0 f 0%nat))).
Proof.
  exists ex_P, [2; 5; 7; 9]%nat. split; [exact ex_ids|]. assert (V0 : tet_det ex_P [2; 5; 7; 9]%nat <> 0) by (rewrite ex_det; lra). split; [exact V0|].
  destruct (C145_face_dual_edges_partial ex_P _ ex_ids V0) as [H _]. destruct (H 0%nat ltac:(lia)) as (d0 & d1 & d2 & s & E & _ & S & _ & E1 & _).
  assert (S' : s * sp (area_vec ex_P [5; 7; 9]%nat) (vdiff (ex_P 2%nat) (ex_P 5%nat)) < 0) by exact S.
  cbn [nth tet_faces] in E, E1. exists [5; 7; 9]%nat, (ex_P 2%nat), [d0; d1; d2]. split; [left; reflexivity|]. split; [exact E|].
  exists 1%nat. split; [lia|]. change (vnth [d0; d1; d2] 1) with d1. rewrite (sp_ext _ _ _ _ E1 (eq3_refl _)).
  match goal with |- 0 < ?z => replace z with (- (2 / 3) * (s * sp (area_vec ex_P [5; 7; 9]%nat) (vdiff (ex_P 2%nat) (ex_P 5%nat)))) by (cbn [nth]; unfold sp; cbv beta zeta; ring) end. lra.
Qed.

(** ** C146: tensors that are not symmetric *)
Lemma matvec_sym6 p q x y : length x = 6%nat -> length y = 6%nat -> sumprod x (matvec (edge_element p q) y) = sumprod y (matvec (edge_element p q) x).
Proof.
  intros L M. destruct x as [|x0 [|x1 [|x2 [|x3 [|x4 [|x5 [|? ?]]]]]]]; try discriminate L.
  destruct y as [|y0 [|y1 [|y2 [|y3 [|y4 [|y5 [|? ?]]]]]]]; try discriminate M. unfold edge_element. cbn [matvec map sumprod]. ring.
Qed.
Lemma matvec_sym4 p q x y : length x = 4%nat -> length y = 4%nat -> sumprod x (matvec (face_element p q) y) = sumprod y (matvec (face_element p q) x).
Proof.
  intros L M. destruct x as [|x0 [|x1 [|x2 [|x3 [|? ?]]]]]; try discriminate L.
  destruct y as [|y0 [|y1 [|y2 [|y3 [|? ?]]]]]; try discriminate M. unfold face_element. cbn [matvec map sumprod]. ring.
Qed.
Definition axis (i : nat) : pt := fun j => if (i =? j)%nat then 1 else 0.
Lemma axis_form k i j : (i < 3)%nat -> (j < 3)%nat -> sp (axis i) (tapp k (axis j)) = k i j.
Proof. intros Hi Hj. destruct i as [|[|[|i]]]; try lia; destruct j as [|[|[|j]]]; try lia; unfold axis; unf; cbn [Nat.eqb]; ring. Qed.
(** the constant fields are reproduced exactly when the tensor is symmetric *)
Theorem C146_any_tensor_partial P v k : tet_ids v -> tet_det P v <> 0 ->
  ((forall e, matvec (edge_matrix P v k) (integrate_on (pev_vol P v) e) = integrate_on (dav_vol P v) (tapp k e)) <-> symm3 k) /\
  ((forall e, matvec (face_matrix P v k) (integrate_on (pav_vol P v) e) = integrate_on (dev_vol P v) (tapp k e)) <-> symm3 k).
Proof.
  intros H V0. assert (W : tet_volume P v <> 0) by (unfold tet_volume; pose proof (Rabs_pos_lt _ V0); lra).
  destruct (C142_duality P v H) as (D1 & D2 & _).
  assert (Q : forall us vs e f, length us = length vs -> (forall e, eq3 (dyads us vs e) (fun i => tet_volume P v * e i)) ->
    sumprod (integrate_on us e) (integrate_on vs (tapp k f)) = tet_volume P v * sp e (tapp k f)).
  { intros us vs e f L D. rewrite !integrate_map, sumprod_dyads by exact L. unfold sp at 1. rewrite !D by lia. unfold sp. ring. }
  split; (split; [|intros Ks e; apply C143_constant_fields; assumption]); intros K i j Hi Hj.
  - pose proof (matvec_sym6 (pav_vol P v) (map (tmul (tdiv k (36 * volume_unsigned P v))) (pav_vol P v)) (integrate_on (pev_vol P v) (axis i)) (integrate_on (pev_vol P v) (axis j)) eq_refl eq_refl) as S.
    fold (edge_matrix P v k) in S. change (edge_element _ _) with (edge_matrix P v k) in S. rewrite !K, !(Q (pev_vol P v) (dav_vol P v) _ _ eq_refl D1), !axis_form in S by assumption.
    apply Rmult_eq_reg_l with (tet_volume P v); assumption.
  - pose proof (matvec_sym4 (pev_vol P v) (map (tmul (tdiv k (36 * volume_unsigned P v))) (pev_vol P v)) (integrate_on (pav_vol P v) (axis i)) (integrate_on (pav_vol P v) (axis j)) eq_refl eq_refl) as S.
    change (face_element _ _) with (face_matrix P v k) in S. rewrite !K, !(Q (pav_vol P v) (dev_vol P v) _ _ eq_refl D2), !axis_form in S by assumption.
    apply Rmult_eq_reg_l with (tet_volume P v); assumption.
Qed.
Definition skew : nat -> nat -> R := fun i j => match i, j with 0%nat, 1%nat => 1 | 1%nat, 0%nat => -1 | _, _ => 0 end.
Theorem C146_any_tensor_refuted :
  exists P v k e, tet_ids v /\ tet_det P v <> 0 /\
    matvec (edge_matrix P v k) (integrate_on (pev_vol P v) e) <> integrate_on (dav_vol P v) (tapp k e).
Proof.
  assert (V0 : tet_det ex_P [2; 5; 7; 9]%nat <> 0) by (rewrite ex_det; lra).
  pose proof (proj1 (C146_any_tensor_partial ex_P _ skew ex_ids V0)) as I.
  assert (N : ~ symm3 skew) by (intros S; pose proof (S 0%nat 1%nat ltac:(lia) ltac:(lia)) as E; cbn in E; lra).
  apply Classical_Prop.NNPP. intros C. apply N, I. intros e. apply Classical_Prop.NNPP. intros D. apply C.
  exists ex_P, [2; 5; 7; 9]%nat, skew, e. split; [exact ex_ids|]. split; [exact V0|exact D].
Qed.
Print Assumptions C141_incidence.
Print Assumptions C141_stokes.
Print Assumptions C142_primal_vectors.
Print Assumptions C142_duality.
Print Assumptions C143_symmetric.
Print Assumptions C143_constant_fields.
Print Assumptions C143_constant_fields_scalar.
Print Assumptions C143_positive_definite.
Print Assumptions C143_positive_definite_scalar.
Print Assumptions C143_energy.
Print Assumptions C144_outward_normals.
Print Assumptions C147_edge_numbers.
Print Assumptions C147_edge_numbers_face.
Print Assumptions C145_triangle_normals_partial.
Print Assumptions C145_face_dual_edges_partial.
Print Assumptions C145_triangle_normals_refuted.
Print Assumptions C145_face_dual_edges_refuted.
Print Assumptions C146_any_tensor_partial.
Print Assumptions C146_any_tensor_refuted.
