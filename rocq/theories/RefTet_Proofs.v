(** The reference tetrahedron is a cell that the theorems on the HHO operators in space speak about. *)
From Coq Require Import List Arith Reals Lra Lia Bool Factorial.
From Verif Require Import Poly_Spec Poly_Proofs HHO_Spec HHO_Model HHO_Setting HHO_Proofs HHOInst_Proofs HHOInst2_Proofs GM4_Proofs.
Import ListNotations.
Open Scope R_scope.

(** substitutions of three polynomials *)
Definition s3 (a b c : pexp) (i : nat) : pexp := match i with O => a | S O => b | S (S O) => c | _ => PC 0 end.
Lemma s3_vars n a b c : pvars n a -> pvars n b -> pvars n c -> forall i, pvars n (s3 a b c i).
Proof. intros Ha Hb Hc [|[|[|i]]]; cbn; auto. Qed.
Lemma s3_deg a b c : (pdeg a <= 1)%nat -> (pdeg b <= 1)%nat -> (pdeg c <= 1)%nat -> forall i, (pdeg (s3 a b c i) <= 1)%nat.
Proof. intros Ha Hb Hc [|[|[|i]]]; cbn; auto. Qed.
Definition pt3 (a b c : R) : pt := fun i => match i with O => a | S O => b | S (S O) => c | _ => 0 end.
Lemma s3_eval a b c y i : peval (s3 a b c i) y = pt3 (peval a y) (peval b y) (peval c y) i.
Proof. destruct i as [|[|[|i]]]; reflexivity. Qed.
Lemma sub3_eval a b c p y : peval (psub (s3 a b c) p) y = peval p (pt3 (peval a y) (peval b y) (peval c y)).
Proof. rewrite psub_eval. apply peval_ext. intros i. apply s3_eval. Qed.
Lemma chain3 (sb : nat -> pexp) p i y : (forall k, sb (S (S (S k))) = PC 0) ->
  peval (pdiff i (psub sb p)) y = sg 3 (fun j => peval (pdiff j p) (fun k => peval (sb k) y) * peval (pdiff i (sb j)) y).
Proof.
  intros H. cbn [sg]. induction p as [c|j|p IHp q IHq|p IHp q IHq]; cbn [psub pdiff peval].
  - ring.
  - destruct j as [|[|[|j]]]; cbn [Nat.eqb]; [ring|ring|ring|]. rewrite H. cbn. ring.
  - rewrite IHp, IHq. ring.
  - rewrite IHp, IHq, !psub_eval. ring.
Qed.
(** integrals over the reference triangle of functions of a permuted point *)
Lemma Isimp2_int1 (p : pexp) J : pvars 2 p -> (exists G, (forall s, is_int1 (fun t => peval p (pt2 s t)) 0 (1 - s) (G s)) /\ is_int1 G 0 1 J) -> is_int_simplex 2 1 (peval p) J.
Proof.
  intros V (G & HG & HJ). exists G. split; [|exact HJ]. intros s. exists (fun t => peval p (pt2 s t)). split; [|apply HG].
  intros t. cbn. apply peval_ext. intros [|[|k]]; reflexivity.
Qed.
Lemma Isimp2_int1' (p : pexp) J : pvars 2 p -> is_int_simplex 2 1 (peval p) J -> exists G, (forall s, is_int1 (fun t => peval p (pt2 s t)) 0 (1 - s) (G s)) /\ is_int1 G 0 1 J.
Proof.
  intros V (G & HG & HJ). exists G. split; [|exact HJ]. intros s. destruct (HG s) as (H & HH & K). eapply is_int1_ext; [|exact K].
  intros t. specialize (HH t). cbn in HH. rewrite HH. apply peval_ext. intros [|[|k]]; reflexivity.
Qed.
Lemma is_int1_flip_c f c I : is_int1 f 0 c I -> is_int1 (fun s => f (c - s)) 0 c I.
Proof.
  intros (F & HF & ->). exists (fun s => - F (c - s)). split.
  - intros x. replace (f (c - x)) with (- (f (c - x) * (0 - 1))) by ring.
    apply (derivable_pt_lim_opp (fun s => F (c - s))). apply (derivable_pt_lim_comp (fun s => c - s) F).
    + apply derivable_pt_lim_minus; [apply derivable_pt_lim_const|apply derivable_pt_lim_id].
    + apply HF.
  - replace (c - c) with 0 by ring. rewrite Rminus_0_r. ring.
Qed.
Definition rest2 : pexp := PAdd (PC 1) (PAdd (pscal (-1) (PX 0)) (pscal (-1) (PX 1))).
Lemma rest2_eval a b : peval rest2 (pt2 a b) = 1 - a - b.
Proof. cbn. ring. Qed.
Definition flp (i : nat) : pexp := match i with O => PX 0 | S O => rest2 | _ => PC 0 end.
Lemma flp_vars i : pvars 2 (flp i).
Proof. destruct i as [|[|i]]; cbn; repeat split; lia. Qed.
Lemma ref_flip p : pvars 2 p -> Isimp 2 (psub flp p) = Isimp 2 p.
Proof.
  intros V. apply Isimp_eq; [apply psub_vars, flp_vars|]. apply Isimp2_int1; [apply psub_vars, flp_vars|].
  destruct (Isimp2_int1' p _ V (Isimp_int 2 p V)) as (G & HG & HJ). exists G. split; [|exact HJ]. intros s.
  eapply is_int1_ext; [|apply (is_int1_flip_c _ _ _ (HG s))]. intros t. cbv beta. rewrite psub_eval. apply peval_ext. intros [|[|k]]; cbn; ring.
Qed.
Lemma ref2_ext p q : pvars 2 p -> pvars 2 q -> (forall a b, peval p (pt2 a b) = peval q (pt2 a b)) -> Isimp 2 p = Isimp 2 q.
Proof.
  intros Vp Vq H. apply Isimp_eq; [exact Vp|]. eapply is_int_simplex_ext; [|apply Isimp_int, Vq]. intros y.
  transitivity (peval q (pt2 (y 0%nat) (y 1%nat))); [apply (pvars_ext 2); [exact Vq|]|rewrite <- H; apply (pvars_ext 2); [exact Vp|]]; intros [|[|i]] Hi; try lia; reflexivity.
Qed.

(** derivative in the last coordinate *)
Lemma ref3_d2 q : pvars 3 q -> Isimp 3 (pdiff 2 q) = Isimp 2 (psub (s3 (PX 0) (PX 1) rest2) q) - Isimp 2 (psub (s3 (PX 0) (PX 1) (PC 0)) q).
Proof.
  intros V. set (E := psub (s3 (PX 0) (PX 1) rest2) q). set (B := psub (s3 (PX 0) (PX 1) (PC 0)) q).
  assert (VE : pvars 2 E) by (apply psub_vars, s3_vars; cbn; repeat split; lia).
  assert (VB : pvars 2 B) by (apply psub_vars, s3_vars; cbn; repeat split; lia).
  apply Isimp_eq; [apply pvars_diff, V|].
  destruct (Isimp2_int1' E _ VE (Isimp_int 2 E VE)) as (G & HG & HI). destruct (Isimp2_int1' B _ VB (Isimp_int 2 B VB)) as (G' & HG' & HI').
  exists (fun s => G s - G' s). split; [|apply is_int1_minus; assumption]. intros s.
  exists (fun t => peval E (pt2 s t) - peval B (pt2 s t)). split; [|apply is_int1_minus; [apply HG|apply HG']]. intros t.
  exists (fun r => peval (pdiff 2 q) (pt3 s t r)). split.
  - intros r. cbn. apply peval_ext. intros [|[|[|k]]]; reflexivity.
  - exists (fun r => peval q (pt3 s t r)). split.
    + intros r. pose proof (line_deriv 3 q (pt3 s t 0) (pt3 0 0 1) r V) as D. cbn [sg pt3] in D.
      eapply dl_ext; [|replace (peval (pdiff 2 q) (pt3 s t r)) with (0 + 0 * peval (pdiff 0 q) (fun i => pt3 s t 0 i + r * pt3 0 0 1 i) + 0 * peval (pdiff 1 q) (fun i => pt3 s t 0 i + r * pt3 0 0 1 i) + 1 * peval (pdiff 2 q) (fun i => pt3 s t 0 i + r * pt3 0 0 1 i)); [exact D|]].
      * intros y. cbv beta. apply peval_ext. intros [|[|[|k]]]; cbn; ring.
      * assert (K : peval (pdiff 2 q) (fun i => pt3 s t 0 i + r * pt3 0 0 1 i) = peval (pdiff 2 q) (pt3 s t r)) by (apply peval_ext; intros [|[|[|k]]]; cbn; ring).
        rewrite K. ring.
    + unfold E, B. rewrite !sub3_eval, rest2_eval. reflexivity.
Qed.
(** permuting the coordinates *)
Definition sw02 := s3 (PX 2) (PX 1) (PX 0).
Definition sw12 := s3 (PX 0) (PX 2) (PX 1).
Definition l02 (a : list nat) : list nat := match a with [x; y; z] => [z; y; x] | _ => a end.
Definition l12 (a : list nat) : list nat := match a with [x; y; z] => [x; z; y] | _ => a end.
Lemma ref_perm (sw : nat -> pexp) (l : list nat -> list nat) p : (forall i, pvars 3 (sw i)) ->
  (forall x y z, lsum (l [x; y; z]) = lsum [x; y; z] /\ length (l [x; y; z]) = 3%nat /\ pfact (l [x; y; z]) = pfact [x; y; z] /\
     forall u, mono (l [x; y; z]) u = mono [x; y; z] (fun k => peval (sw k) u)) ->
  pvars 3 p -> Isimp 3 (psub sw p) = Isimp 3 p.
Proof.
  intros Vs Hl V. apply Isimp_eq; [apply psub_vars, Vs|].
  pose proof (monos_ok 3 p) as OK. set (m := monos 3 p) in *. set (m' := map (fun t => (fst t, l (snd t))) m).
  assert (OK' : mok 3 (pdeg p) m').
  { unfold mok, m' in *. apply Forall_map. eapply Forall_impl; [|exact OK]. intros [k [|x [|y [|z [|w r]]]]] [L N]; cbn [length snd fst] in *; try discriminate.
    destruct (Hl x y z) as (A & B & _). rewrite A, B. split; [reflexivity|exact N]. }
  assert (E : forall y, meval m' y = peval (psub sw p) y).
  { intros y. rewrite psub_eval, <- (monos_eval 3 p _ V). fold m. unfold m'. clear -OK Hl. unfold mok in OK. induction OK as [|[k a] m [L N] OK IH]; [reflexivity|].
    cbn [map meval fst snd]. rewrite IH. f_equal. f_equal. destruct a as [|x [|z [|w [|v r]]]]; cbn [length snd] in L; try discriminate. apply Hl. }
  eapply is_int_simplex_ext; [exact E|]. replace (Isimp 3 p) with (fold_right (fun t s => fst t * smoment 3 (snd t) 1 + s) 0 m').
  - eapply is_int_simplex_meval, OK'.
  - unfold Isimp. fold m. unfold m'. clear -OK Hl. unfold mok in OK. induction OK as [|[k a] m [L N] OK IH]; [reflexivity|]. cbn [map fold_right fst snd]. rewrite IH. f_equal. f_equal.
    destruct a as [|x [|z [|w [|v r]]]]; cbn [length snd] in L; try discriminate. destruct (Hl x z w) as (A & B & C & _). unfold smoment. rewrite A, C. reflexivity.
Qed.
Lemma ref_sw02 p : pvars 3 p -> Isimp 3 (psub sw02 p) = Isimp 3 p.
Proof.
  apply (ref_perm sw02 l02); [apply s3_vars; cbn; lia|]. intros x y z. cbn [l02 lsum length pfact mono sw02 s3 peval]. repeat split; [lia|ring|]. intros u. ring.
Qed.
Lemma ref_sw12 p : pvars 3 p -> Isimp 3 (psub sw12 p) = Isimp 3 p.
Proof.
  apply (ref_perm sw12 l12); [apply s3_vars; cbn; lia|]. intros x y z. cbn [l12 lsum length pfact mono sw12 s3 peval]. repeat split; [lia|ring|]. intros u. ring.
Qed.
Lemma ref3_ext p q : pvars 3 p -> pvars 3 q -> (forall y, peval p y = peval q y) -> Isimp 3 p = Isimp 3 q.
Proof. intros Vp Vq H. apply Isimp_eq; [exact Vp|]. eapply is_int_simplex_ext; [|apply Isimp_int, Vq]. intros y. symmetry. apply H. Qed.
Definition top (q : pexp) : R := Isimp 2 (psub (s3 (PX 0) (PX 1) rest2) q).
Lemma ref3_d1 q : pvars 3 q -> Isimp 3 (pdiff 1 q) = top q - Isimp 2 (psub (s3 (PX 0) (PC 0) (PX 1)) q).
Proof.
  intros V. rewrite <- (ref_sw12 (pdiff 1 q)) by (apply pvars_diff, V).
  assert (Vw : pvars 3 (psub sw12 q)) by (apply psub_vars, s3_vars; cbn; lia).
  rewrite (ref3_ext _ (pdiff 2 (psub sw12 q))).
  - rewrite (ref3_d2 _ Vw). apply (f_equal2 Rminus).
    + unfold top. rewrite <- (ref_flip (psub (s3 (PX 0) (PX 1) rest2) q)) by (apply psub_vars, s3_vars; cbn; repeat split; lia).
      apply ref2_ext; try (apply psub_vars, s3_vars; cbn; repeat split; lia); try (apply psub_vars, flp_vars).
      intros a b. rewrite sub3_eval, psub_eval, psub_eval, sub3_eval. apply peval_ext. intros [|[|[|k]]]; cbn; ring.
    + apply ref2_ext; try (apply psub_vars, s3_vars; cbn; repeat split; lia). intros a b. rewrite sub3_eval, psub_eval, sub3_eval. apply peval_ext. intros [|[|[|k]]]; reflexivity.
  - apply psub_vars, s3_vars; cbn; lia.
  - apply pvars_diff, Vw.
  - intros y. rewrite chain3 by reflexivity. rewrite psub_eval. cbn. ring.
Qed.
Lemma ref3_d0 q : pvars 3 q -> Isimp 3 (pdiff 0 q) = top q - Isimp 2 (psub (s3 (PC 0) (PX 1) (PX 0)) q).
Proof.
  intros V. rewrite <- (ref_sw02 (pdiff 0 q)) by (apply pvars_diff, V).
  assert (Vw : pvars 3 (psub sw02 q)) by (apply psub_vars, s3_vars; cbn; lia).
  rewrite (ref3_ext _ (pdiff 2 (psub sw02 q))).
  - rewrite (ref3_d2 _ Vw). apply (f_equal2 Rminus).
    + unfold top. set (e := psub (s3 (PX 0) (PX 1) rest2) q). assert (Ve : pvars 2 e) by (apply psub_vars, s3_vars; cbn; repeat split; lia).
      rewrite <- (ref_swap e Ve), <- (ref_flip (psub swp e)) by (apply psub_vars, swp_vars).
      rewrite <- (ref_swap (psub flp (psub swp e))) by (apply psub_vars, flp_vars).
      apply ref2_ext; try (apply psub_vars, s3_vars; cbn; repeat split; lia); try (apply psub_vars, swp_vars).
      intros a b. rewrite sub3_eval, psub_eval. rewrite !psub_eval. unfold e. rewrite sub3_eval. apply peval_ext. intros [|[|[|k]]]; cbn; ring.
    + apply ref2_ext; try (apply psub_vars, s3_vars; cbn; repeat split; lia). intros a b. rewrite sub3_eval, psub_eval, sub3_eval. apply peval_ext. intros [|[|[|k]]]; reflexivity.
  - apply psub_vars, s3_vars; cbn; lia.
  - apply pvars_diff, Vw.
  - intros y. rewrite chain3 by reflexivity. rewrite psub_eval. cbn. ring.
Qed.

(** * the faces and the cell *)
Definition tet_facet (sb : nat -> pexp) (s : R) (n : pt) : facet := mkFacet (el_on 2 sb) n 2 (el_int 2 sb s).
Definition tet_face (sb inv : nat -> pexp) (s : R) (n : pt) : sface := mkFace (el_of 2 sb inv s 2) n.
Definition k3 : R := / sqrt 3.
Definition F0 := s3 (PC 0) (PX 1) (PX 0).
Definition F1 := s3 (PX 0) (PC 0) (PX 1).
Definition F2 := s3 (PX 0) (PX 1) (PC 0).
Definition F3 := s3 (PX 0) (PX 1) rest2.
Definition id3 := s3 (PX 0) (PX 1) (PX 2).
Definition tet_poly : polytope := mkPoly (el_on 3 id3) 2 (el_int 3 id3 1)
  [tet_facet F0 1 (pt3 (-1) 0 0); tet_facet F1 1 (pt3 0 (-1) 0); tet_facet F2 1 (pt3 0 0 (-1)); tet_facet F3 (sqrt 3) (pt3 k3 k3 k3)].
Definition tet_cell : scell := mkCell (el_of 3 id3 id3 1 2)
  [tet_face F0 (s3 (PX 2) (PX 1) (PC 0)) 1 (pt3 (-1) 0 0); tet_face F1 (s3 (PX 0) (PX 2) (PC 0)) 1 (pt3 0 (-1) 0);
   tet_face F2 (s3 (PX 0) (PX 1) (PC 0)) 1 (pt3 0 0 (-1)); tet_face F3 (s3 (PX 0) (PX 1) (PC 0)) (sqrt 3) (pt3 k3 k3 k3)].
Lemma sqrt3_pos : 0 < sqrt 3.
Proof. apply sqrt_lt_R0. lra. Qed.
Lemma k3_sqrt : k3 * sqrt 3 = 1.
Proof. unfold k3. pose proof sqrt3_pos. field. lra. Qed.
Lemma k3_sq : k3 * k3 = / 3.
Proof. unfold k3. rewrite <- Rinv_mult. f_equal. apply sqrt_sqrt. lra. Qed.
Ltac vars3 := (apply s3_vars; cbn; repeat split; lia).
Lemma F_vars i : pvars 2 (F0 i) /\ pvars 2 (F1 i) /\ pvars 2 (F2 i) /\ pvars 2 (F3 i).
Proof. repeat split; vars3. Qed.
Lemma id3_vars i : pvars 3 (id3 i).
Proof. vars3. Qed.
Lemma id3_eval y k : peval (id3 k) y = pt3 (y 0%nat) (y 1%nat) (y 2%nat) k.
Proof. apply s3_eval. Qed.
Lemma tet_green c p : (c < 3)%nat -> el_int 3 id3 1 (pdiff c p) = fsum (po_facets tet_poly) (fun f => fa_normal f c * fa_int f p).
Proof.
  intros Hc. set (q := psub id3 p). assert (V : pvars 3 q) by (apply psub_vars, id3_vars).
  assert (E : el_int 3 id3 1 (pdiff c p) = Isimp 3 (pdiff c q)).
  { unfold el_int. rewrite Rmult_1_l. apply ref3_ext; [apply psub_vars, id3_vars|apply pvars_diff, V|]. intros y. unfold q. rewrite chain3 by reflexivity. rewrite psub_eval.
    destruct c as [|[|[|c]]]; [| | |lia]; cbn; ring. }
  assert (S : forall a b e, pvars 2 a -> pvars 2 b -> pvars 2 e -> Isimp 2 (psub (s3 a b e) q) = Isimp 2 (psub (s3 a b e) p)).
  { intros a b e Va Vb Ve. apply ref2_ext; try (apply psub_vars, s3_vars; assumption). intros x y. rewrite !sub3_eval. unfold q. rewrite psub_eval. apply peval_ext. intros [|[|[|k]]]; reflexivity. }
  rewrite E. cbn [tet_poly po_facets fsum tet_facet fa_normal fa_int]. unfold el_int, F0, F1, F2, F3. pose proof k3_sqrt as K.
  assert (K' : forall z, k3 * (sqrt 3 * z) = z) by (intros z; rewrite <- Rmult_assoc, K; ring).
  destruct c as [|[|[|c]]]; [| | |lia]; cbn [pt3]; rewrite ?K', ?(ref3_d0 q V), ?(ref3_d1 q V), ?(ref3_d2 q V); unfold top; rewrite !S; try (cbn; repeat split; lia); ring.
Qed.
Lemma insimp_conv n u v t : insimp n 1 u -> insimp n 1 v -> 0 <= t <= 1 -> insimp n 1 (fun k => u k + t * (v k - u k)).
Proof.
  intros (U1 & U2) (V1 & V2) Ht. split.
  - intros k Hk. specialize (U1 k Hk). specialize (V1 k Hk). replace (u k + t * (v k - u k)) with ((1 - t) * u k + t * v k) by ring.
    pose proof (Rmult_le_pos (1 - t) (u k) ltac:(lra) U1). pose proof (Rmult_le_pos t (v k) ltac:(lra) V1). lra.
  - rewrite (sg_ext n _ (fun k => (1 - t) * u k + t * v k)) by (intros; ring). rewrite sg_plus, !sg_scal.
    pose proof (Rmult_le_compat_l (1 - t) (sg n u) 1 ltac:(lra) U2). pose proof (Rmult_le_compat_l t (sg n v) 1 ltac:(lra) V2). lra.
Qed.
Lemma tet_conn p : (forall c x, (c < 3)%nat -> el_on 3 id3 x -> peval (pdiff c p) x = 0) -> forall x y, el_on 3 id3 x -> el_on 3 id3 y -> peval p x = peval p y.
Proof.
  intros H x y (u & Hu & Eu) (v & Hv & Ev). set (q := psub id3 p). assert (V : pvars 3 q) by (apply psub_vars, id3_vars).
  set (w := fun i => v i - u i).
  assert (Z : forall t, 0 <= t <= 1 -> forall i, peval (pdiff i q) (fun k => u k + t * w k) = 0).
  { intros t Ht i. unfold q. rewrite chain3 by reflexivity.
    assert (On : el_on 3 id3 (fun k => peval (id3 k) (fun k => u k + t * w k))) by (exists (fun k => u k + t * w k); split; [apply insimp_conv; assumption|reflexivity]).
    apply sg_zero. intros j Hj. rewrite (H j _ Hj On). ring. }
  destruct (MVT_cor2 (fun t => peval q (fun k => u k + t * w k)) (fun t => sg 3 (fun i => w i * peval (pdiff i q) (fun k => u k + t * w k))) 0 1 ltac:(lra)
    (fun t _ => line_deriv 3 q u w t V)) as (t & E & Ht).
  rewrite sg_zero in E by (intros i _; rewrite Z by lra; ring).
  rewrite (peval_ext p x _ Eu), (peval_ext p y _ Ev), <- !psub_eval. fold q.
  rewrite (peval_ext q u (fun k => u k + 0 * w k)) by (intros; ring). rewrite (peval_ext q v (fun k => u k + 1 * w k)) by (intros; unfold w; ring). lra.
Qed.
Lemma tet_is_polytope : is_polytope 3 tet_poly.
Proof.
  constructor; cbn [tet_poly po_on po_int po_diam].
  - apply el_is_integral; [lra|apply id3_vars].
  - exists (fun i => peval (id3 i) (fun _ => 0)). exists (fun _ => 0). split; [|reflexivity]. split; [intros; lra|cbn; lra].
  - split; [lra|]. intros f [<-|[<-|[<-|[<-|[]]]]]; cbn; lra.
  - assert (Incl : forall a b e, pvars 2 a -> pvars 2 b -> pvars 2 e -> (forall y, insimp 2 1 y -> 0 <= peval a y /\ 0 <= peval b y /\ 0 <= peval e y /\ peval a y + peval b y + peval e y <= 1) ->
      forall x, el_on 2 (s3 a b e) x -> el_on 3 id3 x).
    { intros a b e Va Vb Ve H x (y & Hy & Ex). destruct (H y Hy) as (A & B & C & D). exists (pt3 (peval a y) (peval b y) (peval e y)). split.
      - split; [intros [|[|[|i]]] Hi; cbn; try lra; lia|cbn; lra].
      - intros i. rewrite Ex, s3_eval, id3_eval. destruct i as [|[|[|i]]]; reflexivity. }
    assert (S : forall y, insimp 2 1 y -> 0 <= y 0%nat /\ 0 <= y 1%nat /\ y 0%nat + y 1%nat <= 1).
    { intros y (A & B). cbn [sg] in B. pose proof (A 0%nat ltac:(lia)). pose proof (A 1%nat ltac:(lia)). lra. }
    intros f [<-|[<-|[<-|[<-|[]]]]]; cbn [tet_facet fa_on fa_int]; (split; [apply el_is_integral; [try lra; exact sqrt3_pos|intros i; apply (F_vars i)]|]);
      apply Incl; try (cbn; repeat split; lia); intros y Hy; pose proof (S y Hy); cbn; lra.
  - exact tet_green.
  - exact tet_conn.
Qed.
Lemma tet_cell_fits : cell_fits 3 tet_poly tet_cell.
Proof.
  constructor; cbn [tet_poly tet_cell po_on po_int po_diam po_facets cl_elem cl_faces el_of el_basis el_diam].
  - exact tet_is_polytope.
  - apply el_fits; [lia|apply id3_vars|apply s3_deg; cbn; lia|apply s3_deg; cbn; lia|].
    intros y i Hi. rewrite id3_eval, !id3_eval. destruct i as [|[|[|i]]]; [| | |lia]; reflexivity.
  - reflexivity.
  - apply el_one; lia.
  - intros deg j. apply el_basvars, id3_vars.
  - intros deg p V Hp. destruct (el_span 3 (Nat.lt_0_succ 2) id3 id3 id3_vars (s3_deg (PX 0) (PX 1) (PX 2) (le_n 1) (le_n 1) (le_n 1)) p deg Hp) as (k & Hk).
    exists k. intros x. apply (Hk x (fun i => peval (id3 i) x)).
    + apply (pvars_ext 3); [exact V|]. intros i Hi. rewrite id3_eval, !id3_eval. destruct i as [|[|[|i]]]; [| | |lia]; reflexivity.
    + reflexivity.
  - apply el_nested; apply Nat.lt_0_succ.
  - assert (E : forall sb inv s, (forall i, pvars 2 (sb i)) -> (forall i, (pdeg (sb i) <= 1)%nat) -> (forall i, (pdeg (inv i) <= 1)%nat) ->
      (forall y i, (i < 2)%nat -> peval (inv i) (fun k => peval (sb k) y) = y i) -> forall n, 
      elem_fits (fa_on (tet_facet sb s n)) (fa_int (tet_facet sb s n)) (fc_elem (tet_face sb inv s n)) /\
      fc_normal (tet_face sb inv s n) = fa_normal (tet_facet sb s n) /\ el_diam (fc_elem (tet_face sb inv s n)) = fa_diam (tet_facet sb s n)).
    { intros sb inv s Vs Ds Di Hi n. split; [|split; reflexivity]. cbn [tet_facet tet_face fa_on fa_int fc_elem]. apply el_fits; [lia|exact Vs|exact Ds|exact Di|exact Hi]. }
    apply Forall2_cons; [|apply Forall2_cons; [|apply Forall2_cons; [|apply Forall2_cons; [|apply Forall2_nil]]]]; apply E;
      try (intros i; apply (F_vars i)); try (apply s3_deg; cbn; lia); intros y i Hi; destruct i as [|[|i]]; try lia; reflexivity.
Qed.
Lemma tet_unit f : In f (po_facets tet_poly) -> sg 3 (fun a => fa_normal f a * fa_normal f a) = 1.
Proof. intros [<-|[<-|[<-|[<-|[]]]]]; cbn; try ring. rewrite k3_sq. lra. Qed.
