(** Lemmas for C162-C164: symmetry and sign of the stabilisation with a tensor, a solver for full-rank systems, and
    unknowns of a triangle on which the scalings differ. *)
From Coq Require Import List Arith Reals Lra Lia Bool.
From Verif Require Import Poly_Spec HHO_Spec HHO_Model HHO_Setting HHO_Proofs HHO2_Proofs HHO3_Proofs HHO4_Proofs HHO5_Proofs HHO6_Proofs HHO7_Proofs HHO8_Proofs HHO9_Proofs HHO10_Proofs
  HHOInst_Proofs HHOInst2_Proofs HHOInst_Properties Stab_Model Stab_Spec Stab_Proofs Stab2_Proofs Stab3_Proofs Stab4_Proofs.
Import ListNotations.
Open Scope R_scope.

(** the normal equations solved by elimination *)
Definition ne_solve (m n : nat) (B : mtx) (b : nat -> R) : nat -> R :=
  elim_solve n (fun i j => sg m (fun k => B k i * B k j)) (fun i => sg m (fun k => B k i * b k)).
Lemma sg_sq0 n f : sg n (fun i => f i * f i) = 0 -> forall i, (i < n)%nat -> f i = 0.
Proof.
  induction n as [|n IH]; intros H i Hi; [lia|]. cbn [sg] in H.
  assert (P : 0 <= sg n (fun i => f i * f i)) by (apply sg_le; intros j _; pose proof (Rle_0_sqr (f j)) as X; unfold Rsqr in X; exact X).
  pose proof (Rle_0_sqr (f n)) as Q. unfold Rsqr in Q. destruct (Nat.eq_dec i n) as [->|Ne]; [apply Rsqr_0_uniq; unfold Rsqr; lra|].
  apply IH; [lra|lia].
Qed.
Lemma ne_apply m n B (x : nat -> R) i : sg n (fun j => sg m (fun k => B k i * B k j) * x j) = sg m (fun k => B k i * sg n (fun j => B k j * x j)).
Proof.
  transitivity (sg n (fun j => sg m (fun k => B k i * (B k j * x j)))).
  - apply sg_ext. intros j _. rewrite Rmult_comm, <- sg_scal. apply sg_ext. intros; ring.
  - rewrite sg_swap. apply sg_ext. intros k _. apply sg_scal.
Qed.
Lemma ne_quad m n B x : quadf n (fun i j => sg m (fun k => B k i * B k j)) x x = sg m (fun k => sg n (fun j => B k j * x j) * sg n (fun j => B k j * x j)).
Proof.
  unfold quadf. transitivity (sg n (fun i => sg m (fun k => x i * B k i * sg n (fun j => B k j * x j)))).
  - apply sg_ext. intros i _. rewrite ne_apply, <- sg_scal. apply sg_ext. intros; ring.
  - rewrite sg_swap. apply sg_ext. intros k _. rewrite <- (sg_scal n (sg n (fun j => B k j * x j))). apply sg_ext. intros; ring.
Qed.
Lemma ne_spd m n B : (forall x, (forall i, (i < m)%nat -> sg n (fun j => B i j * x j) = 0) -> forall j, (j < n)%nat -> x j = 0) ->
  spd n (fun i j => sg m (fun k => B k i * B k j)).
Proof.
  intros H. split; [intros i j _ _; apply sg_ext; intros; ring|]. intros x. rewrite ne_quad. split.
  - apply sg_le. intros k _. apply (Rle_0_sqr (sg n (fun j => B k j * x j))).
  - intros Z. apply H. intros i Hi. exact (sg_sq0 m (fun k => sg n (fun j => B k j * x j)) Z i Hi).
Qed.
Lemma ne_solves : solves_full_rank ne_solve.
Proof.
  intros m n B b HB (x & Hx). pose proof (ne_spd m n B HB) as S. unfold ne_solve.
  set (G := fun i j => sg m (fun k => B k i * B k j)) in *. set (r := fun i => sg m (fun k => B k i * b k)).
  set (z := elim_solve n G r).
  assert (E : forall i, (i < n)%nat -> sg n (fun j => G i j * (z j - x j)) = 0).
  { intros i Hi. transitivity (sg n (fun j => G i j * z j) - sg n (fun j => G i j * x j)).
    - unfold Rminus. rewrite <- sg_opp, <- sg_plus. apply sg_ext. intros; ring.
    - unfold z. rewrite (elim_solves n G r S i Hi). unfold G. rewrite ne_apply. unfold r. rewrite Rminus_diag_eq; [reflexivity|].
      apply sg_ext. intros k Hk. rewrite (Hx k Hk). reflexivity. }
  assert (Z : forall j, (j < n)%nat -> z j - x j = 0).
  { apply (proj2 S (fun j => z j - x j)). unfold quadf. apply sg_zero. intros i Hi. rewrite (E i Hi). ring. }
  intros i Hi. rewrite <- (Hx i Hi). apply sg_ext. intros j Hj. specialize (Z j Hj). replace (z j) with (x j) by lra. reflexivity.
Qed.

(** the stabilisation with a tensor *)
Section Tensor.
  Context (d : nat) (P : polytope) (c : scell) (HC : cell_fits d P c) (ldlt : nat -> mtx -> (nat -> R) -> nat -> R) (HS : solves_spd ldlt).
  Context (cd fd rd : nat) (rec kappa : mtx) (Hcd : (cd <= rd)%nat) (Hfd : (fd <= rd)%nat).
  Let fdi := all_faces c fd.
  Let N := num_dofs c cd fdi.
  Let S2 := hho_stabilization2 ldlt d c (mkDegs cd fd rd) rec kappa.
  Lemma t_proj u : exists r, l2proj (po_int P) cd (rec_fun c rd N rec u) r.
  Proof. apply (l2_proj_exists _ _ (poly_int _ _ (cf_poly _ _ _ HC)) _ (cf_elem _ _ _ HC) ldlt HS). Qed.
  Lemma t_jumps u q : exists rs, jumps (po_facets P) fdi (faces_funs c cd fdi u) q rs.
  Proof. apply (face_jumps_exist d P c HC ldlt HS cd fdi u q). apply map_length. Qed.
  Lemma t_sym u v : bil N S2 u v = bil N S2 v u.
  Proof.
    destruct (t_proj u) as (ru & Ru). destruct (t_proj v) as (rv & Rv).
    destruct (t_jumps u (PAdd (rec_fun c rd N rec u) (psubp (cell_fun c cd u) ru))) as (du & Du).
    destruct (t_jumps v (PAdd (rec_fun c rd N rec v) (psubp (cell_fun c cd v) rv))) as (dv & Dv).
    unfold S2, N, fdi. rewrite (stab2_form d P c HC ldlt HS cd fd rd rec kappa u v ru rv du dv Hcd Hfd Ru Rv Du Dv).
    rewrite (stab2_form d P c HC ldlt HS cd fd rd rec kappa v u rv ru dv du Hcd Hfd Rv Ru Dv Du).
    apply fsum3_swap. intros f a b Hf. rewrite (I_comm _ _ (fint d P c HC f Hf)). reflexivity.
  Qed.
  Lemma t_pos u : (forall x, 0 <= quadf d kappa x x) -> 0 <= bil N S2 u u.
  Proof.
    intros HK. destruct (t_proj u) as (ru & Ru).
    destruct (t_jumps u (PAdd (rec_fun c rd N rec u) (psubp (cell_fun c cd u) ru))) as (du & Du).
    unfold S2, N, fdi. rewrite (stab2_form d P c HC ldlt HS cd fd rd rec kappa u u ru ru du du Hcd Hfd Ru Ru Du Du).
    apply fsum3_pos. intros f a Hf. apply Rmult_le_pos; [|apply (I_sq_pos _ _ (fint d P c HC f Hf))].
    apply Rmult_le_pos; [apply HK|]. left. apply Rinv_0_lt_compat. exact (proj1 (poly_diam _ _ (cf_poly _ _ _ HC))).
  Qed.
End Tensor.

(** one cell unknown and none on the faces: the reconstruction is constant and the stabilisation is not zero *)
Section Witness.
  Let fdi := all_faces c1 0.
  Let N := num_dofs c1 0 fdi.
  Let L := hho_laplacian_cdi elim_solve 2 c1 1 0 fdi.
  Let S_ hF := hho_stabilization_cdi elim_solve c1 1 0 fdi (fst L) hF.
  Let u0 : nat -> R := delta 0.
  Lemma w_len : length fdi = length (cl_faces c1).
  Proof. reflexivity. Qed.
  Lemma w_data : bil N (snd L) u0 u0 = 0.
  Proof.
    unfold N, L. rewrite (r_data 2 T1 c1 c1_fits elim_solve elim_solves 0 1 ltac:(lia) ltac:(lia) fdi u0 u0).
    rewrite (r_eq 2 T1 c1 c1_fits elim_solve elim_solves 0 1 ltac:(lia) ltac:(lia) fdi u0 _); [| |].
    2: { apply pvars_lincomb. intros; apply (cf_vars _ _ _ c1_fits). }
    2: { apply deg_le_lincomb. intros j Hj. apply (basis_deg _ _ _ (cf_elem _ _ _ c1_fits)). lia. }
    unfold fdi. rewrite (a_patch 2 T1 c1 c1_fits None 0 0).
    rewrite (I_zero _ _ (poly_int _ _ (cf_poly _ _ _ c1_fits))).
    2: { intros x _. cbn [peval]. apply Rmult_eq_0_compat_l. unfold rec_fun. set (k := fun i : nat => sg _ _). clearbody k. cbn. ring. }
    assert (Z : forall f a b, In f (po_facets T1) -> (forall x, peval a x = 0) -> fa_int f (PMul a b) = 0).
    { intros f a b Hf Ha. apply (I_zero _ _ (fint 2 T1 c1 c1_fits f Hf)). intros x _. cbn [peval]. rewrite Ha. ring. }
    set (w := rec_fun _ _ _ _ _). clearbody w.
    cbn [T1 tri_poly po_facets] in Z |- *. cbn [faces_funs all_faces bases_of c1 tri_cell cl_faces combine map fst snd face_funs fsum2].
    rewrite !Z; [ring| | | | | |]; try (right; right; left; reflexivity); try (right; left; reflexivity); try (left; reflexivity);
      intros x; cbn; unfold u0, delta; cbn; ring.
  Qed.
  Lemma w_nonzero hF : 0 < bil N (S_ hF) u0 u0.
  Proof.
    pose proof (s_pos 2 T1 c1 c1_fits elim_solve elim_solves 0 1 ltac:(lia) fdi w_len hF u0) as [P|Z]; [exact P|exfalso].
    pose proof (s_kernel 2 T1 c1 c1_fits elim_solve elim_solves 0 1 ltac:(lia) ltac:(lia) fdi w_len hF u0) as K.
    destruct K as [K _]; [unfold fdi; intros k Hk; cbn in Hk; destruct Hk as [Hk|[Hk|[Hk|[]]]]; injection Hk as <-; lia|].
    destruct K as (k & HT & HF); [rewrite bil_add; pose proof w_data as W; unfold N, L in W; rewrite W, <- Z; lra|].
    assert (A : k = 1).
    { rewrite <- (HT (pt2 0 0)); [cbn; unfold u0, delta; cbn; ring|].
      apply (triangle_points 0 0 2 0 0 1 3). exists 0, 0. cbn. repeat split; try lra. intros [|[|i]] Hi; [lia|lia|reflexivity]. }
    assert (B : k = 0).
    { cbn [T1 tri_poly po_facets fdi all_faces faces_funs bases_of c1 tri_cell cl_faces combine map fst snd face_funs on_facets] in HF. destruct HF as [HF _].
      rewrite <- (HF (pt2 0 0)); [cbn; unfold u0, delta; cbn; ring|]. cbn [seg_facet fa_on]. exists (fun _ => 0). split.
      - split; [intros; lra|cbn; lra].
      - intros [|[|i]]; cbn; ring. }
    lra.
  Qed.
  Lemma w_differ : bil N (S_ true) u0 u0 <> bil N (S_ false) u0 u0.
  Proof.
    destruct (face_jumps_exist 2 T1 c1 c1_fits elim_solve elim_solves 0 fdi u0 (cdi_lift c1 elim_solve 0 1 N (fst L) u0) w_len) as (du & Ju).
    pose proof (s_form 2 T1 c1 c1_fits elim_solve elim_solves 0 1 ltac:(lia) fdi true u0 u0 du du Ju Ju) as Et.
    pose proof (s_form 2 T1 c1 c1_fits elim_solve elim_solves 0 1 ltac:(lia) fdi false u0 u0 du du Ju Ju) as Ef.
    pose proof (w_nonzero false) as Pf. unfold N, S_, L in *. rewrite Et. rewrite Ef in *. intros E.
    assert (Hd : forall f, In f (po_facets T1) -> 0 < fa_diam f /\ fa_diam f < 3).
    { intros f Hf. cbn [T1 tri_poly po_facets In] in Hf.
      assert (Q : forall s, 0 < s < 9 -> 0 < sqrt s /\ sqrt s < 3).
      { intros s Hs. split; [apply sqrt_lt_R0; lra|]. replace 3 with (sqrt 9) by (replace 9 with (3 * 3) by ring; apply sqrt_square; lra). apply sqrt_lt_1; lra. }
      destruct Hf as [<-|[<-|[<-|[]]]]; cbn [seg_facet fa_diam]; unfold seg_len; apply Q; lra. }
    assert (D : fsum3 (po_facets T1) du du (fun f a b => (/ fa_diam f - / 3) * fa_int f (PMul a b)) = 0).
    { transitivity (fsum3 (po_facets T1) du du (fun f a b => / sth T1 true f * fa_int f (PMul a b)) - fsum3 (po_facets T1) du du (fun f a b => / sth T1 false f * fa_int f (PMul a b))); [|lra].
      clear. unfold sth. cbn [T1 tri_poly po_facets po_diam]. destruct du as [|[a|] [|[b|] [|[e|] [|]]]]; cbn [fsum3]; ring. }
    assert (G : forall f, In f (po_facets T1) -> 0 < / fa_diam f - / 3).
    { intros f Hf. destruct (Hd f Hf) as [H1 H2]. assert (/ 3 < / fa_diam f) by (apply Rinv_lt_contravar; nra). lra. }
    apply fsum3_def in D.
    - assert (Z : fsum3 (po_facets T1) du du (fun f a b => / sth T1 false f * fa_int f (PMul a b)) = 0); [|lra].
      apply fsum3_zero_l. revert D. apply on_facets_impl. intros f a Hf D b. specialize (G f Hf). apply Rmult_integral in D as [D|D]; [lra|].
      apply Rmult_eq_0_compat_l. apply (I_zero _ _ (fint 2 T1 c1 c1_fits f Hf)). intros x Hx. cbn [peval].
      rewrite (I_sq_def _ _ (fint 2 T1 c1 c1_fits f Hf) a D x Hx). ring.
    - intros f a Hf. apply Rmult_le_pos; [left; apply G, Hf|apply (I_sq_pos _ _ (fint 2 T1 c1 c1_fits f Hf))].
  Qed.
End Witness.
