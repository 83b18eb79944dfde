(** Properties C170-C172: Dirichlet conditions imposed by Nitsche's method. *)
From Coq Require Import List Arith Reals Lra Lia Bool.
From Verif Require Import Poly_Spec Poly_Proofs HHO_Spec HHO_Model HHO_Setting HHO_Proofs HHO2_Proofs HHO3_Proofs HHO4_Proofs HHO5_Proofs HHO6_Proofs HHO7_Proofs HHO8_Proofs HHO9_Proofs
  HHOInst_Proofs HHOInst2_Proofs HHO_Properties HHOInst_Properties Stab_Model Stab_Spec Stab_Proofs Nit_Model Nit_Spec Nit_Proofs.
Import ListNotations.
Open Scope R_scope.

Lemma faces_bl c cd fd u : faces_funs c cd (all_faces c fd) u = face_funs (b_size (el_basis (cl_elem c) cd)) (bl fd (cl_faces c)) u.
Proof. unfold faces_funs. rewrite bases_all. reflexivity. Qed.

(** ** C170: what is added to the matrix and to the right-hand side of the cell: on the boundary faces, and only there,
    - (vF, grad R(u).n) - (uF, grad R(v).n) + eta/|F| (uF, vF)   and   - (g, grad R(v).n) + eta/|F| (g, vF),
    whatever matrix [rec] is given as reconstruction; [g] is a polynomial of the degree of the reconstruction.  [bnd] tells for
    each face whether it is on the boundary and its measure; [nb] is the common size of the face bases. *)
Theorem C170_form : forall d P c, cell_fits d P c -> forall cd fd rd nb, (fd <= rd)%nat -> (1 <= rd)%nat ->
  (forall fc, In fc (cl_faces c) -> b_size (el_basis (fc_elem fc) fd) = nb) ->
  forall bnd, Forall2 (fun f m => snd m = fa_measure f) (po_facets P) bnd ->
  forall rec lhs rhs g eta, deg_le g rd ->
  let fdi := all_faces c fd in let N := num_dofs c cd fdi in
  let F := faces_funs c cd fdi in let R := rec_fun c rd N rec in let B := map fst bnd in
  let '(lhs', rhs') := apply_dirichlet_via_nitsche d c bnd rec lhs rhs (mkDegs cd fd rd) N (peval g) eta in
  (forall u v, quadf N lhs' v u = quadf N lhs v u + bsum2 (po_facets P) B (F u) (F v) (fun f uF vF =>
     - fa_int f (PMul vF (ndiff d f (R u))) - fa_int f (PMul uF (ndiff d f (R v))) + eta / fa_measure f * fa_int f (PMul uF vF))) /\
  (forall v, sg N (fun k => v k * rhs' k) = sg N (fun k => v k * rhs k) + bsum (po_facets P) B (F v) (fun f vF =>
     - fa_int f (PMul g (ndiff d f (R v))) + eta / fa_measure f * fa_int f (PMul g vF))).
Proof.
  intros d P c HC cd fd rd nb Hfd Hrd Hnb bnd Hb rec lhs rhs g eta Dg fdi N F R B.
  pose proof (nit_fold d P c HC cd fd rd N nb rec eta Hfd Hrd g _ _ bnd (faces_fit d P c HC) Hb Hnb 0 lhs rhs
    ltac:(unfold N, num_dofs, fdi, bl; rewrite bases_all, Nat.mul_0_r, Nat.add_0_r; lia)) as Q. cbv zeta in Q.
  unfold apply_dirichlet_via_nitsche. destruct (fold_left _ _ _) as [[j lhs'] rhs'] eqn:E. cbn [fst snd] in Q. destruct Q as (Q1 & Q2).
  rewrite Nat.mul_0_r, Nat.add_0_r in Q1, Q2. unfold F, fdi. split.
  - intros u v. rewrite !faces_bl. apply Q1.
  - intros v. rewrite !faces_bl. apply Q2, Dg.
Qed.
(** a symmetric matrix stays symmetric *)
Theorem C170_symmetric : forall d P c, cell_fits d P c -> forall cd fd rd nb, (fd <= rd)%nat -> (1 <= rd)%nat ->
  (forall fc, In fc (cl_faces c) -> b_size (el_basis (fc_elem fc) fd) = nb) ->
  forall bnd, Forall2 (fun f m => snd m = fa_measure f) (po_facets P) bnd ->
  forall rec lhs rhs g eta, deg_le g rd ->
  let N := num_dofs c cd (all_faces c fd) in
  (forall u v, quadf N lhs v u = quadf N lhs u v) ->
  let lhs' := fst (apply_dirichlet_via_nitsche d c bnd rec lhs rhs (mkDegs cd fd rd) N (peval g) eta) in
  forall u v, quadf N lhs' v u = quadf N lhs' u v.
Proof.
  intros d P c HC cd fd rd nb Hfd Hrd Hnb bnd Hb rec lhs rhs g eta Dg N Hs. cbv zeta.
  pose proof (C170_form d P c HC cd fd rd nb Hfd Hrd Hnb bnd Hb rec lhs rhs g eta Dg) as Q. cbv zeta in Q. fold N in Q.
  destruct (apply_dirichlet_via_nitsche _ _ _ _ _ _ _ _ _ _) as [lhs' rhs']. cbn [fst]. destruct Q as (Q & _). intros u v. rewrite !Q, Hs. f_equal.
  assert (FI : forall f, In f (po_facets P) -> integral (fa_on f) (fa_int f)) by (intros f Hf; apply (poly_facets _ _ (cf_poly _ _ _ HC) f Hf)).
  clear Q Hb Hs. revert FI. generalize (map fst bnd) (faces_funs c cd (all_faces c fd) u) (faces_funs c cd (all_faces c fd) v).
  induction (po_facets P) as [|f fs IH]; intros [|b B] [|[a|] us] [|[a'|] vs] FI; cbn [bsum2]; try reflexivity.
  rewrite (IH B us vs) by (intros f' Hf'; apply FI; right; exact Hf'). destruct b; [|reflexivity].
  rewrite (I_comm _ _ (FI f (or_introl eq_refl)) a a'). ring.
Qed.

(** ** C171: consistency.  For the interpolate of a polynomial p of the degree of the reconstruction and the boundary
    datum g = p, the residual of the cell changes by - (vF, grad p . n) on the boundary faces and nothing else: the
    penalisation and the symmetrising term cancel.  With the HHO operator and stabilisation and a right-hand side
    (-lap p, vT), what remains is the flux through the faces inside the domain. *)
Theorem C171_consistent : forall ldlt, solves_spd ldlt -> forall d P c, cell_fits d P c -> forall cd fd rd nb proj di p,
  (1 <= rd)%nat -> (cd <= rd <= cd + 2)%nat -> (fd <= rd <= fd + 1)%nat -> (rd <= cd + 2 * di)%nat -> (rd <= fd + 2 * di)%nat ->
  pvars d p -> deg_le p rd ->
  (forall fc, In fc (cl_faces c) -> b_size (el_basis (fc_elem fc) fd) = nb) ->
  forall bnd, Forall2 (fun f m => snd m = fa_measure f) (po_facets P) bnd ->
  forall lhs rhs eta,
  let fdi := all_faces c fd in let N := num_dofs c cd fdi in
  let u := project_hho ldlt c (mkDegs cd fd rd) (peval p) di in
  let oper := fst (make_scalar_hho_laplacian ldlt d None proj c (mkDegs cd fd rd)) in
  let '(lhs', rhs') := apply_dirichlet_via_nitsche d c bnd oper lhs rhs (mkDegs cd fd rd) N (peval p) eta in
  forall v, quadf N lhs' v u - sg N (fun k => v k * rhs' k) =
    quadf N lhs v u - sg N (fun k => v k * rhs k) -
    bsum (po_facets P) (map fst bnd) (faces_funs c cd fdi v) (fun f vF => fa_int f (PMul vF (ndiff d f p))).
Proof.
  intros ldlt HS d P c HC cd fd rd nb proj di p Hrd Hcd Hfd H1 H2 Hv Hp Hnb bnd Hb lhs rhs eta fdi N u oper.
  pose proof (C170_form d P c HC cd fd rd nb ltac:(lia) Hrd Hnb bnd Hb oper lhs rhs p eta Hp) as Q. cbv zeta in Q. fold fdi N in Q.
  destruct (apply_dirichlet_via_nitsche _ _ _ _ _ _ _ _ _ _) as [lhs' rhs']. destruct Q as (Q1 & Q2). intros v. rewrite Q1, Q2.
  assert (L : length (map fst bnd) = length (po_facets P)) by (rewrite map_length; symmetry; eapply F2_len; exact Hb).
  pose proof (nit_diff d P c HC ldlt HS rd cd fd Hrd ltac:(lia) ltac:(lia) proj ltac:(intros; lia) p di Hv Hp ltac:(lia) ltac:(lia) H1 H2 eta v (map fst bnd) _ _ (faces_fit d P c HC) (fun f H => H) L) as D.
  pose proof (interp_T d P c HC ldlt HS rd cd fd Hrd ltac:(lia) ltac:(lia) proj ltac:(intros; lia) p di Hp ltac:(lia) ltac:(lia) H1 H2) as T. rewrite faces_bl in T. specialize (D _ T).
  unfold fdi. rewrite !faces_bl. fold fdi N u oper in D |- *.
  change (nit_term d c rd N oper eta u v) with (fun f uF vF =>
     - fa_int f (PMul vF (ndiff d f (rec_fun c rd N oper u))) - fa_int f (PMul uF (ndiff d f (rec_fun c rd N oper v))) + eta / fa_measure f * fa_int f (PMul uF vF)) in D.
  change (nit_rterm d c rd N oper eta p v) with (fun f vF => - fa_int f (PMul p (ndiff d f (rec_fun c rd N oper v))) + eta / fa_measure f * fa_int f (PMul p vF)) in D.
  lra.
Qed.
Theorem C171_patch : forall ldlt, solves_spd ldlt -> forall d P c, cell_fits d P c -> forall cd fd rd nb proj di p,
  (1 <= rd)%nat -> (cd <= rd <= cd + 2)%nat -> (fd <= rd <= fd + 1)%nat -> (rd <= cd + 2 * di)%nat -> (rd <= fd + 2 * di)%nat ->
  pvars d p -> deg_le p rd ->
  (forall fc, In fc (cl_faces c) -> b_size (el_basis (fc_elem fc) fd) = nb) ->
  forall bnd, Forall2 (fun f m => snd m = fa_measure f) (po_facets P) bnd ->
  forall rhs eta,
  let fdi := all_faces c fd in let N := num_dofs c cd fdi in
  let u := project_hho ldlt c (mkDegs cd fd rd) (peval p) di in
  let '(oper, data) := make_scalar_hho_laplacian ldlt d None proj c (mkDegs cd fd rd) in
  let lhs := maddm data (make_scalar_hho_stabilization ldlt c (mkDegs cd fd rd) oper) in
  (forall v, sg N (fun k => v k * rhs k) = - po_int P (PMul (cell_fun c cd v) (divk d delta p))) ->
  let '(lhs', rhs') := apply_dirichlet_via_nitsche d c bnd oper lhs rhs (mkDegs cd fd rd) N (peval p) eta in
  forall v, quadf N lhs' v u - sg N (fun k => v k * rhs' k) =
    bsum (po_facets P) (map negb (map fst bnd)) (faces_funs c cd fdi v) (fun f vF => fa_int f (PMul vF (ndiff d f p))).
Proof.
  intros ldlt HS d P c HC cd fd rd nb proj di p Hrd Hcd Hfd H1 H2 Hv Hp Hnb bnd Hb rhs eta fdi N u.
  pose proof (C99_patch ldlt HS d P c HC None (spd_delta d) cd fd rd proj di p Hrd Hcd ltac:(lia) ltac:(intros; lia) H1 H2 Hv Hp) as A. cbv zeta in A.
  assert (Q := fun lhs => C171_consistent ldlt HS d P c HC cd fd rd nb proj di p Hrd Hcd Hfd H1 H2 Hv Hp Hnb bnd Hb lhs rhs eta). cbv zeta in Q.
  destruct (make_scalar_hho_laplacian ldlt d None proj c (mkDegs cd fd rd)) as [oper data]. intros lhs Hr. cbn [fst] in Q. specialize (Q lhs). fold fdi N u in A, Q.
  destruct (apply_dirichlet_via_nitsche _ _ _ _ _ _ _ _ _ _) as [lhs' rhs']. intros v. rewrite Q, Hr. destruct (A v) as (_ & E). cbn [tensor_of] in E. fold lhs in E. rewrite E.
  assert (L : length (map fst bnd) = length (po_facets P)) by (rewrite map_length; symmetry; eapply F2_len; exact Hb).
  assert (LL : length (cl_faces c) = length (po_facets P)) by (symmetry; eapply F2_len; apply (faces_fit d P c HC)).
  rewrite (fsum2_ext _ _ _ (fun f vF => fa_int f (PMul vF (ndiff d f p)))).
  - unfold fdi. rewrite faces_bl. destruct (face_funs_some fd (cl_faces c) v (b_size (el_basis (cl_elem c) cd))) as (L1 & L2).
    rewrite (bsum_split _ (map fst bnd)) by (assumption || congruence). lra.
  - intros f vF Hf. apply (I_ext _ _ (proj1 (poly_facets _ _ (cf_poly _ _ _ HC) f Hf))). intros x. cbn [peval]. rewrite ndiff_flux. reflexivity.
Qed.

(** ** C172: the penalisation.  For every cell there is a threshold beyond which the form stays bounded below by half the
    energy of the reconstruction plus the rest, and controls the boundary unknowns. *)
Theorem C172_threshold : forall ldlt, solves_spd ldlt -> forall d P c, cell_fits d P c -> forall cd fd rd nb, (fd <= rd)%nat -> (1 <= rd)%nat ->
  (forall fc, In fc (cl_faces c) -> b_size (el_basis (fc_elem fc) fd) = nb) ->
  exists eta0, forall bnd, Forall2 (fun f m => snd m = fa_measure f) (po_facets P) bnd ->
  forall rec lhs rhs g eta, deg_le g rd ->
  let fdi := all_faces c fd in let N := num_dofs c cd fdi in
  let lhs' := fst (apply_dirichlet_via_nitsche d c bnd rec lhs rhs (mkDegs cd fd rd) N (peval g) eta) in
  let R := rec_fun c rd N rec in
  forall u, quadf N lhs' u u >=
    quadf N lhs u u - / 2 * po_int P (graddot d (R u) (kgrad d delta (R u))) +
    (eta - eta0) * bsum (po_facets P) (map fst bnd) (faces_funs c cd fdi u) (fun f uF => / fa_measure f * fa_int f (PMul uF uF)).
Proof.
  intros ldlt HS d P c HC cd fd rd nb Hfd Hrd Hnb. destruct (trace_bound d P c HC ldlt HS rd) as (C & C0 & HT).
  assert (FI : forall f, In f (po_facets P) -> integral (fa_on f) (fa_int f)) by (intros f Hf; apply (poly_facets _ _ (cf_poly _ _ _ HC) f Hf)).
  assert (M0 : forall f, In f (po_facets P) -> 0 <= fa_measure f) by (intros f Hf; apply (int_pos _ _ (FI f Hf)); intros; cbn; lra).
  exists (2 * C * fsum (po_facets P) fa_measure).
  intros bnd Hb rec lhs rhs g eta Dg fdi N. cbv zeta.
  pose proof (C170_form d P c HC cd fd rd nb Hfd Hrd Hnb bnd Hb rec lhs rhs g eta Dg) as Q. cbv zeta in Q. fold fdi N in Q.
  destruct (apply_dirichlet_via_nitsche _ _ _ _ _ _ _ _ _ _) as [lhs' rhs']. cbn [fst]. destruct Q as (Q & _). intros u. rewrite Q.
  pose proof (HT (mv N rec u)) as T. change (tailf c rd (mv N rec u)) with (rec_fun c rd N rec u) in T. set (r := rec_fun c rd N rec u) in *.
  change (en d P delta r r) with (po_int P (graddot d r (kgrad d delta r))) in T. set (e := po_int P (graddot d r (kgrad d delta r))) in *.
  set (MM := fsum (po_facets P) fa_measure).
  assert (MX : forall f, In f (po_facets P) -> fa_measure f <= MM).
  { unfold MM. clear - M0. induction (po_facets P) as [|f fs IH]; intros f' Hin; [contradiction|]. cbn [fsum].
    pose proof (M0 f (or_introl eq_refl)). assert (Z : 0 <= fsum fs fa_measure).
    { clear - M0. assert (G : forall l, (forall f, In f l -> 0 <= fa_measure f) -> 0 <= fsum l fa_measure).
      { induction l as [|x l IHl]; intros H; cbn [fsum]; [lra|]. pose proof (H x (or_introl eq_refl)). assert (0 <= fsum l fa_measure) by (apply IHl; intros; apply H; right; assumption). lra. }
      apply G. intros; apply M0; right; assumption. }
    destruct Hin as [<-|Hin]; [lra|]. assert (fa_measure f' <= fsum fs fa_measure) by (apply IH; [intros; apply M0; right; assumption|exact Hin]). lra. }
  assert (G : forall fs bs us, (forall f, In f fs -> In f (po_facets P)) ->
    bsum2 fs bs us us (fun f uF vF => - fa_int f (PMul vF (ndiff d f r)) - fa_int f (PMul uF (ndiff d f r)) + eta / fa_measure f * fa_int f (PMul uF vF)) >=
    - / (2 * C) * fsum fs (fun f => fa_int f (PMul (ndiff d f r) (ndiff d f r))) +
    (eta - 2 * C * MM) * bsum2 fs bs us us (fun f uF _ => / fa_measure f * fa_int f (PMul uF uF))).
  { assert (IC : 0 < / (2 * C)) by (apply Rinv_0_lt_compat; lra).
    assert (SQ : forall f q, In f (po_facets P) -> 0 <= fa_int f (PMul q q)) by (intros f q Hf; apply (int_pos _ _ (FI f Hf)); intros; cbn [peval]; apply Rle_0_sqr).
    assert (SS : forall fs, (forall f, In f fs -> In f (po_facets P)) -> 0 <= fsum fs (fun f => fa_int f (PMul (ndiff d f r) (ndiff d f r)))).
    { induction fs as [|f fs IH]; intros Hin; cbn [fsum]; [lra|]. pose proof (SQ f (ndiff d f r) (Hin f (or_introl eq_refl))). assert (0 <= fsum fs (fun f => fa_int f (PMul (ndiff d f r) (ndiff d f r)))) by (apply IH; intros; apply Hin; right; assumption). lra. }
    induction fs as [|f fs IH]; intros bs us Hin; [destruct bs, us; cbn; lra|].
    pose proof (SS (f :: fs) Hin) as S0. assert (Hf : In f (po_facets P)) by (apply Hin; left; reflexivity).
    destruct bs as [|b bs], us as [|[a|] us]; cbn [bsum2]; try nra.
    specialize (IH bs us (fun f' H => Hin f' (or_intror H))). cbn [fsum]. pose proof (SQ f (ndiff d f r) Hf) as S1.
    set (B1 := bsum2 fs bs us us _) in *. set (B2 := bsum2 fs bs us us _) in *. set (F1 := fsum fs _) in *.
    set (nn := fa_int f (PMul (ndiff d f r) (ndiff d f r))) in *.
    destruct b; [|nra].
    assert (Y : 2 * fa_int f (PMul a (ndiff d f r)) <= 2 * C * fa_int f (PMul a a) + / (2 * C) * nn).
    { pose proof (SQ f (psubp (pscal (2 * C) a) (ndiff d f r)) Hf) as S2. rewrite (I_mul_sub_l _ _ (FI f Hf)), !(I_mul_sub_r _ _ (FI f Hf)) in S2.
      rewrite (I_ext _ _ (FI f Hf) (PMul (pscal (2 * C) a) (pscal (2 * C) a)) (pscal (2 * C * (2 * C)) (PMul a a))) in S2 by (intros; unfold pscal; cbn [peval]; ring).
      rewrite (I_ext _ _ (FI f Hf) (PMul (pscal (2 * C) a) (ndiff d f r)) (pscal (2 * C) (PMul a (ndiff d f r)))) in S2 by (intros; unfold pscal; cbn [peval]; ring).
      rewrite (I_ext _ _ (FI f Hf) (PMul (ndiff d f r) (pscal (2 * C) a)) (pscal (2 * C) (PMul a (ndiff d f r)))) in S2 by (intros; unfold pscal; cbn [peval]; ring).
      rewrite !(int_scal _ _ (FI f Hf)) in S2. fold nn in S2.
      apply (Rmult_le_reg_l (2 * C)); [lra|]. replace (2 * C * (2 * C * fa_int f (PMul a a) + / (2 * C) * nn)) with (2 * C * (2 * C) * fa_int f (PMul a a) + nn) by (field; lra). lra. }
    pose proof (SQ f a Hf) as S3. set (aa := fa_int f (PMul a a)) in *. set (an := fa_int f (PMul a (ndiff d f r))) in *.
    assert (W : 2 * C * aa <= 2 * C * MM * (/ fa_measure f * aa)).
    { destruct (Req_dec (fa_measure f) 0) as [Z|NZ].
      - (* a face of measure zero carries no function *)
        assert (A0 : aa = 0).
        { unfold aa. apply (I_zero _ _ (FI f Hf)). intros x Hx. exfalso. pose proof (int_def _ _ (FI f Hf) (PC 1) ltac:(intros; cbn; lra) Z x Hx) as O. cbn in O. lra. }
        rewrite A0. lra.
      - pose proof (M0 f Hf). pose proof (MX f Hf). assert (aa = fa_measure f * (/ fa_measure f * aa)) as AA by (field; exact NZ).
        assert (0 <= / fa_measure f * aa) by (apply Rmult_le_pos; [apply Rlt_le, Rinv_0_lt_compat; lra|exact S3]).
        rewrite AA at 1. rewrite !Rmult_assoc. apply Rmult_le_compat_l; [lra|]. apply Rmult_le_compat_l; [lra|]. apply Rmult_le_compat_r; assumption. }
    unfold Rdiv. rewrite Rmult_assoc. set (am := / fa_measure f * aa) in *. nra. }
  specialize (G (po_facets P) (map fst bnd) (faces_funs c cd fdi u) (fun f H => H)).
  assert (T2 : / (2 * C) * fsum (po_facets P) (fun f => fa_int f (PMul (ndiff d f r) (ndiff d f r))) <= / 2 * e).
  { replace (/ 2 * e) with (/ (2 * C) * (C * e)) by (field; lra). apply Rmult_le_compat_l; [apply Rlt_le, Rinv_0_lt_compat; lra|exact T]. }
  unfold bsum. fold MM. lra.
Qed.

(** above the threshold, with the HHO operator and stabilisation and a boundary face of positive measure, the matrix of the cell is
    positive definite *)
Lemma bsum_pos fs bs us : (forall f, In f fs -> integral (fa_on f) (fa_int f)) ->
  0 <= bsum fs bs us (fun f a => / fa_measure f * fa_int f (PMul a a)).
Proof.
  unfold bsum. revert bs us. induction fs as [|f fs IH]; intros [|b bs] [|[a|] us] FI; cbn [bsum2]; try lra.
  specialize (IH bs us (fun f' Hf' => FI f' (or_intror Hf'))). pose proof (FI f (or_introl eq_refl)) as FF.
  assert (0 <= fa_int f (PMul a a)) by (apply (int_pos _ _ FF); intros; cbn [peval]; apply Rle_0_sqr).
  assert (0 <= fa_measure f) by (apply (int_pos _ _ FF); intros; cbn; lra).
  destruct b; [|lra]. destruct (Req_dec (fa_measure f) 0) as [Z|NZ].
  - rewrite (I_zero _ _ FF (PMul a a)); [lra|]. intros x Hx. exfalso. pose proof (int_def _ _ FF (PC 1) ltac:(intros; cbn; lra) Z x Hx) as O. cbn in O. lra.
  - assert (0 <= / fa_measure f * fa_int f (PMul a a)) by (apply Rmult_le_pos; [apply Rlt_le, Rinv_0_lt_compat; lra|assumption]). lra.
Qed.
Lemma bsum_def k fs bs us : (forall f, In f fs -> integral (fa_on f) (fa_int f)) -> length us = length fs -> ~ In None us ->
  bsum fs bs us (fun f a => / fa_measure f * fa_int f (PMul a a)) = 0 -> on_facets fs us (fun f a => forall x, fa_on f x -> peval a x = k) ->
  (exists f, In (f, true) (combine fs bs) /\ fa_measure f <> 0) -> k = 0.
Proof.
  revert bs us. induction fs as [|f fs IH]; intros [|b bs] [|[a|] us] FI L HN Z HO (g & Hin & Hm); try discriminate; try contradiction; [|exfalso; apply HN; left; reflexivity].
  pose proof (bsum_pos fs bs us (fun f' Hf' => FI f' (or_intror Hf'))) as P1. pose proof (bsum_pos [f] [b] [Some a] ltac:(intros f' [<-|[]]; apply FI; left; reflexivity)) as P2.
  unfold bsum in *. cbn [bsum2] in *. destruct HO as (H1 & H2). destruct Hin as [E|Hin].
  - injection E as <- ->. pose proof (FI f (or_introl eq_refl)) as FF.
    assert (S0 : 0 <= fa_int f (PMul a a)) by (apply (int_pos _ _ FF); intros; cbn [peval]; apply Rle_0_sqr).
    assert (A : fa_int f (PMul a a) = 0).
    { assert (Z1 : / fa_measure f * fa_int f (PMul a a) = 0) by lra. apply (Rmult_eq_reg_l (/ fa_measure f)); [lra|apply Rinv_neq_0_compat, Hm]. }
    rewrite (int_ext _ _ FF _ (pscal (k * k) (PC 1))) in A by (intros x Hx; unfold pscal; cbn [peval]; rewrite (H1 x Hx); ring).
    rewrite (int_scal _ _ FF) in A. fold (fa_measure f) in A. apply Rmult_integral in A as [A|A]; [nra|contradiction].
  - apply (IH bs us); [intros f' Hf'; apply FI; right; exact Hf'|cbn in L; lia|intros H; apply HN; right; exact H|lra|exact H2|exists g; split; assumption].
Qed.
Theorem C172_definite : forall ldlt, solves_spd ldlt -> forall d P c, cell_fits d P c -> forall cd fd rd nb proj, (1 <= rd)%nat -> (fd <= rd <= fd + 1)%nat -> (cd <= rd <= cd + 2)%nat ->
  (forall fc, In fc (cl_faces c) -> b_size (el_basis (fc_elem fc) fd) = nb) ->
  exists eta0, forall bnd, Forall2 (fun f m => snd m = fa_measure f) (po_facets P) bnd ->
  (exists f, In (f, true) (combine (po_facets P) (map fst bnd)) /\ fa_measure f <> 0) ->
  forall rhs g eta, deg_le g rd -> eta0 < eta ->
  let fdi := all_faces c fd in let N := num_dofs c cd fdi in
  let '(oper, data) := make_scalar_hho_laplacian ldlt d None proj c (mkDegs cd fd rd) in
  let lhs := maddm data (make_scalar_hho_stabilization ldlt c (mkDegs cd fd rd) oper) in
  let lhs' := fst (apply_dirichlet_via_nitsche d c bnd oper lhs rhs (mkDegs cd fd rd) N (peval g) eta) in
  forall u, 0 <= quadf N lhs' u u /\
    (quadf N lhs' u u = 0 -> (forall x, po_on P x -> peval (cell_fun c cd u) x = 0) /\
       on_facets (po_facets P) (faces_funs c cd fdi u) (fun f uF => forall x, fa_on f x -> peval uF x = 0)).
Proof.
  intros ldlt HS d P c HC cd fd rd nb proj Hrd Hfd Hcd Hnb.
  destruct (C172_threshold ldlt HS d P c HC cd fd rd nb ltac:(lia) Hrd Hnb) as (eta0 & H). exists eta0. intros bnd Hb Hex rhs g eta Dg He fdi N.
  pose proof (C98_kernel ldlt HS d P c HC None (spd_delta d) cd fd rd proj) as K. cbv zeta in K. specialize (K ltac:(lia) ltac:(lia) ltac:(intros; lia)).
  pose proof (C94_reconstruction ldlt HS d P c HC None (spd_delta d) cd fd rd proj Hrd ltac:(lia) ltac:(intros; lia)) as A. cbv zeta in A.
  pose proof (C96_symmetric_positive ldlt HS d P c HC None cd fd rd proj ltac:(lia)) as SP. cbv zeta in SP.
  destruct (make_scalar_hho_laplacian ldlt d None proj c (mkDegs cd fd rd)) as [oper data]. cbn [fst] in SP. intros lhs lhs' u. fold fdi N in K, A, SP. destruct A as (_ & A).
  specialize (H bnd Hb oper lhs rhs g eta Dg u). cbv zeta in H. fold fdi N lhs' in H.
  assert (FI : forall f, In f (po_facets P) -> integral (fa_on f) (fa_int f)) by (intros f Hf; apply (poly_facets _ _ (cf_poly _ _ _ HC) f Hf)).
  pose proof (bsum_pos (po_facets P) (map fst bnd) (faces_funs c cd fdi u) FI) as BP. set (B := bsum _ _ _ _) in *.
  specialize (A u u). cbn [tensor_of] in A. set (e := po_int P _) in A. fold e in H.
  assert (L : quadf N lhs u u = e + quadf N (make_scalar_hho_stabilization ldlt c (mkDegs cd fd rd) oper) u u) by (rewrite <- A; apply (bil_add N data _ u u)).
  destruct (SP u u) as (_ & SP'). assert (E0 : 0 <= e) by (apply (en_pos d P (cf_poly _ _ _ HC) delta (spd_delta d))).
  assert (EB : 0 <= (eta - eta0) * B) by (apply Rmult_le_pos; lra). split; [lra|]. intros Z.
  assert (QZ : quadf N lhs u u = 0) by lra. assert (BZ : (eta - eta0) * B = 0) by lra.
  assert (B0 : B = 0) by (apply (Rmult_eq_reg_l (eta - eta0)); lra).
  destruct (K u) as (_ & K2). apply K2 in QZ as (k & K3 & K4).
  destruct (face_funs_some fd (cl_faces c) u (b_size (el_basis (cl_elem c) cd))) as (L1 & L2). unfold fdi in *. rewrite <- faces_bl in L1, L2.
  assert (LL : length (cl_faces c) = length (po_facets P)) by (symmetry; eapply F2_len; apply (faces_fit d P c HC)).
  pose proof (bsum_def k _ _ _ FI (eq_trans L1 LL) L2 B0 K4 Hex) as ->. split; assumption.
Qed.

(** The default penalisation, 1, may be below it: on the one-cell mesh of the triangle (0,0), (2,0), (0,1), lowest order,
    the matrix of the cell (here of the whole problem) takes a negative value on the interpolate of y - 1/2. *)
Lemma T1_points x : po_on T1 x -> 0 <= x 1%nat <= 1.
Proof. intros H. apply triangle_points in H as (s & t & Hs & Ht & Hst & _ & E & _). lra. Qed.
Lemma T1_area : po_int T1 (PC 1) = 1.
Proof.
  rewrite <- (exact_int _ _ (poly_int _ _ (cf_poly _ _ _ c1_fits)) _ (fit_quad _ _ _ (cf_elem _ _ _ c1_fits)) 2 (PC 1)) by apply deg_le_const.
  cbn. replace ((2 - 0) * (1 - 0) - (0 - 0) * (0 - 0)) with 2 by ring. rewrite (Rabs_right 2) by lra. field.
Qed.
Definition T1_bnd : list (bool * R) := map (fun f => (true, fa_measure f)) (po_facets T1).
Lemma T1_bnd_ok : Forall2 (fun f m => snd m = fa_measure f) (po_facets T1) T1_bnd.
Proof. unfold T1_bnd. induction (po_facets T1); cbn [map]; constructor; [reflexivity|assumption]. Qed.
Lemma T1_sizes : forall fc, In fc (cl_faces c1) -> b_size (el_basis (fc_elem fc) 0) = 1%nat.
Proof. intros fc H. cbn in H. repeat (destruct H as [<-|H]; [reflexivity|]). contradiction. Qed.
Definition nit_p : pexp := PAdd (PX 1) (PC (- (1 / 2))).
Lemma nit_p_deg n : (1 <= n)%nat -> deg_le nit_p n.
Proof. intros H. exists nit_p. split; [cbn; lia|reflexivity]. Qed.
Theorem C172_default_refuted :
  let N := num_dofs c1 0 (all_faces c1 0) in
  let u := project_hho elim_solve c1 (mkDegs 0 0 1) (peval nit_p) 1 in
  let '(oper, data) := make_scalar_hho_laplacian elim_solve 2 None false c1 (mkDegs 0 0 1) in
  let lhs := maddm data (make_scalar_hho_stabilization elim_solve c1 (mkDegs 0 0 1) oper) in
  let lhs' := fst (apply_dirichlet_via_nitsche 2 c1 T1_bnd oper lhs zeroV (mkDegs 0 0 1) N (peval nit_p) 1) in
  cell_fits 2 T1 c1 /\ Forall2 (fun f m => snd m = fa_measure f) (po_facets T1) T1_bnd /\ map fst T1_bnd = map (fun _ => true) (po_facets T1) /\
  quadf N lhs' u u < 0.
Proof.
  cbv zeta. set (N := num_dofs c1 0 (all_faces c1 0)). set (u := project_hho elim_solve c1 (mkDegs 0 0 1) (peval nit_p) 1).
  assert (Vp : pvars 2 nit_p) by (cbn; repeat split; lia). pose proof (nit_p_deg 1 ltac:(lia)) as Dp.
  pose proof (C99_patch elim_solve elim_solves 2 T1 c1 c1_fits None (spd_delta 2) 0 0 1 false 1 nit_p ltac:(lia) ltac:(lia) ltac:(lia) ltac:(discriminate) ltac:(lia) ltac:(lia) Vp Dp) as A. cbv zeta in A.
  assert (Q := fun rec lhs => C170_form 2 T1 c1 c1_fits 0 0 1 1 ltac:(lia) ltac:(lia) T1_sizes T1_bnd T1_bnd_ok rec lhs zeroV nit_p 1 Dp). cbv zeta in Q.
  pose proof (fun f x => ndiff_interp 2 T1 c1 c1_fits elim_solve elim_solves 1 0 0 ltac:(lia) ltac:(lia) ltac:(lia) false ltac:(discriminate) nit_p 1 Vp Dp ltac:(lia) ltac:(lia) ltac:(lia) ltac:(lia) f x) as ND.
  pose proof (interp_T 2 T1 c1 c1_fits elim_solve elim_solves 1 0 0 ltac:(lia) ltac:(lia) ltac:(lia) false ltac:(discriminate) nit_p 1 Dp ltac:(lia) ltac:(lia) ltac:(lia) ltac:(lia)) as T.
  fold N u in A, ND, T.
  destruct (make_scalar_hho_laplacian elim_solve 2 None false c1 (mkDegs 0 0 1)) as [oper data]. cbn [fst] in ND.
  split; [exact c1_fits|]. split; [exact T1_bnd_ok|]. split; [unfold T1_bnd; rewrite map_map; reflexivity|].
  set (lhs := maddm data _) in *. specialize (Q oper lhs). fold N in Q.
  destruct (apply_dirichlet_via_nitsche _ _ _ _ _ _ _ _ _ _) as [lhs' rhs']. cbn [fst]. destruct Q as (Q & _). rewrite Q. destruct (A u) as (_ & A2). rewrite A2. clear Q A A2.
  pose proof (cf_poly _ _ _ c1_fits) as HP. pose proof (poly_int _ _ HP) as HI.
  assert (FI : forall f, In f (po_facets T1) -> integral (fa_on f) (fa_int f)) by (intros f Hf; apply (poly_facets _ _ HP f Hf)).
  rewrite (I_zero _ _ HI (PMul (cell_fun c1 0 u) (divk 2 (tensor_of None) nit_p))) by (intros x _; cbn; ring).
  assert (EE : fsum (po_facets T1) (fun f => fa_int f (PMul nit_p (ndiff 2 f nit_p))) = 1).
  { pose proof (en_green 2 T1 HP delta nit_p nit_p) as G. rewrite (I_zero _ _ HI (PMul nit_p (divk 2 delta nit_p))) in G by (intros x _; cbn; ring).
    assert (en 2 T1 delta nit_p nit_p = 1) as E1 by (unfold en; rewrite <- T1_area; apply (I_ext _ _ HI); intros x; cbn; ring).
    rewrite E1 in G. rewrite G, Ropp_0, Rplus_0_l. apply fsum_ext. intros f Hf. apply (I_ext _ _ (FI f Hf)). intros x. cbn [peval]. rewrite ndiff_flux. reflexivity. }
  unfold T1_bnd. rewrite map_map. cbn [fst]. rewrite (faces_bl c1 0 0 u) in T |- *.
  assert (G : forall fs fcs off, Forall2 face_fit fs fcs -> (forall f, In f fs -> In f (po_facets T1)) ->
    on_facets fs (face_funs off (bl 0 fcs) u) (fun f u => forall w, deg_le w 0 -> fa_int f (PMul w (psubp nit_p u)) = 0) ->
    fsum2 fs (face_funs off (bl 0 fcs) u) (fun f vF => fa_int f (PMul vF (flux 2 (tensor_of None) (fa_normal f) nit_p))) +
    bsum2 fs (map (fun _ => true) fs) (face_funs off (bl 0 fcs) u) (face_funs off (bl 0 fcs) u) (fun f uF vF =>
     - fa_int f (PMul vF (ndiff 2 f (rec_fun c1 1 N oper u))) - fa_int f (PMul uF (ndiff 2 f (rec_fun c1 1 N oper u))) + 1 / fa_measure f * fa_int f (PMul uF vF)) <=
    - fsum fs (fun f => fa_int f (PMul nit_p (ndiff 2 f nit_p))) + / 4 * INR (length fs)).
  { intros fs fcs off H. revert off. induction H as [|f fc fs fcs Hf H IH]; intros off Hin TT; [cbn; lra|]. cbn [length]. rewrite S_INR.
    unfold bl in *. cbn [map bases_l fst snd face_funs on_facets fsum fsum2 bsum2] in *. fold (bases_l (map (fun fc => (fc, Some 0%nat)) fcs)) in *. destruct TT as (T1' & T2').
    specialize (IH _ (fun f' Hf' => Hin f' (or_intror Hf')) T2'). pose proof (Hin f (or_introl eq_refl)) as Hf'. pose proof (FI f Hf') as FF.
    set (a := lincomb _ _ _) in *. assert (Da : deg_le a 0) by (apply (fun_deg _ _ _ (proj1 (proj1 Hf)))).
    assert (X1 : fa_int f (PMul a (ndiff 2 f (rec_fun c1 1 N oper u))) = fa_int f (PMul nit_p (ndiff 2 f nit_p))).
    { rewrite (int_ext _ _ FF _ (PMul (ndiff 2 f nit_p) a)) by (intros x Hx; cbn [peval]; rewrite (ND f x Hf' Hx); ring).
      pose proof (T1' (ndiff 2 f nit_p) (deg_ndiff 2 f nit_p 1 Dp)) as Z. rewrite (I_mul_sub_r _ _ FF) in Z. rewrite (I_comm _ _ FF nit_p). lra. }
    assert (X2 : fa_int f (PMul a (flux 2 (tensor_of None) (fa_normal f) nit_p)) = fa_int f (PMul nit_p (ndiff 2 f nit_p))).
    { rewrite (I_ext _ _ FF _ (PMul (ndiff 2 f nit_p) a)) by (intros x; cbn [peval]; rewrite ndiff_flux; cbn [tensor_of]; ring).
      pose proof (T1' (ndiff 2 f nit_p) (deg_ndiff 2 f nit_p 1 Dp)) as Z. rewrite (I_mul_sub_r _ _ FF) in Z. rewrite (I_comm _ _ FF nit_p). lra. }
    rewrite X1, X2.
    assert (X3 : 1 / fa_measure f * fa_int f (PMul a a) <= / 4).
    { pose proof (T1' a Da) as Z. rewrite (I_mul_sub_r _ _ FF) in Z.
      assert (S0 : 0 <= fa_int f (PMul (psubp nit_p a) (psubp nit_p a))) by (apply (int_pos _ _ FF); intros; cbn [peval]; apply Rle_0_sqr).
      rewrite (I_mul_sub_l _ _ FF), !(I_mul_sub_r _ _ FF), (I_comm _ _ FF nit_p a) in S0.
      assert (S1 : fa_int f (PMul nit_p nit_p) <= fa_int f (pscal (/ 4) (PC 1))).
      { apply (I_mono _ _ FF). intros x Hx. pose proof (T1_points x (proj2 (poly_facets _ _ HP f Hf') x Hx)). unfold pscal. cbn. nra. }
      rewrite (int_scal _ _ FF) in S1. fold (fa_measure f) in S1.
      assert (M0 : 0 <= fa_measure f) by (apply (int_pos _ _ FF); intros; cbn; lra).
      assert (AA : fa_int f (PMul a a) <= / 4 * fa_measure f) by lra.
      destruct (Req_dec (fa_measure f) 0) as [Z0|NZ].
      - rewrite (I_zero _ _ FF (PMul a a)); [lra|]. intros x Hx. exfalso. pose proof (int_def _ _ FF (PC 1) ltac:(intros; cbn; lra) Z0 x Hx) as O. cbn in O. lra.
      - unfold Rdiv. rewrite Rmult_1_l. apply (Rmult_le_reg_l (fa_measure f)); [lra|]. rewrite <- Rmult_assoc, Rinv_r by exact NZ. lra. }
    lra. }
  specialize (G _ _ _ (faces_fit 2 T1 c1 c1_fits) (fun f H => H) T). rewrite EE in G. replace (INR (length (po_facets T1))) with 3 in G by (cbn; lra).
  rewrite Ropp_0, Rplus_0_l. lra.
Qed.

(** the hypotheses are met: a triangle with every face on the boundary, and with one *)
Example C171_ex : forall v p, pvars 2 p -> deg_le p 1 ->
  let N := num_dofs c1 0 (all_faces c1 0) in
  let u := project_hho elim_solve c1 (mkDegs 0 0 1) (peval p) 1 in
  let oper := fst (make_scalar_hho_laplacian elim_solve 2 None false c1 (mkDegs 0 0 1)) in
  let bnd := map (fun f => (true, fa_measure f)) (firstn 1 (po_facets T1)) ++ map (fun f => (false, fa_measure f)) (skipn 1 (po_facets T1)) in
  let '(lhs', rhs') := apply_dirichlet_via_nitsche 2 c1 bnd oper zeroM zeroV (mkDegs 0 0 1) N (peval p) 5 in
  quadf N lhs' v u - sg N (fun k => v k * rhs' k) =
  - bsum (po_facets T1) [true; false; false] (faces_funs c1 0 (all_faces c1 0) v) (fun f vF => fa_int f (PMul vF (ndiff 2 f p))).
Proof.
  intros v p V D. cbv zeta.
  pose proof (C171_consistent elim_solve elim_solves 2 T1 c1 c1_fits 0 0 1 1 false 1 p ltac:(lia) ltac:(lia) ltac:(lia) ltac:(lia) ltac:(lia) V D T1_sizes
    (map (fun f => (true, fa_measure f)) (firstn 1 (po_facets T1)) ++ map (fun f => (false, fa_measure f)) (skipn 1 (po_facets T1)))) as Q.
  specialize (Q ltac:(cbn; repeat constructor) zeroM zeroV 5). cbv zeta in Q.
  destruct (apply_dirichlet_via_nitsche _ _ _ _ _ _ _ _ _ _) as [lhs' rhs']. rewrite Q.
  replace (quadf _ zeroM _ _) with 0 by (symmetry; apply sg_zero; intros; rewrite sg_zero; [ring|intros; unfold zeroM; ring]).
  replace (sg _ (fun k => v k * zeroV k)) with 0 by (symmetry; apply sg_zero; intros; unfold zeroV; ring).
  change (map fst _) with [true; false; false]. lra.
Qed.
Example C172_ex : exists eta0, forall u lhs eta, eta0 <= eta ->
  let N := num_dofs c1 0 (all_faces c1 0) in
  let oper := fst (make_scalar_hho_laplacian elim_solve 2 None false c1 (mkDegs 0 0 1)) in
  quadf N (fst (apply_dirichlet_via_nitsche 2 c1 T1_bnd oper lhs zeroV (mkDegs 0 0 1) N (peval (PC 0)) eta)) u u >=
  quadf N lhs u u - / 2 * po_int T1 (graddot 2 (rec_fun c1 1 N oper u) (kgrad 2 delta (rec_fun c1 1 N oper u))).
Proof.
  destruct (C172_threshold elim_solve elim_solves 2 T1 c1 c1_fits 0 0 1 1 ltac:(lia) ltac:(lia) T1_sizes) as (eta0 & H). exists eta0. intros u lhs eta He. cbv zeta.
  specialize (H T1_bnd T1_bnd_ok (fst (make_scalar_hho_laplacian elim_solve 2 None false c1 (mkDegs 0 0 1))) lhs zeroV (PC 0) eta (deg_le_const 0 1) u).
  eapply Rge_trans; [exact H|]. apply Rle_ge.
  assert (0 <= bsum (po_facets T1) (map fst T1_bnd) (faces_funs c1 0 (all_faces c1 0) u) (fun f uF => / fa_measure f * fa_int f (PMul uF uF))); [|nra].
  apply bsum_pos. intros f Hf. apply (poly_facets _ _ (cf_poly _ _ _ c1_fits) f Hf).
Qed.
Print Assumptions C170_form.
Print Assumptions C170_symmetric.
Print Assumptions C171_consistent.
Print Assumptions C171_patch.
Print Assumptions C172_threshold.
Print Assumptions C172_definite.
Print Assumptions C172_default_refuted.
