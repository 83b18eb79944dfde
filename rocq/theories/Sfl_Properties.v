(** C173-C175: the reconstructions in other bases (the harmonic variants), and make_sfl. *)
From Coq Require Import List Arith Reals Lra Lia Bool.
From Verif Require Import Poly_Spec Poly_Proofs HHO_Spec HHO_Model HHO_Setting HHO_Proofs HHO2_Proofs HHO3_Proofs HHO4_Proofs HHO5_Proofs HHO6_Proofs HHO9_Proofs HHO_Properties
  HHOInst_Proofs HHOInst2_Proofs HHOInst_Properties Nit_Proofs Sfl_Model Sfl_Setting Sfl_Proofs Sfl2_Proofs Sfl3_Proofs.
Import ListNotations.
Open Scope R_scope.

Lemma fsum3_same fs us t (g : facet -> pexp -> pexp -> R) : length us = length fs -> ~ In None us ->
  fsum3 fs us (map (fun _ => Some t) fs) g = fsum2 fs us (fun f a => g f a t).
Proof.
  revert us. induction fs as [|f fs IH]; intros [|[a|] us] L H; try discriminate; cbn [map fsum3 fsum2]; [reflexivity| |exfalso; apply H; left; reflexivity].
  rewrite IH; [reflexivity|cbn in L; lia|]. intros Q. apply H. right. exact Q.
Qed.

(** ** C173: in the span of any basis of polynomials of degree [rd] that starts with 1, the reconstruction r satisfies
    (K grad r, grad w) = (K grad uT, grad w) + sum over the faces of (uF - uT, K grad w . n) for every w of the span, with uT
    replaced on the faces by its projection in the variants that project; the matrix returned with it is its energy *)
Theorem C173_reconstruction : forall ldlt, solves_spd ldlt -> forall d P c, cell_fits d P c ->
  forall K, spd d (tensor_of K) -> forall cd fd rd rb, rec_basis d P rd rb -> (1 <= rd)%nat -> (cd <= rd)%nat ->
  let fdi := all_faces c fd in let N := num_dofs c cd fdi in
  let '(oper, data) := hho_laplacian ldlt d K false c (mkDegs cd fd rd) rb in
  let energy := fun p q => po_int P (graddot d p (kgrad d (tensor_of K) q)) in
  (forall u w, in_span rb w ->
     energy (span_fun rb N oper u) w = energy (cell_fun c cd u) w +
     fsum2 (po_facets P) (faces_funs c cd fdi u) (fun f uF => fa_int f (PMul (psubp uF (cell_fun c cd u)) (flux d (tensor_of K) (fa_normal f) w)))) /\
  (forall u v, quadf N data u v = energy (span_fun rb N oper u) (span_fun rb N oper v)).
Proof.
  intros ldlt HS d P c HC K HK cd fd rd rb HB Hrd Hcd fdi N.
  pose proof (fun u => glap_eq d P c HC K HK ldlt HS rd cd fd rb HB Hrd Hcd false ltac:(discriminate) u (map (fun _ => Some (cell_fun c cd u)) (po_facets P))) as A.
  pose proof (glap_data d P c HC K HK ldlt HS rd cd fd rb HB Hrd false) as B. unfold glap in A, B.
  destruct (hho_laplacian ldlt d K false c (mkDegs cd fd rd) rb) as [oper data]. cbn [fst snd] in A, B. split; [|exact B].
  intros u w Hw. unfold N, fdi. refine (eq_trans (A u w eq_refl Hw) _). unfold gform. destruct (faces_len d P c HC cd fd u) as (L & Hn). rewrite fsum3_same by assumption. reflexivity.
Qed.
Theorem C173_projected : forall ldlt, solves_spd ldlt -> forall d P c, cell_fits d P c ->
  forall K, spd d (tensor_of K) -> forall cd fd rd rb, rec_basis d P rd rb -> (1 <= rd)%nat -> (cd <= rd)%nat -> (fd <= rd)%nat ->
  let fdi := all_faces c fd in let N := num_dofs c cd fdi in
  let '(oper, data) := hho_laplacian ldlt d K true c (mkDegs cd fd rd) rb in
  let energy := fun p q => po_int P (graddot d p (kgrad d (tensor_of K) q)) in
  (forall u ts w, projs (po_facets P) (map (fun _ => Some fd) (po_facets P)) ts (cell_fun c cd u) -> in_span rb w ->
     energy (span_fun rb N oper u) w = energy (cell_fun c cd u) w +
     fsum3 (po_facets P) (faces_funs c cd fdi u) ts (fun f uF t => fa_int f (PMul (psubp uF t) (flux d (tensor_of K) (fa_normal f) w)))) /\
  (forall u v, quadf N data u v = energy (span_fun rb N oper u) (span_fun rb N oper v)).
Proof.
  intros ldlt HS d P c HC K HK cd fd rd rb HB Hrd Hcd Hfd fdi N.
  pose proof (glap_eq d P c HC K HK ldlt HS rd cd fd rb HB Hrd Hcd true ltac:(intros _; exact Hfd)) as A.
  pose proof (glap_data d P c HC K HK ldlt HS rd cd fd rb HB Hrd true) as B. unfold glap in A, B.
  destruct (hho_laplacian ldlt d K true c (mkDegs cd fd rd) rb) as [oper data]. cbn [fst snd] in A, B. split; [|exact B].
  intros u ts w Ht Hw. exact (A u ts w Ht Hw).
Qed.
(** if div (K grad w) has the cell degree for the functions w of the basis, the reconstruction of the interpolate of a
    function of the span is that function up to a constant *)
Theorem C173_consistent : forall ldlt, solves_spd ldlt -> forall d P c, cell_fits d P c ->
  forall K, spd d (tensor_of K) -> forall cd fd rd rb proj, rec_basis d P rd rb -> (1 <= rd)%nat -> (cd <= rd <= fd + 1)%nat -> (proj = true -> fd <= rd)%nat ->
  (forall j, (j < b_size rb)%nat -> deg_le (divk d (tensor_of K) (b_poly rb j)) cd) ->
  let fdi := all_faces c fd in let N := num_dofs c cd fdi in
  let oper := fst (hho_laplacian ldlt d K proj c (mkDegs cd fd rd) rb) in
  forall p u, in_span rb p -> l2proj (po_int P) cd p (cell_fun c cd u) -> projs (po_facets P) (map (fun _ => Some fd) (po_facets P)) (faces_funs c cd fdi u) p ->
  exists k, forall x, po_on P x -> peval p x = peval (span_fun rb N oper u) x + k.
Proof.
  intros ldlt HS d P c HC K HK cd fd rd rb proj HB Hrd Hcd Hproj Hdiv fdi N oper p u.
  apply (glap_consistent d P c HC K HK ldlt HS rd cd fd rb HB Hrd ltac:(lia) proj Hproj ltac:(lia) Hdiv).
Qed.

(** ** C174: make_sfl.  With r the standard reconstruction of degree fd + 1 of the unknowns (any one: it is determined
    up to a constant) and t its projections on the faces, the outer reconstruction R satisfies
    (K grad R, grad w) = (K grad uT, grad w) + sum over the faces of (uF - uT + (r - t), K grad w . n) for every w of the span of
    the outer basis; the matrix returned with it is its energy *)
Theorem C174_reconstruction : forall ldlt, solves_spd ldlt -> forall d P c, cell_fits d P c ->
  forall K, spd d K -> forall cd fd rd rb, rec_basis d P rd rb -> (fd + 1 <= rd)%nat -> starts_with c cd rb -> starts_with c (fd + 1) rb ->
  let fdi := all_faces c fd in let N := num_dofs c cd fdi in
  let '(oper, data) := make_sfl ldlt d K c (mkDegs cd fd rd) rb in
  let energy := fun p q => po_int P (graddot d p (kgrad d K q)) in
  (forall u r ts, pvars d r -> deg_le r (fd + 1) ->
     (forall v, pvars d v -> deg_le v (fd + 1) ->
        energy r v = energy (cell_fun c cd u) v +
        fsum2 (po_facets P) (faces_funs c cd fdi u) (fun f uF => fa_int f (PMul (psubp uF (cell_fun c cd u)) (flux d K (fa_normal f) v)))) ->
     projs (po_facets P) (map (fun _ => Some fd) (po_facets P)) ts r ->
     forall w, in_span rb w ->
     energy (span_fun rb N oper u) w = energy (cell_fun c cd u) w +
     fsum3 (po_facets P) (faces_funs c cd fdi u) ts (fun f uF t =>
       fa_int f (PMul (PAdd (psubp uF (cell_fun c cd u)) (psubp r t)) (flux d K (fa_normal f) w)))) /\
  (forall u v, quadf N data u v = energy (span_fun rb N oper u) (span_fun rb N oper v)).
Proof.
  intros ldlt HS d P c HC K HK cd fd rd rb HB Hfd Sc Si fdi N.
  pose proof (sfl_eq d P c HC K HK ldlt HS rd cd fd rb HB Hfd Sc Si) as A. pose proof (sfl_data d P c HC K HK ldlt HS rd cd fd rb HB Hfd) as B. unfold sfl in A, B.
  destruct (make_sfl ldlt d K c (mkDegs cd fd rd) rb) as [oper data]. cbn [fst snd] in A, B. split; [|exact B].
  intros u r ts Vr Dr Hr Ht w Hw. apply (A u r ts w Vr Dr); [|exact Ht|exact Hw]. intros v Vv Dv. refine (eq_trans (Hr v Vv Dv) _).
  unfold iform, gform. destruct (faces_len d P c HC cd fd u) as (L & Hn). rewrite fsum3_same by assumption. reflexivity.
Qed.
(** such an r always exists: the reconstruction of C94 *)
Lemma C174_inner : forall ldlt, solves_spd ldlt -> forall d P c, cell_fits d P c ->
  forall K, spd d K -> forall cd fd, (cd <= fd + 1)%nat ->
  let fdi := all_faces c fd in
  forall u, exists r, pvars d r /\ deg_le r (fd + 1) /\
     (forall v, pvars d v -> deg_le v (fd + 1) ->
        po_int P (graddot d r (kgrad d K v)) = po_int P (graddot d (cell_fun c cd u) (kgrad d K v)) +
        fsum2 (po_facets P) (faces_funs c cd fdi u) (fun f uF => fa_int f (PMul (psubp uF (cell_fun c cd u)) (flux d K (fa_normal f) v)))).
Proof.
  intros ldlt HS d P c HC K HK cd fd Hcd fdi u.
  pose proof (C94_reconstruction ldlt HS d P c HC (Some K) HK cd fd (fd + 1) false ltac:(lia) Hcd ltac:(discriminate)) as A. cbv zeta in A. fold fdi in A.
  destruct (make_scalar_hho_laplacian ldlt d (Some K) false c (mkDegs cd fd (fd + 1))) as [oper data]. destruct A as (A & _). cbn [tensor_of] in A.
  exists (rec_fun c (fd + 1) (num_dofs c cd fdi) oper u). split; [|split; [|exact (A u)]].
  - apply pvars_lincomb. intros j. apply (cf_vars _ _ _ HC).
  - apply deg_le_lincomb. intros j Hj. apply (basis_deg _ _ _ (cf_elem _ _ _ HC)). lia.
Qed.

(** ** C175: make_sfl is consistent without stabilisation: if div (K grad w) has the cell degree for the functions of the
    outer basis, the interpolate of a polynomial of degree fd + 1 is reconstructed up to a constant, and its residual
    against every v is the load plus the fluxes through the faces *)
Theorem C175_consistent : forall ldlt, solves_spd ldlt -> forall d P c, cell_fits d P c ->
  forall K, spd d K -> forall cd fd rd rb, rec_basis d P rd rb -> (fd + 1 <= rd)%nat -> (fd <= cd + 1)%nat -> starts_with c cd rb -> starts_with c (fd + 1) rb ->
  (forall j, (j < b_size rb)%nat -> deg_le (divk d K (b_poly rb j)) cd) ->
  let fdi := all_faces c fd in let N := num_dofs c cd fdi in
  let '(oper, data) := make_sfl ldlt d K c (mkDegs cd fd rd) rb in
  forall p u, pvars d p -> deg_le p (fd + 1) -> l2proj (po_int P) cd p (cell_fun c cd u) -> projs (po_facets P) (map (fun _ => Some fd) (po_facets P)) (faces_funs c cd fdi u) p ->
  (exists k, forall x, po_on P x -> peval p x = peval (span_fun rb N oper u) x + k) /\
  (forall v, quadf N data v u = - po_int P (PMul (cell_fun c cd v) (divk d K p)) +
      fsum2 (po_facets P) (faces_funs c cd fdi v) (fun f vF => fa_int f (PMul vF (flux d K (fa_normal f) p)))).
Proof.
  intros ldlt HS d P c HC K HK cd fd rd rb HB Hfd Hcd Sc Si Hdiv fdi N.
  pose proof (sfl_consistent d P c HC K HK ldlt HS rd cd fd rb HB Hfd Sc Si Hcd Hdiv) as A. pose proof (sfl_patch d P c HC K HK ldlt HS rd cd fd rb HB Hfd Sc Si Hcd Hdiv) as B. unfold sfl in A, B.
  destruct (make_sfl ldlt d K c (mkDegs cd fd rd) rb) as [oper data]. cbn [fst snd] in A, B. intros p u Vp Dp Pc Pf. split; [apply A|apply B]; assumption.
Qed.

(** the hypotheses are met on the triangle (0, 0), (2, 0), (0, 1): polynomials of degree 2 and two harmonic cubics *)
Definition px := PX 0. Definition py := PX 1.
Definition hc1 : pexp := psubp (PMul px (PMul px px)) (pscal 3 (PMul px (PMul py py))).
Definition hc2 : pexp := psubp (pscal 3 (PMul px (PMul px py))) (PMul py (PMul py py)).
Definition hb1 : sbasis := mkSB 3 8 (fun j => if (j <? 6)%nat then b_poly (el_basis (cl_elem c1) 2) j else if (j =? 6)%nat then hc1 else hc2).
Lemma size1 k : (k = 0 /\ b_size (el_basis (cl_elem c1) k) = 1 \/ k = 1 /\ b_size (el_basis (cl_elem c1) k) = 3 \/ k = 2 /\ b_size (el_basis (cl_elem c1) k) = 6 \/
  k = 3 /\ b_size (el_basis (cl_elem c1) k) = 10 \/ 3 < k)%nat.
Proof. destruct k as [|[|[|[|k]]]]; [left|right; left|right; right; left|right; right; right; left|right; right; right; right; lia]; split; reflexivity. Qed.
Lemma hb1_starts k : (k <= 2)%nat -> starts_with c1 k hb1.
Proof.
  intros Hk. destruct (cf_nested _ _ _ c1_fits k 2 Hk) as (L & H).
  assert (S2 : b_size (el_basis (cl_elem c1) 2) = 6%nat) by reflexivity. rewrite S2 in L. split; [cbn [b_size hb1]; lia|].
  intros j Hj. cbn [b_poly hb1]. destruct (Nat.ltb_spec j 6); [|lia]. apply H, Hj.
Qed.
Lemma hb1_basis : rec_basis 2 T1 3 hb1.
Proof.
  assert (S2 : b_size (el_basis (cl_elem c1) 2) = 6%nat) by reflexivity. assert (S3 : b_size (el_basis (cl_elem c1) 3) = 10%nat) by reflexivity.
  assert (DJ : forall j, deg_le (b_poly hb1 j) 3).
  { intros j. cbn [b_poly hb1]. destruct (Nat.ltb_spec j 6).
    - apply (deg_le_mono _ 2); [lia|]. apply (basis_deg _ _ _ (cf_elem _ _ _ c1_fits)). lia.
    - destruct (j =? 6)%nat; apply deg_le_pdeg; cbn; lia. }
  split.
  - split; [cbn; lia|]. intros x. exact (proj2 (cf_one _ _ _ c1_fits 2) x).
  - intros k H. destruct (fit_basis _ _ _ (cf_elem _ _ _ c1_fits) 3) as (_ & Ind & _). rewrite S3 in Ind.
    set (a := fun j => if (j <? 6)%nat then k j else if (j =? 6)%nat then 8 * k 6%nat else if (j =? 7)%nat then 12 * k 7%nat else if (j =? 8)%nat then -6 * k 6%nat else - k 7%nat).
    assert (Z : forall j, (j < 10)%nat -> a j = 0).
    { apply Ind. intros x Hx. rewrite <- (H x Hx). rewrite !peval_lincomb. cbn [b_size hb1]. change 10%nat with (6 + 4)%nat. change 8%nat with (6 + 2)%nat. rewrite !sg_split. apply (f_equal2 Rplus).
      - apply sg_ext. intros j Hj. unfold a. cbn [b_poly hb1]. destruct (Nat.ltb_spec j 6); [|lia].
        rewrite (proj2 (cf_nested _ _ _ c1_fits 2 3 ltac:(lia)) j ltac:(rewrite S2; lia)). reflexivity.
      - unfold a. cbn [sg Nat.add]. cbn [b_poly hb1 Nat.ltb Nat.leb Nat.eqb]. cbv -[Rplus Rmult Rinv Ropp Rminus Rdiv IZR]. field. }
    intros j Hj. cbn [b_size hb1] in Hj. pose proof (Z 6%nat ltac:(lia)) as Z6. pose proof (Z 7%nat ltac:(lia)) as Z7. unfold a in Z6, Z7. cbn in Z6, Z7.
    destruct (Nat.lt_ge_cases j 6) as [H6|H6].
    + specialize (Z j ltac:(lia)). unfold a in Z. destruct (Nat.ltb_spec j 6); [exact Z|lia].
    + assert (E : j = 6%nat \/ j = 7%nat) by lia. destruct E as [-> | ->]; lra.
  - intros j _. apply DJ.
  - intros j. cbn [b_poly hb1]. destruct (j <? 6)%nat; [apply (cf_vars _ _ _ c1_fits)|]. destruct (j =? 6)%nat; cbn; repeat split; lia.
Qed.
Lemma hb1_div j : (j < b_size hb1)%nat -> deg_le (divk 2 delta (b_poly hb1 j)) 0.
Proof.
  intros Hj. cbn [b_poly hb1]. destruct (Nat.ltb_spec j 6).
  - apply (deg_divk 2 delta _ 2), (basis_deg _ _ _ (cf_elem _ _ _ c1_fits)). exact H.
  - destruct (j =? 6)%nat; apply (deg_le_ext (PC 0)); try apply deg_le_const; intros x; cbv -[Rplus Rmult Ropp IZR Rminus]; ring.
Qed.
Example C175_ex : let fdi := all_faces c1 0 in let N := num_dofs c1 0 fdi in
  let '(oper, data) := make_sfl elim_solve 2 delta c1 (mkDegs 0 0 3) hb1 in
  forall p u, pvars 2 p -> deg_le p 1 -> l2proj (po_int T1) 0 p (cell_fun c1 0 u) -> projs (po_facets T1) (map (fun _ => Some 0%nat) (po_facets T1)) (faces_funs c1 0 fdi u) p ->
  (exists k, forall x, po_on T1 x -> peval p x = peval (span_fun hb1 N oper u) x + k).
Proof.
  pose proof (C175_consistent elim_solve elim_solves 2 T1 c1 c1_fits delta (spd_delta 2) 0 0 3 hb1 hb1_basis ltac:(lia) ltac:(lia) (hb1_starts 0 ltac:(lia)) (hb1_starts 1 ltac:(lia)) hb1_div) as A.
  cbv zeta in A |- *. destruct (make_sfl elim_solve 2 delta c1 (mkDegs 0 0 3) hb1) as [oper data]. intros p u Vp Dp Pc Pf. exact (proj1 (A p u Vp Dp Pc Pf)).
Qed.
Example C173_ex : in_span hb1 hc1 /\ rec_basis 2 T1 3 hb1 /\ forall j, (j < b_size hb1)%nat -> deg_le (divk 2 (tensor_of None) (b_poly hb1 j)) 0.
Proof.
  split; [|split; [exact hb1_basis|exact hb1_div]]. exists (fun j => if (j =? 6)%nat then 1 else 0). intros x. rewrite peval_lincomb. cbn [b_size hb1].
  change 8%nat with (6 + 2)%nat. rewrite sg_split, sg_zero; [cbn; ring|]. intros j Hj. destruct (Nat.eqb_spec j 6); [lia|ring].
Qed.
Print Assumptions C173_reconstruction.
Print Assumptions C173_projected.
Print Assumptions C173_consistent.
Print Assumptions C174_reconstruction.
Print Assumptions C175_consistent.
