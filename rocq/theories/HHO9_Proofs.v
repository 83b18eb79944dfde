(** Proofs about the scalar HHO operators: projections; the reconstruction with one degree per face; a solver. *)
From Coq Require Import List Arith Reals Lra Lia Bool.
From Verif Require Import Poly_Spec Poly_Proofs HHO_Spec HHO_Model HHO_Setting HHO_Proofs HHO2_Proofs HHO3_Proofs HHO4_Proofs HHO5_Proofs HHO6_Proofs HHO7_Proofs HHO8_Proofs.
Import ListNotations.
Open Scope R_scope.

Lemma proj_l2 on I (HI : integral on I) e (F : elem_fits on I e) ldlt (HS : solves_spd ldlt) deg p di u : deg_le p (deg + 2 * di) ->
  (forall x, peval u x = peval (proj e ldlt deg p di) x) -> l2proj I deg p u.
Proof.
  intros D H. split; [apply (deg_le_ext (proj e ldlt deg p di)); [intros; symmetry; apply H|apply (proj_deg _ _ _ F)]|].
  intros w Dw. rewrite (I_ext _ _ HI _ (PMul w (proj e ldlt deg p di))) by (intros x; cbn [peval]; rewrite H; ring).
  apply (proj_test _ _ HI _ F ldlt HS); assumption.
Qed.
Lemma projs_faces ldlt (HS : solves_spd ldlt) p di fs fcs : Forall2 face_fit fs fcs -> forall fdi, length fdi = length fcs ->
  (forall k, In (Some k) fdi -> deg_le p (k + 2 * di)) ->
  forall uF, Forall2 (is_proj ldlt p di) uF (combine fcs fdi) -> projs fs fdi uF p.
Proof.
  intros H. induction H as [|f fc fs fcs [[FF _] FI] H IH]; intros [|k fdi] L D uF PF; try discriminate; cbn [combine] in PF;
    inversion PF as [|o fi uF' l' PF1 PF2]; subst; cbn [projs]; [exact Logic.I|].
  unfold is_proj in PF1. cbn [fst snd] in PF1. assert (G : projs fs fdi uF' p) by (apply IH; [simpl in L; lia|intros; apply D; right; assumption|assumption]).
  destruct k as [k|]; destruct o as [o|]; try contradiction; [|exact G]. split; [|exact G].
  apply (proj_l2 _ _ FI _ FF ldlt HS k p di); [apply D; left; reflexivity|exact PF1].
Qed.
Lemma project_l2 d P c (HC : cell_fits d P c) ldlt (HS : solves_spd ldlt) cd fdi p di : length fdi = length (cl_faces c) ->
  deg_le p (cd + 2 * di) -> (forall k, In (Some k) fdi -> deg_le p (k + 2 * di)) ->
  let u := project_cdi ldlt c cd fdi (peval p) di in
  l2proj (po_int P) cd p (cell_fun c cd u) /\ projs (po_facets P) fdi (faces_funs c cd fdi u) p.
Proof.
  intros L Dc Df u. split.
  - apply (proj_l2 _ _ (poly_int _ _ (cf_poly _ _ _ HC)) _ (cf_elem _ _ _ HC) ldlt HS cd p di _ Dc). intros x. apply project_cell.
  - apply (projs_faces ldlt HS p di _ _ (faces_fit d P c HC) fdi L Df). apply project_faces.
Qed.

Section Cdi.
  Context (d : nat) (P : polytope) (c : scell) (HC : cell_fits d P c).
  Let HP := cf_poly _ _ _ HC.
  Let HI := poly_int _ _ HP.
  Context (ldlt : nat -> mtx -> (nat -> R) -> nat -> R) (HS : solves_spd ldlt).
  Context (rd cd : nat) (Hrd : (1 <= rd)%nat) (Hcd : (cd <= rd)%nat) (fdi : list (option nat)).
  Let N := num_dofs c cd fdi.
  Let prog := hho_laplacian_cdi ldlt d c rd cd fdi.
  Let rb := el_basis (cl_elem c) rd.
  Lemma cdi_prog : prog = (solveM ldlt (b_size rb - 1) (cdi_lhs d c rd) (cdi_rhs d c rd cd fdi),
       mprod (b_size rb - 1) (mtrans (cdi_rhs d c rd cd fdi)) (solveM ldlt (b_size rb - 1) (cdi_lhs d c rd) (cdi_rhs d c rd cd fdi))).
  Proof. reflexivity. Qed.
  Lemma cdi_lhs_mv x i : (i < b_size rb - 1)%nat -> mv (b_size rb - 1) (cdi_lhs d c rd) x i = en d P delta (tailf c rd x) (b_poly rb (S i)).
  Proof.
    intros Hi. refine (eq_trans _ (lhs_mv d P c HC None rd x i Hi)). unfold mv. apply sg_ext. intros j Hj.
    rewrite (cdi_lhs_eq d P c HC rd cd Hrd Hcd i j Hi Hj). reflexivity.
  Qed.
  Lemma cdi_lhs_spd : spd (b_size rb - 1) (cdi_lhs d c rd).
  Proof.
    apply (spd_ext _ (lap_lhs d None c rd rb)); [intros i j Hi Hj; apply (cdi_lhs_eq d P c HC rd cd Hrd Hcd i j Hi Hj)|].
    apply (lhs_spd d P c HC None (spd_delta d) rd).
  Qed.
  Lemma c_eq u w : pvars d w -> deg_le w rd -> en d P delta (rec_fun c rd N (fst prog) u) w = form d P c None cd fdi u w.
  Proof.
    rewrite cdi_prog. cbn [fst]. apply (core_eq d P c HC None ldlt HS rd cd fdi (cdi_lhs d c rd) (cdi_rhs d c rd cd fdi)).
    - apply cdi_lhs_mv.
    - apply cdi_lhs_spd.
    - intros z i Hi. apply (cdi_row d P c HC rd cd Hrd Hcd fdi z i Hi).
  Qed.
  Lemma c_data u v : bil N (snd prog) u v = en d P delta (rec_fun c rd N (fst prog) u) (rec_fun c rd N (fst prog) v).
  Proof.
    rewrite cdi_prog. cbn [fst snd]. apply (core_data d P c HC None ldlt HS rd cd fdi (cdi_lhs d c rd) (cdi_rhs d c rd cd fdi)).
    - apply cdi_lhs_mv.
    - apply cdi_lhs_spd.
    - intros z i Hi. apply (cdi_row d P c HC rd cd Hrd Hcd fdi z i Hi).
  Qed.
  Lemma c_consistent p di : pvars d p -> deg_le p rd -> (rd <= cd + 2)%nat -> (rd <= cd + 2 * di)%nat -> length fdi = length (cl_faces c) -> ~ In None fdi ->
    (forall k, In (Some k) fdi -> (rd <= k + 1)%nat /\ (rd <= k + 2 * di)%nat) ->
    exists k, forall x, po_on P x -> peval p x = peval (rec_fun c rd N (fst prog) (project_cdi ldlt c cd fdi (peval p) di)) x + k.
  Proof.
    intros. rewrite cdi_prog. cbn [fst].
    apply (core_consistent_const d P c HC None (spd_delta d) ldlt HS rd cd fdi (cdi_lhs d c rd) (cdi_rhs d c rd cd fdi)); try assumption.
    - apply cdi_lhs_mv.
    - apply cdi_lhs_spd.
    - intros z i Hi. apply (cdi_row d P c HC rd cd Hrd Hcd fdi z i Hi).
  Qed.
End Cdi.

(** * a solver: elimination of the last unknown *)
Fixpoint elim_solve (n : nat) (A : mtx) (b : nat -> R) : nat -> R :=
  match n with
  | O => fun _ => 0
  | S n => let x := elim_solve n (fun i j => A i j - A i n * A n j / A n n) (fun i => b i - A i n * b n / A n n) in
           fun i => if (i =? n)%nat then (b n - sg n (fun j => A n j * x j)) / A n n else x i
  end.
Lemma quadf_S n A x : sym (S n) A -> quadf (S n) A x x = quadf n A x x + 2 * x n * sg n (fun j => A n j * x j) + A n n * x n * x n.
Proof.
  intros HA. unfold quadf. cbn [sg]. rewrite (sg_ext n (fun i => x i * (sg n (fun j => A i j * x j) + A i n * x n))
     (fun i => x i * sg n (fun j => A i j * x j) + x n * (A n i * x i))).
  - rewrite sg_plus, sg_scal. ring.
  - intros i Hi. rewrite (HA i n) by lia. ring.
Qed.
Lemma spd_pivot n A : spd (S n) A -> 0 < A n n.
Proof.
  intros (Sy & Q). destruct (Q (delta n)) as (P1 & P2).
  assert (E : quadf (S n) A (delta n) (delta n) = A n n).
  { unfold quadf. rewrite (sg_ext (S n) _ (fun i => delta n i * sg (S n) (fun j => delta n j * A i j))) by (intros; f_equal; apply sg_ext; intros; ring).
    rewrite (sg_delta (S n) n) by lia. rewrite (sg_delta (S n) n) by lia. reflexivity. }
  rewrite E in *. destruct (Req_dec (A n n) 0) as [Z|NZ]; [|lra]. specialize (P2 Z n ltac:(lia)). unfold delta in P2. rewrite Nat.eqb_refl in P2. lra.
Qed.
Lemma spd_schur n A : spd (S n) A -> spd n (fun i j => A i j - A i n * A n j / A n n).
Proof.
  intros HA. pose proof (spd_pivot n A HA) as Hp. destruct HA as (Sy & Q). split.
  - intros i j Hi Hj. rewrite (Sy i j), (Sy i n), (Sy n j) by lia. field. lra.
  - intros x. set (t := sg n (fun j => A n j * x j)).
    set (y := fun i => if (i =? n)%nat then - t / A n n else x i).
    assert (Ey : forall i, (i < n)%nat -> y i = x i) by (intros i Hi; unfold y; destruct (Nat.eqb_spec i n); [lia|reflexivity]).
    assert (Yn : y n = - t / A n n) by (unfold y; rewrite Nat.eqb_refl; reflexivity).
    assert (E : quadf n (fun i j => A i j - A i n * A n j / A n n) x x = quadf (S n) A y y).
    { rewrite quadf_S by exact Sy. rewrite Yn.
      rewrite (sg_ext n (fun j => A n j * y j) (fun j => A n j * x j)) by (intros; rewrite Ey by assumption; reflexivity). fold t.
      assert (E1 : quadf n A y y = quadf n A x x).
      { unfold quadf. apply sg_ext. intros i Hi. rewrite Ey by exact Hi. f_equal. apply sg_ext. intros j Hj. rewrite Ey by exact Hj. reflexivity. }
      rewrite E1. unfold quadf.
      rewrite (sg_ext n (fun i => x i * sg n (fun j => (A i j - A i n * A n j / A n n) * x j))
        (fun i => x i * sg n (fun j => A i j * x j) + (- t / A n n) * (A n i * x i))).
      - rewrite sg_plus, sg_scal. fold t. field. lra.
      - intros i Hi. rewrite (sg_ext n _ (fun j => A i j * x j + (- (A i n) / A n n) * (A n j * x j))) by (intros; field; lra).
        rewrite sg_plus, sg_scal. fold t. rewrite (Sy i n) by lia. field. lra. }
    rewrite E. destruct (Q y) as (Q1 & Q2). split; [exact Q1|]. intros Z i Hi. rewrite <- (Ey i Hi). apply Q2; [exact Z|lia].
Qed.
Lemma elim_solves : solves_spd elim_solve.
Proof.
  intros n. induction n as [|n IH]; intros A b HA i Hi; [lia|]. cbn [elim_solve].
  pose proof (spd_pivot n A HA) as Hp.
  set (x := elim_solve n (fun i j => A i j - A i n * A n j / A n n) (fun i => b i - A i n * b n / A n n)).
  assert (HX := IH _ (fun i => b i - A i n * b n / A n n) (spd_schur n A HA)). fold x in HX. cbn [sg]. rewrite Nat.eqb_refl.
  rewrite (sg_ext n _ (fun j => A i j * x j)) by (intros j Hj; destruct (Nat.eqb_spec j n); [lia|reflexivity]).
  destruct (Nat.eq_dec i n) as [->|Ne]; [field; lra|].
  specialize (HX i ltac:(lia)).
  rewrite (sg_ext n _ (fun j => A i j * x j + (- A i n / A n n) * (A n j * x j))) in HX by (intros; field; lra).
  rewrite sg_plus, sg_scal in HX.
  replace (A i n * ((b n - sg n (fun j => A n j * x j)) / A n n)) with (A i n * b n / A n n + (- A i n / A n n) * sg n (fun j => A n j * x j)) by (field; lra).
  lra.
Qed.
