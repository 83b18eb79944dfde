(** Proofs about the scalar HHO operators: mass matrices, projections, the reconstruction. *)
From Coq Require Import List Arith Reals Lra Lia Bool.
From Verif Require Import Poly_Spec Poly_Proofs HHO_Spec HHO_Model HHO_Setting HHO_Proofs.
Import ListNotations.
Open Scope R_scope.

Lemma lincomb_coef n c c' P x : (forall j, (j < n)%nat -> c j = c' j) -> peval (lincomb n c P) x = peval (lincomb n c' P) x.
Proof. intros H. rewrite !peval_lincomb. apply sg_ext. intros j Hj. rewrite (H j Hj). reflexivity. Qed.
Lemma spd_ext n A B : (forall i j, (i < n)%nat -> (j < n)%nat -> A i j = B i j) -> spd n A -> spd n B.
Proof.
  intros E [Sy Po]. split.
  - intros i j Hi Hj. rewrite <- !E by assumption. apply Sy; assumption.
  - intros x. assert (Q : quadf n B x x = quadf n A x x).
    { apply sg_ext. intros i Hi. f_equal. apply sg_ext. intros j Hj. rewrite E by assumption. reflexivity. }
    rewrite Q. apply Po.
Qed.

Section Elem.
  Context (on : pt -> Prop) (I : pexp -> R) (HI : integral on I).
  Lemma quadf_gram n b x : quadf n (fun i j => I (PMul (b i) (b j))) x x = I (PMul (lincomb n x b) (lincomb n x b)).
  Proof.
    rewrite (I_mul_lincomb_l _ _ HI). apply sg_ext. intros i _. f_equal. rewrite (I_mul_lincomb_r _ _ HI).
    apply sg_ext. intros j _. ring.
  Qed.
  Lemma gram_spd deg n b : basis_on on deg n b -> spd n (fun i j => I (PMul (b i) (b j))).
  Proof.
    intros (_ & Ind & _). split; [intros i j _ _; apply (I_comm _ _ HI)|].
    intros x. rewrite quadf_gram. split; [apply (I_sq_pos _ _ HI)|]. intros Z.
    apply Ind. apply (I_sq_def _ _ HI), Z.
  Qed.
  Context (e : selem) (F : elem_fits on I e).
  Lemma basis_deg deg j : (j < b_size (el_basis e deg))%nat -> deg_le (b_poly (el_basis e deg) j) deg.
  Proof. apply (fit_basis _ _ _ F deg). Qed.
  Lemma fun_deg deg c : deg_le (lincomb (b_size (el_basis e deg)) c (b_poly (el_basis e deg))) deg.
  Proof. apply deg_le_lincomb. intros; apply basis_deg; assumption. Qed.
  Lemma acc_int deg p q : deg_le (PMul p q) deg -> qsum (el_quad e deg) (fun x => peval p x * peval q x) = I (PMul p q).
  Proof. intros D. apply (exact_int _ _ HI _ (fit_quad _ _ _ F) deg (PMul p q) D). Qed.
  Lemma mass_eq deg i j : (i < b_size (el_basis e deg))%nat -> (j < b_size (el_basis e deg))%nat ->
    make_mass_matrix e (el_basis e deg) 0 i j = I (PMul (b_poly (el_basis e deg) i) (b_poly (el_basis e deg) j)).
  Proof.
    intros Hi Hj. unfold make_mass_matrix. rewrite accumulate_eq, (fit_deg _ _ _ F). unfold zeroM, phi. rewrite Rplus_0_l.
    apply acc_int. apply (deg_le_mono _ (deg + deg)); [lia|]. apply deg_le_mul; apply basis_deg; assumption.
  Qed.
  Lemma mass_spd deg : spd (b_size (el_basis e deg)) (make_mass_matrix e (el_basis e deg) 0).
  Proof. eapply spd_ext; [|apply (gram_spd deg _ _ (fit_basis _ _ _ F deg))]. intros. symmetry. apply mass_eq; assumption. Qed.
  Lemma mass_mv deg c i : (i < b_size (el_basis e deg))%nat ->
    mv (b_size (el_basis e deg)) (make_mass_matrix e (el_basis e deg) 0) c i =
    I (PMul (b_poly (el_basis e deg) i) (lincomb (b_size (el_basis e deg)) c (b_poly (el_basis e deg)))).
  Proof.
    intros Hi. rewrite (I_mul_lincomb_r _ _ HI). apply sg_ext. intros j Hj. rewrite mass_eq by assumption. ring.
  Qed.
  Lemma rhs_eq b f di i : make_rhs e b f di i = qsum (el_quad e (2 * (b_deg b + di))) (fun x => phi b x i * f x).
  Proof.
    unfold make_rhs. assert (G : forall q r, fold_left (fun r qp => let '(x, w) := qp in fun i => r i + phi b x i * (w * f x)) q r i =
      r i + qsum q (fun x => phi b x i * f x)).
    { induction q as [|[x w] q IH]; intros r; simpl; [lra|]. rewrite IH. ring. }
    rewrite G. unfold zeroV. lra.
  Qed.
  Context (ldlt : nat -> mtx -> (nat -> R) -> nat -> R) (HS : solves_spd ldlt).
  (** the projection of a polynomial *)
  Definition proj (deg : nat) (p : pexp) (di : nat) : pexp :=
    lincomb (b_size (el_basis e deg)) (project_elem ldlt e deg (peval p) di) (b_poly (el_basis e deg)).
  Lemma proj_deg deg p di : deg_le (proj deg p di) deg.
  Proof. apply fun_deg. Qed.
  Lemma proj_basis deg p di : deg_le p (deg + 2 * di) -> forall i, (i < b_size (el_basis e deg))%nat ->
    I (PMul (b_poly (el_basis e deg) i) (proj deg p di)) = I (PMul (b_poly (el_basis e deg) i) p).
  Proof.
    intros D i Hi. unfold proj. rewrite <- mass_mv by assumption. unfold project_elem, mv.
    rewrite (HS _ _ _ (mass_spd deg) i Hi), rhs_eq, (fit_deg _ _ _ F). apply acc_int.
    apply (deg_le_mono _ (deg + (deg + 2 * di))); [lia|]. apply deg_le_mul; [apply basis_deg; assumption|exact D].
  Qed.
  Lemma proj_test deg p di w : deg_le p (deg + 2 * di) -> deg_le w deg -> I (PMul w (proj deg p di)) = I (PMul w p).
  Proof. intros D. apply (span_test _ _ HI deg _ _ _ _ (fit_basis _ _ _ F deg)). apply proj_basis, D. Qed.
  Lemma proj_id deg p di : deg_le p deg -> forall x, on x -> peval (proj deg p di) x = peval p x.
  Proof.
    intros D. apply (span_eq _ _ HI deg _ _ _ _ (fit_basis _ _ _ F deg)); [apply proj_deg|exact D|].
    apply proj_basis. apply (deg_le_mono _ deg); [lia|exact D].
  Qed.
End Elem.

(** * The interpolation of a cell *)
Lemma set_seg_in v off n s j : (off <= j < off + n)%nat -> set_seg v off n s j = s (j - off)%nat.
Proof. intros H. unfold set_seg. replace ((off <=? j) && (j <? off + n))%nat with true; [reflexivity|].
  symmetry. apply andb_true_iff. split; [apply Nat.leb_le|apply Nat.ltb_lt]; lia. Qed.
Lemma set_seg_before v off n s j : (j < off)%nat -> set_seg v off n s j = v j.
Proof. intros H. unfold set_seg. replace (off <=? j)%nat with false; [reflexivity|]. symmetry. apply Nat.leb_gt. lia. Qed.
Lemma project_fold ldlt f di l : forall off v j, (j < off)%nat -> snd (fold_left (project_face ldlt f di) l (off, v)) j = v j.
Proof.
  induction l as [|[fc [fd|]] l IH]; intros off v j H; simpl; [reflexivity| |apply IH, H].
  rewrite IH by lia. apply set_seg_before, H.
Qed.
Definition bases_l (l : list (sface * option nat)) : list (option (nat * (nat -> pexp))) :=
  map (fun fi => match snd fi with
                 | None => None
                 | Some fd => let b := el_basis (fc_elem (fst fi)) fd in Some (b_size b, b_poly b)
                 end) l.
Definition is_proj ldlt (f : pexp) di (o : option pexp) (fi : sface * option nat) : Prop :=
  match snd fi, o with
  | None, None => True
  | Some fd, Some uF => forall x, peval uF x = peval (proj (fc_elem (fst fi)) ldlt fd f di) x
  | _, _ => False
  end.
Lemma project_fold_faces ldlt f di l : forall off v,
  Forall2 (is_proj ldlt f di) (face_funs off (bases_l l) (snd (fold_left (project_face ldlt (peval f) di) l (off, v)))) l.
Proof.
  induction l as [|[fc [fd|]] l IH]; intros off v; simpl; [constructor| |constructor; [exact Logic.I|apply IH]].
  constructor; [|apply IH]. unfold is_proj. cbn [fst snd]. intros x. apply lincomb_coef. intros j Hj.
  rewrite project_fold by lia. rewrite set_seg_in by lia. f_equal. lia.
Qed.
Lemma project_hho_cdi ldlt c hdi f di :
  project_hho ldlt c hdi f di = project_cdi ldlt c (cell_degree hdi) (all_faces c (face_degree hdi)) f di.
Proof.
  unfold project_hho, project_cdi, all_faces. f_equal. generalize (b_size (el_basis (cl_elem c) (cell_degree hdi)), set_seg zeroV 0 (b_size (el_basis (cl_elem c) (cell_degree hdi)))
     (project_elem ldlt (cl_elem c) (cell_degree hdi) f di)). induction (cl_faces c) as [|fc l IH]; intros st; simpl; [reflexivity|apply IH].
Qed.
Lemma project_cell ldlt c cd fdi f di x :
  peval (cell_fun c cd (project_cdi ldlt c cd fdi (peval f) di)) x = peval (proj (cl_elem c) ldlt cd f di) x.
Proof.
  apply lincomb_coef. intros j Hj. unfold project_cdi. rewrite project_fold by exact Hj. rewrite set_seg_in by lia.
  f_equal. lia.
Qed.
Lemma project_faces ldlt c cd fdi f di :
  Forall2 (is_proj ldlt f di) (faces_funs c cd fdi (project_cdi ldlt c cd fdi (peval f) di)) (combine (cl_faces c) fdi).
Proof. apply project_fold_faces. Qed.

(** * Energy of two functions *)
Section Energy.
  Context (d : nat) (P : polytope) (HP : is_polytope d P) (K : mtx).
  Let I := po_int P.
  Let HI : integral (po_on P) I := poly_int _ _ HP.
  Definition en (p q : pexp) : R := I (graddot d p (kgrad d K q)).
  Lemma en_ext p q p' q' : (forall x, peval p x = peval p' x) -> (forall x, peval q x = peval q' x) -> en p q = en p' q'.
  Proof.
    intros Hp Hq. apply (I_ext _ _ HI). intros x. unfold graddot. rewrite !peval_psum. apply sg_ext. intros c _. cbn [peval].
    rewrite (pdiff_ext _ _ c Hp). f_equal. unfold kgrad. rewrite !peval_psum. apply sg_ext. intros e _. unfold pscal. cbn [peval].
    rewrite (pdiff_ext _ _ e Hq). reflexivity.
  Qed.
  Lemma en_lincomb_r n c Q p : en p (lincomb n c Q) = sg n (fun j => c j * en p (Q j)).
  Proof.
    unfold en. rewrite <- (I_lincomb _ _ HI n c (fun j => graddot d p (kgrad d K (Q j)))). apply (I_ext _ _ HI). intros x.
    rewrite peval_lincomb. unfold graddot. rewrite peval_psum.
    rewrite (sg_ext d _ (fun k => sg n (fun j => c j * (peval (pdiff k p) x * peval (kgrad d K (Q j) k) x)))).
    - rewrite sg_swap. apply sg_ext. intros j _. rewrite peval_psum, <- sg_scal. reflexivity.
    - intros k _. cbn [peval]. rewrite kgrad_lincomb, <- sg_scal. apply sg_ext. intros. ring.
  Qed.
  Lemma en_lincomb_l n c Q p : en (lincomb n c Q) p = sg n (fun j => c j * en (Q j) p).
  Proof.
    unfold en. rewrite <- (I_lincomb _ _ HI n c (fun j => graddot d (Q j) (kgrad d K p))). apply (I_ext _ _ HI). intros x.
    rewrite peval_lincomb. unfold graddot. rewrite peval_psum.
    rewrite (sg_ext d _ (fun k => sg n (fun j => c j * (peval (pdiff k (Q j)) x * peval (kgrad d K p k) x)))).
    - rewrite sg_swap. apply sg_ext. intros j _. rewrite peval_psum, <- sg_scal. reflexivity.
    - intros k _. cbn [peval]. rewrite pdiff_lincomb, (Rmult_comm (sg _ _)), <- sg_scal. apply sg_ext. intros. ring.
  Qed.
  Lemma en_add_r p q r : en p (PAdd q r) = en p q + en p r.
  Proof.
    unfold en. rewrite <- (int_add _ _ HI). apply (I_ext _ _ HI). intros x. cbn [peval]. unfold graddot. rewrite !peval_psum, <- sg_plus.
    apply sg_ext. intros c _. cbn [peval]. unfold kgrad. rewrite !peval_psum. rewrite <- Rmult_plus_distr_l, <- sg_plus. f_equal.
    apply sg_ext. intros e _. simpl. ring.
  Qed.
  Lemma en_scal_r p k q : en p (pscal k q) = k * en p q.
  Proof.
    unfold en. rewrite <- (int_scal _ _ HI). apply (I_ext _ _ HI). intros x. unfold pscal at 2, graddot. cbn [peval]. rewrite !peval_psum, <- sg_scal.
    apply sg_ext. intros c _. cbn [peval]. unfold kgrad. rewrite !peval_psum.
    assert (E : sg d (fun e => peval (pscal (K c e) (pdiff e (pscal k q))) x) = k * sg d (fun e => peval (pscal (K c e) (pdiff e q)) x))
      by (rewrite <- sg_scal; apply sg_ext; intros; simpl; ring).
    rewrite E. ring.
  Qed.
  Lemma en_sub_r p q r : en p (psubp q r) = en p q - en p r.
  Proof. unfold psubp. rewrite en_add_r, en_scal_r. lra. Qed.
  Lemma en_add_l p q r : en (PAdd p q) r = en p r + en q r.
  Proof.
    unfold en. rewrite <- (int_add _ _ HI). apply (I_ext _ _ HI). intros x. cbn [peval]. unfold graddot. rewrite !peval_psum, <- sg_plus.
    apply sg_ext. intros c _. cbn [peval pdiff]. ring.
  Qed.
  Lemma en_scal_l p k q : en (pscal k p) q = k * en p q.
  Proof.
    unfold en. rewrite <- (int_scal _ _ HI). apply (I_ext _ _ HI). intros x. unfold pscal at 2, graddot. cbn [peval]. rewrite !peval_psum, <- sg_scal.
    apply sg_ext. intros c _. cbn [peval pdiff pscal]. ring.
  Qed.
  Lemma en_sub_l p q r : en (psubp p q) r = en p r - en q r.
  Proof. unfold psubp. rewrite en_add_l, en_scal_l. lra. Qed.
  Lemma en_const_r p q : (forall x, peval q x = 1) -> en p q = 0.
  Proof.
    intros H. apply (I_zero _ _ HI). intros x _. unfold graddot. rewrite peval_psum. apply sg_zero. intros c _. cbn [peval].
    unfold kgrad. rewrite peval_psum. rewrite (sg_zero d); [ring|]. intros e _. unfold pscal. cbn [peval].
    rewrite (pdiff_ext q (PC 1) e H). simpl. ring.
  Qed.
  Lemma graddot_quadf p x : peval (graddot d p (kgrad d K p)) x = quadf d K (fun c => peval (pdiff c p) x) (fun c => peval (pdiff c p) x).
  Proof. unfold graddot. rewrite peval_psum. apply sg_ext. intros c _. cbn [peval]. f_equal. unfold kgrad. rewrite peval_psum. reflexivity. Qed.
  Context (HK : spd d K).
  Lemma en_sym p q : en p q = en q p.
  Proof.
    apply (I_ext _ _ HI). intros x. unfold graddot. rewrite !peval_psum.
    rewrite (sg_ext d _ (fun c => sg d (fun e => peval (pdiff c p) x * (K c e * peval (pdiff e q) x)))).
    - rewrite sg_swap. apply sg_ext. intros c Hc. cbn [peval]. unfold kgrad. rewrite peval_psum, <- sg_scal. apply sg_ext. intros e He.
      unfold pscal. cbn [peval]. rewrite (proj1 HK c e Hc He). ring.
    - intros c _. cbn [peval]. unfold kgrad. rewrite peval_psum, <- sg_scal. reflexivity.
  Qed.
  Lemma en_pos p : 0 <= en p p.
  Proof. apply (int_pos _ _ HI). intros x _. rewrite graddot_quadf. apply (proj2 HK). Qed.
  Lemma en_def_grad p : en p p = 0 -> forall c x, (c < d)%nat -> po_on P x -> peval (pdiff c p) x = 0.
  Proof.
    intros Z c x Hc Hx. assert (Q : peval (graddot d p (kgrad d K p)) x = 0).
    { apply (int_def _ _ HI); [|exact Z|exact Hx]. intros y _. rewrite graddot_quadf. apply (proj2 HK). }
    rewrite graddot_quadf in Q. apply (proj2 (proj2 HK _) Q c Hc).
  Qed.
  Lemma en_def p : en p p = 0 -> exists k, forall x, po_on P x -> peval p x = k.
  Proof.
    intros Z. destruct (poly_point _ _ HP) as (x0 & H0). exists (peval p x0). intros x Hx.
    apply (poly_conn _ _ HP); [|exact Hx|exact H0]. apply en_def_grad, Z.
  Qed.
  (** integration by parts *)
  Lemma en_green p q : en p q = - I (PMul p (divk d K q)) + fsum (po_facets P) (fun f => fa_int f (PMul p (flux d K (fa_normal f) q))).
  Proof.
    assert (A : en p q + I (PMul p (divk d K q)) = I (psum d (fun c => pdiff c (PMul p (kgrad d K q c))))).
    { unfold en. rewrite <- (int_add _ _ HI). apply (I_ext _ _ HI). intros x. cbn [peval]. unfold graddot, divk.
      rewrite !peval_psum, <- sg_scal, <- sg_plus. apply sg_ext. intros. reflexivity. }
    rewrite (I_psum _ _ HI) in A.
    rewrite (sg_ext d _ (fun c => fsum (po_facets P) (fun f => fa_normal f c * fa_int f (PMul p (kgrad d K q c))))) in A
      by (intros c Hc; apply (poly_green _ _ HP), Hc).
    assert (B : forall fs, (forall f, In f fs -> In f (po_facets P)) ->
      sg d (fun c => fsum fs (fun f => fa_normal f c * fa_int f (PMul p (kgrad d K q c)))) =
      fsum fs (fun f => fa_int f (PMul p (flux d K (fa_normal f) q)))).
    { induction fs as [|f fs IH]; intros Hin; [apply sg_zero; reflexivity|]. cbn [fsum]. rewrite sg_plus, IH by (intros; apply Hin; right; assumption).
      f_equal. destruct (poly_facets _ _ HP f (Hin f (or_introl eq_refl))) as (HF & _).
      rewrite <- (I_lincomb _ _ HF d (fa_normal f) (fun c => PMul p (kgrad d K q c))). apply (I_ext _ _ HF). intros x.
      rewrite peval_lincomb. cbn [peval]. unfold flux. rewrite peval_psum, <- sg_scal. apply sg_ext. intros. simpl. ring. }
    rewrite (B _ (fun f H => H)) in A. lra.
  Qed.
End Energy.
