(** Proofs about the forms of bases_new.hpp: products of bases, projections. *)
From Coq Require Import List Arith Reals Lra Lia Bool.
From Verif Require Import Poly_Spec Poly_Proofs HHO_Spec HHO_Model HHO_Setting HHO_Proofs HHO2_Proofs HHO3_Proofs HHO4_Proofs HHO6_Proofs SLapl_Model.
Import ListNotations.
Open Scope R_scope.

(** the functions of a basis have its degree *)
Definition graded (b : sbasis) : Prop := forall j, (j < b_size b)%nat -> deg_le (b_poly b j) (b_deg b).

Lemma forms_eq e t s i j : integrate_forms e t s i j =
  qsum (el_quad e (ev_ideg t + ev_ideg s)) (fun x => sg (ev_comps s) (fun k => ev_val s x i k * ev_val t x j k)).
Proof.
  unfold integrate_forms.
  assert (G : forall q M, fold_left (fun M (qp : pt * R) => let '(x, w) := qp in fun i j => M i j + sg (ev_comps s) (fun k => (w * ev_val s x i k) * ev_val t x j k)) q M i j =
    M i j + qsum q (fun x => sg (ev_comps s) (fun k => ev_val s x i k * ev_val t x j k))).
  { induction q as [|[x w] q IH]; intros M; simpl; [lra|]. rewrite IH. cbv beta. rewrite <- sg_scal.
    rewrite (sg_ext (ev_comps s) (fun k => w * ev_val s x i k * ev_val t x j k) (fun k => w * (ev_val s x i k * ev_val t x j k))) by (intros; ring). ring. }
  rewrite G. unfold zeroM. lra.
Qed.
Lemma integrate_rhs_eq e f b i : integrate_rhs e f b i = qsum (el_quad e (2 * b_deg b + 1)) (fun x => phi b x i * f x).
Proof.
  unfold integrate_rhs. assert (G : forall q r, fold_left (fun r (qp : pt * R) => let '(x, w) := qp in fun i => r i + w * (phi b x i * f x)) q r i = r i + qsum q (fun x => phi b x i * f x)).
  { induction q as [|[x w] q IH]; intros r; simpl; [lra|]. rewrite IH. ring. }
  rewrite G. unfold zeroV. lra.
Qed.

Section Int.
  Context (on : pt -> Prop) (I : pexp -> R) (HI : integral on I) (e : selem) (HQ : exact (el_quad e) I).
  Lemma forms_int t s i j p : (forall x, sg (ev_comps s) (fun k => ev_val s x i k * ev_val t x j k) = peval p x) ->
    deg_le p (ev_ideg t + ev_ideg s) -> integrate_forms e t s i j = I p.
  Proof. intros Hx D. rewrite forms_eq, (qsum_ext _ _ (peval p)) by exact Hx. apply (exact_int _ _ HI _ HQ). exact D. Qed.
  (** (trial, test) *)
  Lemma scalar_forms trial test i j : graded trial -> graded test -> (i < b_size test)%nat -> (j < b_size trial)%nat ->
    integrate_forms e (scalar_ev trial) (scalar_ev test) i j = I (PMul (b_poly test i) (b_poly trial j)).
  Proof.
    intros Gt Gs Hi Hj. apply forms_int.
    - intros x. cbn [scalar_ev ev_comps ev_val sg peval]. unfold phi. ring.
    - cbn [scalar_ev ev_ideg]. rewrite Nat.add_comm. apply deg_le_mul; [apply Gs, Hi|apply Gt, Hj].
  Qed.
  Lemma deg_le_diff0 p i : deg_le p 0 -> forall x, peval (pdiff i p) x = 0.
  Proof. intros (p' & D & Ep) x. rewrite <- (pdiff_ext p' p i Ep x). apply pdeg0_diff. lia. Qed.
  (** (grad trial, grad test), and (trial, grad test . n) *)
  Lemma ideg_grad d b : ev_ideg (grad_ev d b) = (b_deg b - 1)%nat.
  Proof. cbn [grad_ev ev_ideg]. destruct (Nat.ltb_spec 0 (b_deg b)); lia. Qed.
  Lemma grad_forms d trial test i j : graded trial -> graded test -> (i < b_size test)%nat -> (j < b_size trial)%nat ->
    integrate_forms e (grad_ev d trial) (grad_ev d test) i j = I (graddot d (b_poly trial j) (fun k => pdiff k (b_poly test i))).
  Proof.
    intros Gt Gs Hi Hj. apply forms_int.
    - intros x. cbn [grad_ev ev_comps ev_val]. unfold graddot. rewrite peval_psum. apply sg_ext. intros k _. unfold dphi. cbn [peval]. ring.
    - rewrite !ideg_grad. apply deg_graddot; [apply Gt, Hj|]. intros k. apply deg_le_diff, Gs, Hi.
  Qed.
  Lemma dot_forms d n trial test i j : graded trial -> graded test -> (i < b_size test)%nat -> (j < b_size trial)%nat ->
    integrate_forms e (scalar_ev trial) (dot_ev (grad_ev d test) n) i j = I (PMul (b_poly trial j) (flux d delta n (b_poly test i))).
  Proof.
    intros Gt Gs Hi Hj. apply forms_int.
    - intros x. cbn [dot_ev grad_ev scalar_ev ev_comps ev_val]. cbn [sg peval]. unfold flux. rewrite peval_psum, Rplus_0_l, Rmult_comm. f_equal.
      apply sg_ext. intros k Hk. unfold pscal. cbn [peval]. change delta with (tensor_of None). rewrite <- tens_eq by exact Hk. cbn [tens]. unfold dphi. ring.
    - cbn [dot_ev grad_ev scalar_ev ev_ideg ev_degree]. apply deg_le_mul; [apply Gt, Hj|]. apply (deg_le_mono _ (b_deg test - 1)); [lia|]. apply deg_flux, Gs, Hi.
  Qed.
  (** (mt * grad trial, grad test) with a tensor of degree 1 *)
  Definition mat_grad (d : nat) (mt : nat -> nat -> pexp) (p : pexp) (k : nat) : pexp := psum d (fun m => PMul (mt m k) (pdiff m p)).
  Lemma material_forms d mt trial test i j : (forall m k, deg_le (mt m k) 1) -> graded trial -> graded test -> (i < b_size test)%nat -> (j < b_size trial)%nat ->
    integrate_forms e (material_ev (fun x m k => peval (mt m k) x) (grad_ev d trial)) (grad_ev d test) i j =
    I (graddot d (b_poly test i) (mat_grad d mt (b_poly trial j))).
  Proof.
    intros Dm Gt Gs Hi Hj. apply forms_int.
    - intros x. cbn [material_ev grad_ev ev_comps ev_val]. unfold graddot. rewrite peval_psum. apply sg_ext. intros k _. unfold dphi, mat_grad. cbn [peval].
      rewrite peval_psum. f_equal. apply sg_ext. intros m _. cbn [peval]. ring.
    - rewrite ideg_grad. cbn [material_ev grad_ev ev_ideg ev_degree]. rewrite Nat.add_comm. apply deg_graddot; [apply Gs, Hi|]. intros k. apply deg_le_psum. intros m _.
      pose proof (Gt j Hj) as Dj. destruct (Nat.eq_dec (b_deg trial) 0) as [Z|Z].
      + rewrite Z in *. apply (deg_le_ext (PC 0)); [|apply deg_le_const]. intros x. cbn [peval]. rewrite (deg_le_diff0 _ m Dj). ring.
      + apply (deg_le_mono _ (1 + (b_deg trial - 1))); [lia|]. apply deg_le_mul; [apply Dm|]. apply deg_le_diff, Dj.
  Qed.
  Lemma rhs_int f b i : graded b -> deg_le f (b_deg b + 1) -> (i < b_size b)%nat -> integrate_rhs e (peval f) b i = I (PMul (b_poly b i) f).
  Proof.
    intros G D Hi. rewrite integrate_rhs_eq. apply (exact_int _ _ HI _ HQ _ (PMul (b_poly b i) f)). apply (deg_le_mono _ (b_deg b + (b_deg b + 1))); [lia|].
    apply deg_le_mul; [apply G, Hi|exact D].
  Qed.
End Int.

(** a matrix that holds the products of two families, as an operator *)
Lemma gram_mv on I (HI : integral on I) n (A : mtx) s b i p : (forall j, (j < n)%nat -> A i j = I (PMul p (b j))) ->
  mv n A s i = I (PMul p (lincomb n s b)).
Proof. intros H. rewrite (I_mul_lincomb_r _ _ HI). apply sg_ext. intros j Hj. rewrite (H j Hj). ring. Qed.

Section Elem.
  Context (on : pt -> Prop) (I : pexp -> R) (HI : integral on I) (e : selem) (F : elem_fits on I e).
  Lemma fits_graded k : graded (el_basis e k).
  Proof. intros j Hj. rewrite (fit_deg _ _ _ F). apply (basis_deg _ _ _ F), Hj. Qed.
  Let HQ := fit_quad _ _ _ F.
  Definition MM (k : nat) : mtx := integrate_forms e (scalar_ev (el_basis e k)) (scalar_ev (el_basis e k)).
  Lemma MM_eq k i j : (i < b_size (el_basis e k))%nat -> (j < b_size (el_basis e k))%nat ->
    MM k i j = I (PMul (b_poly (el_basis e k) i) (b_poly (el_basis e k) j)).
  Proof. intros. apply (scalar_forms _ _ HI _ HQ); try assumption; apply fits_graded. Qed.
  Lemma MM_mv k s i : (i < b_size (el_basis e k))%nat ->
    mv (b_size (el_basis e k)) (MM k) s i = I (PMul (b_poly (el_basis e k) i) (lincomb (b_size (el_basis e k)) s (b_poly (el_basis e k)))).
  Proof. intros Hi. apply (gram_mv _ _ HI). intros. apply MM_eq; assumption. Qed.
  Context (ldlt : nat -> mtx -> (nat -> R) -> nat -> R) (HS : solves_spd ldlt).
  (** solving with a Gram matrix projects *)
  Lemma gram_solve k M (b : nat -> R) p : (forall i j, (i < b_size (el_basis e k))%nat -> (j < b_size (el_basis e k))%nat -> M i j = I (PMul (b_poly (el_basis e k) i) (b_poly (el_basis e k) j))) ->
    (forall i, (i < b_size (el_basis e k))%nat -> b i = I (PMul (b_poly (el_basis e k) i) p)) ->
    l2proj I k p (lincomb (b_size (el_basis e k)) (ldlt (b_size (el_basis e k)) M b) (b_poly (el_basis e k))).
  Proof.
    intros HM Hb. set (n := b_size (el_basis e k)) in *. apply (l2_basis _ _ HI _ F). fold n. intros i Hi.
    assert (SP : spd n M) by (eapply spd_ext; [|apply (gram_spd _ _ HI k n _ (fit_basis _ _ _ F k))]; intros; symmetry; apply HM; assumption).
    rewrite <- (Hb i Hi), <- (HS n M b SP i Hi), (I_mul_lincomb_r _ _ HI). apply sg_ext. intros j Hj. rewrite HM by assumption. ring.
  Qed.
  Lemma L2_project_l2 k p : deg_le p (k + 1) ->
    l2proj I k p (lincomb (b_size (el_basis e k)) (L2_project ldlt e (peval p) (el_basis e k)) (b_poly (el_basis e k))).
  Proof.
    intros D. apply gram_solve; [intros; apply (MM_eq k); assumption|]. intros i Hi. apply (rhs_int _ _ HI _ HQ); [apply fits_graded|rewrite (fit_deg _ _ _ F); exact D|exact Hi].
  Qed.
  Lemma projector_mass_eq k i j : (i < b_size (el_basis e k))%nat -> (j < b_size (el_basis e k))%nat ->
    projector_mass e (el_basis e k) i j = I (PMul (b_poly (el_basis e k) i) (b_poly (el_basis e k) j)).
  Proof.
    intros Hi Hj. unfold projector_mass, projector_qps. rewrite accumulate_eq, (fit_deg _ _ _ F). unfold zeroM, phi. rewrite Rplus_0_l.
    apply (acc_int _ _ HI _ F). apply (deg_le_mono _ (k + k)); [lia|]. apply deg_le_mul; apply (basis_deg _ _ _ F); assumption.
  Qed.
  Lemma projector_apply_l2 k p : deg_le p k ->
    l2proj I k p (lincomb (b_size (el_basis e k)) (projector_apply ldlt e (el_basis e k) (peval p)) (b_poly (el_basis e k))).
  Proof.
    intros D. apply gram_solve; [apply projector_mass_eq|]. intros i Hi.
    assert (G : forall q r, fold_left (fun r (qp : pt * R) => let '(x, w) := qp in fun i => r i + w * phi (el_basis e k) x i * peval p x) q r i = r i + qsum q (fun x => phi (el_basis e k) x i * peval p x)).
    { induction q as [|[x w] q IH]; intros r; simpl; [lra|]. rewrite IH. ring. }
    rewrite G. unfold zeroV, phi, projector_qps. rewrite Rplus_0_l, (fit_deg _ _ _ F). apply (acc_int _ _ HI _ F). apply (deg_le_mono _ (k + k)); [lia|].
    apply deg_le_mul; [apply (basis_deg _ _ _ F), Hi|exact D].
  Qed.
  Lemma projector_basis_l2 k other j : (j < b_size other)%nat -> deg_le (b_poly other j) k ->
    l2proj I k (b_poly other j) (lincomb (b_size (el_basis e k)) (fun i => projector_basis ldlt e (el_basis e k) other i j) (b_poly (el_basis e k))).
  Proof.
    intros Hj D. unfold projector_basis, solveM. apply (gram_solve k (projector_mass e (el_basis e k)) (fun i => accumulate (projector_qps e (el_basis e k)) (phi (el_basis e k)) (phi other) zeroM i j)); [apply projector_mass_eq|]. intros i Hi.
    rewrite accumulate_eq. unfold zeroM, phi, projector_qps. rewrite Rplus_0_l, (fit_deg _ _ _ F). apply (acc_int _ _ HI _ F). apply (deg_le_mono _ (k + k)); [lia|].
    apply deg_le_mul; [apply (basis_deg _ _ _ F), Hi|exact D].
  Qed.
  (** projecting is the identity on the polynomials of the degree *)
  Lemma l2proj_id k p r : deg_le p k -> l2proj I k p r -> forall x, on x -> peval r x = peval p x.
  Proof.
    intros D (Dr & Hr). apply (span_eq _ _ HI k _ _ _ _ (fit_basis _ _ _ F k) Dr D). intros i Hi. apply Hr. apply (basis_deg _ _ _ F), Hi.
  Qed.
End Elem.
