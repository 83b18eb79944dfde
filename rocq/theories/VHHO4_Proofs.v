(** Symmetric gradient reconstruction. *)
From Coq Require Import List Arith Reals Lra Lia Bool.
From Verif Require Import Poly_Spec Poly_Proofs HHO_Spec VHHO_Spec HHO_Model VHHO_Model HHO_Setting VHHO_Setting HHO_Proofs HHO2_Proofs HHO3_Proofs HHO4_Proofs HHO5_Proofs HHO6_Proofs HHO7_Proofs HHO8_Proofs HHO9_Proofs VHHO_Proofs VHHO2_Proofs VHHO3_Proofs.
Import ListNotations.
Open Scope R_scope.

(** * bases made of a scalar function times one of [s] orthonormal constant tensors with [m] entries *)
Section Shapes.
  Context (m s : nat) (Sh : nat -> nat -> R) (Hs : (0 < s)%nat)
    (orth : forall p q, (p < s)%nat -> (q < s)%nat -> sg m (fun e => Sh p e * Sh q e) = delta p q).
  Context (b : sbasis) (B : nat -> tf) (HB : forall f e x, (e < m)%nat -> peval (B f e) x = Sh (f mod s) e * peval (b_poly b (f / s)%nat) x).
  Lemma shape_mod f : (f mod s < s)%nat.
  Proof. apply Nat.mod_upper_bound. lia. Qed.
  Lemma shape_lin n k e x : (e < m)%nat -> peval (vlin (s * n) k B e) x = sg s (fun p => Sh p e * peval (lincomb n (comp s p k) (b_poly b)) x).
  Proof.
    intros He. rewrite peval_vlin, sg_blocks2. apply sg_ext. intros p Hp. rewrite peval_lincomb, <- sg_scal. apply sg_ext. intros i _.
    rewrite HB, idx_mod, idx_div by assumption. unfold comp. ring.
  Qed.
  Lemma shape_dot f g x : peval (vdot m (B f) (B g)) x = delta (f mod s) (g mod s) * (peval (b_poly b (f / s)%nat) x * peval (b_poly b (g / s)%nat) x).
  Proof.
    rewrite peval_vdot, <- orth by apply shape_mod. rewrite Rmult_comm, <- sg_scal. apply sg_ext. intros e He. rewrite !HB by exact He. ring.
  Qed.
  Context (on : pt -> Prop) (deg : nat) (Hb : basis_on on deg (b_size b) (b_poly b)).
  Lemma shape_size f : (f < s * b_size b)%nat -> (f / s < b_size b)%nat.
  Proof. intros. apply Nat.div_lt_upper_bound; lia. Qed.
  Lemma shape_deg f : (f < s * b_size b)%nat -> vdeg m (B f) deg.
  Proof.
    intros Hf e He. apply (deg_le_ext (pscal (Sh (f mod s) e) (b_poly b (f / s)%nat))); [intros x; rewrite HB by exact He; reflexivity|].
    apply deg_le_scal, (proj1 Hb), shape_size, Hf.
  Qed.
  Lemma shape_coef n k p x : (p < s)%nat -> sg m (fun e => Sh p e * peval (vlin (s * n) k B e) x) = peval (lincomb n (comp s p k) (b_poly b)) x.
  Proof.
    intros Hp. rewrite (sg_ext m _ (fun e => sg s (fun q => peval (lincomb n (comp s q k) (b_poly b)) x * (Sh p e * Sh q e)))).
    - rewrite sg_swap. rewrite (sg_ext s _ (fun q => delta p q * peval (lincomb n (comp s q k) (b_poly b)) x)).
      + apply (sg_delta s p (fun q => peval (lincomb n (comp s q k) (b_poly b)) x) Hp).
      + intros q Hq. rewrite sg_scal, orth by assumption. ring.
    - intros e He. rewrite shape_lin by exact He. rewrite <- sg_scal. apply sg_ext. intros. ring.
  Qed.
  Lemma shape_indep : vindep on m (s * b_size b) B.
  Proof.
    intros k H j Hj. rewrite (Nat.div_mod j s) by lia. change (k (s * (j / s) + j mod s)%nat) with (comp s (j mod s) k (j / s)%nat).
    apply (proj1 (proj2 Hb)); [|apply shape_size, Hj]. intros x Hx. rewrite <- shape_coef by apply shape_mod.
    apply sg_zero. intros e He. rewrite (H e x He Hx). ring.
  Qed.
  (** a tensor that is the sum of its components along the shapes *)
  Definition shaped (T : tf) (x : pt) : Prop := forall e, (e < m)%nat -> peval (T e) x = sg s (fun p => Sh p e * sg m (fun e' => Sh p e' * peval (T e') x)).
  Lemma shape_span (Q : pt -> Prop) T : (forall p, deg_le p deg -> (exists e : nat -> R, forall x, peval p x = sg m (fun a => e a * peval (T a) x)) -> exists k, forall x, Q x -> peval p x = peval (lincomb (b_size b) k (b_poly b)) x) ->
    vdeg m T deg -> (forall x, Q x -> shaped T x) -> exists k, forall e x, (e < m)%nat -> Q x -> peval (T e) x = peval (vlin (s * b_size b) k B e) x.
  Proof.
    intros Sp HT HS. destruct (choose s (fun p k => forall x, Q x -> sg m (fun e => Sh p e * peval (T e) x) = peval (lincomb (b_size b) k (b_poly b)) x)) as (cs & Hcs).
    { intros p Hp. destruct (Sp (psum m (fun e => pscal (Sh p e) (T e)))) as (k & Hk).
      - apply deg_le_psum. intros e He. apply deg_le_scal, HT, He.
      - exists (Sh p). intros x. rewrite peval_psum. reflexivity.
      - exists k. intros x Hx. rewrite <- (Hk x Hx), peval_psum. reflexivity. }
    destruct (vec_combine s (b_size b) cs) as (k & Hk). exists k. intros e x He Hx. rewrite shape_lin by exact He. rewrite (HS x Hx e He).
    apply sg_ext. intros p Hp. f_equal. rewrite (Hcs p Hp x Hx). apply lincomb_coef. intros. symmetry. apply Hk, Hp.
  Qed.
End Shapes.

(** * the symmetric matrices of size 2 and 3 *)
Definition sym_shape (d p e : nat) : R :=
  let '(i, j) := nth p (sym_pairs d) (0, 0)%nat in
  if (i =? j)%nat then (if (e =? d * i + i)%nat then 1 else 0)
  else if ((e =? d * i + j) || (e =? d * j + i))%nat then 1 / sqrt 2 else 0.
Lemma half2 : 1 / sqrt 2 * (1 / sqrt 2) = 1 / 2.
Proof. assert (H : sqrt 2 * sqrt 2 = 2) by (apply sqrt_sqrt; lra). assert (sqrt 2 <> 0) by (intros E; rewrite E in H; lra). field_simplify; [|assumption]. unfold pow. rewrite Rmult_1_r, H. field. Qed.
Lemma sym_shape_eq d b f e x : peval (v_comp (sym_basis d b) f e) x = sym_shape d (f mod sym_dim d) e * peval (b_poly b (f / sym_dim d)%nat) x.
Proof.
  unfold sym_basis, sym_shape. cbn [v_comp]. destruct (nth _ _ _) as (i, j). destruct (i =? j)%nat.
  - destruct (e =? _)%nat; cbn [peval]; ring.
  - destruct (_ || _); unfold pscal; cbn [peval]; ring.
Qed.
Definition dim23 (d : nat) : Prop := d = 2%nat \/ d = 3%nat.
Lemma sym_dim_pos d : dim23 d -> (0 < sym_dim d)%nat.
Proof. intros [-> | ->]; cbv; lia. Qed.
Lemma sym_orth d : dim23 d -> forall p q, (p < sym_dim d)%nat -> (q < sym_dim d)%nat -> sg (d * d) (fun e => sym_shape d p e * sym_shape d q e) = delta p q.
Proof.
  pose proof half2 as H2. intros [-> | ->] p q Hp Hq.
  - change (sym_dim 2) with 3%nat in *. do 3 (destruct p as [|p]; [do 3 (destruct q as [|q]; [cbn -[Rmult sqrt Rdiv]; unfold delta; cbn [Nat.eqb]; try rewrite H2; lra|]); lia|]). lia.
  - change (sym_dim 3) with 6%nat in *. do 6 (destruct p as [|p]; [do 6 (destruct q as [|q]; [cbn -[Rmult sqrt Rdiv]; unfold delta; cbn [Nat.eqb]; try rewrite H2; lra|]); lia|]). lia.
Qed.
Lemma sym_shaped d T x : dim23 d -> msymmetric d T -> shaped (d * d) (sym_dim d) (sym_shape d) T x.
Proof.
  pose proof half2 as H2. set (h := 1 / sqrt 2) in *. assert (Q : forall e, h * h * peval (T e) x = 1 / 2 * peval (T e) x) by (intros; rewrite H2; reflexivity).
  intros [-> | ->] HT e He.
  - pose proof (HT 0%nat 1%nat x ltac:(lia) ltac:(lia)) as A. cbn [Nat.mul Nat.add] in A. change (sym_dim 2) with 3%nat.
    pose proof (Q 1%nat). pose proof (Q 2%nat). clear Q H2.
    do 4 (destruct e as [|e]; [cbn -[Rmult sqrt Rdiv peval]; fold h; clearbody h; lra|]). lia.
  - pose proof (HT 0%nat 1%nat x ltac:(lia) ltac:(lia)) as A. pose proof (HT 0%nat 2%nat x ltac:(lia) ltac:(lia)) as A'. pose proof (HT 1%nat 2%nat x ltac:(lia) ltac:(lia)) as A''.
    cbn [Nat.mul Nat.add] in A, A', A''. change (sym_dim 3) with 6%nat.
    pose proof (Q 1%nat). pose proof (Q 2%nat). pose proof (Q 3%nat). pose proof (Q 5%nat). pose proof (Q 6%nat). pose proof (Q 7%nat). clear Q H2.
    do 9 (destruct e as [|e]; [cbn -[Rmult sqrt Rdiv peval]; fold h; clearbody h; lra|]). lia.
Qed.
Lemma sym_shape_sym d p a c : dim23 d -> (p < sym_dim d)%nat -> (a < d)%nat -> (c < d)%nat -> sym_shape d p (d * a + c) = sym_shape d p (d * c + a).
Proof.
  intros [-> | ->] Hp Ha Hc.
  - change (sym_dim 2) with 3%nat in *. do 3 (destruct p as [|p]; [do 2 (destruct a as [|a]; [do 2 (destruct c as [|c]; [reflexivity|]); lia|]); lia|]). lia.
  - change (sym_dim 3) with 6%nat in *. do 6 (destruct p as [|p]; [do 3 (destruct a as [|a]; [do 3 (destruct c as [|c]; [reflexivity|]); lia|]); lia|]). lia.
Qed.

(** * divergence theorem for matrices *)
Definition mdiv (d : nat) (T : tf) : tf := fun a => pdivv d (mrow d T a).
Lemma peval_mnrm d n T a x : peval (mnrm d n T a) x = sg d (fun b => n b * peval (T (d * a + b)%nat) x).
Proof. unfold mnrm. rewrite peval_vnrm. reflexivity. Qed.
Lemma dot_rows d S T x : peval (vdot (d * d) S T) x = sg d (fun a => peval (vdot d (mrow d S a) (mrow d T a)) x).
Proof. rewrite peval_vdot, sg_blocks. apply sg_ext. intros a _. rewrite peval_vdot. reflexivity. Qed.
Lemma mgrad_row d V a b x : (b < d)%nat -> peval (mgrad d V (d * a + b)%nat) x = peval (pdiff b (V a)) x.
Proof. intros Hb. unfold mgrad. rewrite idx_mod, idx_div by exact Hb. reflexivity. Qed.
Lemma msymp_eval d T a b x : (a < d)%nat -> (b < d)%nat -> peval (msymp d T (d * a + b)%nat) x = (peval (T (d * a + b)%nat) x + peval (T (d * b + a)%nat) x) / 2.
Proof. intros Ha Hb. unfold msymp. rewrite idx_mod, idx_div by exact Hb. unfold pscal. cbn [peval]. field. Qed.
Lemma dot_sym d S T x : msymmetric d S -> peval (vdot (d * d) S (msymp d T)) x = peval (vdot (d * d) S T) x.
Proof.
  intros HS. rewrite !peval_vdot, !sg_blocks.
  assert (A : sg d (fun a => sg d (fun b => peval (S (d * a + b)%nat) x * peval (T (d * a + b)%nat) x)) = sg d (fun a => sg d (fun b => peval (S (d * a + b)%nat) x * peval (T (d * b + a)%nat) x))).
  { rewrite sg_swap. apply sg_ext. intros a Ha. apply sg_ext. intros b Hb. rewrite (HS b a) by assumption. reflexivity. }
  rewrite (sg_ext d (fun i => sg d (fun a => peval (S (d * i + a)%nat) x * peval (msymp d T (d * i + a)%nat) x))
    (fun a => 1 / 2 * sg d (fun b => peval (S (d * a + b)%nat) x * peval (T (d * a + b)%nat) x) + 1 / 2 * sg d (fun b => peval (S (d * a + b)%nat) x * peval (T (d * b + a)%nat) x))).
  - rewrite sg_plus, !sg_scal, <- A. lra.
  - intros a Ha. rewrite <- !sg_scal, <- sg_plus. apply sg_ext. intros b Hb. rewrite msymp_eval by assumption. field.
Qed.
Lemma green_mat d P (HP : is_polytope d P) V T :
  po_int P (vdot (d * d) T (mgrad d V)) = - po_int P (vdot d V (mdiv d T)) + fsum (po_facets P) (fun f => fa_int f (vdot d V (mnrm d (fa_normal f) T))).
Proof.
  pose proof (poly_int _ _ HP) as HI.
  rewrite (I_ext _ _ HI _ (psum d (fun a => vdot d (mrow d T a) (pgrad (V a))))).
  2:{ intros x. rewrite dot_rows, peval_psum. apply sg_ext. intros a _. rewrite !peval_vdot. apply sg_ext. intros b Hb. f_equal. apply mgrad_row, Hb. }
  rewrite (I_psum _ _ HI). rewrite (sg_ext d _ (fun a => (-1) * po_int P (PMul (V a) (mdiv d T a)) + fsum (po_facets P) (fun f => fa_int f (PMul (V a) (mnrm d (fa_normal f) T a))))).
  2:{ intros a _. rewrite (green_vec d P HP). unfold mdiv, mnrm. lra. }
  rewrite sg_plus, sg_scal. unfold vdot at 1. rewrite (I_psum _ _ HI).
  assert (B : sg d (fun a => fsum (po_facets P) (fun f => fa_int f (PMul (V a) (mnrm d (fa_normal f) T a)))) = fsum (po_facets P) (fun f => fa_int f (vdot d V (mnrm d (fa_normal f) T)))).
  { pose proof (fun f Hf => proj1 (poly_facets _ _ HP f Hf)) as HF. induction (po_facets P) as [|f l IH]; cbn [fsum]; [apply sg_zero; auto|].
    rewrite sg_plus, IH by (intros; apply HF; right; assumption). f_equal. unfold vdot. rewrite (I_psum _ _ (HF f (or_introl eq_refl))). reflexivity. }
  lra.
Qed.
Lemma deg_mnrm d n T k : vdeg (d * d) T k -> vdeg d (mnrm d n T) k.
Proof. intros H a Ha. apply deg_vnrm. intros b Hb. apply H. nia. Qed.
Lemma deg_mdiv d T k : vdeg (d * d) T k -> vdeg d (mdiv d T) (k - 1).
Proof. intros H a Ha. apply deg_pdivv. intros b Hb. apply H. nia. Qed.
Lemma deg_symgrad d V k : vdeg d V k -> vdeg (d * d) (msymp d (mgrad d V)) (k - 1).
Proof.
  intros H e He. assert (Hd : (0 < d)%nat) by nia. assert (e mod d < d)%nat by (apply Nat.mod_upper_bound; lia). assert (e / d < d)%nat by (apply Nat.div_lt_upper_bound; lia).
  unfold msymp. apply deg_le_scal, deg_le_add; unfold mgrad; apply deg_le_diff, H; try assumption.
  rewrite idx_div by assumption. assumption.
Qed.
Lemma symgrad_symmetric d V : msymmetric d (msymp d (mgrad d V)).
Proof. intros a b x Ha Hb. rewrite !msymp_eval by assumption. lra. Qed.

Lemma fold_add_cols2 N off n off' n' u i (B B' : pt -> R -> mtx) (g : pt -> R) (q : list (pt * R)) : (off + n <= N)%nat -> (off' + n' <= N)%nat ->
  (forall x w, mv n (B x w) (fun j => u (off + j)%nat) i + mv n' (B' x w) (fun j => u (off' + j)%nat) i = w * g x) -> forall M,
  mv N (fold_left (fun M qp => let '(x, w) := qp in let M := add_cols M off n (B x w) in add_cols M off' n' (B' x w)) q M) u i = mv N M u i + qsum q g.
Proof.
  intros Hn Hn' HB. induction q as [|[x w] q IH]; intros M; cbn [fold_left qsum]; [lra|]. cbv zeta. rewrite IH, !mv_add_cols by assumption. specialize (HB x w). lra.
Qed.

Section SymGrad.
  Context (d : nat) (Hd : dim23 d) (P : polytope) (c : scell) (HC : cell_fits d P c).
  Let HP := cf_poly _ _ _ HC.
  Let HI := poly_int _ _ HP.
  Context (ldlt : nat -> mtx -> (nat -> R) -> nat -> R) (HS : solves_spd ldlt) (cd gd : nat).
  Let cb := vec_basis d (el_basis (cl_elem c) cd).
  Let gs := el_basis (cl_elem c) gd.
  Let gb := sym_basis d gs.
  Let dd := (d * d)%nat.
  Let sd := sym_dim d.
  Let Hsd : (0 < sd)%nat := sym_dim_pos d Hd.
  Let HBs : forall f e x, (e < dd)%nat -> peval (v_comp gb f e) x = sym_shape d (f mod sd) e * peval (b_poly gs (f / sd)%nat) x.
  Proof. intros. apply sym_shape_eq. Qed.
  Let Hgb : basis_on (po_on P) gd (b_size gs) (b_poly gs) := fit_basis _ _ _ (cf_elem _ _ _ HC) gd.
  Lemma sgb_deg0 : v_deg gb = gd.
  Proof. apply (fit_deg _ _ _ (cf_elem _ _ _ HC)). Qed.
  Lemma sgb_deg f : (f < v_size gb)%nat -> vdeg dd (v_comp gb f) gd.
  Proof. apply (shape_deg dd sd (sym_shape d) Hsd gs (v_comp gb) HBs (po_on P) gd Hgb). Qed.
  Lemma sgb_indep : vindep (po_on P) dd (v_size gb) (v_comp gb).
  Proof. apply (shape_indep dd sd (sym_shape d) Hsd (sym_orth d Hd) gs (v_comp gb) HBs (po_on P) gd Hgb). Qed.
  Lemma sgb_sym f : msymmetric d (v_comp gb f).
  Proof.
    intros a b x Ha Hb. rewrite !HBs by (unfold dd; nia). rewrite (sym_shape_sym d _ a b Hd); try assumption; [reflexivity|]. apply Nat.mod_upper_bound. unfold sd in Hsd. lia.
  Qed.
  Lemma sgb_span T : vdeg dd T gd -> msymmetric d T -> exists k, forall e x, (e < dd)%nat -> po_on P x -> peval (T e) x = peval (vlin (v_size gb) k (v_comp gb) e) x.
  Proof.
    intros HT HTs. apply (shape_span dd sd (sym_shape d) gs (v_comp gb) HBs gd (po_on P) T).
    - intros p Dp _. apply (proj2 (proj2 Hgb) p Dp).
    - exact HT.
    - intros x _. apply sym_shaped; assumption.
  Qed.
  Let dec := if (d =? 3)%nat then 6%nat else if (d =? 2)%nat then 3%nat else 0%nat.
  Lemma dec_eq : dec = sd.
  Proof. unfold dec, sd. destruct Hd as [E | E]; rewrite E; reflexivity. Qed.
  Lemma sub_mod i j : (j <= i)%nat -> ((i - j) mod sd =? 0)%nat = (i mod sd =? j mod sd)%nat.
  Proof.
    intros Hji. assert (Hz : sd <> 0%nat) by lia. destruct (Nat.eqb_spec (i mod sd) (j mod sd)) as [E|E].
    - apply Nat.eqb_eq. rewrite (Nat.div_mod i sd Hz), (Nat.div_mod j sd Hz), E.
      replace (sd * (i / sd) + j mod sd - (sd * (j / sd) + j mod sd))%nat with ((i / sd - j / sd) * sd)%nat by nia. apply Nat.mod_mul, Hz.
    - apply Nat.eqb_neq. intros Z. apply E. apply Nat.mod_divides in Z as (q & Hq); [|exact Hz].
      replace i with (j + q * sd)%nat by nia. rewrite Nat.mod_add by exact Hz. reflexivity.
  Qed.
  Lemma symgrad_lhs_eq i j : (i < v_size gb)%nat -> (j < v_size gb)%nat -> symgrad_lhs d c gb dec i j = po_int P (vdot dd (v_comp gb i) (v_comp gb j)).
  Proof.
    assert (G : forall i j, (i < v_size gb)%nat -> (j < v_size gb)%nat -> (j <= i)%nat -> forall q M,
      fold_left (fun M qp => let '(x, w) := qp in fun i j => if ((j <=? i) && ((i - j) mod dec =? 0))%nat
        then M i j + sg (d * d) (fun e => vphi gb x i e * (w * vphi gb x j e)) else M i j) q M i j = M i j + qsum q (peval (vdot dd (v_comp gb i) (v_comp gb j)))).
    { intros i0 j0 Hi Hj Hji. induction q as [|[x w] q IH]; intros M; cbn [fold_left qsum]; [lra|]. rewrite IH. rewrite (proj2 (Nat.leb_le j0 i0) Hji). cbn [andb].
      rewrite dec_eq, sub_mod by exact Hji. destruct (Nat.eqb_spec (i0 mod sd) (j0 mod sd)) as [E|E].
      - rewrite peval_vdot. fold dd. rewrite (sg_ext dd (fun e => vphi gb x i0 e * (w * vphi gb x j0 e)) (fun e => w * (peval (v_comp gb i0 e) x * peval (v_comp gb j0 e) x))) by (intros; unfold vphi; ring).
        rewrite sg_scal. lra.
      - rewrite (shape_dot dd sd (sym_shape d) Hsd (sym_orth d Hd) gs (v_comp gb) HBs). unfold delta. rewrite (proj2 (Nat.eqb_neq _ _) E). lra. }
    assert (G2 : forall i j, (i < v_size gb)%nat -> (j < v_size gb)%nat -> (j <= i)%nat ->
      fold_left (fun M qp => let '(x, w) := qp in fun i j => if ((j <=? i) && ((i - j) mod dec =? 0))%nat
        then M i j + sg (d * d) (fun e => vphi gb x i e * (w * vphi gb x j e)) else M i j) (el_quad (cl_elem c) (2 * v_deg gb)) zeroM i j = po_int P (vdot dd (v_comp gb i) (v_comp gb j))).
    { intros i0 j0 Hi Hj Hji. rewrite G by assumption. unfold zeroM. rewrite Rplus_0_l. apply (exact_int _ _ HI _ (fit_quad _ _ _ (cf_elem _ _ _ HC))). rewrite sgb_deg0.
      apply (deg_le_mono _ (gd + gd)); [lia|]. apply deg_vdot; apply sgb_deg; assumption. }
    intros Hi Hj. unfold symgrad_lhs. destruct (Nat.ltb_spec i j).
    - rewrite G2 by (assumption || lia). apply (vdot_comm _ _ HI).
    - apply G2; assumption.
  Qed.
  Let uT (u : nat -> R) : tf := vcell_fun d c cd u.
  Lemma vsgrad_eq j e x : (e < dd)%nat -> vsgrad d cb x j e = peval (msymp d (mgrad d (v_comp cb j)) e) x.
  Proof.
    intros He. unfold dd in He. assert (H0 : (0 < d)%nat) by nia. assert (e mod d < d)%nat by (apply Nat.mod_upper_bound; lia). assert (e / d < d)%nat by (apply Nat.div_lt_upper_bound; lia).
    unfold vsgrad, msymp, mgrad, pscal. cbn [peval]. rewrite idx_mod, idx_div by assumption. field.
  Qed.
  Lemma symgrad_lin n k B e x : (e < dd)%nat -> peval (msymp d (mgrad d (vlin n k B)) e) x = sg n (fun j => k j * peval (msymp d (mgrad d (B j)) e) x).
  Proof.
    intros He. unfold msymp, mgrad, pscal, vlin. cbn [peval]. rewrite !pdiff_lincomb, <- sg_plus, <- sg_scal. apply sg_ext. intros. ring.
  Qed.
  Lemma symgrad_cell_row N u i : (v_size cb <= N)%nat -> (i < v_size gb)%nat ->
    mv N (symgrad_cell d c cd gb) u i = po_int P (vdot dd (v_comp gb i) (msymp d (mgrad d (uT u)))).
  Proof.
    intros HN Hi. unfold symgrad_cell. fold cb. destruct (Nat.ltb_spec 0 cd).
    - rewrite (fold_add_cols N 0 (v_size cb) u i _ (fun x => peval (vdot dd (v_comp gb i) (msymp d (mgrad d (uT u)))) x)).
      + rewrite mv_zero, Rplus_0_l, sgb_deg0. apply (exact_int _ _ HI _ (fit_quad _ _ _ (cf_elem _ _ _ HC))).
        apply (deg_le_mono _ (gd + (cd - 1))); [lia|]. apply deg_vdot; [apply sgb_deg, Hi|]. apply deg_symgrad. apply (vcell_deg d P c HC cd).
      + lia.
      + intros x w. rewrite peval_vdot. unfold mv.
        rewrite (sg_ext dd (fun a => peval (v_comp gb i a) x * peval (msymp d (mgrad d (uT u)) a) x)
          (fun e => sg (v_size cb) (fun j => u j * (peval (v_comp gb i e) x * vsgrad d cb x j e)))).
        * rewrite sg_swap, <- sg_scal. apply sg_ext. intros j _. cbn [Nat.add]. rewrite sg_scal. fold dd. unfold vphi.
          rewrite (sg_ext dd (fun e => peval (v_comp gb i e) x * (w * vsgrad d cb x j e)) (fun e => w * (peval (v_comp gb i e) x * vsgrad d cb x j e))) by (intros; ring). rewrite sg_scal. ring.
        * intros e He. unfold uT, vcell_fun. fold cb. rewrite symgrad_lin by exact He. rewrite <- sg_scal. apply sg_ext. intros. rewrite vsgrad_eq by exact He. ring.
    - rewrite mv_zero. symmetry. apply (I_zero _ _ HI). intros x _. rewrite peval_vdot. apply sg_zero. intros e He.
      assert (Z : peval (msymp d (mgrad d (uT u)) e) x = 0); [|rewrite Z; ring]. unfold dd in He. assert (H0 : (0 < d)%nat) by nia. assert (e mod d < d)%nat by (apply Nat.mod_upper_bound; lia). assert (e / d < d)%nat by (apply Nat.div_lt_upper_bound; lia).
      unfold msymp, mgrad, pscal. cbn [peval]. rewrite idx_mod, idx_div by assumption.
      rewrite !deg_le_diff0; [ring| |]; replace 0%nat with cd by lia; apply (vcell_deg d P c HC cd); assumption.
  Qed.
  Definition sface_term (u : nat -> R) (i : nat) (f : facet) (uF : tf) : R := fa_int f (vdot d (vsub uF (vcell_fun d c cd u)) (mnrm d (fa_normal f) (v_comp gb i))).
  Lemma symgrad_rows N u i : (v_size cb <= N)%nat -> (i < v_size gb)%nat -> forall fs fcs, Forall2 face_fit fs fcs -> forall fdi off M,
    (off + vface_dofs (vbases_l d (combine fcs fdi)) <= N)%nat ->
    mv N (snd (fold_left (symgrad_face d gb cb cd) (combine fcs fdi) (off, M))) u i =
    mv N M u i + vfsum2 fs (vface_funs off (vbases_l d (combine fcs fdi)) u) (sface_term u i).
  Proof.
    intros HN Hi fs fcs H. induction H as [|f fc fs fcs [[FF [Hn _]] FI] H IH]; intros fdi off M Hoff; [simpl; lra|].
    destruct fdi as [|[fd|] fdi]; cbn [combine fold_left]; [simpl; lra| |].
    - cbn [combine map vbases_l fst snd vface_dofs] in Hoff. unfold symgrad_face at 2. cbn [fst snd].
      rewrite IH by (unfold vbases_l in *; lia). cbn [map vbases_l fst snd vface_funs vfsum2]. rewrite <- Rplus_assoc. f_equal.
      set (fb := vec_basis d (el_basis (fc_elem fc) fd)) in *. set (uF := vlin (v_size fb) (fun j => u (off + j)%nat) (v_comp fb)).
      rewrite (fold_add_cols2 N off (v_size fb) 0 (v_size cb) u i _ _ (fun x => peval (vdot d (vsub uF (uT u)) (mnrm d (fa_normal f) (v_comp gb i))) x)).
      + f_equal. unfold sface_term. apply (exact_int _ _ FI _ (fit_quad _ _ _ FF)). rewrite sgb_deg0.
        apply (deg_le_mono _ (Nat.max cd fd + gd)); [lia|]. apply deg_vdot; [|apply deg_mnrm, sgb_deg, Hi].
        intros a Ha. apply deg_le_sub.
        * apply (deg_le_mono _ fd); [lia|]. apply (vdeg_vlin d); [|exact Ha]. intros j Hj. apply (vec_deg (fa_on f)); [apply (fit_basis _ _ _ FF)|exact Hj].
        * apply (deg_le_mono _ cd); [lia|]. apply (vcell_deg d P c HC cd), Ha.
      + lia.
      + lia.
      + intros x w. rewrite Hn.
        assert (Gn : forall a, mphin d gb w (fa_normal f) x i a = w * peval (mnrm d (fa_normal f) (v_comp gb i) a) x).
        { intros a. unfold mphin. rewrite peval_mnrm, <- sg_scal. apply sg_ext. intros. unfold vphi. ring. }
        assert (Gv : forall (n : nat) (vb : nat -> tf) (k : nat -> R), mv n (fun i' j => sg d (fun a => mphin d gb w (fa_normal f) x i' a * peval (vb j a) x)) k i =
                  w * sg d (fun a => peval (vlin n k vb a) x * peval (mnrm d (fa_normal f) (v_comp gb i) a) x)).
        { intros n vb k. unfold mv. rewrite (sg_ext d (fun a => peval (vlin n k vb a) x * _) (fun a => sg n (fun j => k j * (peval (vb j a) x * peval (mnrm d (fa_normal f) (v_comp gb i) a) x)))).
          - rewrite sg_swap, <- sg_scal. apply sg_ext. intros j _. rewrite sg_scal.
            rewrite (sg_ext d (fun a => mphin d gb w (fa_normal f) x i a * peval (vb j a) x) (fun a => w * (peval (vb j a) x * peval (mnrm d (fa_normal f) (v_comp gb i) a) x))) by (intros; rewrite Gn; ring).
            rewrite sg_scal. ring.
          - intros a _. rewrite peval_vlin, Rmult_comm, <- sg_scal. apply sg_ext. intros. ring. }
        pose proof (Gv (v_size fb) (v_comp fb) (fun j => u (off + j)%nat)) as A1. pose proof (Gv (v_size cb) (v_comp cb) u) as A2. change (fun j => u (0 + j)%nat) with u.
        change (fun i' j => - sg d (fun a => mphin d gb w (fa_normal f) x i' a * vphi cb x j a)) with (mopp (fun i' j => sg d (fun a => mphin d gb w (fa_normal f) x i' a * peval (v_comp cb j a) x))).
        rewrite mv_opp, A2. unfold vphi at 1. rewrite A1. rewrite peval_vdot.
        rewrite (sg_ext d (fun a => peval (vsub uF (uT u) a) x * _) (fun a => peval (uF a) x * peval (mnrm d (fa_normal f) (v_comp gb i) a) x + - (peval (uT u a) x * peval (mnrm d (fa_normal f) (v_comp gb i) a) x))).
        * rewrite sg_plus, sg_opp. unfold uF, uT, vcell_fun. fold cb. ring.
        * intros a _. unfold vsub, psubp, pscal. cbn [peval]. ring.
    - cbn [combine map vbases_l fst snd vface_dofs] in Hoff. unfold symgrad_face at 2. cbn [fst snd]. rewrite IH by (unfold vbases_l in *; lia). reflexivity.
  Qed.
  Variable fdi : list (option nat).
  Let N := vnum_dofs d c cd fdi.
  Let prog := symmetric_gradrec ldlt d c cd gd fdi.
  Definition E (u : nat -> R) : tf := oper_fun gb N (fst prog) u.
  Definition eform (u : nat -> R) (t : tf) : R :=
    po_int P (vdot dd t (msymp d (mgrad d (vcell_fun d c cd u)))) +
    vfsum2 (po_facets P) (vfaces_funs d c cd fdi u) (fun f uF => fa_int f (vdot d (vsub uF (vcell_fun d c cd u)) (mnrm d (fa_normal f) t))).
  Lemma e_basis u i : (i < v_size gb)%nat -> po_int P (vdot dd (v_comp gb i) (E u)) = eform u (v_comp gb i).
  Proof.
    intros Hi. unfold E, oper_fun, prog, symmetric_gradrec. cbn [fst]. fold gs gb cb. fold dec.
    match goal with |- context [solveM ldlt _ ?M ?rhs] => set (MM := M); set (RR := rhs) end.
    refine (eq_trans (vrec_eq (po_on P) (po_int P) HI dd ldlt HS (v_size gb) (v_comp gb) sgb_indep MM _ N RR u i Hi) _).
    - intros k l Hk Hl. apply symgrad_lhs_eq; assumption.
    - unfold RR. rewrite (symgrad_rows N u i) with (fs := po_facets P); [|unfold N, vnum_dofs; fold cb; lia|exact Hi|apply (faces_fit d P c HC)|unfold N, vnum_dofs; reflexivity].
      rewrite symgrad_cell_row; [reflexivity| |exact Hi]. unfold N, vnum_dofs. fold cb. lia.
  Qed.
  Lemma e_data u v : quadf N (snd prog) u v = po_int P (vdot dd (E u) (E v)).
  Proof.
    unfold E, oper_fun, prog, symmetric_gradrec. cbn [fst snd]. fold gs gb cb. fold dec.
    match goal with |- context [solveM ldlt _ ?M ?rhs] => set (MM := M); set (RR := rhs) end.
    refine (vrec_data (po_on P) (po_int P) HI dd ldlt HS (v_size gb) (v_comp gb) sgb_indep MM _ N RR u v).
    intros k l Hk Hl. apply symgrad_lhs_eq; assumption.
  Qed.
  Lemma e_deg u : vdeg dd (E u) gd.
  Proof. apply vdeg_vlin, sgb_deg. Qed.
  Lemma vlin_sym n k B : (forall j, (j < n)%nat -> msymmetric d (B j)) -> msymmetric d (vlin n k B).
  Proof. intros H a b x Ha Hb. rewrite !peval_vlin. apply sg_ext. intros j Hj. rewrite (H j Hj a b x) by assumption. reflexivity. Qed.
  Lemma e_sym u : msymmetric d (E u).
  Proof. apply vlin_sym. intros. apply sgb_sym. Qed.
  Lemma mnrm_lin n0 n k B a x : peval (mnrm d n0 (vlin n k B) a) x = sg n (fun j => k j * peval (mnrm d n0 (B j) a) x).
  Proof.
    rewrite peval_mnrm. rewrite (sg_ext d _ (fun b => sg n (fun j => k j * (n0 b * peval (B j (d * a + b)%nat) x)))) by (intros; rewrite peval_vlin, <- sg_scal; apply sg_ext; intros; ring).
    rewrite sg_swap. apply sg_ext. intros j _. rewrite sg_scal, peval_mnrm. reflexivity.
  Qed.
  Lemma eform_lin u n k B : eform u (vlin n k B) = sg n (fun j => k j * eform u (B j)).
  Proof.
    unfold eform. rewrite (vdot_lin_l _ _ HI).
    rewrite (vfsum2_ext _ _ _ (fun f uF => sg n (fun j => k j * fa_int f (vdot d (vsub uF (vcell_fun d c cd u)) (mnrm d (fa_normal f) (B j)))))).
    - rewrite vfsum2_lin, <- sg_plus. apply sg_ext. intros. ring.
    - intros f uF Hf. pose proof (facet_int d P c HC f Hf) as HF. rewrite <- (vdot_lin_r _ _ HF). apply (vdot_ext _ _ HF); [reflexivity|].
      intros a x _ _. rewrite mnrm_lin, peval_vlin. reflexivity.
  Qed.
  Lemma eform_ext u t t' : (forall a x, (a < dd)%nat -> po_on P x -> peval (t a) x = peval (t' a) x) -> eform u t = eform u t'.
  Proof.
    intros H. unfold eform. f_equal.
    - apply (vdot_ext _ _ HI); auto.
    - apply vfsum2_ext. intros f uF Hf. apply (vdot_ext _ _ (facet_int d P c HC f Hf)); [reflexivity|]. intros a x Ha Hx. rewrite !peval_mnrm. apply sg_ext. intros b Hb.
      rewrite H; [reflexivity|unfold dd; nia|]. apply (proj2 (poly_facets _ _ HP f Hf)), Hx.
  Qed.
  (** for every symmetric matrix function of the degree of the reconstruction *)
  Lemma e_eq u t : vdeg dd t gd -> msymmetric d t -> po_int P (vdot dd t (E u)) = eform u t.
  Proof.
    intros Ht Hs. destruct (sgb_span t Ht Hs) as (k & Hk).
    rewrite (eform_ext u t (vlin (v_size gb) k (v_comp gb))) by exact Hk.
    rewrite (vdot_ext _ _ HI dd t (E u) (vlin (v_size gb) k (v_comp gb)) (E u)) by (auto; exact Hk).
    rewrite (vdot_lin_l _ _ HI), eform_lin. apply sg_ext. intros i Hi. rewrite e_basis by exact Hi. reflexivity.
  Qed.
End SymGrad.
