(** Consistent singular systems, and the reconstruction of a function from its curl. *)
From Coq Require Import List Arith Reals Lra Lia Bool.
From Verif Require Import Poly_Spec Poly_Proofs HHO_Spec VHHO_Spec SymL_Spec Curl_Spec HHO_Model VHHO_Model Curl_Model HHO_Setting VHHO_Setting Curl_Setting
  HHO_Proofs HHO2_Proofs HHO3_Proofs HHO4_Proofs HHO5_Proofs HHO6_Proofs HHO7_Proofs HHO8_Proofs HHO9_Proofs VHHO_Proofs VHHO2_Proofs VHHO3_Proofs VHHO4_Proofs Curl_Proofs Curl2_Proofs.
Import ListNotations.
Open Scope R_scope.

(** * elimination on a system with [m] rows and [n] columns, of any rank *)
Fixpoint pivot (m : nat) (a : nat -> R) : option nat :=
  match m with O => None | S m => if Req_EM_T (a m) 0 then pivot m a else Some m end.
Fixpoint gsol (n m : nat) (A : mtx) (b : nat -> R) : nat -> R :=
  match n with
  | O => fun _ => 0
  | S n =>
      match pivot m (fun i => A i n) with
      | None => fun j => if (j =? n)%nat then 0 else gsol n m A b j
      | Some p =>
          let x := gsol n m (fun i j => A i j - A i n / A p n * A p j) (fun i => b i - A i n / A p n * b p) in
          fun j => if (j =? n)%nat then (b p - sg n (fun j => A p j * x j)) / A p n else x j
      end
  end.
Lemma pivot_some m a p : pivot m a = Some p -> (p < m)%nat /\ a p <> 0.
Proof.
  induction m as [|m IH]; cbn [pivot]; [discriminate|]. destruct (Req_EM_T (a m) 0) as [E|E].
  - intros H. destruct (IH H). split; [lia|assumption].
  - intros H. injection H as <-. split; [lia|exact E].
Qed.
Lemma pivot_none m a : pivot m a = None -> forall i, (i < m)%nat -> a i = 0.
Proof.
  induction m as [|m IH]; cbn [pivot]; intros H i Hi; [lia|]. destruct (Req_EM_T (a m) 0) as [E|E]; [|discriminate].
  destruct (Nat.eq_dec i m) as [->|N]; [exact E|apply (IH H); lia].
Qed.
Lemma gsol_ok n : forall m A b, (forall y, (forall j, (j < n)%nat -> sg m (fun i => y i * A i j) = 0) -> sg m (fun i => y i * b i) = 0) ->
  forall i, (i < m)%nat -> sg n (fun j => A i j * gsol n m A b j) = b i.
Proof.
  induction n as [|n IH]; intros m A b H i Hi.
  - cbn [sg]. pose proof (H (delta i) ltac:(intros; lia)) as E. rewrite sg_delta in E by exact Hi. symmetry. exact E.
  - cbn [gsol]. destruct (pivot m (fun i => A i n)) as [p|] eqn:E.
    + destruct (pivot_some _ _ _ E) as [Hp Np]. cbv zeta. set (A' := fun i j => A i j - A i n / A p n * A p j). set (b' := fun i => b i - A i n / A p n * b p).
      set (x := gsol n m A' b').
      assert (HX : sg n (fun j => A' i j * x j) = b' i).
      { apply (IH m A' b'); [|exact Hi]. intros y Hy. set (k := sg m (fun l => y l * (A l n / A p n))). set (y' := fun l => y l + - k * delta p l).
        assert (T : forall g : nat -> R, sg m (fun l => y' l * g l) = sg m (fun l => y l * g l) - k * g p).
        { intros g. unfold y'. rewrite (sg_ext m _ (fun l => y l * g l + - k * (delta p l * g l))) by (intros; ring). rewrite sg_plus, sg_scal, sg_delta by exact Hp. ring. }
        assert (K : forall g : nat -> R, sg m (fun l => y l * (g l - A l n / A p n * g p)) = sg m (fun l => y l * g l) - k * g p).
        { intros g. unfold k. rewrite (sg_ext m _ (fun l => y l * g l + - g p * (y l * (A l n / A p n)))) by (intros; ring). rewrite sg_plus, sg_scal. ring. }
        unfold b'. rewrite K, <- T. apply H. intros j Hj. rewrite T. destruct (Nat.eq_dec j n) as [->|Nj].
        - unfold k. rewrite (sg_ext m (fun l => y l * (A l n / A p n)) (fun l => / A p n * (y l * A l n))) by (intros; unfold Rdiv; ring). rewrite sg_scal. field. exact Np.
        - rewrite <- K. apply (Hy j). lia. }
      cbn [sg]. rewrite Nat.eqb_refl. rewrite (sg_ext n _ (fun j => A i j * x j)) by (intros j Hj; destruct (Nat.eqb_spec j n); [lia|reflexivity]).
      unfold A', b' in HX. rewrite (sg_ext n _ (fun j => A i j * x j + - (A i n / A p n) * (A p j * x j))) in HX by (intros; ring). rewrite sg_plus, sg_scal in HX.
      assert (F : A i n * ((b p - sg n (fun j => A p j * x j)) / A p n) = A i n / A p n * b p - A i n / A p n * sg n (fun j => A p j * x j)) by (field; exact Np). lra.
    + cbn [sg]. rewrite Nat.eqb_refl, Rmult_0_r, Rplus_0_r. rewrite (sg_ext n _ (fun j => A i j * gsol n m A b j)) by (intros j Hj; destruct (Nat.eqb_spec j n); [lia|reflexivity]).
      apply IH; [|exact Hi]. intros y Hy. apply H. intros j Hj. destruct (Nat.eq_dec j n) as [->|Nj]; [|apply Hy; lia].
      apply sg_zero. intros l Hl. rewrite (pivot_none _ _ E l Hl). ring.
Qed.
Definition any_solve (n : nat) (A : mtx) (b : nat -> R) : nat -> R := gsol n n A b.
Lemma any_solves : solves_any any_solve.
Proof.
  intros n A b [x Hx]. apply gsol_ok. intros y Hy. rewrite (sg_ext n _ (fun i => sg n (fun j => x j * (y i * A i j)))).
  - rewrite sg_swap. apply sg_zero. intros j Hj. rewrite sg_scal, (Hy j Hj). ring.
  - intros i Hi. rewrite <- (Hx i Hi), <- sg_scal. apply sg_ext. intros. ring.
Qed.
Lemma fredholm n A b : sym n A -> (forall z, (forall i, (i < n)%nat -> sg n (fun j => A i j * z j) = 0) -> sg n (fun i => z i * b i) = 0) ->
  exists x, forall i, (i < n)%nat -> sg n (fun j => A i j * x j) = b i.
Proof.
  intros SA H. exists (gsol n n A b). apply gsol_ok. intros y Hy. apply H. intros i Hi. rewrite <- (Hy i Hi). apply sg_ext. intros j Hj. rewrite (SA i j) by assumption. ring.
Qed.

Section CRec.
  Context (P : polytope) (c : scell) (HC : cell_fits 3 P c).
  Let HP := cf_poly _ _ _ HC.
  Let HI := poly_int _ _ HP.
  Context (lu : nat -> mtx -> (nat -> R) -> nat -> R) (HS : solves_any lu) (cd rd fd : nat) (tb : list vbasis).
  Context (HT : Forall (tb_deg fd) tb) (LT : length tb = length (cl_faces c)) (H1 : (1 <= rd)%nat) (Hcd : (cd <= rd)%nat) (Hfd : (fd <= rd + 1)%nat).
  Let rs := el_basis (cl_elem c) rd.
  Let rb := vec_basis 3 rs.
  Let cb := vec_basis 3 (el_basis (cl_elem c) cd).
  Let uT (u : nat -> R) : tf := vcell_fun 3 c cd u.
  Let N := tdofs c cd tb.
  Let n := (v_size rb - 3)%nat.
  Let Bc (i : nat) : tf := v_comp rb (3 + i).
  Let rbdeg := rb_deg P c HC rd.
  Lemma size3 : v_size rb = (3 + n)%nat.
  Proof. unfold n, rb, vec_basis. cbn [v_size]. pose proof (proj1 (cf_one _ _ _ HC rd)). fold rs in H. lia. Qed.
  Lemma size_le : (v_size cb <= v_size rb)%nat.
  Proof. pose proof (proj1 (cf_nested _ _ _ HC cd rd Hcd)). unfold cb, rb, rs, vec_basis. cbn [v_size]. lia. Qed.
  Lemma comp_eq j : (j < v_size cb)%nat -> v_comp rb j = v_comp cb j.
  Proof.
    intros Hj. unfold rb, cb, rs, vec_basis in *. cbn [v_comp v_size] in *.
    rewrite (proj2 (cf_nested _ _ _ HC cd rd Hcd) (j / 3)%nat); [reflexivity|]. apply Nat.div_lt_upper_bound; lia.
  Qed.
  (** the form that is reconstructed *)
  Definition crform (u : nat -> R) (t : tf) : R :=
    po_int P (vdot 3 (curlv t) (curlv (vcell_fun 3 c cd u))) +
    vfsum2 (po_facets P) (tfaces c cd tb u) (fun f uF => fa_int f (vdot 3 (pcross (curlv t) (fa_normal f)) (vsub uF (vcell_fun 3 c cd u)))).
  Let stiff := vaccumulate 3 (el_quad (cl_elem c) (2 * rd)) (eval_curls2 rs) (eval_curls2 rs) zeroM.
  Lemma stiff_eq i j : (i < v_size rb)%nat -> (j < v_size rb)%nat -> stiff i j = po_int P (vdot 3 (curlv (v_comp rb i)) (curlv (v_comp rb j))).
  Proof.
    intros Hi Hj. apply (vaccumulate_int 3 _ _ HI _ (fit_quad _ _ _ (cf_elem _ _ _ HC))); [intros; apply eval_curls2_eq; assumption|intros; apply eval_curls2_eq; assumption|].
    apply (deg_le_mono _ (rd - 1 + (rd - 1))); [lia|]. apply deg_vdot; apply deg_curlv, rbdeg; assumption.
  Qed.
  Lemma cr_rows u i : (i < n)%nat -> forall fs fcs, Forall2 face_fit fs fcs -> forall tb, Forall (tb_deg fd) tb -> forall off M,
    (off + vface_dofs (tlist tb) <= N)%nat -> length tb = length fcs ->
    mv N (snd (fold_left (curl_face rs cb rd) (combine fcs tb) (off, M))) u i =
    mv N M u i + vfsum2 fs (vface_funs off (tlist tb) u) (fun f uF => fa_int f (vdot 3 (pcross (curlv (Bc i)) (fa_normal f)) (vsub uF (uT u)))).
  Proof.
    intros Hi fs fcs H. induction H as [|f fc fs fcs [[FF [Hn _]] FI] H IH]; intros tb0 HT0 off M Hoff L; [destruct tb0; [simpl; lra|discriminate]|].
    destruct tb0 as [|fb tb0]; [discriminate|]. inversion HT0 as [|? ? Hb HT1]; subst. cbn [combine fold_left]. unfold curl_face at 2. cbn [fst snd].
    cbn [tlist map vface_dofs] in Hoff. fold (tlist tb0) in Hoff. rewrite IH; [|exact HT1|lia|cbn in L; lia]. cbn [tlist map vface_funs vfsum2]. rewrite <- Rplus_assoc. f_equal.
    set (uF := vlin (v_size fb) (fun j => u (off + j)%nat) (v_comp fb)).
    assert (DB : vdeg 3 (pcross (curlv (Bc i)) (fa_normal f)) (rd - 1)) by (apply deg_pcross, deg_curlv, rbdeg; fold rs rb; rewrite size3; lia).
    assert (HN : (v_size cb <= N)%nat) by (unfold N, tdofs; fold cb; lia).
    rewrite (fold_add_cols2 N 0 (v_size cb) off (v_size fb) u i _ _ (fun x => peval (vdot 3 (pcross (curlv (Bc i)) (fa_normal f)) (vsub uF (uT u))) x)).
    - f_equal. apply (exact_int _ _ FI _ (fit_quad _ _ _ FF)). apply (deg_le_mono _ (rd - 1 + (rd + 1))); [lia|].
      apply deg_vdot; [exact DB|]. intros a Ha. apply deg_le_sub.
      + apply (deg_le_mono _ fd); [exact Hfd|]. apply (vdeg_vlin 3 _ _ _ fd Hb a Ha).
      + apply (deg_le_mono _ cd); [lia|]. apply (vcell_deg 3 P c HC cd u a Ha).
    - lia.
    - lia.
    - intros x w.
      assert (E : forall a, (a < 3)%nat -> cross3 (eval_curls2 rs x (3 + i)) (fc_normal fc) a = peval (pcross (curlv (Bc i)) (fa_normal f) a) x).
      { intros a Ha. rewrite Hn, <- cross3_eq by exact Ha. apply cross3_ext; [|reflexivity]. intros b0 Hb0. apply eval_curls2_eq, Hb0. }
      pose proof (row_dot (v_size fb) (v_comp fb) (fun i => cross3 (eval_curls2 rs x (3 + i)) (fc_normal fc)) _ w x (fun j => u (off + j)%nat) i E) as R1. fold uF in R1.
      pose proof (row_dot (v_size cb) (v_comp cb) (fun i => cross3 (eval_curls2 rs x (3 + i)) (fc_normal fc)) _ w x (fun j => u (0 + j)%nat) i E) as R2.
      unfold vphi. rewrite R1.
      rewrite (mv_ext_m' (v_size cb) _ (mopp (fun i j => sg 3 (fun a => w * cross3 (eval_curls2 rs x (3 + i)) (fc_normal fc) a * peval (v_comp cb j a) x)))) by reflexivity.
      rewrite mv_opp, R2. rewrite !peval_vdot. unfold vsub, psubp, pscal. cbn [sg peval].
      change (vlin (v_size cb) (fun j : nat => u (0 + j)%nat) (v_comp cb)) with (uT u). ring.
  Qed.
  Let rhs := snd (fold_left (curl_face rs cb rd) (combine (cl_faces c) tb) (v_size cb, add_cols zeroM 0 (v_size cb) (shift 3 0 stiff))).
  Let lhs := shift 3 3 stiff.
  Lemma cr_rhs u i : (i < n)%nat -> mv N rhs u i = crform u (Bc i).
  Proof.
    intros Hi. unfold rhs. rewrite (cr_rows u i Hi _ _ (faces_fit 3 P c HC) tb HT); [|unfold N, tdofs; reflexivity|exact LT].
    unfold crform. f_equal. rewrite mv_add_cols by (unfold N, tdofs; fold cb; lia). rewrite mv_zero, Rplus_0_l.
    unfold vcell_fun. fold cb. rewrite (vdot_ext _ _ HI 3 _ _ (curlv (Bc i)) (vlin (v_size cb) u (fun j => curlv (v_comp cb j)))) by (auto; intros; rewrite curlv_lin, peval_vlin; reflexivity).
    rewrite (vdot_lin_r _ _ HI). unfold mv. apply sg_ext. intros j Hj. unfold shift. cbn [Nat.add]. rewrite stiff_eq; [|rewrite size3; lia|pose proof size_le; lia].
    rewrite (comp_eq j Hj). unfold Bc. cbn [Nat.add]. ring.
  Qed.
  Lemma lhs_eq i j : (i < n)%nat -> (j < n)%nat -> lhs i j = po_int P (vdot 3 (curlv (Bc i)) (curlv (Bc j))).
  Proof. intros Hi Hj. unfold lhs, shift. apply stiff_eq; rewrite size3; lia. Qed.
  Lemma crform_lin u m k B : crform u (vlin m k B) = sg m (fun j => k j * crform u (B j)).
  Proof.
    unfold crform. rewrite (vdot_ext _ _ HI 3 (curlv (vlin m k B)) _ (vlin m k (fun j => curlv (B j))) (curlv (vcell_fun 3 c cd u))) by (auto; intros; rewrite curlv_lin, peval_vlin; reflexivity).
    rewrite (vdot_lin_l _ _ HI).
    rewrite (vfsum2_ext _ _ _ (fun f uF => sg m (fun j => k j * fa_int f (vdot 3 (pcross (curlv (B j)) (fa_normal f)) (vsub uF (vcell_fun 3 c cd u)))))).
    - rewrite vfsum2_lin, <- sg_plus. apply sg_ext. intros. ring.
    - intros f uF Hf. pose proof (facet_int 3 P c HC f Hf) as HF. rewrite <- (vdot_lin_l _ _ HF). apply (vdot_ext _ _ HF); [|reflexivity].
      intros a x _ _. rewrite peval_vlin, <- pcross_lin. apply pcross_ext. intros b _. rewrite curlv_lin, peval_vlin. reflexivity.
  Qed.
  Lemma crform_ext u t t' : (forall a x, (a < 3)%nat -> po_on P x -> peval (curlv t a) x = peval (curlv t' a) x) -> crform u t = crform u t'.
  Proof.
    intros H. unfold crform. f_equal.
    - apply (vdot_ext _ _ HI); [exact H|reflexivity].
    - apply vfsum2_ext. intros f uF Hf. apply (vdot_ext _ _ (facet_int 3 P c HC f Hf)); [|reflexivity]. intros a x Ha Hx. apply pcross_ext.
      intros; apply H; [assumption|]. apply (proj2 (poly_facets _ _ HP f Hf)), Hx.
  Qed.
  Lemma crform_zero u : crform u (fun _ => PC 0) = 0.
  Proof. pose proof (crform_lin u 0 (fun _ => 0) (fun _ _ => PC 0)) as E. cbn [sg] in E. rewrite <- E. apply crform_ext. intros. cbn. ring. Qed.
  Lemma lhs_sym : sym n lhs.
  Proof. intros i j Hi Hj. rewrite !lhs_eq by assumption. apply (vdot_comm _ _ HI). Qed.
  (** every column of the right-hand side is orthogonal to the kernel *)
  Lemma cr_consistent u : exists x, forall i, (i < n)%nat -> sg n (fun j => lhs i j * x j) = crform u (Bc i).
  Proof.
    apply fredholm; [apply lhs_sym|]. intros z Hz. rewrite <- crform_lin.
    assert (Z : po_int P (vdot 3 (curlv (vlin n z Bc)) (curlv (vlin n z Bc))) = 0).
    { rewrite (vdot_ext _ _ HI 3 _ _ (vlin n z (fun j => curlv (Bc j))) (vlin n z (fun j => curlv (Bc j)))) by (intros; rewrite curlv_lin, peval_vlin; reflexivity).
      rewrite (vdot_lin_l _ _ HI). apply sg_zero. intros i Hi. rewrite (vdot_lin_r _ _ HI).
      rewrite (sg_ext n _ (fun j => lhs i j * z j)) by (intros j Hj; rewrite lhs_eq by assumption; ring). rewrite Hz by exact Hi. ring. }
    rewrite (crform_ext u _ (fun _ => PC 0)); [apply crform_zero|]. intros a x Ha Hx. rewrite (vdot_sq_def _ _ HI 3 _ Z a x Ha Hx). cbn. ring.
  Qed.
  Let oper := solveM lu n lhs rhs.
  Definition RC (u : nat -> R) : tf := vlin n (fun i => sg N (fun j => oper i j * u j)) Bc.
  Lemma cr_col l i : (l < N)%nat -> (i < n)%nat -> sg n (fun j => lhs i j * oper j l) = rhs i l.
  Proof.
    intros Hl Hi. unfold oper, solveM. apply (HS n lhs (fun k => rhs k l)); [|exact Hi]. destruct (cr_consistent (delta l)) as (x & Hx). exists x. intros k Hk.
    rewrite (Hx k Hk), <- (cr_rhs (delta l) k Hk). unfold mv. rewrite (sg_ext N _ (fun j => delta l j * rhs k j)) by (intros; ring). apply (HHO_Proofs.sg_delta N l (fun j => rhs k j) Hl).
  Qed.
  Lemma cr_basis u i : (i < n)%nat -> po_int P (vdot 3 (curlv (Bc i)) (curlv (RC u))) = crform u (Bc i).
  Proof.
    intros Hi. unfold RC. rewrite (vdot_ext _ _ HI 3 _ _ (curlv (Bc i)) (vlin n (fun i => sg N (fun j => oper i j * u j)) (fun j => curlv (Bc j)))) by (auto; intros; rewrite curlv_lin, peval_vlin; reflexivity).
    rewrite (vdot_lin_r _ _ HI), <- cr_rhs by exact Hi. unfold mv.
    rewrite (sg_ext n _ (fun j => sg N (fun l => lhs i j * oper j l * u l))).
    - rewrite sg_swap. apply sg_ext. intros l Hl. rewrite <- (cr_col l i Hl Hi). rewrite (Rmult_comm (sg _ _)), <- sg_scal. apply sg_ext. intros. ring.
    - intros j Hj. rewrite <- lhs_eq by assumption. rewrite Rmult_comm, <- sg_scal. apply sg_ext. intros. ring.
  Qed.
  (** every polynomial field differs from a combination of the functions used by one with the same curl *)
  Lemma span_curl t : vdeg 3 t rd -> vvars 3 3 t -> exists k, forall a x, (a < 3)%nat -> peval (curlv t a) x = peval (curlv (vlin n k Bc) a) x.
  Proof.
    intros Ht Hv. destruct (vec_span_all 3 P c HC 3 rd t Ht Hv) as (k & Hk). fold rs rb in Hk. exists (fun j => k (3 + j)%nat). intros a x Ha.
    rewrite (curlv_ext t (vlin (v_size rb) k (v_comp rb))) by exact Hk. rewrite !curlv_lin. rewrite size3, sg_split.
    rewrite (sg_zero 3); [rewrite Rplus_0_l; reflexivity|]. intros j Hj.
    assert (Z : forall b y, peval (pdiff b (v_comp rb j (nx a))) y = 0 /\ peval (pdiff b (v_comp rb j (nxx a))) y = 0).
    { intros b y.
      assert (C : forall e, (e < 3)%nat -> peval (pdiff b (v_comp rb j e)) y = 0).
      { intros e He. unfold rb, vec_basis. cbn [v_comp]. replace (j / 3)%nat with 0%nat by (symmetry; apply Nat.div_small, Hj).
        destruct (_ =? e)%nat; [|reflexivity].
        rewrite (pdiff_ext (b_poly rs 0) (PC 1) b (proj2 (cf_one _ _ _ HC rd))). reflexivity. }
      split; apply C; [apply nx_lt|apply nxx_lt]. }
    unfold curlv, psubp, pscal. cbn [peval]. rewrite (proj2 (Z _ _)), (proj1 (Z _ _)). ring.
  Qed.
  Lemma cr_eq u t : vdeg 3 t rd -> vvars 3 3 t -> po_int P (vdot 3 (curlv t) (curlv (RC u))) = crform u t.
  Proof.
    intros Ht Hv. destruct (span_curl t Ht Hv) as (k & Hk). rewrite (crform_ext u t (vlin n k Bc)) by (intros; apply Hk; assumption).
    rewrite (vdot_ext _ _ HI 3 (curlv t) _ (vlin n k (fun j => curlv (Bc j))) (curlv (RC u))) by (auto; intros; rewrite Hk, curlv_lin, peval_vlin by assumption; reflexivity).
    rewrite (vdot_lin_l _ _ HI), crform_lin. apply sg_ext. intros i Hi. rewrite cr_basis by exact Hi. reflexivity.
  Qed.
  Lemma cr_deg u : vdeg 3 (RC u) rd.
  Proof. apply vdeg_vlin. intros j Hj. apply rbdeg. fold rs rb. rewrite size3. lia. Qed.
  Lemma cr_data u v : quadf N (mprod n (mtrans rhs) oper) v u = po_int P (vdot 3 (curlv (RC v)) (curlv (RC u))).
  Proof.
    rewrite bil_quadf. unfold bil. rewrite (quadf_trans N n rhs oper v u) by trivial.
    unfold RC at 2. rewrite (vdot_ext _ _ HI 3 _ _ (curlv (RC v)) (vlin n (fun i => sg N (fun j => oper i j * u j)) (fun j => curlv (Bc j)))) by (auto; intros; rewrite curlv_lin, peval_vlin; reflexivity).
    rewrite (vdot_lin_r _ _ HI). apply sg_ext. intros i Hi. rewrite (vdot_comm _ _ HI), cr_basis, cr_rhs by exact Hi. unfold mv. ring.
  Qed.
  Lemma cr_prog : curl_reconstruction lu c cd rd tb = Some (oper, mprod n (mtrans rhs) oper).
  Proof. unfold curl_reconstruction. fold rs rb cb. rewrite (proj2 (Nat.leb_le _ _) size_le). reflexivity. Qed.
  (** by parts *)
  Lemma crform_parts u t : crform u t = po_int P (vdot 3 (vcell_fun 3 c cd u) (curlv (curlv t))) +
    vfsum2 (po_facets P) (tfaces c cd tb u) (fun f uF => fa_int f (vdot 3 (pcross (curlv t) (fa_normal f)) uF)).
  Proof. unfold crform. exact (eq_sym (ckform_curl P c HC cd tb LT u (curlv t))). Qed.
  Lemma cr_consistency_gen V u : (rd <= cd + 2)%nat -> vdeg 3 V rd -> vvars 3 3 V -> l2vec (po_int P) 3 cd V (uT u) ->
    (forall t, vdeg 3 t (rd - 1) -> vfsum2 (po_facets P) (tfaces c cd tb u) (fun f uF => fa_int f (vdot 3 (pcross t (fa_normal f)) uF)) = fsum (po_facets P) (fun f => fa_int f (vdot 3 V (pcross t (fa_normal f))))) ->
    forall a x, (a < 3)%nat -> po_on P x -> peval (curlv (RC u) a) x = peval (curlv V a) x.
  Proof.
    intros G1 DV VV HV HF.
    assert (E : forall t, vdeg 3 t rd -> vvars 3 3 t -> po_int P (vdot 3 (curlv t) (curlv (RC u))) = po_int P (vdot 3 (curlv t) (curlv V))).
    { intros t Ht Hv. rewrite (cr_eq u t Ht Hv), crform_parts, (green_curl P HP V). rewrite (vdot_comm _ _ HI 3 (vcell_fun 3 c cd u)), (vdot_comm _ _ HI 3 V). f_equal.
      - apply (proj2 HV). intros a Ha. apply (deg_le_mono _ (rd - 1 - 1)); [lia|]. apply (deg_curlv _ (rd - 1)), Ha. apply deg_curlv, Ht.
      - apply HF, deg_curlv, Ht. }
    set (W := vsub (RC u) V).
    assert (DW : vdeg 3 W rd) by (intros a Ha; apply deg_le_sub; [apply cr_deg, Ha|apply DV, Ha]).
    assert (VW : vvars 3 3 W).
    { intros a Ha. unfold W, vsub, psubp, pscal. cbn [pvars]. split; [|split; [exact Logic.I|apply VV, Ha]]. unfold RC, vlin. apply HHO5_Proofs.pvars_lincomb. intros j.
      unfold Bc, rb, vec_basis. cbn [v_comp]. destruct (_ =? a)%nat; [apply (cf_vars _ _ _ HC)|exact Logic.I]. }
    assert (CW : forall a x, peval (curlv W a) x = peval (vsub (curlv (RC u)) (curlv V) a) x).
    { intros a x. unfold W, vsub, curlv, psubp, pscal. cbn [pdiff peval]. ring. }
    assert (Z : po_int P (vdot 3 (vsub (curlv (RC u)) (curlv V)) (vsub (curlv (RC u)) (curlv V))) = 0).
    { rewrite (vdot_ext _ _ HI 3 _ _ (curlv W) (vsub (curlv (RC u)) (curlv V))) by (auto; intros; symmetry; apply CW).
      rewrite (I_ext _ _ HI _ (psubp (vdot 3 (curlv W) (curlv (RC u))) (vdot 3 (curlv W) (curlv V)))).
      - rewrite (I_sub _ _ HI), (E W DW VW). ring.
      - intros x. unfold psubp at 1, pscal. cbn [peval]. rewrite !peval_vdot. unfold vsub, psubp, pscal. cbn [sg peval]. ring. }
    intros a x Ha Hx. pose proof (vdot_sq_def _ _ HI 3 _ Z a x Ha Hx) as K. unfold vsub, psubp, pscal in K. cbn [peval] in K. lra.
  Qed.
  Lemma cr_consistency V u : (rd <= cd + 2)%nat -> (rd <= fd + 1)%nat -> vdeg 3 V rd -> vvars 3 3 V -> l2vec (po_int P) 3 cd V (uT u) -> tprojs fd (po_facets P) (tfaces c cd tb u) V ->
    forall a x, (a < 3)%nat -> po_on P x -> peval (curlv (RC u) a) x = peval (curlv V a) x.
  Proof.
    intros G1 G2 DV VV HV HF. apply (cr_consistency_gen V u G1 DV VV HV). intros t Ht. apply (tprojs_sum fd (rd - 1)); [apply (facet_int 3 P c HC)|exact HF|lia|exact Ht].
  Qed.
End CRec.
