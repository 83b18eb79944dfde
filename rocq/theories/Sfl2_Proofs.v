(** Proofs for make_sfl and for the reconstruction in a general basis: the loops of the programs. *)
From Coq Require Import List Arith Reals Lra Lia Bool.
From Verif Require Import Poly_Spec Poly_Proofs HHO_Spec HHO_Model HHO_Setting HHO_Proofs HHO2_Proofs HHO3_Proofs HHO4_Proofs HHO5_Proofs HHO6_Proofs
  Nit_Proofs Sfl_Model Sfl_Setting Sfl_Proofs.
Import ListNotations.
Open Scope R_scope.

(** the faces with their projected functions *)
Definition traces (proj : bool) (fs : list facet) (fd : nat) (uT : pexp) (ts : list (option pexp)) : Prop :=
  if proj then projs fs (map (fun _ => Some fd) fs) ts uT else ts = map (fun _ => Some uT) fs.

Section Lap.
  Context (d : nat) (P : polytope) (c : scell) (HC : cell_fits d P c) (K : option mtx).
  Let HP := cf_poly _ _ _ HC.
  Let HI := poly_int _ _ HP.
  Let KK := tensor_of K.
  Context (ldlt : nat -> mtx -> (nat -> R) -> nat -> R) (HS : solves_spd ldlt).
  Context (rd cd fd : nat) (rb : sbasis) (HB : rec_basis d P rd rb) (Hrd : (1 <= rd)%nat).
  Let cb := el_basis (cl_elem c) cd.
  Context (N : nat) (u : nat -> R).
  Let uT := cell_fun c cd u.
  Lemma gcell_deg : deg_le uT cd.
  Proof. apply (fun_deg _ _ _ (cf_elem _ _ _ HC)). Qed.
  Lemma gflux_deg n i : (S i < b_size rb)%nat -> deg_le (flux d KK n (b_poly rb (S i))) (rd - 1).
  Proof. intros Hi. apply deg_flux, (rb_degree _ _ _ _ HB), Hi. Qed.
  Lemma gqps_int f fc off qd M i : elem_fits (fa_on f) (fa_int f) (fc_elem fc) -> integral (fa_on f) (fa_int f) ->
    fc_normal fc = fa_normal f ->
    (S i < b_size rb)%nat -> (rd - 1 + fd <= qd)%nat -> (rd - 1 + cd <= qd)%nat ->
    (b_size cb <= N)%nat -> (off + b_size (el_basis (fc_elem fc) fd) <= N)%nat ->
    let fb := el_basis (fc_elem fc) fd in
    let uF := lincomb (b_size fb) (fun j => u (off + j)%nat) (b_poly fb) in
    forall proj : bool,
    mv N (lap_face_qps d K proj rb cb fb off (fc_normal fc) (el_quad (fc_elem fc) qd) M) u i =
    mv N M u i + fa_int f (PMul (psubp uF (if proj then PC 0 else uT)) (flux d KK (fa_normal f) (b_poly rb (S i)))).
  Proof.
    intros FF FI Hn Hi Hq Hq' Hc Hf fb uF proj. rewrite face_qps_row by assumption. f_equal. fold KK. rewrite Hn.
    rewrite (qsum_ext _ _ (peval (PMul (psubp uF (if proj then PC 0 else uT)) (flux d KK (fa_normal f) (b_poly rb (S i)))))).
    - apply (exact_int _ _ FI _ (fit_quad _ _ _ FF)).
      pose proof (gflux_deg (fa_normal f) i Hi) as D.
      apply (deg_le_mono _ (Nat.max fd cd + (rd - 1))); [lia|]. apply deg_le_mul; [|exact D]. apply deg_le_sub.
      + apply (deg_le_mono _ fd); [lia|]. apply (fun_deg _ _ _ FF).
      + destruct proj; [apply deg_le_const|]. apply (deg_le_mono _ cd); [lia|apply gcell_deg].
    - intros x. cbn [peval]. unfold psubp, pscal. cbn [peval]. unfold uF, fb. rewrite !peval_lincomb.
      destruct proj; [simpl; ring|]. unfold uT, cell_fun. rewrite !peval_lincomb. fold cb. ring.
  Qed.
  Lemma gface_row (proj : bool) f fc off M i t : elem_fits (fa_on f) (fa_int f) (fc_elem fc) -> integral (fa_on f) (fa_int f) ->
    fc_normal fc = fa_normal f ->
    (S i < b_size rb)%nat -> (proj = true -> fd <= rd)%nat -> (if proj then l2proj (fa_int f) fd uT t else t = uT) ->
    (b_size cb <= N)%nat -> (off + b_size (el_basis (fc_elem fc) fd) <= N)%nat ->
    let fb := el_basis (fc_elem fc) fd in
    let uF := lincomb (b_size fb) (fun j => u (off + j)%nat) (b_poly fb) in
    mv N (snd (lap_face ldlt d K proj (mkDegs cd fd rd) rb cb (off, M) fc)) u i =
    mv N M u i + fa_int f (PMul (psubp uF t) (flux d KK (fa_normal f) (b_poly rb (S i)))).
  Proof.
    intros FF FI Hn Hi Hproj Ht Hc Hf fb uF. unfold lap_face. cbn [snd reconstruction_degree cell_degree face_degree].
    destruct proj.
    - specialize (Hproj eq_refl). rewrite mv_add_cols by lia. rewrite (gqps_int f) by (try assumption; lia).
      rewrite mv_opp, mv_mprod. fold fb.
      set (qd := (rd + Nat.max cd fd)%nat). set (w := flux d KK (fa_normal f) (b_poly rb (S i))).
      set (MF := accumulate (el_quad (fc_elem fc) qd) (phi fb) (phi fb) zeroM).
      set (TF := accumulate (el_quad (fc_elem fc) qd) (phi fb) (phi cb) zeroM).
      cbn [Nat.add].
      set (s := mv (b_size cb) (solveM ldlt (b_size fb) MF TF) (fun j => u j)).
      assert (HF : basis_on (fa_on f) fd (b_size fb) (b_poly fb)) by apply (fit_basis _ _ _ FF fd).
      assert (Dw : deg_le w (rd - 1)) by (apply gflux_deg, Hi).
      assert (A : forall k, (k < b_size fb)%nat -> fa_int f (PMul (b_poly fb k) (lincomb (b_size fb) s (b_poly fb))) = fa_int f (PMul (b_poly fb k) uT)).
      { apply (mass_solve _ _ FI ldlt HS fd _ _ _ qd _ _ _ _ _ HF (fit_quad _ _ _ FF)); [unfold qd; lia| |].
        - intros a b Ha Hb. unfold MF. rewrite accumulate_eq. unfold zeroM, phi. rewrite Rplus_0_l.
          apply (acc_int _ _ FI _ FF). apply (deg_le_mono _ (fd + fd)); [unfold qd; lia|]. apply deg_le_mul; apply (basis_deg _ _ _ FF); assumption.
        - intros a Ha. unfold TF, phi. rewrite (acc_mv _ _ _ _ _ _ (b_poly fb a)) by reflexivity.
          apply (acc_int _ _ FI _ FF). apply (deg_le_mono _ (fd + cd)); [unfold qd; lia|]. apply deg_le_mul; [apply (basis_deg _ _ _ FF); assumption|apply gcell_deg]. }
      pose proof (l2_eq _ _ FI _ FF fd uT s t Ht A) as TE. fold fb in TE.
      assert (B : fa_int f (PMul w (lincomb (b_size fb) s (b_poly fb))) = fa_int f (PMul w t)) by (apply (int_ext _ _ FI); intros x Hx; cbn [peval]; rewrite (TE x Hx); reflexivity).
      assert (C : mv (b_size fb) (accumulate (el_quad (fc_elem fc) qd) (rdn d K rb (fc_normal fc)) (phi fb) zeroM) s i =
        fa_int f (PMul w (lincomb (b_size fb) s (b_poly fb)))).
      { unfold phi. rewrite (acc_mv _ _ _ _ _ _ w) by (intros x; rewrite rdn_eq, Hn; reflexivity).
        apply (acc_int _ _ FI _ FF). apply (deg_le_mono _ (rd - 1 + fd)); [unfold qd; lia|]. apply deg_le_mul; [exact Dw|]. apply (fun_deg _ _ _ FF). }
      rewrite C, B. rewrite !(I_mul_sub_l _ _ FI), (I_comm _ _ FI w t). rewrite (I_zero _ _ FI (PMul (PC 0) _)) by (intros; simpl; ring). fold fb. fold uF. lra.
    - subst t. rewrite (gqps_int f) by (try assumption; lia). reflexivity.
  Qed.
  Lemma gfaces_rows (proj : bool) i : (S i < b_size rb)%nat -> (proj = true -> fd <= rd)%nat -> (b_size cb <= N)%nat ->
    forall fs fcs, Forall2 face_fit fs fcs -> forall off M ts, traces proj fs fd uT ts -> (off + face_dofs (bases_l (map (fun fc => (fc, Some fd)) fcs)) <= N)%nat ->
    mv N (snd (fold_left (lap_face ldlt d K proj (mkDegs cd fd rd) rb cb) fcs (off, M))) u i =
    mv N M u i + fsum3 fs (face_funs off (bases_l (map (fun fc => (fc, Some fd)) fcs)) u) ts
      (fun f a t => fa_int f (PMul (psubp a t) (flux d KK (fa_normal f) (b_poly rb (S i))))).
  Proof.
    intros Hi Hproj Hc fs fcs H. induction H as [|f fc fs fcs [[FF [Hn _]] FI] H IH]; intros off M ts Ht Hoff; cbn [fold_left]; [destruct ts; simpl; lra|].
    cbn [map bases_l fst snd face_dofs] in Hoff.
    assert (T : exists t ts', ts = Some t :: ts' /\ (if proj then l2proj (fa_int f) fd uT t else t = uT) /\ traces proj fs fd uT ts').
    { unfold traces in *. destruct proj.
      - cbn [map projs] in Ht. destruct ts as [|[t|] ts]; try contradiction. destruct Ht as (H1 & H2). exists t, ts. auto.
      - subst ts. exists uT, (map (fun _ => Some uT) fs). auto. }
    destruct T as (t & ts' & -> & Ht1 & Ht2).
    destruct (lap_face ldlt d K proj (mkDegs cd fd rd) rb cb (off, M) fc) as [off' M'] eqn:EM.
    assert (O : off' = (off + b_size (el_basis (fc_elem fc) fd))%nat) by (unfold lap_face in EM; cbn [face_degree] in EM; apply pair_equal_spec in EM as [<- _]; reflexivity).
    subst off'. rewrite (IH _ _ ts' Ht2) by (cbn [bases_l map] in Hoff |- *; unfold bases_l in *; lia).
    cbn [map bases_l fst snd face_funs fsum3]. rewrite <- Rplus_assoc. f_equal.
    replace M' with (snd (lap_face ldlt d K proj (mkDegs cd fd rd) rb cb (off, M) fc)) by (rewrite EM; reflexivity).
    apply (gface_row proj f fc off M i t FF FI Hn Hi Hproj Ht1 Hc). lia.
  Qed.
  Lemma gcell_row (Hcd : (cd <= rd)%nat) i : (S i < b_size rb)%nat -> (b_size cb <= N)%nat ->
    mv N (lap_rhs_cell d K c rd rb cb) u i = en d P KK uT (b_poly rb (S i)).
  Proof.
    intros Hi HN. unfold lap_rhs_cell. rewrite rhs_cell_row by exact HN. rewrite mv_zero, Rplus_0_l.
    apply (exact_int _ _ HI _ (fit_quad _ _ _ (cf_elem _ _ _ HC))). apply (deg_le_mono _ (cd - 1 + (rd - 1))); [lia|].
    apply deg_graddot; [apply (fun_deg _ _ _ (cf_elem _ _ _ HC))|]. intros k. apply deg_kgrad, (rb_degree _ _ _ _ HB), Hi.
  Qed.
  Lemma glhs i j : (i < b_size rb - 1)%nat -> (j < b_size rb - 1)%nat -> lap_lhs d K c rd rb i j = en d P KK (b_poly rb (S j)) (b_poly rb (S i)).
  Proof.
    intros Hi Hj. unfold lap_lhs.
    assert (G : forall q M, fold_left (fun M qp => let '(x, w) := qp in fun i j =>
        M i j + sg d (fun k => w * tens d K (dphi rb x (S i)) k * dphi rb x (S j) k)) q M i j =
        M i j + qsum q (peval (graddot d (b_poly rb (S j)) (kgrad d KK (b_poly rb (S i)))))).
    { induction q as [|[x w] q IH]; intros M; simpl; [lra|]. rewrite IH. unfold graddot. rewrite peval_psum, <- sg_scal.
      rewrite (sg_ext d (fun k => w * tens d K (dphi rb x (S i)) k * dphi rb x (S j) k)
        (fun k => w * peval (PMul (pdiff k (b_poly rb (S j))) (kgrad d KK (b_poly rb (S i)) k)) x)); [ring|].
      intros k Hk. unfold dphi. rewrite tens_eq by exact Hk. cbn [peval]. unfold KK. ring. }
    rewrite G. unfold zeroM. rewrite Rplus_0_l. apply (exact_int _ _ HI _ (fit_quad _ _ _ (cf_elem _ _ _ HC))).
    apply (deg_le_mono _ (rd - 1 + (rd - 1))); [lia|]. apply deg_graddot; [apply (rb_degree _ _ _ _ HB); lia|].
    intros k. apply deg_kgrad. apply (rb_degree _ _ _ _ HB); lia.
  Qed.
End Lap.

Section LapProg.
  Context (d : nat) (P : polytope) (c : scell) (HC : cell_fits d P c) (K : option mtx) (HK : spd d (tensor_of K)).
  Let HP := cf_poly _ _ _ HC.
  Context (ldlt : nat -> mtx -> (nat -> R) -> nat -> R) (HS : solves_spd ldlt).
  Context (rd cd fd : nat) (rb : sbasis) (HB : rec_basis d P rd rb) (Hrd : (1 <= rd)%nat) (Hcd : (cd <= rd)%nat) (proj : bool) (Hproj : (proj = true -> fd <= rd)%nat).
  Let fdi := all_faces c fd.
  Let N := num_dofs c cd fdi.
  Definition glap := hho_laplacian ldlt d K proj c (mkDegs cd fd rd) rb.
  Lemma glap_eq u ts w : traces proj (po_facets P) fd (cell_fun c cd u) ts -> in_span rb w ->
    en d P (tensor_of K) (span_fun rb N (fst glap) u) w = gform d P (tensor_of K) (cell_fun c cd u) (faces_funs c cd fdi u) ts psubp w.
  Proof.
    intros Ht. unfold glap, hho_laplacian. cbn [fst]. apply (g_eq d P HP (tensor_of K) HK rd rb HB); [|exact HS|].
    - intros i j Hi Hj. apply (glhs d P c HC K rd rb HB); assumption.
    - intros i Hi. cbn [reconstruction_degree cell_degree].
      rewrite (gfaces_rows d P c HC K ldlt HS rd cd fd rb HB Hrd N u proj i ltac:(lia) Hproj ltac:(unfold N, num_dofs; lia) (po_facets P) (cl_faces c) (faces_fit d P c HC) _ _ ts Ht)
        by (unfold N, num_dofs, fdi; rewrite bases_all; lia).
      rewrite (gcell_row d P c HC K rd cd rb HB Hrd N u Hcd i ltac:(lia) ltac:(unfold N, num_dofs; lia)).
      unfold gform, faces_funs, fdi. rewrite bases_all. reflexivity.
  Qed.
  Lemma glap_data u v : quadf N (snd glap) u v = en d P (tensor_of K) (span_fun rb N (fst glap) u) (span_fun rb N (fst glap) v).
  Proof.
    unfold glap, hho_laplacian. cbn [fst snd]. apply (g_data d P HP (tensor_of K) HK rd rb HB); [|exact HS].
    intros i j Hi Hj. apply (glhs d P c HC K rd rb HB); assumption.
  Qed.
End LapProg.
