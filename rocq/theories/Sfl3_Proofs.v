(** Proofs for make_sfl and for the reconstruction in a general basis: consistency, and the two reconstructions of make_sfl. *)
From Coq Require Import List Arith Reals Lra Lia Bool.
From Verif Require Import Poly_Spec Poly_Proofs HHO_Spec HHO_Model HHO_Setting HHO_Proofs HHO2_Proofs HHO3_Proofs HHO4_Proofs HHO5_Proofs HHO6_Proofs
  Nit_Proofs Sfl_Model Sfl_Setting Sfl_Proofs Sfl2_Proofs.
Import ListNotations.
Open Scope R_scope.

Lemma divk_lincomb d K n k W x : peval (divk d K (lincomb n k W)) x = sg n (fun j => k j * peval (divk d K (W j)) x).
Proof.
  unfold divk. rewrite peval_psum. rewrite (sg_ext n _ (fun j => sg d (fun c => k j * peval (pdiff c (kgrad d K (W j) c)) x))).
  - rewrite sg_swap. apply sg_ext. intros c _. rewrite <- (pdiff_lincomb n k (fun j => kgrad d K (W j) c)). apply pdiff_ext. intros y.
    rewrite kgrad_lincomb, peval_lincomb. reflexivity.
  - intros j _. rewrite peval_psum, sg_scal. reflexivity.
Qed.
Lemma divk_ext d K p q : (forall x, peval p x = peval q x) -> forall x, peval (divk d K p) x = peval (divk d K q) x.
Proof.
  intros H x. unfold divk. rewrite !peval_psum. apply sg_ext. intros c _. apply pdiff_ext. intros y. unfold kgrad. rewrite !peval_psum. apply sg_ext.
  intros e _. unfold pscal. cbn [peval]. rewrite (pdiff_ext p q e H). reflexivity.
Qed.
Lemma divk_span d K rb cd : (forall j, (j < b_size rb)%nat -> deg_le (divk d K (b_poly rb j)) cd) -> forall w, in_span rb w -> deg_le (divk d K w) cd.
Proof.
  intros H w (k & Hk). apply (deg_le_ext (lincomb (b_size rb) k (fun j => divk d K (b_poly rb j)))).
  - intros x. rewrite (divk_ext d K _ _ Hk), divk_lincomb, peval_lincomb. reflexivity.
  - apply deg_le_lincomb. exact H.
Qed.
Lemma span_degree d P rd rb w : rec_basis d P rd rb -> in_span rb w -> deg_le w rd.
Proof. intros HB (k & Hk). apply (deg_le_ext (lincomb (b_size rb) k (b_poly rb))); [intros x; symmetry; apply Hk|]. apply deg_le_lincomb, (rb_degree _ _ _ _ HB). Qed.

(** lists of projections *)
Lemma projs_len fs fd us q : projs fs (map (fun _ => Some fd) fs) us q -> length us = length fs /\ ~ In None us.
Proof.
  revert us. induction fs as [|f fs IH]; intros [|[a|] us] H; cbn in H; try contradiction; [split; [reflexivity|intros []]|].
  destruct H as (_ & H). destruct (IH us H) as (L & Hn). split; [cbn; lia|]. intros [E|E]; [discriminate|exact (Hn E)].
Qed.
Lemma projs_in fs fd us q : projs fs (map (fun _ => Some fd) fs) us q -> forall f a, In (f, Some a) (combine fs us) -> l2proj (fa_int f) fd q a.
Proof.
  revert us. induction fs as [|f fs IH]; intros [|[b|] us] H; cbn in H; try contradiction.
  destruct H as (H1 & H2). intros f' a [E|E]; [injection E as <- <-; exact H1|exact (IH us H2 f' a E)].
Qed.
Lemma projs_exist ldlt (HS : solves_spd ldlt) fs fcs fd q : Forall2 face_fit fs fcs -> exists us, projs fs (map (fun _ => Some fd) fs) us q.
Proof.
  induction 1 as [|f fc fs fcs [[FF _] FI] _ (us & IH)]; [exists []; exact Logic.I|].
  destruct (l2_proj_exists _ _ FI _ FF ldlt HS fd q) as (r & Hr). exists (Some r :: us). cbn. split; assumption.
Qed.
Lemma combine3 {A B C} (l : list A) (m : list B) (n : list C) a b c : In (a, (b, c)) (combine l (combine m n)) -> In (a, b) (combine l m) /\ In (a, c) (combine l n).
Proof.
  revert m n. induction l as [|x l IH]; intros [|y m] [|z n]; cbn; try tauto. intros [E|E]; [injection E as -> -> ->; auto|]. destruct (IH m n E). auto.
Qed.

Section LapCons.
  Context (d : nat) (P : polytope) (c : scell) (HC : cell_fits d P c) (K : option mtx) (HK : spd d (tensor_of K)).
  Let HP := cf_poly _ _ _ HC.
  Let HI := poly_int _ _ HP.
  Context (ldlt : nat -> mtx -> (nat -> R) -> nat -> R) (HS : solves_spd ldlt).
  Context (rd cd fd : nat) (rb : sbasis) (HB : rec_basis d P rd rb) (Hrd : (1 <= rd)%nat) (Hcd : (cd <= rd)%nat) (proj : bool) (Hproj : (proj = true -> fd <= rd)%nat).
  Let fdi := all_faces c fd.
  Let N := num_dofs c cd fdi.
  Lemma traces_exist uT : exists ts, traces proj (po_facets P) fd uT ts.
  Proof. unfold traces. destruct proj; [apply (projs_exist ldlt HS _ _ fd uT (faces_fit d P c HC))|eexists; reflexivity]. Qed.
  Lemma const_of_energy KK p q : spd d KK -> en d P KK (psubp p q) (psubp p q) = 0 -> exists k, forall x, po_on P x -> peval q x = peval p x + k.
  Proof.
    intros HKK Z. destruct (en_def d P HP KK HKK _ Z) as (k & Hk). exists (- k). intros x Hx. specialize (Hk x Hx). unfold psubp, pscal in Hk. cbn [peval] in Hk. lra.
  Qed.
  Lemma glap_consistent : (rd <= fd + 1)%nat -> (forall j, (j < b_size rb)%nat -> deg_le (divk d (tensor_of K) (b_poly rb j)) cd) ->
    forall p u, in_span rb p -> l2proj (po_int P) cd p (cell_fun c cd u) -> projs (po_facets P) (map (fun _ => Some fd) (po_facets P)) (faces_funs c cd fdi u) p ->
    exists k, forall x, po_on P x -> peval p x = peval (span_fun rb N (fst (glap d c K ldlt rd cd fd rb proj)) u) x + k.
  Proof.
    intros Hfd Hdiv p u Sp Pc Pf. destruct (traces_exist (cell_fun c cd u)) as (ts & Ht).
    set (r := span_fun rb N (fst (glap d c K ldlt rd cd fd rb proj)) u).
    assert (G : forall w, in_span rb w -> en d P (tensor_of K) r w = en d P (tensor_of K) p w).
    { intros w Sw. unfold r, N, fdi. rewrite (glap_eq d P c HC K HK ldlt HS rd cd fd rb HB Hrd Hcd proj Hproj u ts w Ht Sw). fold fdi.
      destruct (projs_len _ _ _ _ Pf) as (L1 & N1).
      assert (LT : length ts = length (po_facets P) /\ ~ In None ts).
      { unfold traces in Ht. destruct proj; [apply (projs_len _ _ _ _ Ht)|]. subst ts. rewrite map_length. split; [reflexivity|]. intros H. apply in_map_iff in H as (? & ? & _). discriminate. }
      destruct LT as (L2 & N2). pose proof (span_degree d P rd rb w HB Sw) as Dw.
      apply (fsum3_green d P (tensor_of K) p _ _ _ _ w HP L1 L2 N1 N2).
      - intros f a b Hin. apply combine3 in Hin as (Ha & Hb). assert (Hf : In f (po_facets P)) by (apply in_combine_l in Ha; exact Ha).
        pose proof (fct d P HP f Hf) as FI. set (fl := flux d (tensor_of K) (fa_normal f) w).
        assert (Dfl : deg_le fl fd) by (apply (deg_le_mono _ (rd - 1)); [lia|apply deg_flux, Dw]).
        pose proof (projs_in _ _ _ _ Pf f a Ha) as (_ & A1). specialize (A1 fl Dfl).
        assert (B1 : fa_int f (PMul fl b) = fa_int f (PMul fl (cell_fun c cd u))).
        { unfold traces in Ht. destruct proj; [apply (projs_in _ _ _ _ Ht f b Hb), Dfl|]. subst ts. apply in_combine_r, in_map_iff in Hb as (? & E & _). injection E as <-. reflexivity. }
        rewrite (I_mul_sub_l _ _ FI), (I_comm _ _ FI (cell_fun c cd u)), (I_comm _ _ FI a), (I_comm _ _ FI b), (I_comm _ _ FI p). lra.
      - rewrite (I_comm _ _ HI), (I_comm _ _ HI p). apply Pc, (divk_span d _ rb cd Hdiv w Sw). }
    apply (const_of_energy (tensor_of K) r p HK). rewrite (en_sub_l d P HP). rewrite G; [lra|]. apply in_span_sub; [|exact Sp].
    unfold r, glap, hho_laplacian. cbn [fst]. apply (span_in d P rd rb HB).
  Qed.
End LapCons.

(** the monomial basis is one *)
Lemma mono_basis d P c (HC : cell_fits d P c) k : rec_basis d P k (el_basis (cl_elem c) k).
Proof.
  destruct (fit_basis _ _ _ (cf_elem _ _ _ HC) k) as (A & B & _). split; [apply (cf_one _ _ _ HC)|exact B|exact A|apply (cf_vars _ _ _ HC)].
Qed.
Lemma mono_span d P c (HC : cell_fits d P c) k w : pvars d w -> deg_le w k -> in_span (el_basis (cl_elem c) k) w.
Proof. intros V D. exact (cf_span _ _ _ HC k w V D). Qed.
Lemma starts_span d P c (HC : cell_fits d P c) k rb w : starts_with c k rb -> pvars d w -> deg_le w k -> in_span rb w.
Proof.
  intros (Hle & Heq) V D. destruct (cf_span _ _ _ HC k w V D) as (a & Ha). set (m := b_size (el_basis (cl_elem c) k)) in *.
  exists (fun j => if (j <? m)%nat then a j else 0). intros x. rewrite Ha, !peval_lincomb. fold m. replace (b_size rb) with (m + (b_size rb - m))%nat by lia.
  rewrite sg_split. rewrite (sg_zero (b_size rb - m)).
  - rewrite Rplus_0_r. apply sg_ext. intros j Hj. destruct (Nat.ltb_spec j m); [|lia]. rewrite (Heq j Hj). reflexivity.
  - intros j _. destruct (Nat.ltb_spec (m + j) m); [lia|]. ring.
Qed.

Section Sfl.
  Context (d : nat) (P : polytope) (c : scell) (HC : cell_fits d P c) (K : mtx) (HK : spd d K).
  Let HP := cf_poly _ _ _ HC.
  Let HI := poly_int _ _ HP.
  Context (ldlt : nat -> mtx -> (nat -> R) -> nat -> R) (HS : solves_spd ldlt).
  Context (rd cd fd : nat) (ro : sbasis) (HB : rec_basis d P rd ro) (Hfd : (fd + 1 <= rd)%nat) (Sc : starts_with c cd ro) (Si : starts_with c (fd + 1) ro).
  Let ri := el_basis (cl_elem c) (fd + 1).
  Let cb := el_basis (cl_elem c) cd.
  Let fdi := all_faces c fd.
  Let N := num_dofs c cd fdi.
  Notation E := (en d P K).
  Let Ko := grad_grad d K ro (el_quad (cl_elem c) (2 * (rd - 1))).
  Lemma HBi : rec_basis d P (fd + 1) ri.
  Proof. apply mono_basis, HC. Qed.
  Lemma Ko_eq i j : (i < b_size ro)%nat -> (j < b_size ro)%nat -> Ko i j = E (b_poly ro j) (b_poly ro i).
  Proof.
    intros Hi Hj. unfold Ko, grad_grad.
    assert (G : forall q M, fold_left (fun M qp => let '(x, w) := qp in fun i j =>
        M i j + sg d (fun k => w * tens d (Some K) (dphi ro x i) k * dphi ro x j k)) q M i j =
        M i j + qsum q (peval (graddot d (b_poly ro j) (kgrad d K (b_poly ro i))))).
    { induction q as [|[x w] q IH]; intros M; cbn [fold_left qsum]; [lra|]. rewrite IH. unfold graddot. rewrite peval_psum, <- sg_scal.
      rewrite (sg_ext d (fun k => w * tens d (Some K) (dphi ro x i) k * dphi ro x j k)
        (fun k => w * peval (PMul (pdiff k (b_poly ro j)) (kgrad d K (b_poly ro i) k)) x)); [ring|].
      intros k Hk. unfold dphi. rewrite tens_eq by exact Hk. cbn [peval tensor_of]. ring. }
    rewrite G. unfold zeroM. rewrite Rplus_0_l. apply (exact_int _ _ HI _ (fit_quad _ _ _ (cf_elem _ _ _ HC))).
    apply (deg_le_mono _ (rd - 1 + (rd - 1))); [lia|]. apply deg_graddot; [apply (rb_degree _ _ _ _ HB); lia|].
    intros k. apply deg_kgrad. apply (rb_degree _ _ _ _ HB); lia.
  Qed.
  Lemma Ki_eq i j : (i < b_size ri - 1)%nat -> (j < b_size ri - 1)%nat -> shift 1 1 Ko i j = E (b_poly ri (S j)) (b_poly ri (S i)).
  Proof.
    intros Hi Hj. destruct Si as (Hle & Heq). fold ri in Hle, Heq. unfold shift. cbn [Nat.add]. rewrite Ko_eq by lia. rewrite !Heq by lia. reflexivity.
  Qed.
  Lemma Kcell u i : (S i < b_size ro)%nat -> mv N (add_cols zeroM 0 (b_size cb) (shift 1 0 Ko)) u i = E (cell_fun c cd u) (b_poly ro (S i)).
  Proof.
    intros Hi. rewrite mv_add_cols by (unfold N, num_dofs, cb; lia). rewrite mv_zero, Rplus_0_l. unfold cell_fun. fold cb. rewrite (en_lincomb_l d P HP).
    destruct Sc as (Hle & Heq). fold cb in Hle, Heq. apply sg_ext. intros j Hj. unfold shift. cbn [Nat.add]. rewrite Ko_eq by lia. rewrite Heq by lia. ring.
  Qed.
  Definition sfl_inner_rhs : mtx := snd (fold_left (sfl_inner_face d K (fd + 1) cd fd ri cb) (cl_faces c) (b_size cb, add_cols zeroM 0 (b_size cb) (shift 1 0 Ko))).
  Lemma inner_faces u i : (S i < b_size ri)%nat -> forall fs fcs, Forall2 face_fit fs fcs -> forall off M,
    (off + face_dofs (bases_l (map (fun fc => (fc, Some fd)) fcs)) <= N)%nat ->
    mv N (snd (fold_left (sfl_inner_face d K (fd + 1) cd fd ri cb) fcs (off, M))) u i =
    mv N M u i + fsum3 fs (face_funs off (bases_l (map (fun fc => (fc, Some fd)) fcs)) u) (map (fun _ => Some (cell_fun c cd u)) fs)
      (fun f a t => fa_int f (PMul (psubp a t) (flux d K (fa_normal f) (b_poly ri (S i))))).
  Proof.
    intros Hi fs fcs H. induction H as [|f fc fs fcs [[FF [Hn _]] FI] H IH]; intros off M Hoff; cbn [fold_left]; [simpl; lra|].
    cbn [map bases_l fst snd face_dofs] in Hoff. cbn [sfl_inner_face].
    rewrite IH by (cbn [bases_l map] in Hoff |- *; unfold bases_l in *; lia).
    cbn [map bases_l fst snd face_funs fsum3]. rewrite <- Rplus_assoc. f_equal.
    apply (gqps_int d P c HC (Some K) (fd + 1) cd fd ri HBi ltac:(lia) N u f fc off (fd + 1 + Nat.max cd fd) M i FF FI Hn Hi ltac:(lia) ltac:(lia) ltac:(unfold N, num_dofs, cb; lia) ltac:(lia) false).
  Qed.
  Let Ri := solveM ldlt (b_size ri - 1) (shift 1 1 Ko) sfl_inner_rhs.
  Definition Riu (u : nat -> R) : pexp := span_fun ri N Ri u.
  Definition iform (u : nat -> R) (w : pexp) : R := gform d P K (cell_fun c cd u) (faces_funs c cd fdi u) (map (fun _ => Some (cell_fun c cd u)) (po_facets P)) psubp w.
  Lemma inner_eq u w : pvars d w -> deg_le w (fd + 1) -> E (Riu u) w = iform u w.
  Proof.
    intros V D. unfold Riu, Ri, iform. apply (g_eq d P HP K HK (fd + 1) ri HBi); [apply Ki_eq|exact HS| |apply (mono_span d P c HC); assumption].
    intros i Hi. unfold sfl_inner_rhs. rewrite (inner_faces u i ltac:(lia) _ _ (faces_fit d P c HC)) by (unfold N, num_dofs, fdi, cb; rewrite bases_all; lia).
    destruct Si as (Hle & Heq). fold ri in Hle, Heq. rewrite Kcell by lia. rewrite Heq by lia. unfold gform, faces_funs, fdi. rewrite bases_all. reflexivity.
  Qed.
  Lemma Riu_deg u : deg_le (Riu u) (fd + 1).
  Proof. apply (span_deg d P (fd + 1) ri HBi). Qed.
  Lemma Riu_vars u : pvars d (Riu u).
  Proof. apply pvars_lincomb. intros j. apply (cf_vars _ _ _ HC). Qed.

  (** one face of the outer reconstruction *)
  Lemma outer_row f fc u off M i t : elem_fits (fa_on f) (fa_int f) (fc_elem fc) -> integral (fa_on f) (fa_int f) -> fc_normal fc = fa_normal f ->
    (S i < b_size ro)%nat -> l2proj (fa_int f) fd (Riu u) t -> (off + b_size (el_basis (fc_elem fc) fd) <= N)%nat ->
    let fb := el_basis (fc_elem fc) fd in
    let uF := lincomb (b_size fb) (fun j => u (off + j)%nat) (b_poly fb) in
    mv N (snd (sfl_outer_face ldlt d K rd cd fd ri ro cb Ri (off, M) fc)) u i =
    mv N M u i + fa_int f (PMul (PAdd (psubp uF (cell_fun c cd u)) (psubp (Riu u) t)) (flux d K (fa_normal f) (b_poly ro (S i)))).
  Proof.
    intros FF FI Hn Hi Ht Hf fb uF. unfold sfl_outer_face. cbn [snd]. fold fb. rewrite mv_add_cols by exact Hf. rewrite !mv_madd.
    rewrite mv_add_cols by (unfold N, num_dofs, cb; lia). rewrite !mv_opp, !mv_mprod.
    set (qd := (rd + Nat.max cd fd)%nat). set (w := flux d K (fa_normal f) (b_poly ro (S i))).
    assert (Dw : deg_le w (rd - 1)) by (apply deg_flux, (rb_degree _ _ _ _ HB), Hi).
    assert (W : forall x, rdn d (Some K) ro (fc_normal fc) x i = peval w x) by (intros x; rewrite rdn_eq, Hn; reflexivity).
    set (rp := fun j => b_poly ri (S j)).
    assert (RU : lincomb (b_size ri - 1) (mv N Ri u) rp = Riu u) by reflexivity.
    assert (A : forall s, mv (b_size fb) (accumulate (el_quad (fc_elem fc) qd) (rdn d (Some K) ro (fc_normal fc)) (phi fb) zeroM) s i = fa_int f (PMul w (lincomb (b_size fb) s (b_poly fb)))).
    { intros s. unfold phi. rewrite (acc_mv _ _ _ _ _ _ w) by exact W. apply (acc_int _ _ FI _ FF). apply (deg_le_mono _ (rd - 1 + fd)); [unfold qd; lia|].
      apply deg_le_mul; [exact Dw|apply (fun_deg _ _ _ FF)]. }
    assert (T : mv (b_size cb) (accumulate (el_quad (fc_elem fc) qd) (rdn d (Some K) ro (fc_normal fc)) (phi cb) zeroM) (fun j => u (0 + j)%nat) i = fa_int f (PMul w (cell_fun c cd u))).
    { unfold phi. rewrite (acc_mv _ _ _ _ _ _ w) by exact W. change (lincomb (b_size cb) (fun j => u (0 + j)%nat) (b_poly cb)) with (cell_fun c cd u).
      apply (acc_int _ _ FI _ FF). apply (deg_le_mono _ (rd - 1 + cd)); [unfold qd; lia|]. apply deg_le_mul; [exact Dw|apply (fun_deg _ _ _ (cf_elem _ _ _ HC))]. }
    assert (Q : mv (b_size ri - 1) (accumulate (el_quad (fc_elem fc) qd) (rdn d (Some K) ro (fc_normal fc)) (fun x j => phi ri x (S j)) zeroM) (mv N Ri u) i = fa_int f (PMul w (Riu u))).
    { change (fun x j => phi ri x (S j)) with (fun x j => peval (rp j) x). rewrite (acc_mv _ _ _ rp _ _ w) by exact W. rewrite RU. apply (acc_int _ _ FI _ FF).
      apply (deg_le_mono _ (rd - 1 + (fd + 1))); [unfold qd; lia|]. apply deg_le_mul; [exact Dw|apply Riu_deg]. }
    rewrite A, T, Q.
    set (MF := accumulate (el_quad (fc_elem fc) qd) (phi fb) (phi fb) zeroM).
    set (TR := mprod (b_size ri - 1) (accumulate (el_quad (fc_elem fc) qd) (phi fb) (fun x j => phi ri x (S j)) zeroM) Ri).
    set (s := mv N (solveM ldlt (b_size fb) MF TR) u).
    assert (HF : basis_on (fa_on f) fd (b_size fb) (b_poly fb)) by apply (fit_basis _ _ _ FF fd).
    assert (SA : forall k, (k < b_size fb)%nat -> fa_int f (PMul (b_poly fb k) (lincomb (b_size fb) s (b_poly fb))) = fa_int f (PMul (b_poly fb k) (Riu u))).
    { apply (mass_solve _ _ FI ldlt HS fd _ _ _ qd _ _ _ _ _ HF (fit_quad _ _ _ FF)); [unfold qd; lia| |].
      - intros a b Ha Hb. unfold MF. rewrite accumulate_eq. unfold zeroM, phi. rewrite Rplus_0_l.
        apply (acc_int _ _ FI _ FF). apply (deg_le_mono _ (fd + fd)); [unfold qd; lia|]. apply deg_le_mul; apply (basis_deg _ _ _ FF); assumption.
      - intros a Ha. unfold TR. rewrite mv_mprod. change (fun x j => phi ri x (S j)) with (fun x j => peval (rp j) x). unfold phi. rewrite (acc_mv _ _ _ rp _ _ (b_poly fb a)) by reflexivity.
        rewrite RU. apply (acc_int _ _ FI _ FF). apply (deg_le_mono _ (fd + (fd + 1))); [unfold qd; lia|]. apply deg_le_mul; [apply (basis_deg _ _ _ FF); assumption|apply Riu_deg]. }
    pose proof (l2_eq _ _ FI _ FF fd (Riu u) s t Ht SA) as TE. fold fb in TE.
    assert (B : fa_int f (PMul w (lincomb (b_size fb) s (b_poly fb))) = fa_int f (PMul w t)) by (apply (int_ext _ _ FI); intros x Hx; cbn [peval]; rewrite (TE x Hx); reflexivity).
    rewrite B, A. fold uF. rewrite (I_comm _ _ FI _ w).
    assert (X : fa_int f (PMul w (PAdd (psubp uF (cell_fun c cd u)) (psubp (Riu u) t))) =
      fa_int f (PMul w uF) - fa_int f (PMul w (cell_fun c cd u)) + (fa_int f (PMul w (Riu u)) - fa_int f (PMul w t))).
    { rewrite <- !(I_mul_sub_r _ _ FI), <- (int_add _ _ FI). apply (I_ext _ _ FI). intros x. cbn [peval]. ring. }
    rewrite X. lra.
  Qed.
  Lemma outer_faces u i : (S i < b_size ro)%nat -> forall fs fcs, Forall2 face_fit fs fcs -> forall off M ts,
    projs fs (map (fun _ => Some fd) fs) ts (Riu u) -> (off + face_dofs (bases_l (map (fun fc => (fc, Some fd)) fcs)) <= N)%nat ->
    mv N (snd (fold_left (sfl_outer_face ldlt d K rd cd fd ri ro cb Ri) fcs (off, M))) u i =
    mv N M u i + fsum3 fs (face_funs off (bases_l (map (fun fc => (fc, Some fd)) fcs)) u) ts
      (fun f a t => fa_int f (PMul (PAdd (psubp a (cell_fun c cd u)) (psubp (Riu u) t)) (flux d K (fa_normal f) (b_poly ro (S i))))).
  Proof.
    intros Hi fs fcs H. induction H as [|f fc fs fcs [[FF [Hn _]] FI] H IH]; intros off M ts Ht Hoff; cbn [fold_left]; [destruct ts; simpl; lra|].
    cbn [map bases_l fst snd face_dofs] in Hoff. cbn [map projs] in Ht. destruct ts as [|[t|] ts]; try contradiction. destruct Ht as (Ht1 & Ht2).
    destruct (sfl_outer_face ldlt d K rd cd fd ri ro cb Ri (off, M) fc) as [off' M'] eqn:EM.
    assert (O : off' = (off + b_size (el_basis (fc_elem fc) fd))%nat) by (unfold sfl_outer_face in EM; apply pair_equal_spec in EM as [<- _]; reflexivity).
    subst off'. rewrite (IH _ _ ts Ht2) by (cbn [bases_l map] in Hoff |- *; unfold bases_l in *; lia).
    cbn [map bases_l fst snd face_funs fsum3]. rewrite <- Rplus_assoc. f_equal.
    replace M' with (snd (sfl_outer_face ldlt d K rd cd fd ri ro cb Ri (off, M) fc)) by (rewrite EM; reflexivity).
    apply (outer_row f fc u off M i t FF FI Hn Hi Ht1). lia.
  Qed.
  Definition sfl := make_sfl ldlt d K c (mkDegs cd fd rd) ro.
  Definition oform (r : pexp) (ts : list (option pexp)) (u : nat -> R) (w : pexp) : R :=
    gform d P K (cell_fun c cd u) (faces_funs c cd fdi u) ts (fun a t => PAdd (psubp a (cell_fun c cd u)) (psubp r t)) w.
  Lemma Koo i j : (i < b_size ro - 1)%nat -> (j < b_size ro - 1)%nat -> shift 1 1 Ko i j = E (b_poly ro (S j)) (b_poly ro (S i)).
  Proof. intros Hi Hj. unfold shift. cbn [Nat.add]. apply Ko_eq; lia. Qed.
  Lemma sfl_eq0 u ts w : projs (po_facets P) (map (fun _ => Some fd) (po_facets P)) ts (Riu u) -> in_span ro w ->
    E (span_fun ro N (fst sfl) u) w = oform (Riu u) ts u w.
  Proof.
    intros Ht. unfold sfl, make_sfl, oform. cbn [fst cell_degree face_degree reconstruction_degree].
    apply (g_eq d P HP K HK rd ro HB); [apply Koo|exact HS|]. intros i Hi.
    pose proof (outer_faces u i ltac:(lia) _ _ (faces_fit d P c HC) (b_size cb) (add_cols zeroM 0 (b_size cb) (shift 1 0 Ko)) ts Ht ltac:(unfold N, num_dofs, fdi, cb; rewrite bases_all; lia)) as Q.
    refine (eq_trans Q _). rewrite Kcell by lia. unfold gform, faces_funs, fdi. rewrite bases_all. reflexivity.
  Qed.
  Lemma sfl_data u v : quadf N (snd sfl) u v = E (span_fun ro N (fst sfl) u) (span_fun ro N (fst sfl) v).
  Proof.
    unfold sfl, make_sfl. cbn [fst snd cell_degree face_degree reconstruction_degree]. apply (g_data d P HP K HK rd ro HB); [apply Koo|exact HS].
  Qed.
  (** only the inner reconstruction up to a constant matters *)
  Lemma projs_shift k q r fs : (forall f, In f fs -> integral (fa_on f) (fa_int f)) -> (forall f x, In f fs -> fa_on f x -> peval q x = peval r x + k) ->
    forall ts, projs fs (map (fun _ => Some fd) fs) ts r -> projs fs (map (fun _ => Some fd) fs) (map (option_map (fun t => PAdd t (PC k))) ts) q.
  Proof.
    induction fs as [|f fs IH]; intros FI Hq [|[t|] ts] H; cbn [map projs] in H; try contradiction; [exact Logic.I|]. cbn [map projs option_map].
    destruct H as ((D & H1) & H2). split; [|exact (IH (fun f' H => FI f' (or_intror H)) (fun f' x H => Hq f' x (or_intror H)) ts H2)].
    split; [apply deg_le_add; [exact D|apply deg_le_const]|]. intros w Dw. pose proof (FI f (or_introl eq_refl)) as FF.
    rewrite (I_ext _ _ FF (PMul w (PAdd t (PC k))) (PAdd (PMul w t) (PMul w (PC k)))) by (intros; cbn [peval]; ring).
    rewrite (int_add _ _ FF), (H1 w Dw), <- (int_add _ _ FF). apply (int_ext _ _ FF). intros x Hx. cbn [peval]. rewrite (Hq f x (or_introl eq_refl) Hx). ring.
  Qed.
  Lemma fsum3_shift k q r uT (h : facet -> pexp) fs us : (forall f, In f fs -> integral (fa_on f) (fa_int f)) -> (forall f x, In f fs -> fa_on f x -> peval q x = peval r x + k) ->
    forall ts, fsum3 fs us (map (option_map (fun t => PAdd t (PC k))) ts) (fun f a t => fa_int f (PMul (PAdd (psubp a uT) (psubp q t)) (h f))) =
    fsum3 fs us ts (fun f a t => fa_int f (PMul (PAdd (psubp a uT) (psubp r t)) (h f))).
  Proof.
    revert us. induction fs as [|f fs IH]; intros [|[a|] us] FI Hq [|[t|] ts]; cbn [map option_map fsum3]; try reflexivity.
    - rewrite (IH us (fun f' H => FI f' (or_intror H)) (fun f' x H => Hq f' x (or_intror H)) ts). f_equal. apply (int_ext _ _ (FI f (or_introl eq_refl))). intros x Hx.
      unfold psubp, pscal. cbn [peval]. rewrite (Hq f x (or_introl eq_refl) Hx). ring.
    - exact (IH us (fun f' H => FI f' (or_intror H)) (fun f' x H => Hq f' x (or_intror H)) ts).
  Qed.
  Lemma sfl_eq u r ts w : pvars d r -> deg_le r (fd + 1) -> (forall v, pvars d v -> deg_le v (fd + 1) -> E r v = iform u v) ->
    projs (po_facets P) (map (fun _ => Some fd) (po_facets P)) ts r -> in_span ro w -> E (span_fun ro N (fst sfl) u) w = oform r ts u w.
  Proof.
    intros Vr Dr Hr Ht Hw.
    destruct (const_of_energy d P c HC K r (Riu u) HK) as (k & Hk).
    { assert (V : pvars d (psubp r (Riu u))) by (cbn; repeat split; [exact Vr|apply Riu_vars]).
      assert (D : deg_le (psubp r (Riu u)) (fd + 1)) by (apply deg_le_sub; [exact Dr|apply Riu_deg]).
      rewrite (en_sub_l d P HP), (Hr _ V D), inner_eq by assumption. lra. }
    assert (FI : forall f, In f (po_facets P) -> integral (fa_on f) (fa_int f)) by (intros f Hf; apply (poly_facets _ _ HP f Hf)).
    assert (Hq : forall f x, In f (po_facets P) -> fa_on f x -> peval (Riu u) x = peval r x + k) by (intros f x Hf Hx; apply Hk, (poly_facets _ _ HP f Hf), Hx).
    rewrite (sfl_eq0 u _ w (projs_shift k (Riu u) r _ FI Hq ts Ht) Hw). unfold oform, gform. f_equal. apply (fsum3_shift k (Riu u) r _ _ _ _ FI Hq).
  Qed.
  (** polynomials of degree fd + 1 *)
  Lemma sfl_interp : (fd <= cd + 1)%nat -> (forall j, (j < b_size ro)%nat -> deg_le (divk d K (b_poly ro j)) cd) ->
    forall p u, pvars d p -> deg_le p (fd + 1) -> l2proj (po_int P) cd p (cell_fun c cd u) -> projs (po_facets P) (map (fun _ => Some fd) (po_facets P)) (faces_funs c cd fdi u) p ->
    forall w, in_span ro w -> E (span_fun ro N (fst sfl) u) w = E p w.
  Proof.
    intros Hcd Hdiv p u Vp Dp Pc Pf. set (uT := cell_fun c cd u) in *. destruct (projs_len _ _ _ _ Pf) as (L1 & N1).
    intros w Sw. rewrite (sfl_eq u p (faces_funs c cd fdi u) w Vp Dp); [| |exact Pf|exact Sw].
      - apply (fsum3_green d P K p _ _ _ _ w HP L1 L1 N1 N1).
        + intros f a b Hin. apply combine3 in Hin as (Ha & Hb). assert (Hf : In f (po_facets P)) by (apply in_combine_l in Ha; exact Ha).
          pose proof (fct d P HP f Hf) as FI. fold uT. set (fl := flux d K (fa_normal f) w).
          destruct (projs_in _ _ _ _ Pf f a Ha) as (D1 & A1). destruct (projs_in _ _ _ _ Pf f b Hb) as (D2 & B1).
          assert (EQ : forall x, fa_on f x -> peval a x = peval b x).
          { assert (FF : exists fc, face_fit f fc).
            { clear - HC Hf. pose proof (faces_fit d P c HC) as FF. clear HC. induction FF as [|f' fc fs fcs H FF IH]; [destruct Hf|]. destruct Hf as [<-|Hf]; [exists fc; exact H|exact (IH Hf)]. }
            destruct FF as (fc & (FF & _) & _). apply (span_eq _ _ FI fd _ _ _ _ (fit_basis _ _ _ FF fd) D1 D2). intros i Hi.
            rewrite A1, B1 by (apply (basis_deg _ _ _ FF), Hi). reflexivity. }
          rewrite <- (int_add _ _ FI). apply (int_ext _ _ FI). intros x Hx. unfold psubp, pscal. cbn [peval]. rewrite (EQ x Hx). ring.
        + fold uT. rewrite (I_comm _ _ HI), (I_comm _ _ HI p). apply Pc, (divk_span d _ ro cd Hdiv w Sw).
      - intros v Vv Dv. symmetry. unfold iform. fold uT. apply (fsum3_green d P K p _ _ _ _ v HP L1); [apply map_length|exact N1| | |].
        + intros H. apply in_map_iff in H as (? & ? & _). discriminate.
        + intros f a b Hin. apply combine3 in Hin as (Ha & Hb). assert (Hf : In f (po_facets P)) by (apply in_combine_l in Ha; exact Ha).
          pose proof (fct d P HP f Hf) as FI. set (fl := flux d K (fa_normal f) v).
          assert (Dfl : deg_le fl fd) by (apply (deg_le_mono _ (fd + 1 - 1)); [lia|apply deg_flux, Dv]).
          apply in_combine_r, in_map_iff in Hb as (? & E & _). injection E as <-.
          destruct (projs_in _ _ _ _ Pf f a Ha) as (_ & A1). specialize (A1 fl Dfl).
          rewrite (I_mul_sub_l _ _ FI), (I_comm _ _ FI a), (I_comm _ _ FI p). lra.
        + rewrite (I_comm _ _ HI), (I_comm _ _ HI p). apply Pc. apply (deg_le_mono _ (fd + 1 - 2)); [lia|]. apply deg_divk, Dv.
  Qed.
  Lemma sfl_consistent : (fd <= cd + 1)%nat -> (forall j, (j < b_size ro)%nat -> deg_le (divk d K (b_poly ro j)) cd) ->
    forall p u, pvars d p -> deg_le p (fd + 1) -> l2proj (po_int P) cd p (cell_fun c cd u) -> projs (po_facets P) (map (fun _ => Some fd) (po_facets P)) (faces_funs c cd fdi u) p ->
    exists k, forall x, po_on P x -> peval p x = peval (span_fun ro N (fst sfl) u) x + k.
  Proof.
    intros Hcd Hdiv p u Vp Dp Pc Pf. pose proof (sfl_interp Hcd Hdiv p u Vp Dp Pc Pf) as G.
    apply (const_of_energy d P c HC K _ p HK). rewrite (en_sub_l d P HP), G; [lra|]. apply in_span_sub; [|apply (starts_span d P c HC (fd + 1)); assumption].
    unfold sfl, make_sfl. cbn [fst]. apply (span_in d P rd ro HB).
  Qed.
  Lemma fsum3_patch q uT h fs us : (forall f, In f fs -> integral (fa_on f) (fa_int f)) -> length us = length fs -> ~ In None us ->
    (forall f, In f fs -> deg_le (h f) fd) -> forall ts, projs fs (map (fun _ => Some fd) fs) ts q ->
    fsum fs (fun f => fa_int f (PMul uT (h f))) + fsum3 fs us ts (fun f a t => fa_int f (PMul (PAdd (psubp a uT) (psubp q t)) (h f))) =
    fsum2 fs us (fun f a => fa_int f (PMul a (h f))).
  Proof.
    revert us. induction fs as [|f fs IH]; intros [|[a|] us] FI L Hn Dh [|[t|] ts] Ht; try discriminate; cbn [map projs] in Ht; try contradiction; cbn [fsum fsum2 fsum3]; [lra| |exfalso; apply Hn; left; reflexivity].
    destruct Ht as ((_ & Ht1) & Ht2). specialize (Ht1 (h f) (Dh f (or_introl eq_refl))). pose proof (FI f (or_introl eq_refl)) as FF.
    rewrite <- (IH us (fun f' H => FI f' (or_intror H)) ltac:(cbn in L; lia) (fun H => Hn (or_intror H)) (fun f' H => Dh f' (or_intror H)) ts Ht2).
    rewrite (I_ext _ _ FF (PMul (PAdd (psubp a uT) (psubp q t)) (h f)) (PAdd (PMul (psubp a uT) (h f)) (PMul (psubp q t) (h f)))) by (intros; cbn [peval]; ring).
    rewrite (int_add _ _ FF), !(I_mul_sub_l _ _ FF), (I_comm _ _ FF q), (I_comm _ _ FF t). lra.
  Qed.
  Lemma faces_len u : length (faces_funs c cd fdi u) = length (po_facets P) /\ ~ In None (faces_funs c cd fdi u).
  Proof.
    destruct (face_funs_some fd (cl_faces c) u (b_size (el_basis (cl_elem c) cd))) as (L1 & L2). unfold faces_funs, fdi. rewrite bases_all. split; [|exact L2].
    refine (eq_trans L1 _). symmetry. eapply F2_len. apply (faces_fit d P c HC).
  Qed.
  Lemma sfl_patch : (fd <= cd + 1)%nat -> (forall j, (j < b_size ro)%nat -> deg_le (divk d K (b_poly ro j)) cd) ->
    forall p u, pvars d p -> deg_le p (fd + 1) -> l2proj (po_int P) cd p (cell_fun c cd u) -> projs (po_facets P) (map (fun _ => Some fd) (po_facets P)) (faces_funs c cd fdi u) p ->
    forall v, quadf N (snd sfl) v u = - po_int P (PMul (cell_fun c cd v) (divk d K p)) +
      fsum2 (po_facets P) (faces_funs c cd fdi v) (fun f vF => fa_int f (PMul vF (flux d K (fa_normal f) p))).
  Proof.
    intros Hcd Hdiv p u Vp Dp Pc Pf v. rewrite sfl_data, (en_sym d P HP K HK).
    rewrite (sfl_interp Hcd Hdiv p u Vp Dp Pc Pf) by (unfold sfl, make_sfl; cbn [fst]; apply (span_in d P rd ro HB)).
    rewrite (en_sym d P HP K HK). destruct (projs_exist ldlt HS _ _ fd (Riu v) (faces_fit d P c HC)) as (ts & Ht).
    rewrite (sfl_eq0 v ts p Ht) by (apply (starts_span d P c HC (fd + 1)); assumption). unfold oform, gform. rewrite (en_green d P HP).
    destruct (faces_len v) as (L & Hn). rewrite Rplus_assoc. f_equal.
    apply (fsum3_patch (Riu v) (cell_fun c cd v) (fun f => flux d K (fa_normal f) p)); [intros f Hf; apply (poly_facets _ _ HP f Hf)|exact L|exact Hn| |exact Ht].
    intros f _. apply (deg_le_mono _ (fd + 1 - 1)); [lia|apply deg_flux, Dp].
  Qed.
End Sfl.
