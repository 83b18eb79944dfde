(** The projections and the stiffness matrix of the virtual element *)
From Coq Require Import List Arith Reals Lia Lra Bool.
From Verif Require Import Poly_Spec Poly_Proofs HHO_Spec HHO_Model HHO_Setting HHO_Proofs HHO2_Proofs VEM_Spec VEM_Model VEM_Setting VEM_Proofs VEM2_Proofs.
Import ListNotations.
Open Scope R_scope.

Lemma node_sum_lin b l n c (g : nat -> pt -> R) u : forall d, node_sum b d l (fun x => sg n (fun i => c i * g i x)) u = sg n (fun i => c i * node_sum b d l (g i) u).
Proof.
  induction l as [|[x w] l IH]; intros d; cbn [node_sum]; [symmetry; apply sg_zero; intros; ring|]. rewrite IH.
  rewrite (sg_ext n (fun i => c i * (w * g i x * u (d mod b)%nat + node_sum b (S d) l (g i) u)) (fun i => w * u (d mod b)%nat * (c i * g i x) + c i * node_sum b (S d) l (g i) u)) by (intros; ring).
  rewrite sg_plus, sg_scal. ring.
Qed.
Lemma flux_lin no n c Q x : peval (flux 2 delta no (lincomb n c Q)) x = sg n (fun i => c i * peval (flux 2 delta no (Q i)) x).
Proof.
  induction n as [|n IH]; [cbn; unfold delta; cbn; ring|]. cbn [sg]. rewrite <- IH. unfold lincomb. cbn [psum]. unfold flux, kgrad. cbn [psum pscal pdiff peval]. ring.
Qed.
Lemma flux_ext no p q x : (forall x, peval p x = peval q x) -> peval (flux 2 delta no p) x = peval (flux 2 delta no q) x.
Proof. intros H. unfold flux, kgrad. cbn [psum pscal peval]. rewrite !(pdiff_ext p q _ H). reflexivity. Qed.
Lemma boundary_lin k b n c Q u : forall fs ns d, boundary_sum k b d fs ns (lincomb n c Q) u = sg n (fun i => c i * boundary_sum k b d fs ns (Q i) u).
Proof.
  induction fs as [|f fs IH]; intros [|l ns] d; cbn [boundary_sum]; try (symmetry; apply sg_zero; intros; ring).
  rewrite IH. rewrite (sg_ext n (fun i => c i * (_ + _)) (fun i => c i * node_sum b d l (peval (flux 2 delta (fa_normal f) (Q i))) u + c i * boundary_sum k b (d + k) fs ns (Q i) u)) by (intros; ring).
  rewrite sg_plus. f_equal. rewrite <- (node_sum_lin b l n c (fun i => peval (flux 2 delta (fa_normal f) (Q i)))).
  clear. revert d. induction l as [|[x w] l IH]; intros d; cbn [node_sum]; [reflexivity|]. rewrite IH, flux_lin. reflexivity.
Qed.
Lemma boundary_ext k b p q u : (forall x, peval p x = peval q x) -> forall fs ns d, boundary_sum k b d fs ns p u = boundary_sum k b d fs ns q u.
Proof.
  intros H. induction fs as [|f fs IH]; intros [|l ns] d; cbn [boundary_sum]; try reflexivity. rewrite IH. f_equal. revert d. induction l as [|[x w] l IHl]; intros d; cbn [node_sum]; [reflexivity|].
  rewrite IHl, (flux_ext _ p q x H). reflexivity.
Qed.
Lemma divk_lin n c Q x : peval (divk 2 delta (lincomb n c Q)) x = sg n (fun i => c i * peval (divk 2 delta (Q i)) x).
Proof.
  induction n as [|n IH]; [cbn; unfold delta; cbn; ring|]. cbn [sg]. rewrite <- IH. unfold lincomb. cbn [psum]. unfold divk, kgrad. cbn [psum pscal pdiff peval]. ring.
Qed.
Lemma divk_ext p q x : (forall x, peval p x = peval q x) -> peval (divk 2 delta p) x = peval (divk 2 delta q) x.
Proof.
  intros H. unfold divk, kgrad. cbn [psum pscal pdiff peval]. rewrite !(fun c d => pdiff_ext (pdiff c p) (pdiff c q) d (fun x => pdiff_ext p q c H x)). ring.
Qed.
Lemma sg_sq_zero M (a : nat -> R) : sg M (fun d => a d * a d) = 0 -> forall d, (d < M)%nat -> a d = 0.
Proof.
  induction M as [|M IH]; intros H d Hd; [lia|]. cbn [sg] in H. assert (0 <= sg M (fun d => a d * a d)) by (apply sg_le; intros; apply Rle_0_sqr). assert (0 <= a M * a M) by apply Rle_0_sqr.
  destruct (Nat.eq_dec d M) as [->|Nd]; [apply Rsqr_0_uniq; unfold Rsqr; lra|]. apply IH; [lra|lia].
Qed.
Lemma sg_ones n : sg n (fun _ => 1) = INR n.
Proof. induction n as [|n IH]; [reflexivity|]. rewrite S_INR, <- IH. reflexivity. Qed.
Section Fits.
  Context (gl : nat -> pt -> pt -> list (pt * R)) (k : nat) (Hk : (1 <= k)%nat) (P : polytope) (v : vcell) (F : vem_fits gl k P v).
  Context (lu : nat -> mtx -> (nat -> R) -> nat -> R) (Hlu : solves_regular lu).
  Let HP := vfit_poly _ _ _ _ F.
  Let HI := poly_int _ _ HP.
  Let n := basis_size k.
  Let m := vm v k.
  Let en := en 2 P delta.
  Let vol := po_int P (PC 1).
  Let nodes := nodes_of gl k v.
  Let nf := nfaces v.
  Let nb := (nf * k)%nat.
  Let lbs := inner_size k.
  Let N := vdofs v k.
  Let G := matrix_G v k.
  Let B := matrix_B gl v k.
  Let D := matrix_D gl v k.
  Let PI := projector_nabla gl lu v k G.
  Let unk := unk gl k P v.
  Definition pj (u : nat -> R) : pexp := lincomb n (mv N PI u) m.
  Lemma PI_sys u i : (i < n)%nat -> mv n G (mv N PI u) i = mv N B u i.
  Proof.
    intros Hi. unfold mv at 1 2. rewrite (sg_ext n _ (fun j => sg N (fun l => G i j * PI j l * u l))).
    - rewrite sg_swap. apply sg_ext. intros l _. unfold PI, projector_nabla.
      pose proof (Hlu n G (fun r => matrix_B gl v k r l) (G_regular gl k Hk P v F) i Hi) as Q. cbv beta in Q. unfold B. rewrite <- Q.
      rewrite (Rmult_comm (sg _ _)), <- sg_scal. apply sg_ext. intros j _. unfold n. ring.
    - intros j _. rewrite <- sg_scal. apply sg_ext. intros. ring.
  Qed.
  Lemma pj_deg u : deg_le (pj u) k.
  Proof. apply deg_le_lincomb. intros j Hj. apply vm_deg, Hj. Qed.
  Lemma pj_row u i : (0 < i)%nat -> (i < n)%nat -> en (m i) (pj u) = green k P nodes lbs (m i) (lapc k v i) u.
  Proof.
    intros H0 Hi. pose proof (G_row gl k Hk P v F i (mv N PI u) H0 Hi) as E. fold n m G in E. unfold en, pj. rewrite <- E.
    rewrite PI_sys by exact Hi. apply (B_row gl k Hk P v F); assumption.
  Qed.
  Lemma pj_mean u : cell_mean P (pj u) = if (k =? 1)%nat then sg nf u / INR nf else u nb.
  Proof.
    pose proof (G_row0 gl k Hk P v F (mv N PI u)) as E. fold n m G in E. unfold cell_mean, pj. rewrite <- E. rewrite PI_sys by apply basis_size_pos. apply (B_row0 gl k Hk P v F).
  Qed.
  (** Green's formula is linear in the polynomial *)
  Lemma lapc0 l : lapc k v 0 l = 0.
  Proof. unfold lapc. destruct (pows_pos 0 0 k ltac:(lia)) as [_ Q]. change (pos 0 0) with 0%nat in Q. rewrite Q. cbn. ring. Qed.
  Lemma green_m0 u : green k P nodes lbs (m 0%nat) (lapc k v 0) u = 0.
  Proof.
    unfold green. rewrite (sg_zero lbs) by (intros; rewrite lapc0; ring). cbv zeta.
    assert (Z : forall fs ns q, boundary_sum k (length nodes * k) q fs ns (m 0%nat) u = 0).
    { induction fs as [|f fs IH]; intros [|l ns] q; cbn [boundary_sum]; try reflexivity. rewrite IH, Rplus_0_r. generalize q. induction l as [|[x w] l IHl]; intros q'; cbn [node_sum]; [reflexivity|].
      rewrite IHl. replace (peval (flux 2 delta (fa_normal f) (m 0%nat)) x) with 0; [ring|]. symmetry. rewrite (flux_ext _ (m 0%nat) (PC 1)) by (intros; apply vm_one). cbn. ring. }
    rewrite Z. ring.
  Qed.
  Lemma green_lin w a c u : (forall x, peval w x = peval (lincomb n a m) x) -> laplacian_coeffs P lbs (vm v (k - 2)) w c ->
    green k P nodes lbs w c u = sg n (fun i => a i * green k P nodes lbs (m i) (lapc k v i) u).
  Proof.
    intros Ew HL. unfold green. cbv zeta. rewrite (boundary_ext k _ w _ u Ew), boundary_lin.
    rewrite (sg_ext n (fun i => a i * (_ - _)) (fun i => a i * boundary_sum k (length nodes * k) 0 (po_facets P) nodes (m i) u +
      - (po_int P (PC 1) * sg lbs (fun l => (a i * lapc k v i l) * u (length nodes * k + l)%nat)))).
    2:{ intros i _. rewrite (sg_ext lbs (fun l => a i * lapc k v i l * u (length nodes * k + l)%nat) (fun l => a i * (lapc k v i l * u (length nodes * k + l)%nat))) by (intros; ring). rewrite sg_scal. ring. }
    rewrite sg_plus. unfold Rminus. f_equal. rewrite sg_opp, sg_scal. f_equal. f_equal.
    rewrite (sg_swap n lbs). apply sg_ext. intros l Hl.
    rewrite (sg_ext n _ (fun i => u (length nodes * k + l)%nat * (a i * lapc k v i l))) by (intros; ring). rewrite sg_scal, Rmult_comm. f_equal.
    destruct (Nat.eq_dec k 1) as [E|E]; [unfold lbs, inner_size in Hl; rewrite E in Hl; cbn in Hl; lia|].
    assert (L : lbs = basis_size (k - 2)) by (unfold lbs, inner_size; rewrite (proj2 (Nat.eqb_neq k 1)) by lia; reflexivity).
    assert (Z : c l - sg n (fun i => a i * lapc k v i l) = 0); [|lra].
    apply (vm_indep v (vfit_scal _ _ _ _ F) (po_on P) (k - 2) (fun l => c l - sg n (fun i => a i * lapc k v i l)) (vfit_fat _ _ _ _ F)); [|rewrite <- L; exact Hl].
    intros x Hx. rewrite <- L. specialize (HL x Hx). rewrite (divk_ext w _ x Ew), divk_lin in HL.
    rewrite (sg_ext n _ (fun i => sg lbs (fun l => a i * (lapc k v i l * peval (vm v (k - 2) l) x)))) in HL.
    2:{ intros i Hi. rewrite sg_scal. f_equal. pose proof (lapc_lap k Hk v i x ltac:(lia) Hi) as Q. fold lbs in Q. unfold m. rewrite Q. apply peval_lincomb. }
    rewrite sg_swap, peval_lincomb in HL. rewrite peval_lincomb.
    rewrite (sg_ext lbs _ (fun l => c l * peval (vm v (k - 2) l) x + - sg n (fun i => a i * (lapc k v i l * peval (vm v (k - 2) l) x)))).
    - rewrite sg_plus, sg_opp, <- HL. ring.
    - intros l' _. rewrite (sg_ext n (fun i => a i * (lapc k v i l' * peval (vm v (k - 2) l') x)) (fun i => peval (vm v (k - 2) l') x * (a i * lapc k v i l'))) by (intros; ring). rewrite sg_scal. ring.
  Qed.
  Lemma pj_green w c u : pvars 2 w -> deg_le w k -> laplacian_coeffs P lbs (vm v (k - 2)) w c -> en w (pj u) = green k P nodes lbs w c u.
  Proof.
    intros Vw Dw HL. destruct (vm_span v (vfit_scal _ _ _ _ F) w k Vw Dw) as (a & Ea). rewrite (green_lin w a c u Ea HL). unfold en.
    rewrite (en_ext 2 P HP delta w (pj u) (lincomb n a m) (pj u) Ea) by reflexivity. rewrite (en_lincomb_l 2 P HP delta). apply sg_ext. intros i Hi. f_equal. destruct (Nat.eq_dec i 0) as [->|Ni].
    - rewrite green_m0. apply (en_m0 gl k P v F).
    - apply pj_row; lia.
  Qed.
  (** the projection is the only polynomial with these products *)
  Lemma pj_unique u q : pvars 2 q -> deg_le q k -> (forall i, (0 < i)%nat -> (i < n)%nat -> en (m i) q = green k P nodes lbs (m i) (lapc k v i) u) ->
    cell_mean P q = cell_mean P (pj u) -> forall x, peval q x = peval (pj u) x.
  Proof.
    intros Vq Dq H HM x. destruct (vm_span v (vfit_scal _ _ _ _ F) q k Vq Dq) as (a & Ea). rewrite Ea. fold m n.
    apply lincomb_coef. intros j Hj. assert (Z : a j - mv N PI u j = 0); [|lra].
    apply (G_regular gl k Hk P v F (fun j => a j - mv N PI u j)); [|exact Hj]. intros i Hi.
    fold n G. unfold mv at 1. rewrite (sg_ext n _ (fun l => G i l * a l + - (G i l * mv N PI u l))) by (intros; ring). rewrite sg_plus, sg_opp.
    fold (mv n G a i). fold (mv n G (mv N PI u) i). destruct (Nat.eq_dec i 0) as [->|Ni].
    - pose proof (G_row0 gl k Hk P v F a) as E1. pose proof (G_row0 gl k Hk P v F (mv N PI u)) as E2. fold n m G in E1, E2. rewrite E1, E2. fold (pj u).
      unfold cell_mean in HM. rewrite <- HM. rewrite (I_ext _ _ HI (lincomb n a m) q) by (intros; symmetry; apply Ea). ring.
    - pose proof (G_row gl k Hk P v F i a ltac:(lia) Hi) as E1. pose proof (G_row gl k Hk P v F i (mv N PI u) ltac:(lia) Hi) as E2. fold n m G in E1, E2. rewrite E1, E2. fold (pj u) en.
      rewrite pj_row by lia. rewrite <- H by lia. unfold en. rewrite (en_ext 2 P HP delta (m i) (lincomb n a m) (m i) q) by (try reflexivity; intros; symmetry; apply Ea). ring.
  Qed.
  Lemma unk_green i p : (i < n)%nat -> deg_le p k -> green k P nodes lbs (m i) (lapc k v i) (unk p) = en (m i) p.
  Proof. intros Hi Dp. apply (green_poly gl k Hk P v F); [apply vm_deg, Hi|exact Dp|apply (lap_m k Hk P v); exact Hi]. Qed.
  Lemma pj_repro p : (2 <= k)%nat -> pvars 2 p -> deg_le p k -> forall x, peval (pj (unk p)) x = peval p x.
  Proof.
    intros K2 Vp Dp x. symmetry. apply pj_unique; [exact Vp|exact Dp|intros; symmetry; apply unk_green; assumption|].
    rewrite pj_mean, (proj2 (Nat.eqb_neq k 1)) by lia. symmetry. apply (unk_mean gl k P v F p K2).
  Qed.
  Definition vavg (p : pexp) : R := sg nf (unk p) / INR nf.
  Lemma nf0 : INR nf <> 0.
  Proof. pose proof (nf_pos gl k Hk P v F). apply not_0_INR. fold nf in H. lia. Qed.
  (** k = 1: up to a constant *)
  Lemma pj_linear p : k = 1%nat -> pvars 2 p -> deg_le p k -> forall x, peval (pj (unk p)) x = peval p x + (vavg p - cell_mean P p).
  Proof.
    intros K1 Vp Dp x. set (q := PAdd p (PC (vavg p - cell_mean P p))).
    pose proof (vol_pos gl k P v F) as VP.
    assert (E : peval q x = peval (pj (unk p)) x).
    { apply pj_unique.
      - split; [exact Vp|exact Logic.I].
      - destruct Dp as (p' & Dp & Ep). exists (PAdd p' (PC (vavg p - cell_mean P p))). split; [cbn; lia|]. intros y. cbn. rewrite Ep. reflexivity.
      - intros i H0 Hi. rewrite unk_green by assumption. unfold en, q. rewrite (en_add_r 2 P HP delta).
        rewrite (en_ext 2 P HP delta (m i) (PC (vavg p - cell_mean P p)) (m i) (pscal (vavg p - cell_mean P p) (PC 1))) by (intros; cbn; ring).
        rewrite (en_scal_r 2 P HP delta), (en_const_r 2 P HP delta _ (PC 1)) by reflexivity. ring.
      - rewrite pj_mean, K1. cbn [Nat.eqb]. fold (vavg p). unfold q at 1. unfold cell_mean at 1. rewrite (int_add _ _ HI).
        rewrite (I_ext _ _ HI (PC (vavg p - cell_mean P p)) (pscal (vavg p - cell_mean P p) (PC 1))) by (intros; cbn; ring). rewrite (int_scal _ _ HI). unfold cell_mean. field. apply Rgt_not_eq, VP. }
    rewrite <- E. reflexivity.
  Qed.
  Lemma unk_const c d : k = 1%nat -> (d < nf)%nat -> unk (PC c) d = c.
  Proof.
    intros K1 Hd. unfold unk, VEM2_Proofs.unk, unknowns. rewrite (nodes_length gl k v). cbv zeta.
    rewrite (proj2 (Nat.ltb_lt d (nfaces v * k))) by (fold nf; rewrite K1; lia). reflexivity.
  Qed.
  Lemma pj_const c x : peval (pj (unk (PC c))) x = c.
  Proof.
    destruct (Nat.eq_dec k 1) as [K1|K1].
    - rewrite pj_linear; [|exact K1|exact Logic.I|exists (PC c); split; [cbn; lia|reflexivity]]. cbn [peval].
      assert (E1 : vavg (PC c) = c).
      { unfold vavg. rewrite (sg_ext nf _ (fun d => c * 1)) by (intros d Hd; rewrite unk_const by assumption; ring). rewrite sg_scal.
        replace (sg nf (fun _ => 1)) with (INR nf); [field; apply nf0|]. symmetry. apply sg_ones. }
      assert (E2 : cell_mean P (PC c) = c).
      { unfold cell_mean. rewrite (I_ext _ _ HI (PC c) (pscal c (PC 1))) by (intros; cbn; ring). rewrite (int_scal _ _ HI). pose proof (vol_pos gl k P v F) as VP. field. apply Rgt_not_eq, VP. }
      rewrite E1, E2. ring.
    - rewrite pj_repro; [reflexivity|lia|exact Logic.I|exists (PC c); split; [cbn; lia|reflexivity]].
  Qed.
  (** ** the stiffness matrix *)
  Let K := local_stiffness_matrix v k G D PI.
  Lemma D_pj u d : (d < N)%nat -> mv N (mprod n D PI) u d = unk (pj u) d.
  Proof. intros Hd. rewrite mv_mprod. apply (D_unknowns gl k Hk P v F (mv N PI u) d Hd). Qed.
  Lemma stiff_form u w : quadf N K u w = en (pj u) (pj w) + sg N (fun d => (u d - unk (pj u) d) * (w d - unk (pj w) d)).
  Proof.
    unfold quadf. rewrite (sg_ext N _ (fun i => u i * mv N (mprod n (mtrans PI) (upd_row 0 (fun _ _ => 0) (mprod n G PI))) w i +
       u i * mv N (mprod N (mtrans (maddm ident (mopp (mprod n D PI)))) (maddm ident (mopp (mprod n D PI)))) w i)).
    2:{ intros i _. rewrite <- Rmult_plus_distr_l. f_equal. rewrite <- mv_madd. reflexivity. }
    rewrite sg_plus. f_equal.
    - rewrite (quadf_trans N n PI _ u w) by trivial. unfold en. unfold pj at 1. rewrite (en_lincomb_l 2 P HP delta). apply sg_ext. intros i Hi. f_equal. destruct (Nat.eq_dec i 0) as [->|Ni].
      + unfold mv. rewrite sg_zero by (intros; unfold upd_row; cbn; ring). symmetry. apply (en_m0 gl k P v F).
      + pose proof (G_row gl k Hk P v F i (mv N PI w) ltac:(lia) Hi) as E. fold n m G in E. unfold pj. rewrite <- E, <- mv_mprod. unfold mv. apply sg_ext. intros j _. unfold upd_row.
        rewrite (proj2 (Nat.eqb_neq i 0) Ni). reflexivity.
    - rewrite (quadf_trans N N _ _ u w) by trivial. apply sg_ext. intros d Hd. rewrite !mv_madd, !mv_opp, !mv_ident, !D_pj by exact Hd. reflexivity.
  Qed.
  Lemma stiff_sym u w : quadf N K u w = quadf N K w u.
  Proof. rewrite !stiff_form. unfold en. rewrite (en_sym 2 P HP delta delta_spd). f_equal. apply sg_ext. intros. ring. Qed.
  Lemma stiff_pos u : 0 <= quadf N K u u.
  Proof. rewrite stiff_form. apply Rplus_le_le_0_compat; [apply (en_pos 2 P HP delta delta_spd)|apply sg_le; intros; apply Rle_0_sqr]. Qed.
  Lemma unk_onlyP p q d : (forall x, peval p x = peval q x) -> unk p d = unk q d.
  Proof.
    intros H. unfold unk, VEM2_Proofs.unk, unknowns. cbv zeta. destruct (d <? length (nodes_of gl k v) * k)%nat; [apply H|]. unfold cell_mean. f_equal. apply (I_ext _ _ HI). intros x. cbn [peval]. rewrite H. reflexivity.
  Qed.
  (** a polynomial that is constant on the cell is constant *)
  Lemma cst_everywhere c0 q : pvars 2 q -> deg_le q k -> (forall x, po_on P x -> peval q x = c0) -> forall x, peval q x = c0.
  Proof.
    intros Vq Dq H x. destruct (vm_span v (vfit_scal _ _ _ _ F) (PAdd q (PC (- c0))) k) as (a & Ea); [split; [exact Vq|exact Logic.I]| |].
    { destruct Dq as (q' & D1 & E1). exists (PAdd q' (PC (- c0))). split; [cbn; lia|]. intros y. cbn. rewrite E1. reflexivity. }
    assert (Z : forall j, (j < n)%nat -> a j = 0).
    { apply (vm_indep v (vfit_scal _ _ _ _ F) (po_on P) k a (vfit_fat _ _ _ _ F)). intros y Hy. rewrite <- Ea. cbn [peval]. rewrite (H y Hy). ring. }
    specialize (Ea x). cbn [peval] in Ea. rewrite peval_lincomb in Ea. rewrite sg_zero in Ea; [lra|]. intros j Hj. rewrite (Z j Hj). ring.
  Qed.
  Lemma stiff_kernel u : quadf N K u u = 0 <-> exists c, forall d, (d < N)%nat -> u d = unk (PC c) d.
  Proof.
    split.
    - intros Z. rewrite stiff_form in Z. pose proof (en_pos 2 P HP delta delta_spd (pj u)) as E0. fold en in E0.
      assert (S0 : 0 <= sg N (fun d => (u d - unk (pj u) d) * (u d - unk (pj u) d))) by (apply sg_le; intros; apply Rle_0_sqr).
      destruct (en_def 2 P HP delta delta_spd (pj u)) as (c & Hc); [fold en; lra|]. exists c.
      assert (Hc' : forall x, peval (pj u) x = c) by (apply cst_everywhere; [apply lincomb_vars|apply pj_deg|exact Hc]).
      assert (SZ : sg N (fun d => (u d - unk (pj u) d) * (u d - unk (pj u) d)) = 0) by lra.
      intros d Hd. pose proof (sg_sq_zero N (fun d => u d - unk (pj u) d) SZ d Hd) as Q. cbn beta in Q. rewrite (unk_onlyP (pj u) (PC c) d) in Q by exact Hc'. lra.
    - intros (c & Hc). rewrite stiff_form.
      assert (E : forall x, peval (pj u) x = peval (PC c) x).
      { intros x. cbn. rewrite <- (pj_const c x). unfold pj. apply lincomb_coef. intros j _. apply mv_ext. exact Hc. }
      rewrite sg_zero by (intros d Hd; rewrite (unk_onlyP _ _ d E), (Hc d Hd); ring).
      unfold en. rewrite (en_ext 2 P HP delta (pj u) (pj u) (pj u) (pscal c (PC 1))) by (try reflexivity; intros; rewrite E; cbn; ring).
      rewrite (en_scal_r 2 P HP delta), (en_const_r 2 P HP delta _ (PC 1)) by reflexivity. ring.
  Qed.
  Lemma stiff_consistent p c u : (2 <= k)%nat -> pvars 2 p -> deg_le p k -> laplacian_coeffs P lbs (vm v (k - 2)) p c ->
    quadf N K u (unk p) = green k P nodes lbs p c u.
  Proof.
    intros K2 Vp Dp HL. rewrite stiff_form. pose proof (pj_repro p K2 Vp Dp) as E.
    rewrite sg_zero by (intros d Hd; rewrite (unk_onlyP _ _ d E); ring). rewrite <- (pj_green p c u Vp Dp HL). unfold en. rewrite (en_sym 2 P HP delta delta_spd).
    rewrite (en_ext 2 P HP delta (pj (unk p)) (pj u) p (pj u) E) by reflexivity. ring.
  Qed.
  (** k = 1: what is added *)
  Lemma stiff_linear p c u : k = 1%nat -> pvars 2 p -> deg_le p k -> laplacian_coeffs P lbs (vm v (k - 2)) p c ->
    quadf N K u (unk p) = green k P nodes lbs p c u - (vavg p - cell_mean P p) * sg N (fun d => u d - unk (pj u) d).
  Proof.
    intros K1 Vp Dp HL. rewrite stiff_form. set (e := vavg p - cell_mean P p). pose proof (pj_linear p K1 Vp Dp) as E. fold e in E.
    rewrite <- (pj_green p c u Vp Dp HL). unfold en. rewrite (en_sym 2 P HP delta delta_spd (pj u)).
    rewrite (en_ext 2 P HP delta (pj (unk p)) (pj u) (PAdd p (pscal e (PC 1))) (pj u)) by (try reflexivity; intros; rewrite E; cbn; ring).
    rewrite (en_add_l 2 P HP delta), (en_scal_l 2 P HP delta), (en_sym 2 P HP delta delta_spd (PC 1)), (en_const_r 2 P HP delta _ (PC 1)) by reflexivity. unfold Rminus. f_equal; [ring|].
    rewrite <- sg_scal, <- sg_opp. apply sg_ext. intros d Hd.
    assert (Q : unk (pj (unk p)) d = unk p d + e).
    { rewrite (unk_onlyP (pj (unk p)) (PAdd p (PC e)) d) by (intros; rewrite E; reflexivity). unfold unk, VEM2_Proofs.unk, unknowns. cbv zeta.
      assert (HB : (d < length (nodes_of gl k v) * k)%nat). { rewrite (nodes_length gl k v). unfold N, vdofs, inner_size in Hd. rewrite K1 in Hd at 2. cbn [Nat.eqb] in Hd. lia. }
      rewrite (proj2 (Nat.ltb_lt _ _) HB). reflexivity. }
    rewrite Q. ring.
  Qed.
  (** ** the projection of degree [pd] *)
  Context (ldlt : nat -> mtx -> (nat -> R) -> nat -> R) (Hldlt : solves_spd ldlt).
  Section Zero.
    Context (pd : nat) (Hpd : (pd <= k)%nat).
    Let pn := basis_size pd.
    Let pm := vm v pd.
    Let H := make_mass_matrix (velem v) (vbasis v pd) 0.
    Let PI0 := projector_zero ldlt v k pd PI.
    Definition pz (u : nat -> R) : pexp := lincomb pn (mv N PI0 u) pm.
    (** the part of degree [pd] of the first projection *)
    Definition ptr (u : nat -> R) : pexp := lincomb pn (mv N PI u) pm.
    Lemma mass_entry i j : (i < pn)%nat -> (j < pn)%nat -> H i j = po_int P (PMul (pm i) (pm j)).
    Proof.
      intros Hi Hj. unfold H, make_mass_matrix. rewrite accumulate_eq. unfold zeroM. rewrite Rplus_0_l. cbn [velem el_quad vbasis b_deg].
      rewrite (qsum_ext _ _ (peval (PMul (pm i) (pm j)))) by (intros x; reflexivity).
      apply (exact_int _ _ HI _ (vfit_quad _ _ _ _ F)). apply (deg_le_mono _ (pd + pd)); [lia|]. apply deg_le_mul; apply vm_deg; assumption.
    Qed.
    Lemma mass_spd : spd pn H.
    Proof.
      apply (spd_ext pn (fun i j => po_int P (PMul (pm i) (pm j)))); [intros; symmetry; apply mass_entry; assumption|].
      split; [intros i j _ _; apply (I_comm _ _ HI)|]. intros x. rewrite (quadf_gram _ _ HI). split; [apply (I_sq_pos _ _ HI)|]. intros Z.
      apply (vm_indep v (vfit_scal _ _ _ _ F) (po_on P) pd x (vfit_fat _ _ _ _ F)). apply (I_sq_def _ _ HI), Z.
    Qed.
    Lemma mass_mv c i : (i < pn)%nat -> mv pn H c i = po_int P (PMul (pm i) (lincomb pn c pm)).
    Proof. intros Hi. rewrite (I_mul_lincomb_r _ _ HI). apply sg_ext. intros j Hj. rewrite mass_entry by assumption. ring. Qed.
    Lemma pz_low u i : (2 <= k)%nat -> (i < pn)%nat -> (i < basis_size (k - 2))%nat -> po_int P (PMul (pm i) (pz u)) = vol * u (nb + i)%nat.
    Proof.
      intros K2 Hi Hl. unfold pz. rewrite <- mass_mv by exact Hi. unfold PI0, projector_zero. cbv zeta.
      fold pn H. rewrite mv_solveM by (exact Hldlt || apply mass_spd || exact Hi).
      rewrite (proj2 (Nat.eqb_neq k 1)) by lia. fold nf nb. unfold mv.
      assert (L : lbs = basis_size (k - 2)) by (unfold lbs, inner_size; rewrite (proj2 (Nat.eqb_neq k 1)) by lia; reflexivity).
      rewrite (sg_ext N _ (fun j => delta (nb + i) j * (vol * u j))).
      - apply sg_delta. unfold N, vdofs. fold nf nb lbs. lia.
      - intros j Hj. rewrite (proj2 (Nat.ltb_lt _ _) Hl). unfold delta. destruct (Nat.leb_spec nb j) as [A|A]; cbn [andb].
        + unfold N, vdofs in Hj. fold nf nb lbs in Hj. rewrite (proj2 (Nat.ltb_lt j (nb + basis_size (k - 2)))) by lia. rewrite (vfit_meas _ _ _ _ F). fold vol.
          destruct (Nat.eqb_spec i (j - nb)); destruct (Nat.eqb_spec (nb + i) j); try lia; ring.
        + rewrite (proj2 (Nat.eqb_neq (nb + i) j)) by lia. ring.
    Qed.
    Lemma pz_high u i : (i < pn)%nat -> (k = 1%nat \/ basis_size (k - 2) <= i)%nat -> po_int P (PMul (pm i) (pz u)) = po_int P (PMul (pm i) (ptr u)).
    Proof.
      intros Hi Hl. unfold pz. rewrite <- mass_mv by exact Hi. unfold PI0, projector_zero. cbv zeta.
      fold pn H. rewrite mv_solveM by (exact Hldlt || apply mass_spd || exact Hi).
      unfold ptr. rewrite <- (mass_mv (mv N PI u) i Hi). rewrite <- mv_mprod. destruct (Nat.eqb_spec k 1) as [K1|K1]; [reflexivity|].
      unfold mv. apply sg_ext. intros j _. rewrite (proj2 (Nat.ltb_ge _ _)) by (destruct Hl; lia). reflexivity.
    Qed.
    Lemma span_z p q : (forall i, (i < pn)%nat -> po_int P (PMul (pm i) p) = po_int P (PMul (pm i) q)) ->
      forall w, pvars 2 w -> deg_le w pd -> po_int P (PMul w p) = po_int P (PMul w q).
    Proof.
      intros Hpq w Vw Dw. destruct (vm_span v (vfit_scal _ _ _ _ F) w pd Vw Dw) as (a & Ea).
      rewrite !(I_ext _ _ HI (PMul w _) (PMul (lincomb pn a pm) _)) by (intros; cbn [peval]; rewrite Ea; reflexivity).
      rewrite !(I_mul_lincomb_l _ _ HI). apply sg_ext. intros i Hi. rewrite Hpq by exact Hi. reflexivity.
    Qed.
    Lemma pz_eq u q : pvars 2 q -> deg_le q pd -> (forall i, (i < pn)%nat -> po_int P (PMul (pm i) (pz u)) = po_int P (PMul (pm i) q)) ->
      forall x, peval (pz u) x = peval q x.
    Proof.
      intros Vq Dq Hq x. destruct (vm_span v (vfit_scal _ _ _ _ F) q pd Vq Dq) as (a & Ea). rewrite Ea. fold pm pn.
      apply lincomb_coef. intros j Hj. assert (Z : mv N PI0 u j - a j = 0); [|lra].
      apply (vm_indep v (vfit_scal _ _ _ _ F) (po_on P) pd (fun j => mv N PI0 u j - a j) (vfit_fat _ _ _ _ F)); [|exact Hj].
      intros y Hy. fold pm pn. set (r := lincomb pn (fun j => mv N PI0 u j - a j) pm).
      assert (R : forall z, peval r z = peval (psubp (pz u) q) z).
      { intros z. unfold r, psubp, pz. rewrite peval_lincomb. cbn [peval pscal]. rewrite Ea, !peval_lincomb. fold pm pn.
        rewrite (sg_ext pn _ (fun j => mv N PI0 u j * peval (pm j) z + - (a j * peval (pm j) z))) by (intros; ring). rewrite sg_plus, sg_opp. ring. }
      apply (I_sq_def _ _ HI); [|exact Hy]. unfold r at 1. rewrite (I_mul_lincomb_l _ _ HI). apply sg_zero. intros i Hi.
      rewrite (I_ext _ _ HI (PMul (pm i) r) (PMul (pm i) (psubp (pz u) q))) by (intros; cbn [peval]; rewrite R; reflexivity). rewrite (I_mul_sub_r _ _ HI), Hq by exact Hi. ring.
    Qed.
  End Zero.
  Lemma size_le a b : (a <= b)%nat -> (basis_size a <= basis_size b)%nat.
  Proof. apply size_mono. Qed.
  Lemma pt_repro pd p : (pd <= k)%nat -> (2 <= k)%nat -> pvars 2 p -> deg_le p pd -> forall x, peval (ptr pd (unk p)) x = peval p x.
  Proof.
    intros Hpd K2 Vp Dp x. destruct (vm_span v (vfit_scal _ _ _ _ F) p pd Vp Dp) as (a & Ea). rewrite Ea. unfold ptr. apply lincomb_coef. intros j Hj.
    pose proof (size_le pd k Hpd) as SL.
    set (a' := fun j => if (j <? basis_size pd)%nat then a j else 0).
    assert (Ea' : forall y, peval p y = peval (lincomb n a' m) y).
    { intros y. rewrite Ea, !peval_lincomb. replace n with (basis_size pd + (n - basis_size pd))%nat by (unfold n; lia). rewrite sg_split.
      rewrite (sg_zero (n - basis_size pd)); [rewrite Rplus_0_r|intros l _; unfold a'; rewrite (proj2 (Nat.ltb_ge _ _)) by lia; ring].
      apply sg_ext. intros l Hl. unfold a', m. rewrite (proj2 (Nat.ltb_lt _ _) Hl). rewrite (vm_nested v pd k l Hpd Hl). reflexivity. }
    assert (Z : mv N PI (unk p) j - a' j = 0); [|unfold a' in Z; rewrite (proj2 (Nat.ltb_lt _ _) Hj) in Z; lra].
    apply (vm_indep v (vfit_scal _ _ _ _ F) (po_on P) k (fun j => mv N PI (unk p) j - a' j) (vfit_fat _ _ _ _ F)); [|fold n in SL |- *; lia].
    intros y Hy. fold m n. pose proof (pj_repro p K2 Vp (deg_le_mono _ _ _ Hpd Dp) y) as E. rewrite Ea' in E. unfold pj in E. rewrite !peval_lincomb in E. rewrite peval_lincomb.
    rewrite (sg_ext n _ (fun l => mv N PI (unk p) l * peval (m l) y + - (a' l * peval (m l) y))) by (intros; ring). rewrite sg_plus, sg_opp, E. ring.
  Qed.
  (** the moments against the functions of degree k - 2 are the unknowns of the polynomial *)
  Lemma unk_moment p i : (2 <= k)%nat -> vol * unk p (nb + i)%nat = po_int P (PMul (vm v (k - 2) i) p).
  Proof.
    intros K2. unfold unk, VEM2_Proofs.unk, unknowns. rewrite (nodes_length gl k v). fold nf nb. cbv zeta. rewrite (proj2 (Nat.ltb_ge (nb + i) nb)) by lia. replace (nb + i - nb)%nat with i by lia.
    unfold cell_mean. pose proof (vol_pos gl k P v F) as VP. fold vol. field. apply Rgt_not_eq, VP.
  Qed.
  Lemma pz_repro pd p : (pd <= k)%nat -> (2 <= k)%nat -> pvars 2 p -> deg_le p pd -> forall x, peval (pz pd (unk p)) x = peval p x.
  Proof.
    intros Hpd K2 Vp Dp. apply pz_eq; [exact Vp|exact Dp|]. intros i Hi. destruct (Nat.lt_ge_cases i (basis_size (k - 2))) as [Hl|Hl].
    - rewrite pz_low by assumption. rewrite unk_moment by exact K2. f_equal. f_equal.
      rewrite <- (vm_nested v pd k i Hpd Hi). rewrite <- (vm_nested v (k - 2) k i ltac:(lia) Hl). reflexivity.
    - rewrite pz_high by (first [exact Hi | exact Hpd | right; exact Hl]). apply (I_ext _ _ HI). intros x. cbn [peval]. rewrite (pt_repro pd p Hpd K2 Vp Dp). reflexivity.
  Qed.
  (** the moments of low degree *)
  Lemma pz_moments pd u w a : (pd <= k)%nat -> (2 <= k)%nat -> (k - 2 <= pd)%nat -> (forall x, peval w x = peval (lincomb lbs a (vm v (k - 2))) x) ->
    po_int P (PMul w (pz pd u)) = vol * sg lbs (fun i => a i * u (nb + i)%nat).
  Proof.
    intros Hpd K2 Hd Ew. assert (L : lbs = basis_size (k - 2)) by (unfold lbs, inner_size; rewrite (proj2 (Nat.eqb_neq k 1)) by lia; reflexivity).
    rewrite (I_ext _ _ HI _ (PMul (lincomb lbs a (vm v (k - 2))) (pz pd u))) by (intros; cbn [peval]; rewrite Ew; reflexivity).
    rewrite (I_mul_lincomb_l _ _ HI), <- sg_scal. apply sg_ext. intros i Hi. rewrite L in Hi. pose proof (size_le (k - 2) pd Hd).
    rewrite <- (vm_nested v (k - 2) pd i Hd Hi). rewrite pz_low by lia. ring.
  Qed.
  (** ** the load *)
  Lemma rhs_form pd f u : sg N (fun i => u i * local_rhs v k pd (projector_zero ldlt v k pd PI) f i) = qsum (vc_quad v (2 * k)) (fun x => f x * peval (pz pd u) x).
  Proof.
    unfold local_rhs. cbv zeta. set (PI0 := projector_zero ldlt v k pd PI).
    assert (A : forall q r, sg N (fun i => u i * fold_left (fun rhs qp => let '(x, w) := qp in fun i => rhs i + sg (basis_size pd) (fun l => PI0 l i * phi (vbasis v pd) x l) * (w * f x)) q r i) =
       sg N (fun i => u i * r i) + qsum q (fun x => f x * peval (pz pd u) x)).
    { induction q as [|[x w] q IH]; intros r; cbn [fold_left qsum]; [ring|]. rewrite IH.
      rewrite (sg_ext N (fun i => u i * (r i + _)) (fun i => u i * r i + (w * f x) * sg (basis_size pd) (fun l => PI0 l i * u i * peval (vm v pd l) x))).
      - rewrite sg_plus, sg_scal. rewrite sg_swap. unfold pz. rewrite peval_lincomb.
        rewrite (sg_ext (basis_size pd) (fun j => sg N (fun i => PI0 j i * u i * peval (vm v pd j) x)) (fun j => mv N PI0 u j * peval (vm v pd j) x)); [change (projector_zero ldlt v k pd PI) with PI0; ring|].
        intros j _. unfold mv. rewrite (Rmult_comm (sg _ _)), <- sg_scal. apply sg_ext. intros. ring.
      - intros i _. rewrite Rmult_plus_distr_l. f_equal. rewrite (sg_ext _ (fun l => PI0 l i * u i * peval (vm v pd l) x) (fun l => u i * (PI0 l i * phi (vbasis v pd) x l))) by (intros; rewrite phi_vm; ring).
        rewrite sg_scal. ring. }
    rewrite A. unfold zeroV. rewrite sg_zero by (intros; ring). ring.
  Qed.
End Fits.
