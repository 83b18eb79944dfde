(** Proofs about the Nitsche terms. *)
From Coq Require Import List Arith Reals Lra Lia Bool.
From Verif Require Import Poly_Spec Poly_Proofs HHO_Spec HHO_Model HHO_Setting HHO_Proofs HHO2_Proofs HHO3_Proofs HHO4_Proofs HHO5_Proofs HHO6_Proofs HHO7_Proofs HHO8_Proofs Stab_Model Stab_Spec Stab_Proofs
  Nit_Model Nit_Spec.
Import ListNotations.
Open Scope R_scope.

Lemma ndiff_flux d f p x : peval (ndiff d f p) x = peval (flux d delta (fa_normal f) p) x.
Proof.
  unfold ndiff, flux. rewrite !peval_psum. apply sg_ext. intros k Hk. unfold pscal. cbn [peval]. f_equal.
  change delta with (tensor_of None). rewrite <- tens_eq by exact Hk. reflexivity.
Qed.
Lemma deg_ndiff d f p k : deg_le p k -> deg_le (ndiff d f p) (k - 1).
Proof. intros D. destruct (deg_flux d delta (fa_normal f) p k D) as (q & Hq & E). exists q. split; [exact Hq|]. intros x. rewrite E, ndiff_flux. reflexivity. Qed.
Lemma bsum2_ext fs bnd us vs g g' : (forall f a b, In f fs -> g f a b = g' f a b) -> bsum2 fs bnd us vs g = bsum2 fs bnd us vs g'.
Proof.
  revert bnd us vs. induction fs as [|f fs IH]; intros [|b bnd] [|[u|] us] [|[v|] vs] H; cbn [bsum2]; try reflexivity.
  rewrite (H f u v (or_introl eq_refl)), (IH bnd us vs); [reflexivity|]. intros; apply H; right; assumption.
Qed.
Lemma sg_add_seg N v r0 n s z : (r0 + n <= N)%nat -> sg N (fun i => z i * add_seg v r0 n s i) = sg N (fun i => z i * v i) + sg n (fun i => z (r0 + i)%nat * s i).
Proof.
  intros H. rewrite <- (sg_rows N r0 n s z H), <- sg_plus. apply sg_ext. intros i _. unfold add_seg. destruct ((r0 <=? i) && (i <? r0 + n))%nat; ring.
Qed.

Section Nit.
  Context (d : nat) (P : polytope) (c : scell) (HC : cell_fits d P c).
  Context (cd fd rd n nb : nat) (rec : mtx) (eta : R).
  Let rb := el_basis (cl_elem c) rd.
  Let cbs := b_size (el_basis (cl_elem c) cd).
  Let Ru (u : nat -> R) := rec_fun c rd n rec u.
  Context (Hfd : (fd <= rd)%nat) (Hrd : (1 <= rd)%nat).

  Lemma Ru_deg u : deg_le (Ru u) rd.
  Proof. apply deg_le_lincomb. intros j Hj. apply (basis_deg _ _ _ (cf_elem _ _ _ HC)). fold rb in Hj |- *. unfold rb in *. lia. Qed.
  Lemma trace_row f fc z i : face_fit f fc -> (i < b_size (el_basis (fc_elem fc) fd))%nat ->
    mv n (mprod (b_size rb - 1) (accumulate (el_quad (fc_elem fc) (2 * rd)) (phi (el_basis (fc_elem fc) fd)) (rdn d None rb (fc_normal fc)) zeroM) rec) z i =
    fa_int f (PMul (b_poly (el_basis (fc_elem fc) fd) i) (ndiff d f (Ru z))).
  Proof.
    intros [[FF [Hn _]] FI] Hi. set (fb := el_basis (fc_elem fc) fd) in *. rewrite mv_mprod.
    set (y := mv n rec z). unfold mv at 1.
    rewrite (sg_ext _ _ (fun j => y j * fa_int f (PMul (b_poly fb i) (ndiff d f (b_poly rb (S j)))))).
    - rewrite <- (I_mul_lincomb_r _ _ FI (b_size rb - 1) y (fun j => ndiff d f (b_poly rb (S j))) (b_poly fb i)). apply (I_ext _ _ FI). intros x. cbn [peval]. f_equal.
      rewrite ndiff_flux. unfold Ru, rec_fun. fold rb. change (fun i0 => sg n (fun j => rec i0 j * z j)) with y. rewrite flux_lincomb, peval_lincomb.
      apply sg_ext. intros j _. rewrite ndiff_flux. reflexivity.
    - intros j Hj. rewrite accumulate_eq. unfold zeroM. rewrite Rplus_0_l, Rmult_comm. f_equal.
      rewrite (qsum_ext _ _ (fun x => peval (b_poly fb i) x * peval (ndiff d f (b_poly rb (S j))) x)).
      + apply (acc_int _ _ FI _ FF). apply (deg_le_mono _ (fd + (rd - 1))); [lia|]. apply deg_le_mul; [apply (basis_deg _ _ _ FF), Hi|].
        apply deg_ndiff. apply (basis_deg _ _ _ (cf_elem _ _ _ HC)). fold rb. lia.
      + intros x. rewrite rdn_eq, ndiff_flux, Hn. reflexivity.
  Qed.
  Definition nit_term (u v : nat -> R) (f : facet) (uF vF : pexp) : R :=
    - fa_int f (PMul vF (ndiff d f (Ru u))) - fa_int f (PMul uF (ndiff d f (Ru v))) + eta / fa_measure f * fa_int f (PMul uF vF).
  Definition nit_rterm (g : pexp) (v : nat -> R) (f : facet) (vF : pexp) : R :=
    - fa_int f (PMul g (ndiff d f (Ru v))) + eta / fa_measure f * fa_int f (PMul g vF).

  Let step (g : pt -> R) := nitsche_face d c (mkDegs cd fd rd) n rec g eta.
  Lemma face_lhs g f fc i lhs rhs u v : face_fit f fc -> (cbs + b_size (el_basis (fc_elem fc) fd) * i + b_size (el_basis (fc_elem fc) fd) <= n)%nat ->
    let fb := el_basis (fc_elem fc) fd in
    let off := (cbs + b_size fb * i)%nat in
    let F := fun z : nat -> R => lincomb (b_size fb) (fun j => z (off + j)%nat) (b_poly fb) in
    bil n (snd (fst (step g (i, lhs, rhs) (fc, (true, fa_measure f))))) v u = bil n lhs v u + nit_term u v f (F u) (F v).
  Proof.
    intros Hf Hn fb off F. pose proof Hf as [[FF _] FI]. unfold step, nitsche_face. cbn [fst snd reconstruction_degree cell_degree face_degree]. cbv zeta.
    fold fb rb. fold fb in Hn. fold cbs off. fold off in Hn.
    set (l := mprod _ _ rec).
    assert (HL : forall z k, (k < b_size fb)%nat -> mv n l z k = fa_int f (PMul (b_poly fb k) (ndiff d f (Ru z)))) by (intros z k Hk; apply (trace_row f fc z k Hf Hk)).
    clearbody l.
    rewrite <- !bil2_bil, !bil2_add_block by lia. unfold nit_term. rewrite !Rplus_assoc. f_equal.
    rewrite (sg_ext (b_size fb) _ (fun k => (-1) * (v (off + k)%nat * fa_int f (PMul (b_poly fb k) (ndiff d f (Ru u)))))) by (intros k Hk; rewrite mv_opp; cbn [Nat.add]; change (fun j => u j) with u; rewrite (HL u k Hk); ring).
    rewrite (sg_ext n _ (fun k => sg (b_size fb) (fun j => v k * (- (l j k * u (off + j)%nat))))) by (intros k Hk; cbn [Nat.add]; unfold mv, mopp, mtrans; rewrite <- sg_scal; apply sg_ext; intros; ring).
    rewrite sg_swap.
    rewrite (sg_ext (b_size fb) (fun i0 => sg n _) (fun k => (-1) * (u (off + k)%nat * fa_int f (PMul (b_poly fb k) (ndiff d f (Ru v)))))).
    2: { intros k Hk. rewrite <- (HL v k Hk). unfold mv. rewrite <- !sg_scal. apply sg_ext. intros. ring. }
    rewrite (sg_ext (b_size fb) (fun i0 => _ * mv _ (mscalm _ _) _ _) (fun k => eta / fa_measure f * (v (off + k)%nat * fa_int f (PMul (b_poly fb k) (F u))))).
    2: { intros k Hk. rewrite mv_mscal. unfold phi at 1 2. rewrite (acc_mv _ _ _ _ _ _ (b_poly fb k)) by reflexivity. rewrite (acc_int _ _ FI _ FF); [unfold F; ring|].
         apply (deg_le_mono _ (fd + fd)); [lia|]. apply deg_le_mul; [apply (basis_deg _ _ _ FF), Hk|apply (fun_deg _ _ _ FF)]. }
    rewrite !sg_scal. rewrite <- !(I_mul_lincomb_l _ _ FI).
    change (lincomb (b_size fb) (fun j => v (off + j)%nat) (b_poly fb)) with (F v). change (lincomb (b_size fb) (fun j => u (off + j)%nat) (b_poly fb)) with (F u).
    rewrite (I_comm _ _ FI (F v) (F u)). ring.
  Qed.
  Lemma face_rhs g f fc i lhs rhs v : face_fit f fc -> (cbs + b_size (el_basis (fc_elem fc) fd) * i + b_size (el_basis (fc_elem fc) fd) <= n)%nat -> deg_le g rd ->
    let fb := el_basis (fc_elem fc) fd in
    let off := (cbs + b_size fb * i)%nat in
    let F := fun z : nat -> R => lincomb (b_size fb) (fun j => z (off + j)%nat) (b_poly fb) in
    sg n (fun k => v k * snd (step (peval g) (i, lhs, rhs) (fc, (true, fa_measure f))) k) = sg n (fun k => v k * rhs k) + nit_rterm g v f (F v).
  Proof.
    intros Hf Hn Dg fb off F. pose proof Hf as [[FF [Nn _]] FI]. unfold step, nitsche_face. cbn [fst snd reconstruction_degree cell_degree face_degree]. cbv zeta.
    fold fb rb. fold fb in Hn. fold cbs off. fold off in Hn.
    set (qps := el_quad (fc_elem fc) (2 * rd)).
    assert (A : forall q r, sg n (fun k => v k * fold_left (fun r qp => let '(x, w) := qp in
                 add_seg r off (b_size fb) (fun i => w * phi fb x i * (eta / fa_measure f) * peval g x)) q r k) =
              sg n (fun k => v k * r k) + eta / fa_measure f * qsum q (fun x => peval g x * peval (F v) x)).
    { induction q as [|[x w] q IH]; intros r; cbn [fold_left qsum]; [ring|]. rewrite IH, sg_add_seg by exact Hn. unfold F. rewrite peval_lincomb.
      rewrite (sg_ext (b_size fb) _ (fun k => (w * (eta / fa_measure f) * peval g x) * (v (off + k)%nat * peval (b_poly fb k) x))) by (intros; unfold phi; ring).
      rewrite sg_scal. ring. }
    assert (B : forall q s k, fold_left (fun s qp => let '(x, w) := qp in fun i0 : nat => s i0 + w * rdn d None rb (fc_normal fc) x i0 * peval g x) q s k =
              s k + qsum q (fun x => peval g x * peval (ndiff d f (b_poly rb (S k))) x)).
    { induction q as [|[x w] q IH]; intros s k; cbn [fold_left qsum]; [ring|]. rewrite IH, rdn_eq, ndiff_flux, Nn. cbn [tensor_of]. ring. }
    rewrite (sg_ext n _ (fun k => v k * fold_left (fun r qp => let '(x, w) := qp in
                 add_seg r off (b_size fb) (fun i => w * phi fb x i * (eta / fa_measure f) * peval g x)) qps rhs k +
              (-1) * (v k * sg (b_size rb - 1) (fun k0 => rec k0 k * fa_int f (PMul g (ndiff d f (b_poly rb (S k0)))))))).
    - rewrite sg_plus, A, sg_scal. unfold nit_rterm. rewrite !Rplus_assoc. f_equal. rewrite Rplus_comm. f_equal.
      + rewrite (sg_ext n _ (fun k => sg (b_size rb - 1) (fun k0 => rec k0 k * v k * fa_int f (PMul g (ndiff d f (b_poly rb (S k0))))))) by (intros; rewrite <- sg_scal; apply sg_ext; intros; ring).
        rewrite sg_swap.
        rewrite (sg_ext (b_size rb - 1) _ (fun k0 => mv n rec v k0 * fa_int f (PMul g (ndiff d f (b_poly rb (S k0)))))) by (intros k0 _; unfold mv; rewrite (Rmult_comm (sg n _)), <- sg_scal; apply sg_ext; intros; ring).
        rewrite <- (I_mul_lincomb_r _ _ FI (b_size rb - 1) (mv n rec v) (fun k0 => ndiff d f (b_poly rb (S k0))) g).
        replace (fa_int f (PMul g (ndiff d f (Ru v)))) with (fa_int f (PMul g (lincomb (b_size rb - 1) (mv n rec v) (fun k0 => ndiff d f (b_poly rb (S k0)))))); [ring|].
        apply (I_ext _ _ FI). intros x. cbn [peval]. f_equal. rewrite ndiff_flux. unfold Ru, rec_fun. fold rb.
        change (fun i0 => sg n (fun j => rec i0 j * v j)) with (mv n rec v). rewrite flux_lincomb, peval_lincomb.
        apply sg_ext. intros j _. rewrite ndiff_flux. reflexivity.
      + f_equal. apply (acc_int _ _ FI _ FF). apply (deg_le_mono _ (rd + fd)); [lia|]. apply deg_le_mul; [exact Dg|apply (fun_deg _ _ _ FF)].
    - intros k _. rewrite Rmult_minus_distr_l. unfold Rminus. f_equal.
      rewrite (sg_ext (b_size rb - 1) _ (fun k0 => rec k0 k * fa_int f (PMul g (ndiff d f (b_poly rb (S k0)))))); [ring|].
      intros j Hj. f_equal. rewrite B. unfold zeroV. rewrite Rplus_0_l. apply (acc_int _ _ FI _ FF). apply (deg_le_mono _ (rd + (rd - 1))); [lia|].
      apply deg_le_mul; [exact Dg|]. apply deg_ndiff, (basis_deg _ _ _ (cf_elem _ _ _ HC)). fold rb. lia.
  Qed.
  Definition bl (fcs : list sface) := bases_l (map (fun fc => (fc, Some fd)) fcs).
  Lemma nit_fold g fs fcs bnd : Forall2 face_fit fs fcs -> Forall2 (fun f m => snd m = fa_measure f) fs bnd ->
    (forall fc, In fc fcs -> b_size (el_basis (fc_elem fc) fd) = nb) -> forall i lhs rhs, (cbs + nb * i + face_dofs (bl fcs) <= n)%nat ->
    let r := fold_left (step (peval g)) (combine fcs bnd) (i, lhs, rhs) in
    (forall u v, bil n (snd (fst r)) v u = bil n lhs v u +
       bsum2 fs (map fst bnd) (face_funs (cbs + nb * i) (bl fcs) u) (face_funs (cbs + nb * i) (bl fcs) v) (nit_term u v)) /\
    (forall v, deg_le g rd -> sg n (fun k => v k * snd r k) = sg n (fun k => v k * rhs k) +
       bsum fs (map fst bnd) (face_funs (cbs + nb * i) (bl fcs) v) (nit_rterm g v)).
  Proof.
    intros H. revert bnd. induction H as [|f fc fs fcs Hf H IH]; intros bnd Hb Hs i lhs rhs Hn; inversion Hb as [|a [b m] fs' bnd' Hm Hb']; subst.
    - cbn. split; intros; unfold bsum; cbn; ring.
    - cbn [snd] in Hm. subst m. unfold bsum in *.
      assert (Sfc : b_size (el_basis (fc_elem fc) fd) = nb) by (apply Hs; left; reflexivity).
      unfold bl in *. cbn [combine map fst snd fold_left bases_l face_funs face_dofs bsum2] in *. fold (bases_l (map (fun fc => (fc, Some fd)) fcs)) in *.
      rewrite Sfc in *.
      assert (O : (cbs + nb * i + nb = cbs + nb * S i)%nat) by lia. rewrite O.
      assert (IH' := fun l r => IH bnd' Hb' (fun fc' Hin => Hs fc' (or_intror Hin)) (S i) l r ltac:(lia)). cbv zeta in IH'. clear IH.
      assert (Hl := fun u v => face_lhs (peval g) f fc i lhs rhs u v Hf). assert (Hr := fun v => face_rhs g f fc i lhs rhs v Hf).
      cbv zeta in Hl, Hr. rewrite Sfc in Hl, Hr.
      destruct b.
      + destruct (step (peval g) (i, lhs, rhs) (fc, (true, fa_measure f))) as [[j lhs'] rhs'] eqn:Es.
        assert (j = S i) by (unfold step, nitsche_face in Es; cbv zeta in Es; injection Es as <- _ _; reflexivity). subst j.
        destruct (IH' lhs' rhs') as (I1 & I2). cbn [fst snd] in Hl, Hr. split.
        * intros u v. rewrite I1, Hl by lia. ring.
        * intros v Dg. rewrite I2, Hr by (assumption || lia). ring.
      + change (step (peval g) (i, lhs, rhs) (fc, (false, fa_measure f))) with (S i, lhs, rhs).
        destruct (IH' lhs rhs) as (I1 & I2). split.
        * intros u v. rewrite I1. ring.
        * intros v Dg. rewrite I2 by assumption. ring.
  Qed.
End Nit.

(** * interpolates of polynomials *)
Section Cons.
  Context (d : nat) (P : polytope) (c : scell) (HC : cell_fits d P c).
  Context (ldlt : nat -> mtx -> (nat -> R) -> nat -> R) (HS : solves_spd ldlt).
  Context (rd cd fd : nat) (Hrd : (1 <= rd)%nat) (Hcd : (cd <= rd)%nat) (Hfd : (fd <= rd)%nat).
  Context (proj : bool) (Hproj : (proj = true -> fd <= rd /\ rd <= fd + 1)%nat).
  Let fdi := all_faces c fd.
  Let N := num_dofs c cd fdi.
  Let oper := fst (make_scalar_hho_laplacian ldlt d None proj c (mkDegs cd fd rd)).
  Context (p : pexp) (di : nat) (Hv : pvars d p) (Hp : deg_le p rd).
  Let Ip := project_hho ldlt c (mkDegs cd fd rd) (peval p) di.
  Context (H2 : (rd <= cd + 2)%nat) (Hf1 : (rd <= fd + 1)%nat) (Hci : (rd <= cd + 2 * di)%nat) (Hfi : (rd <= fd + 2 * di)%nat).
  Lemma h_grad k x : (k < d)%nat -> po_on P x -> peval (pdiff k (psubp (rec_fun c rd N oper Ip) p)) x = 0.
  Proof.
    unfold Ip. rewrite (Ip_cdi c ldlt rd cd fd p di). unfold oper. rewrite hdi_prog. cbn [fst].
    apply (core_consistent d P c HC None (spd_delta d) ltac:(exact ldlt) ltac:(exact HS) rd cd fdi (lap_lhs d None c rd (el_basis (cl_elem c) rd)) (hdi_rhs d c None ldlt rd cd proj fd)); try assumption.
    - intros y i Hi. apply (lhs_mv d P c HC None rd y i Hi).
    - apply (lhs_spd d P c HC None (spd_delta d) rd).
    - intros z i Hi. apply (hdi_row d P c HC None ldlt HS rd cd Hrd Hcd proj fd Hproj z i Hi).
    - intros k' Hin. unfold fdi, all_faces in Hin. apply in_map_iff in Hin as (? & E & _). injection E as <-. lia.
    - unfold fdi, all_faces. intros Hin. apply in_map_iff in Hin as (? & E & _). discriminate.
    - unfold fdi, all_faces. apply map_length.
  Qed.
  Lemma ndiff_interp f x : In f (po_facets P) -> fa_on f x -> peval (ndiff d f (rec_fun c rd N oper Ip)) x = peval (ndiff d f p) x.
  Proof.
    intros Hf Hx. unfold ndiff. rewrite !peval_psum. apply sg_ext. intros k Hk. unfold pscal. cbn [peval]. f_equal.
    pose proof (h_grad k x Hk (proj2 (poly_facets _ _ (cf_poly _ _ _ HC) f Hf) x Hx)) as Q. unfold psubp, pscal in Q. cbn [pdiff peval] in Q. lra.
  Qed.
  Lemma nit_diff eta v bnd fs fcs : Forall2 face_fit fs fcs -> (forall f, In f fs -> In f (po_facets P)) -> length bnd = length fs -> forall off,
    on_facets fs (face_funs off (bl fd fcs) Ip) (fun f u => forall w, deg_le w fd -> fa_int f (PMul w (psubp p u)) = 0) ->
    bsum2 fs bnd (face_funs off (bl fd fcs) Ip) (face_funs off (bl fd fcs) v) (nit_term d c rd N oper eta Ip v) -
    bsum fs bnd (face_funs off (bl fd fcs) v) (nit_rterm d c rd N oper eta p v) =
    - bsum fs bnd (face_funs off (bl fd fcs) v) (fun f vF => fa_int f (PMul vF (ndiff d f p))).
  Proof.
    intros H. revert bnd. unfold bsum. induction H as [|f fc fs fcs Hf H IH]; intros [|b bnd] Hin L off T; try discriminate.
    - cbn. ring.
    - pose proof Hf as [[FF _] FI]. unfold bl in *. cbn [map bases_l fst snd face_funs on_facets bsum2] in *. fold (bases_l (map (fun fc => (fc, Some fd)) fcs)) in *. destruct T as (T1 & T2).
      specialize (IH bnd (fun f' Hf' => Hin f' (or_intror Hf')) ltac:(cbn in L; lia) _ T2).
      set (b0 := el_basis (fc_elem fc) fd) in *.
      set (uF := lincomb (b_size b0) (fun j => Ip (off + j)%nat) (b_poly b0)) in *. set (vF := lincomb (b_size b0) (fun j => v (off + j)%nat) (b_poly b0)) in *.
      assert (Dv : deg_le vF fd) by apply (fun_deg _ _ _ FF).
      assert (DR : deg_le (ndiff d f (rec_fun c rd N oper v)) fd).
      { apply (deg_le_mono _ (rd - 1)); [lia|]. apply deg_ndiff. eapply Ru_deg; eassumption. }
      pose proof (T1 _ Dv) as E1. pose proof (T1 _ DR) as E2. rewrite (I_mul_sub_r _ _ FI) in E1, E2.
      assert (E3 : fa_int f (PMul vF (ndiff d f (rec_fun c rd N oper Ip))) = fa_int f (PMul vF (ndiff d f p))).
      { apply (int_ext _ _ FI). intros x Hx. cbn [peval]. rewrite (ndiff_interp f x (Hin f (or_introl eq_refl)) Hx). reflexivity. }
      destruct b; [|unfold Rminus in *; lra].
      unfold nit_term at 1, nit_rterm at 1. rewrite E3. rewrite (I_comm _ _ FI uF), (I_comm _ _ FI p), (I_comm _ _ FI uF vF), (I_comm _ _ FI p vF).
      replace (fa_int f (PMul vF uF)) with (fa_int f (PMul vF p)) by lra.
      replace (fa_int f (PMul (ndiff d f (rec_fun c rd N oper v)) uF)) with (fa_int f (PMul (ndiff d f (rec_fun c rd N oper v)) p)) by lra.
      lra.
  Qed.
  Lemma interp_T : on_facets (po_facets P) (faces_funs c cd fdi Ip) (fun f u => forall w, deg_le w fd -> fa_int f (PMul w (psubp p u)) = 0).
  Proof.
    apply (interp_test ldlt HS p di fd _ _ (faces_fit d P c HC)); [apply (deg_le_mono _ rd); [lia|exact Hp]|]. unfold Ip. rewrite (Ip_cdi c ldlt rd cd fd p di). apply project_faces.
  Qed.
End Cons.
(** the faces split into those of the boundary and the others *)
Lemma bsum_split fs bnd us g : length bnd = length fs -> length us = length fs -> ~ In None us -> fsum2 fs us g = bsum fs bnd us g + bsum fs (map negb bnd) us g.
Proof.
  unfold bsum. revert bnd us. induction fs as [|f fs IH]; intros [|b bnd] [|[u|] us] L1 L2 H; try discriminate; cbn [fsum2 map bsum2].
  - ring.
  - rewrite (IH bnd us) by (try (cbn in L1, L2; lia); intros Hin; apply H; right; exact Hin). destruct b; cbn [negb]; ring.
  - exfalso. apply H. left. reflexivity.
Qed.
Lemma face_funs_some fd fcs u : forall off, length (face_funs off (bl fd fcs) u) = length fcs /\ ~ In None (face_funs off (bl fd fcs) u).
Proof.
  unfold bl. induction fcs as [|fc fcs IH]; intros off; cbn; [tauto|]. destruct (IH (off + b_size (el_basis (fc_elem fc) fd))%nat) as (L & H).
  split; [f_equal; exact L|]. intros [E|Hin]; [discriminate|]. exact (H Hin).
Qed.
Lemma F2_len {A B} (R : A -> B -> Prop) l l' : Forall2 R l l' -> length l = length l'.
Proof. intros H. induction H; cbn; [reflexivity|f_equal; assumption]. Qed.

(** * the penalisation needed *)
Lemma I_mono on I (HI : integral on I) p q : (forall x, on x -> peval p x <= peval q x) -> I p <= I q.
Proof.
  intros H. assert (0 <= I (psubp q p)) as Q.
  { apply (int_pos _ _ HI). intros x Hx. specialize (H x Hx). unfold psubp, pscal. cbn [peval]. lra. }
  unfold psubp in Q. rewrite (int_add _ _ HI), (int_scal _ _ HI) in Q. lra.
Qed.
Lemma sg_mono n f g : (forall i, (i < n)%nat -> f i <= g i) -> sg n f <= sg n g.
Proof. intros H. induction n; cbn [sg]; [lra|]. pose proof (H n ltac:(lia)). assert (sg n f <= sg n g) by (apply IHn; intros; apply H; lia). lra. Qed.
Lemma sg_square n a : sg n a * sg n a <= INR n * sg n (fun i => a i * a i).
Proof.
  induction n; [cbn; lra|]. rewrite S_INR. cbn [sg]. set (s := sg n a) in *. set (q := sg n (fun i => a i * a i)) in *. set (b := a n).
  assert (0 <= q) by (apply sg_le; intros; nra).
  assert (M : 2 * (s * b) <= q + INR n * (b * b)).
  { destruct n as [|n']; [unfold s, q; cbn; lra|]. pose proof (lt_0_INR (S n') ltac:(lia)) as Hn. set (N := INR (S n')) in *.
    assert (0 <= (s - N * b) * (s - N * b)) by (apply Rle_0_sqr). assert (N * (2 * (s * b)) <= N * (q + N * (b * b))) by nra. apply (Rmult_le_reg_l N); [exact Hn|exact H1]. }
  nra.
Qed.
Lemma fsum_mono fs f g : (forall x, In x fs -> f x <= g x) -> fsum fs f <= fsum fs g.
Proof. induction fs as [|x fs IH]; intros H; cbn [fsum]; [lra|]. pose proof (H x (or_introl eq_refl)). assert (fsum fs f <= fsum fs g) by (apply IH; intros; apply H; right; assumption). lra. Qed.
Lemma fsum_scal fs k f : fsum fs (fun x => k * f x) = k * fsum fs f.
Proof. induction fs as [|x fs IH]; cbn [fsum]; [ring|]. rewrite IH. ring. Qed.
Section Trace.
  Context (d : nat) (P : polytope) (c : scell) (HC : cell_fits d P c).
  Let HP := cf_poly _ _ _ HC.
  Context (ldlt : nat -> mtx -> (nat -> R) -> nat -> R) (HS : solves_spd ldlt) (rd : nat).
  Let rb := el_basis (cl_elem c) rd.
  Let m := (b_size rb - 1)%nat.
  Let E := en d P delta.
  Lemma coeff_bound i : (i < m)%nat -> exists k, 0 < k /\ forall x, x i * x i <= k * E (tailf c rd x) (tailf c rd x).
  Proof.
    intros Hi. set (A := lap_lhs d None c rd rb).
    pose proof (lhs_spd d P c HC None (spd_delta d) rd) as SP. fold rb m A in SP.
    set (y := ldlt m A (fun k => if Nat.eqb k i then 1 else 0)).
    assert (Y : forall k, (k < m)%nat -> E (tailf c rd y) (b_poly rb (S k)) = if Nat.eqb k i then 1 else 0).
    { intros k Hk. pose proof (lhs_mv d P c HC None rd y k Hk) as Q. fold rb A in Q. cbn [tensor_of] in Q. unfold E. rewrite <- Q. exact (HS m A (fun k => if Nat.eqb k i then 1 else 0) SP k Hk). }
    assert (EX : forall x, E (tailf c rd y) (tailf c rd x) = x i).
    { intros x. unfold tailf at 2. fold rb m. unfold E. rewrite (en_lincomb_r d P HP delta). change (en d P delta) with E.
      rewrite (sg_ext m _ (fun j => delta i j * x j)); [apply (sg_delta m i x Hi)|]. intros j Hj. rewrite (Y j Hj). unfold delta. rewrite Nat.eqb_sym. ring. }
    pose proof (en_pos d P HP delta (spd_delta d) (tailf c rd y)) as Py. change (en d P delta) with E in Py. rewrite EX in Py.
    exists (1 + y i). split; [lra|]. intros x.
    set (t := x i / (1 + y i)).
    pose proof (en_pos d P HP delta (spd_delta d) (psubp (tailf c rd x) (pscal t (tailf c rd y)))) as Q.
    rewrite (en_sub_l d P HP), !(en_sub_r d P HP), !(en_scal_r d P HP), !(en_scal_l d P HP) in Q.
    rewrite (en_sym d P HP delta (spd_delta d) (tailf c rd x) (tailf c rd y)) in Q. change (en d P delta) with E in Q. rewrite !EX in Q.
    set (e := E (tailf c rd x) (tailf c rd x)) in *.
    assert (T : t * (1 + y i) = x i) by (unfold t; field; lra).
    assert (X : x i * x i = (1 + y i) * (t * x i)) by (rewrite <- T at 1; ring). rewrite X.
    assert (t * x i <= e); [|nra].
    assert (t * x i = t * t * (1 + y i)) by (rewrite <- T; ring). nra.
  Qed.
  Lemma coeffs_bound n : (n <= m)%nat -> exists k : nat -> R, (forall i, 0 < k i) /\ forall x i, (i < n)%nat -> x i * x i <= k i * E (tailf c rd x) (tailf c rd x).
  Proof.
    induction n as [|n IH]; intros Hn; [exists (fun _ => 1); split; [intros; lra|intros; lia]|].
    destruct (IH ltac:(lia)) as (k & K0 & K). destruct (coeff_bound n ltac:(lia)) as (q & Q0 & Q).
    exists (fun i => if Nat.eqb i n then q else k i). split; [intros i; destruct (Nat.eqb i n); [exact Q0|apply K0]|]. intros x i Hi.
    destruct (Nat.eqb_spec i n) as [->|Ne]; [apply Q|apply K; lia].
  Qed.
  Lemma trace_bound : exists C, 0 < C /\ forall x,
    fsum (po_facets P) (fun f => fa_int f (PMul (ndiff d f (tailf c rd x)) (ndiff d f (tailf c rd x)))) <= C * E (tailf c rd x) (tailf c rd x).
  Proof.
    destruct (coeffs_bound m (Nat.le_refl m)) as (k & K0 & K).
    set (T := fun f i => fa_int f (PMul (ndiff d f (b_poly rb (S i))) (ndiff d f (b_poly rb (S i))))).
    assert (T0 : forall f i, In f (po_facets P) -> 0 <= T f i).
    { intros f i Hf. apply (int_pos _ _ (proj1 (poly_facets _ _ HP f Hf))). intros x _. cbn [peval]. apply Rle_0_sqr. }
    set (C := fsum (po_facets P) (fun f => INR m * sg m (fun i => k i * T f i))).
    assert (C0 : 0 <= C).
    { unfold C. assert (Z : forall l, fsum l (fun _ => 0) = 0) by (induction l as [|? ? IH]; cbn [fsum]; [reflexivity|rewrite IH; lra]). rewrite <- (Z (po_facets P)).
      apply fsum_mono. intros f Hf. apply Rmult_le_pos; [apply pos_INR|]. apply sg_le. intros i _. pose proof (K0 i). pose proof (T0 f i Hf). nra. }
    exists (C + 1). split; [lra|]. intros x. pose proof (en_pos d P HP delta (spd_delta d) (tailf c rd x)) as E0. change (en d P delta) with E in E0.
    set (e := E (tailf c rd x) (tailf c rd x)) in *. apply (Rle_trans _ (C * e)); [|nra].
    unfold C. rewrite Rmult_comm, <- fsum_scal. apply fsum_mono. intros f Hf. pose proof (proj1 (poly_facets _ _ HP f Hf)) as FI.
    assert (N : forall z, peval (ndiff d f (tailf c rd x)) z = sg m (fun j => x j * peval (ndiff d f (b_poly rb (S j))) z)).
    { intros z. rewrite ndiff_flux. unfold tailf. fold rb m. rewrite flux_lincomb. apply sg_ext. intros j _. rewrite ndiff_flux. reflexivity. }
    apply (Rle_trans _ (fa_int f (lincomb m (fun i => INR m * (x i * x i)) (fun i => PMul (ndiff d f (b_poly rb (S i))) (ndiff d f (b_poly rb (S i))))))).
    - apply (I_mono _ _ FI). intros z _. cbn [peval]. rewrite N, peval_lincomb.
      eapply Rle_trans; [apply sg_square|]. rewrite <- sg_scal. apply Req_le. apply sg_ext. intros j _. cbn [peval]. ring.
    - rewrite (I_lincomb _ _ FI). rewrite <- !sg_scal. apply sg_mono. intros i Hi. fold (T f i).
      pose proof (K x i Hi) as Q. fold e in Q. pose proof (T0 f i Hf). pose proof (pos_INR m).
      replace (e * (INR m * (k i * T f i))) with (INR m * T f i * (k i * e)) by ring.
      replace (INR m * (x i * x i) * T f i) with (INR m * T f i * (x i * x i)) by ring.
      apply Rmult_le_compat_l; [|exact Q]. apply Rmult_le_pos; assumption.
  Qed.
End Trace.
