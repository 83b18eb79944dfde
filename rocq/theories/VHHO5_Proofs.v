(** Symmetric gradient reconstruction of interpolates, kernel; operators repeated on each component. *)
From Coq Require Import List Arith Reals Lra Lia Bool.
From Verif Require Import Poly_Spec Poly_Proofs HHO_Spec VHHO_Spec HHO_Model VHHO_Model HHO_Setting VHHO_Setting HHO_Proofs HHO2_Proofs HHO3_Proofs HHO4_Proofs HHO6_Proofs HHO7_Proofs HHO8_Proofs HHO9_Proofs VHHO_Proofs VHHO2_Proofs VHHO3_Proofs VHHO4_Proofs.
Import ListNotations.
Open Scope R_scope.

Lemma vdot_sub_l on I (HI : integral on I) m U V W : I (vdot m (vsub U V) W) = I (vdot m U W) - I (vdot m V W).
Proof.
  assert (E : I (vdot m (vsub U V) W) + I (vdot m V W) = I (vdot m U W)); [|lra]. rewrite <- (int_add _ _ HI). apply (I_ext _ _ HI). intros x. cbn [peval].
  rewrite !peval_vdot, <- sg_plus. apply sg_ext. intros. unfold vsub, psubp, pscal. cbn [peval]. ring.
Qed.
Lemma vfsum2_split m UT (W : facet -> tf) d u fs fcs : Forall2 face_fit fs fcs -> forall fdi off, length fdi = length fcs ->
  let us := vface_funs off (vbases_l d (combine fcs fdi)) u in
  vfsum2 fs us (fun f uF => fa_int f (vdot m (vsub uF UT) (W f))) =
  vfsum2 fs us (fun f uF => fa_int f (vdot m uF (W f))) - fsum fs (fun f => fa_int f (vdot m UT (W f))) + fmiss fs fdi (fun f => fa_int f (vdot m UT (W f))).
Proof.
  intros H. induction H as [|f fc fs fcs [[FF _] FI] H IH]; intros [|[k|] fdi] off L; try discriminate; cbn [combine vbases_l map fst snd vface_funs vfsum2 fsum fmiss]; [lra| |].
  - specialize (IH fdi (off + v_size (vec_basis d (el_basis (fc_elem fc) k)))%nat ltac:(simpl in L; lia)). unfold vbases_l in IH. cbv zeta in IH. rewrite IH, (vdot_sub_l _ _ FI). lra.
  - specialize (IH fdi off ltac:(simpl in L; lia)). unfold vbases_l in IH. cbv zeta in IH. rewrite IH. lra.
Qed.
Lemma vfsum2_zero fs us g : von_facets fs us (fun f u => g f u = 0) -> vfsum2 fs us g = 0.
Proof.
  revert us. induction fs as [|f fs IH]; intros [|[u|] us]; cbn [von_facets vfsum2]; try reflexivity.
  - intros (A & B). rewrite A, (IH _ B). lra.
  - apply IH.
Qed.
Lemma von_facets_impl fs us (Q Q' : facet -> tf -> Prop) : (forall f u, In f fs -> Q f u -> Q' f u) -> von_facets fs us Q -> von_facets fs us Q'.
Proof.
  revert us. induction fs as [|f fs IH]; intros [|[u|] us] H; cbn [von_facets]; try tauto.
  - intros (A & B). split; [apply (H f u (or_introl eq_refl) A)|]. apply IH; [intros f' u' Hin; apply H; right; assumption|exact B].
  - apply IH. intros f' u' Hin; apply H; right; assumption.
Qed.

Section SymInterp.
  Context (d : nat) (Hd : dim23 d) (P : polytope) (c : scell) (HC : cell_fits d P c).
  Let HP := cf_poly _ _ _ HC.
  Let HI := poly_int _ _ HP.
  Context (ldlt : nat -> mtx -> (nat -> R) -> nat -> R) (HS : solves_spd ldlt) (cd gd : nat) (fdi : list (option nat)).
  Let dd := (d * d)%nat.
  Notation EE := (E d c ldlt cd gd fdi).
  Notation form := (eform d P c cd fdi).
  (** without derivatives of the unknowns *)
  Lemma eform_green u t : msymmetric d t -> length fdi = length (cl_faces c) -> ~ In None fdi ->
    form u t = - po_int P (vdot d (vcell_fun d c cd u) (mdiv d t)) + vfsum2 (po_facets P) (vfaces_funs d c cd fdi u) (fun f uF => fa_int f (vdot d uF (mnrm d (fa_normal f) t))).
  Proof.
    intros Ht L Hn. unfold eform. fold dd.
    rewrite (I_ext _ _ HI (vdot dd t (msymp d _)) (vdot dd t (mgrad d (vcell_fun d c cd u)))) by (intros x; apply dot_sym, Ht).
    unfold dd. rewrite (green_mat d P HP). unfold vfaces_funs. change (vbases_of d c fdi) with (vbases_l d (combine (cl_faces c) fdi)).
    rewrite (vfsum2_split d (vcell_fun d c cd u) (fun f => mnrm d (fa_normal f) t) d u _ _ (faces_fit d P c HC) fdi _ L). rewrite fmiss_none by exact Hn. lra.
  Qed.
  Lemma dim_pos : (0 < d)%nat.
  Proof. destruct Hd as [E|E]; rewrite E; lia. Qed.
  Lemma e_interp V di t : length fdi = length (cl_faces c) -> ~ In None fdi -> vdeg d V (cd + 2 * di) -> (gd <= cd + 1)%nat ->
    (forall k, In (Some k) fdi -> vdeg d V (k + 2 * di) /\ (gd <= k)%nat) -> vdeg dd t gd -> msymmetric d t ->
    form (vproject_cdi ldlt d c cd fdi (fun x a => peval (V a) x) di) t = po_int P (vdot dd t (msymp d (mgrad d V))).
  Proof.
    intros L Hn Dp Hg Hk Ht Hs. destruct (vproject_l2 d dim_pos ldlt HS V di P c HC cd fdi L Dp) as (Pc & Pf); [intros k Hin; apply Hk, Hin|].
    set (u := vproject_cdi ldlt d c cd fdi (fun x a => peval (V a) x) di) in *.
    rewrite eform_green by assumption.
    rewrite (vfsum2_projs d (fun f => mnrm d (fa_normal f) t) V gd _ _ _ (fun f Hf => facet_int d P c HC f Hf) Pf).
    - rewrite fmiss_none by exact Hn.
      rewrite (I_ext _ _ HI (vdot dd t (msymp d (mgrad d V))) (vdot dd t (mgrad d V))) by (intros x; apply dot_sym, Hs). unfold dd. rewrite (green_mat d P HP).
      rewrite (vdot_comm _ _ HI d (vcell_fun d c cd u)), (proj2 Pc), (vdot_comm _ _ HI d V); [lra|].
      intros a Ha. apply (deg_le_mono _ (gd - 1)); [lia|]. apply (deg_mdiv d t gd Ht a Ha).
    - intros k Hin. apply Hk, Hin.
    - intros f _. apply deg_mnrm, Ht.
  Qed.
  Lemma e_commutes V di : length fdi = length (cl_faces c) -> ~ In None fdi -> vdeg d V (cd + 2 * di) -> (gd <= cd + 1)%nat ->
    (forall k, In (Some k) fdi -> vdeg d V (k + 2 * di) /\ (gd <= k)%nat) ->
    l2sym (po_int P) d gd (msymp d (mgrad d V)) (EE (vproject_cdi ldlt d c cd fdi (fun x a => peval (V a) x) di)).
  Proof.
    intros L Hn Dp Hg Hk. split; [apply (e_deg d Hd P c HC)|]. split; [apply (e_sym d Hd)|]. intros w Hw Hs.
    rewrite (e_eq d Hd P c HC ldlt HS cd gd fdi _ w Hw Hs). apply e_interp; assumption.
  Qed.
  (** kernel *)
  Lemma e_kernel u : (cd <= gd + 1)%nat -> quadf (vnum_dofs d c cd fdi) (snd (symmetric_gradrec ldlt d c cd gd fdi)) u u = 0 ->
    von_facets (po_facets P) (vfaces_funs d c cd fdi u) (fun f uF => forall a x, (a < d)%nat -> fa_on f x -> peval (uF a) x = peval (vcell_fun d c cd u a) x) ->
    forall e x, (e < dd)%nat -> po_on P x -> peval (msymp d (mgrad d (vcell_fun d c cd u)) e) x = 0.
  Proof.
    intros Hcd Z J. rewrite (e_data d Hd P c HC ldlt HS cd gd fdi) in Z. apply (vdot_sq_def _ _ HI).
    set (t := msymp d (mgrad d (vcell_fun d c cd u))).
    assert (Dt : vdeg dd t gd) by (intros e He; apply (deg_le_mono _ (cd - 1)); [lia|]; apply deg_symgrad; [apply (vcell_deg d P c HC cd)|exact He]).
    pose proof (e_eq d Hd P c HC ldlt HS cd gd fdi u t Dt (symgrad_symmetric d _)) as Q. unfold eform in Q. fold t in Q.
    rewrite vfsum2_zero in Q.
    - fold dd in Q. rewrite Rplus_0_r in Q. rewrite <- Q. apply (I_zero _ _ HI). intros x Hx. rewrite peval_vdot. apply sg_zero. intros e He.
      rewrite (vdot_sq_def _ _ HI _ _ Z e x He Hx). ring.
    - apply (von_facets_impl _ _ (fun f uF => forall a x, (a < d)%nat -> fa_on f x -> peval (uF a) x = peval (vcell_fun d c cd u a) x)); [|exact J].
      intros f uF Hf H. apply (I_zero _ _ (facet_int d P c HC f Hf)). intros x Hx. rewrite peval_vdot. apply sg_zero. intros a Ha. unfold vsub, psubp, pscal. cbn [peval].
      rewrite (H a x Ha Hx). ring.
  Qed.
End SymInterp.

(** * the same operator on each component *)
Lemma put_row d A i j M r s : (0 < d)%nat -> fold_left (fun M k => put_entry M (i * d + k) (j * d + k) (A i j)) (seq 0 d) M r s =
  if ((r / d =? i) && (s / d =? j) && (r mod d =? s mod d))%nat then A i j else M r s.
Proof.
  intros Hd.
  assert (G : forall n k0 M, (k0 + n <= d)%nat -> fold_left (fun M k => put_entry M (i * d + k) (j * d + k) (A i j)) (seq k0 n) M r s =
    if ((r / d =? i) && (s / d =? j) && (r mod d =? s mod d) && (k0 <=? r mod d) && (r mod d <? k0 + n))%nat then A i j else M r s).
  { induction n as [|n IH]; intros k0 M0 Hk; cbn [seq fold_left].
    - destruct (_ && _) eqn:E; [|reflexivity]. rewrite !andb_true_iff, Nat.leb_le, Nat.ltb_lt in E. lia.
    - rewrite IH by lia. unfold put_entry at 1.
      assert (D1 : (r = i * d + k0 <-> r / d = i /\ r mod d = k0)%nat).
      { split; [intros ->; rewrite (Nat.mul_comm i), idx_div, idx_mod by lia; auto|]. intros (<- & <-). rewrite (Nat.div_mod r d) at 1 by lia. lia. }
      assert (D2 : (s = j * d + k0 <-> s / d = j /\ s mod d = k0)%nat).
      { split; [intros ->; rewrite (Nat.mul_comm j), idx_div, idx_mod by lia; auto|]. intros (<- & <-). rewrite (Nat.div_mod s d) at 1 by lia. lia. }
      destruct (Nat.eqb_spec (r / d) i), (Nat.eqb_spec (s / d) j), (Nat.eqb_spec (r mod d) (s mod d)), (Nat.leb_spec (S k0) (r mod d)), (Nat.ltb_spec (r mod d) (S k0 + n)),
        (Nat.leb_spec k0 (r mod d)), (Nat.ltb_spec (r mod d) (k0 + S n)), (Nat.eqb_spec r (i * d + k0)), (Nat.eqb_spec s (j * d + k0)); cbn [andb]; try reflexivity; exfalso; lia. }
  rewrite (G d 0%nat) by lia. assert (Hm : (r mod d < d)%nat) by (apply Nat.mod_upper_bound; lia).
  cbn [Nat.leb Nat.add]. rewrite (proj2 (Nat.ltb_lt _ _) Hm), !andb_true_r. reflexivity.
Qed.
Lemma replicate_entry d rows cols A r s : (0 < d)%nat ->
  replicate_blocks d rows cols A r s = if ((r <? d * rows) && (s <? d * cols) && (r mod d =? s mod d))%nat then A (r / d)%nat (s / d)%nat else 0.
Proof.
  intros Hd.
  assert (C : forall i n j0 M, fold_left (fun M j => fold_left (fun M k => put_entry M (i * d + k) (j * d + k) (A i j)) (seq 0 d) M) (seq j0 n) M r s =
    if ((r / d =? i) && (j0 <=? s / d) && (s / d <? j0 + n) && (r mod d =? s mod d))%nat then A i (s / d)%nat else M r s).
  { intros i n. induction n as [|n IH]; intros j0 M; cbn [seq fold_left].
    - destruct (_ && _) eqn:E; [|reflexivity]. rewrite !andb_true_iff, Nat.leb_le, Nat.ltb_lt in E. lia.
    - rewrite IH, put_row by exact Hd.
      destruct (Nat.eqb_spec (r / d) i), (Nat.leb_spec (S j0) (s / d)), (Nat.ltb_spec (s / d) (S j0 + n)), (Nat.eqb_spec (r mod d) (s mod d)), (Nat.eqb_spec (s / d) j0), (Nat.leb_spec j0 (s / d)), (Nat.ltb_spec (s / d) (j0 + S n));
        cbn [andb]; try reflexivity; try (exfalso; lia). subst j0. reflexivity. }
  assert (Rr : forall n i0 M, fold_left (fun M i => fold_left (fun M j => fold_left (fun M k => put_entry M (i * d + k) (j * d + k) (A i j)) (seq 0 d) M) (seq 0 cols) M) (seq i0 n) M r s =
    if ((i0 <=? r / d) && (r / d <? i0 + n) && (s / d <? cols) && (r mod d =? s mod d))%nat then A (r / d)%nat (s / d)%nat else M r s).
  { induction n as [|n IH]; intros i0 M; cbn [seq fold_left].
    - destruct (_ && _) eqn:E; [|reflexivity]. rewrite !andb_true_iff, Nat.leb_le, !Nat.ltb_lt in E. lia.
    - rewrite IH, C.
      destruct (Nat.eqb_spec (r / d) i0), (Nat.leb_spec (S i0) (r / d)), (Nat.ltb_spec (r / d) (S i0 + n)), (Nat.eqb_spec (r mod d) (s mod d)), (Nat.leb_spec i0 (r / d)), (Nat.ltb_spec (r / d) (i0 + S n)), (Nat.ltb_spec (s / d) cols), (Nat.ltb_spec (s / d) (0 + cols)), (Nat.leb_spec 0 (s / d));
        cbn [andb]; try reflexivity; try (exfalso; lia). subst i0. reflexivity. }
  unfold replicate_blocks. rewrite Rr. unfold zeroM.
  assert (D1 : (r / d < rows <-> r < d * rows)%nat). { split; intros H; [|apply Nat.div_lt_upper_bound; lia]. rewrite (Nat.div_mod r d) by lia. assert (r mod d < d)%nat by (apply Nat.mod_upper_bound; lia). nia. }
  assert (D2 : (s / d < cols <-> s < d * cols)%nat). { split; intros H; [|apply Nat.div_lt_upper_bound; lia]. rewrite (Nat.div_mod s d) by lia. assert (s mod d < d)%nat by (apply Nat.mod_upper_bound; lia). nia. }
  destruct (Nat.leb_spec 0 (r / d)), (Nat.ltb_spec (r / d) (0 + rows)), (Nat.ltb_spec (s / d) cols), (Nat.ltb_spec r (d * rows)), (Nat.ltb_spec s (d * cols)); cbn [andb]; try reflexivity; exfalso; lia.
Qed.
Lemma replicate_mv d rows cols A u i a : (a < d)%nat -> (i < rows)%nat -> mv (d * cols) (replicate_blocks d rows cols A) u (d * i + a) = mv cols A (comp d a u) i.
Proof.
  intros Ha Hi. unfold mv. rewrite sg_blocks. apply sg_ext. intros j Hj. unfold comp.
  rewrite (sg_ext d _ (fun b => if (a =? b)%nat then A i j * u (d * j + b)%nat else 0)); [apply sg_pick0, Ha|].
  intros b Hb. rewrite replicate_entry by lia. rewrite !idx_mod, !idx_div by assumption.
  rewrite (proj2 (Nat.ltb_lt (d * i + a) (d * rows))) by nia. rewrite (proj2 (Nat.ltb_lt (d * j + b) (d * cols))) by nia. cbn [andb]. destruct (a =? b)%nat; ring.
Qed.
Lemma replicate_quad d N A u v : (0 < d)%nat -> quadf (d * N) (replicate_blocks d N N A) u v = sg d (fun a => quadf N A (comp d a u) (comp d a v)).
Proof.
  intros Hd. unfold quadf. rewrite sg_blocks2. apply sg_ext. intros a Ha. apply sg_ext. intros i Hi. f_equal. apply (replicate_mv d N N A v i a Ha Hi).
Qed.
(** the functions of vector unknowns, component by component *)
Lemma vcell_comp d c cd u a x : (a < d)%nat -> peval (vcell_fun d c cd u a) x = peval (cell_fun c cd (comp d a u)) x.
Proof. intros Ha. unfold vcell_fun, cell_fun. cbn [vec_basis v_size v_comp]. apply (vec_comp d (el_basis (cl_elem c) cd)), Ha. Qed.
Lemma vnum_comp d c cd fdi : vnum_dofs d c cd fdi = (d * num_dofs c cd fdi)%nat.
Proof.
  unfold vnum_dofs, num_dofs. rewrite Nat.mul_add_distr_l. f_equal. unfold vbases_of, bases_of. induction (combine (cl_faces c) fdi) as [|[fc [fd|]] l IH]; cbn [map fst snd vface_dofs face_dofs]; [lia| |exact IH].
  rewrite IH. cbn [vec_basis v_size]. lia.
Qed.
(** the scalar functions of component [a] on the faces *)
Fixpoint same_faces (a : nat) (us : list (option tf)) (ps : list (option pexp)) : Prop :=
  match us, ps with
  | [], [] => True
  | Some u :: us, Some p :: ps => (forall x, peval (u a) x = peval p x) /\ same_faces a us ps
  | None :: us, None :: ps => same_faces a us ps
  | _, _ => False
  end.
Lemma vfaces_comp d c cd fdi u a : (a < d)%nat -> same_faces a (vfaces_funs d c cd fdi u) (faces_funs c cd fdi (comp d a u)).
Proof.
  intros Ha. unfold vfaces_funs, faces_funs. cbn [vec_basis v_size]. unfold vbases_of, bases_of. generalize (b_size (el_basis (cl_elem c) cd)).
  induction (combine (cl_faces c) fdi) as [|[fc [fd|]] l IH]; intros off; cbn [map fst snd vface_funs face_funs same_faces]; [exact Logic.I| |apply IH].
  cbn [vec_basis v_size]. split.
  - intros x. rewrite (vec_comp d (el_basis (fc_elem fc) fd)) by exact Ha. apply lincomb_coef. intros j _. unfold comp. f_equal. lia.
  - specialize (IH (off + b_size (el_basis (fc_elem fc) fd))%nat). rewrite Nat.mul_add_distr_l in IH. exact IH.
Qed.
(** the matrix basis: entry (a, b) *)
Lemma mat_comp d b n k i j x : (i < d)%nat -> (j < d)%nat ->
  peval (vlin (d * (d * n)) k (v_comp (mat_basis d b)) (d * i + j)%nat) x = peval (vlin (d * n) (comp d i k) (v_comp (vec_basis d b)) j) x.
Proof.
  intros Hi Hj. rewrite !peval_vlin, sg_blocks. apply sg_ext. intros r Hr. unfold comp.
  rewrite (sg_ext d _ (fun a => if (i =? a)%nat then k (d * r + a)%nat * peval (v_comp (vec_basis d b) r j) x else 0)); [apply sg_pick0, Hi|].
  intros a Ha. cbn [mat_basis vec_basis v_comp]. rewrite idx_mod, idx_div by exact Ha.
  assert (Q : (d * i + j =? d * a + r mod d)%nat = ((i =? a) && (r mod d =? j))%nat).
  { assert (r mod d < d)%nat by (apply Nat.mod_upper_bound; lia). destruct (Nat.eqb_spec i a), (Nat.eqb_spec (r mod d) j); cbn [andb]; [apply Nat.eqb_eq; nia| | |]; apply Nat.eqb_neq; intros E.
    - nia.
    - pose proof (idx_div d i j Hj) as A. rewrite E, idx_div in A by assumption. lia.
    - pose proof (idx_div d i j Hj) as A. rewrite E, idx_div in A by assumption. lia. }
  rewrite Q. destruct (i =? a)%nat; cbn [andb]; [reflexivity|]. cbn [peval]. ring.
Qed.
Lemma mat_oper d (b : sbasis) N oper u i j x : (i < d)%nat -> (j < d)%nat ->
  peval (oper_fun (mat_basis d b) (d * N) (replicate_blocks d (v_size (vec_basis d b)) N oper) u (d * i + j)%nat) x =
  peval (oper_fun (vec_basis d b) N oper (comp d i u) j) x.
Proof.
  intros Hi Hj. unfold oper_fun. cbn [mat_basis v_size vec_basis]. rewrite <- Nat.mul_assoc.
  change (v_comp {| v_deg := b_deg b; v_size := d * (d * b_size b); v_comp := v_comp (mat_basis d b) |}) with (v_comp (mat_basis d b)).
  refine (eq_trans (mat_comp d b (b_size b) _ i j x Hi Hj) _). apply vlin_coef. intros r Hr. unfold comp at 1.
  apply (replicate_mv d (d * b_size b) N oper u r i Hi Hr).
Qed.
