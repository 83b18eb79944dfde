(** Uniqueness, kernel and consistency of the symmetric reconstruction with the HHO stabilisation. *)
From Coq Require Import List Arith Reals Lra Lia Bool.
From Verif Require Import Poly_Spec Poly_Proofs HHO_Spec HHO_Model HHO_Setting HHO_Proofs HHO2_Proofs HHO3_Proofs HHO4_Proofs HHO5_Proofs HHO6_Proofs HHO7_Proofs
  VHHO_Spec VHHO_Model VHHO_Setting VHHO_Proofs VHHO2_Proofs VHHO3_Proofs VHHO4_Proofs VHHO5_Proofs VHHO6_Proofs
  Stab_Model Stab_Proofs SymL_Spec SymL_Model SymL_Proofs SymL2_Proofs SymL3_Proofs SymL4_Proofs.
Import ListNotations.
Open Scope R_scope.

(** * vectors without strain are rigid motions *)
Lemma linmap_eval d (W : mtx) (a : nat) x : peval (psum d (fun b => pscal (W a b) (PX b))) x = sg d (fun b => W a b * x b).
Proof. rewrite peval_psum. apply sg_ext. intros. reflexivity. Qed.
Lemma pvars_psum' m n f : (forall j, (j < n)%nat -> pvars m (f j)) -> pvars m (psum n f).
Proof. induction n as [|n IH]; intros H; cbn [psum pvars]; [exact Logic.I|]. split; [apply IH; intros; apply H; lia|apply H; lia]. Qed.
Section Motion.
  Context (d : nat) (P : polytope) (c : scell) (HC : cell_fits d P c).
  Let HP := cf_poly _ _ _ HC.
  Lemma rigid_motion X k : vvars d d X -> vdeg d X k ->
    (forall e x, (e < d * d)%nat -> po_on P x -> peval (strain d X e) x = 0) ->
    exists g W, (forall a b, (a < d)%nat -> (b < d)%nat -> W a b = - W b a) /\
      (forall a x, (a < d)%nat -> po_on P x -> peval (X a) x = g a + sg d (fun b => W a b * x b)) /\
      (forall a b, (a < d)%nat -> (b < d)%nat -> po_int P (rotp a b X) = 2 * W a b * po_int P (PC 1)).
  Proof.
    intros V D Z. destruct (poly_point _ _ HP) as (x0 & H0).
    set (W := fun a b => peval (pdiff b (X a)) x0).
    assert (G : forall a b x, (a < d)%nat -> (b < d)%nat -> po_on P x -> peval (pdiff b (X a)) x = W a b).
    { intros a b x Ha Hb Hx. destruct (strain_const d P c HC X k V D Z a b Ha Hb) as (g & Hg). unfold W. rewrite (Hg x Hx), (Hg x0 H0). reflexivity. }
    assert (A : forall a b, (a < d)%nat -> (b < d)%nat -> W a b = - W b a) by (intros a b Ha Hb; unfold W; apply (strain_all d P c HC X k V D Z a b x0 Ha Hb)).
    exists (fun a => peval (X a) x0 - sg d (fun b => W a b * x0 b)), W. split; [exact A|]. split.
    - intros a x Ha Hx. set (Y := PAdd (X a) (pscal (-1) (psum d (fun b => pscal (W a b) (PX b))))).
      assert (E : peval Y x = peval Y x0).
      { apply (poly_conn _ _ HP); [|exact Hx|exact H0]. intros e y He Hy. unfold Y, pscal. cbn [pdiff peval]. rewrite (G a e y Ha He Hy).
        rewrite pdiff_psum.
        rewrite (sg_ext d _ (fun b => delta e b * W a b)).
        - rewrite sg_delta by exact He. ring.
        - intros b _. unfold pscal. cbn [pdiff peval]. unfold delta. destruct (Nat.eqb_spec e b); cbn [peval]; ring. }
      unfold Y, pscal in E. cbn [peval] in E. change (psum d (fun b => PMul (PC (W a b)) (PX b))) with (psum d (fun b => pscal (W a b) (PX b))) in E. rewrite !linmap_eval in E. lra.
    - intros a b Ha Hb. apply (int_const d P c HC). intros x Hx. rewrite rotp_eval, (G a b x Ha Hb Hx), (G b a x Hb Ha Hx), (A b a Hb Ha). ring.
  Qed.
  (** and rigid motions have none *)
  Lemma motion_strain X k g W : vvars d d X -> vdeg d X k -> (forall a b, (a < d)%nat -> (b < d)%nat -> W a b = - W b a) ->
    (forall a x, (a < d)%nat -> po_on P x -> peval (X a) x = g a + sg d (fun b => W a b * x b)) ->
    forall e x, (e < d * d)%nat -> po_on P x -> peval (strain d X e) x = 0.
  Proof.
    intros V D A EX e x He Hx. set (Y := fun a => PAdd (PC (g a)) (psum d (fun b => pscal (W a b) (PX b)))).
    assert (E : forall a y, (a < d)%nat -> peval (X a) y = peval (Y a) y).
    { intros a y Ha. apply Rminus_diag_uniq. change (peval (X a) y - peval (Y a) y) with (peval (X a) y + - peval (Y a) y).
      replace (- peval (Y a) y) with (peval (pscal (-1) (Y a)) y) by (unfold pscal; cbn [peval]; ring). change (peval (PAdd (X a) (pscal (-1) (Y a))) y = 0).
      apply (vanish d P c HC _ (Nat.max k 1)).
      - split; [apply V, Ha|]. split; [exact Logic.I|]. split; [exact Logic.I|]. apply pvars_psum'. intros b Hb. split; [exact Logic.I|exact Hb].
      - apply deg_le_add; [apply (deg_le_mono _ k); [lia|apply D, Ha]|]. apply deg_le_scal. apply deg_le_add; [apply deg_le_const|].
        apply deg_le_psum. intros b _. apply deg_le_scal. apply (deg_le_mono _ 1); [lia|]. exists (PX b). split; [cbn; lia|reflexivity].
      - intros z Hz. unfold pscal. cbn [peval]. rewrite (EX a z Ha Hz). unfold Y. cbn [peval]. rewrite linmap_eval. ring. }
    destruct (entry_split d e He) as (i & j & Hi & Hj & ->). rewrite strain_eval by assumption.
    rewrite (pdiff_ext (X i) (Y i) j), (pdiff_ext (X j) (Y j) i) by (intros; apply E; assumption).
    assert (L : forall a b y, (a < d)%nat -> (b < d)%nat -> peval (pdiff b (Y a)) y = W a b).
    { intros a b y Ha Hb. unfold Y. cbn [pdiff peval]. rewrite pdiff_psum. rewrite (sg_ext d _ (fun b' => delta b b' * W a b')).
      - rewrite sg_delta by exact Hb. ring.
      - intros b' _. unfold pscal. cbn [pdiff peval]. unfold delta. destruct (Nat.eqb_spec b b'); cbn [peval]; ring. }
    rewrite !L by assumption. rewrite (A i j Hi Hj). lra.
  Qed.
End Motion.

(** * projections on the faces *)
Lemma vproj_exists d (Hd : (0 < d)%nat) ldlt (HS : solves_spd ldlt) on I (HI : integral on I) e (F : elem_fits on I e) k q : exists r, l2vec I d k q r.
Proof.
  set (b := vec_basis d (el_basis e k)).
  exists (vlin (v_size b) (mv 1 (solveM ldlt (v_size b) (vmass d e b 0) (fun i _ => I (vdot d (v_comp b i) q))) (fun _ => 1)) (v_comp b)).
  apply (l2vec_basis _ _ HI d _ F); [apply (vec_fun_deg _ _ d _ F)|]. fold b. intros i Hi.
  refine (eq_trans (vrec_eq on I HI d ldlt HS (v_size b) (v_comp b) _ _ _ 1 _ _ i Hi) _).
  - apply (vec_indep _ k); [exact Hd|apply (fit_basis _ _ _ F)].
  - intros x y Hx Hy. apply (vmass_gram _ _ HI _ F d k); try assumption; [apply (fit_deg _ _ _ F)|]. intros j Hj. apply (vec_deg on); [apply (fit_basis _ _ _ F)|exact Hj].
  - unfold mv. cbn [sg]. ring.
Qed.
Lemma vfsum3_swap fs (g h : facet -> tf -> tf -> R) : (forall f a b, In f fs -> g f a b = h f b a) -> forall us vs, vfsum3 fs us vs g = vfsum3 fs vs us h.
Proof.
  induction fs as [|f fs IH]; intros H [|[u|] us] [|[v|] vs]; cbn [vfsum3]; try reflexivity.
  - rewrite (H f u v (or_introl eq_refl)), (IH (fun f' a b Hin => H f' a b (or_intror Hin))). reflexivity.
  - apply (IH (fun f' a b Hin => H f' a b (or_intror Hin))).
Qed.
Lemma vfsum3_pos fs (g : facet -> tf -> tf -> R) : (forall f a, In f fs -> 0 <= g f a a) -> forall us, 0 <= vfsum3 fs us us g.
Proof.
  induction fs as [|f fs IH]; intros H [|[u|] us]; cbn [vfsum3]; try lra.
  - pose proof (H f u (or_introl eq_refl)). pose proof (IH (fun f' a Hin => H f' a (or_intror Hin)) us). lra.
  - apply (IH (fun f' a Hin => H f' a (or_intror Hin))).
Qed.
Lemma vfsum3_def fs (g : facet -> tf -> tf -> R) : (forall f a, In f fs -> 0 <= g f a a) -> forall us, vfsum3 fs us us g = 0 -> von_facets fs us (fun f a => g f a a = 0).
Proof.
  induction fs as [|f fs IH]; intros H [|[u|] us] Z; cbn [vfsum3 von_facets] in *; try exact Logic.I.
  - pose proof (H f u (or_introl eq_refl)). pose proof (vfsum3_pos fs g (fun f' a Hin => H f' a (or_intror Hin)) us). split; [lra|].
    apply (IH (fun f' a Hin => H f' a (or_intror Hin))). lra.
  - apply (IH (fun f' a Hin => H f' a (or_intror Hin))). exact Z.
Qed.
Lemma vfsum3_zero fs (g : facet -> tf -> tf -> R) : forall us, von_facets fs us (fun f a => forall b, g f a b = 0) -> forall vs, vfsum3 fs us vs g = 0.
Proof.
  induction fs as [|f fs IH]; intros [|[u|] us] Z [|[v|] vs]; cbn [vfsum3 von_facets] in *; try reflexivity.
  - destruct Z as (Z0 & Z). rewrite Z0, (IH us Z vs). ring.
  - apply (IH us Z vs).
Qed.
(** the jumps vanish exactly if the face unknowns are the projections *)
Lemma vjumps_proj m fs q : (forall f, In f fs -> integral (fa_on f) (fa_int f)) -> forall ds us rs,
  vjumps m fs ds us q rs -> (forall f u k, In (f, Some (u, k)) (combine fs (map (fun p => match p with (Some u, Some k) => Some (u, k) | _ => None end) (combine us ds))) -> vdeg m u k) ->
  (von_facets fs rs (fun f r => forall a x, (a < m)%nat -> fa_on f x -> peval (r a) x = 0) <-> vprojs m fs ds us q).
Proof.
  intros HF. induction fs as [|f fs IH]; intros [|[k|] ds] [|[u|] us] [|[r|] rs] J HD; cbn [vjumps] in J; try contradiction; cbn [von_facets vprojs]; try tauto.
  - destruct J as ((Dr & Tr) & J).
    assert (E := IH (fun f' Hin => HF f' (or_intror Hin)) ds us rs J (fun f' u' k' Hin => HD f' u' k' (or_intror Hin))).
    pose proof (HF f (or_introl eq_refl)) as FI.
    assert (B : (forall a x, (a < m)%nat -> fa_on f x -> peval (r a) x = 0) <-> l2vec (fa_int f) m k q u).
    { split.
      - intros Z. split; [apply (HD f u k); left; reflexivity|]. intros w Hw. pose proof (Tr w Hw) as T. rewrite (vdot_zero_r _ _ FI m w r Z), (vdot_sub_r _ _ FI) in T. lra.
      - intros (Du & Tu). apply (vdot_sq_def _ _ FI). rewrite Tr by exact Dr. rewrite (vdot_sub_r _ _ FI), Tu by exact Dr. lra. }
    tauto.
  - apply (IH (fun f' Hin => HF f' (or_intror Hin)) ds us rs J (fun f' u' k' Hin => HD f' u' k' (or_intror Hin))).
Qed.
Section Faces.
  Context (d : nat) (Hd : (0 < d)%nat) (P : polytope) (c : scell) (HC : cell_fits d P c) (cd : nat) (fdi : list (option nat)) (HL : length fdi = length (cl_faces c)).
  Lemma vjumps_exist ldlt (HS : solves_spd ldlt) u q : exists rs, vjumps d (po_facets P) fdi (vfaces_funs d c cd fdi u) q rs.
  Proof.
    unfold vfaces_funs. change (vbases_of d c fdi) with (vbases_l d (combine (cl_faces c) fdi)). generalize (v_size (vec_basis d (el_basis (cl_elem c) cd))). revert fdi HL.
    generalize (faces_fit d P c HC). generalize (po_facets P), (cl_faces c). clear - Hd HS. intros fs fcs H. induction H as [|f fc fs fcs Hf H IH]; intros [|[k|] fdi] HL off; try discriminate.
    - exists []. exact Logic.I.
    - injection HL as HL. cbn [combine vbases_l map fst snd vface_funs]. destruct (IH fdi HL (off + v_size (vec_basis d (el_basis (fc_elem fc) k)))%nat) as (rs & J).
      destruct Hf as [[FF _] FI].
      destruct (vproj_exists d Hd ldlt HS _ _ FI _ FF k (vsub q (vlin (v_size (vec_basis d (el_basis (fc_elem fc) k))) (fun j => u (off + j)%nat) (v_comp (vec_basis d (el_basis (fc_elem fc) k)))))) as (r & Hr).
      exists (Some r :: rs). split; [exact Hr|exact J].
    - injection HL as HL. cbn [combine vbases_l map fst snd vface_funs]. destruct (IH fdi HL off) as (rs & J). exists (None :: rs). exact J.
  Qed.
  Lemma vfaces_deg u f v k : In (f, Some (v, k)) (combine (po_facets P) (map (fun p => match p with (Some u, Some k) => Some (u, k) | _ => None end) (combine (vfaces_funs d c cd fdi u) fdi))) -> vdeg d v k.
  Proof.
    unfold vfaces_funs. change (vbases_of d c fdi) with (vbases_l d (combine (cl_faces c) fdi)). generalize (v_size (vec_basis d (el_basis (cl_elem c) cd))). revert fdi HL.
    generalize (faces_fit d P c HC). generalize (po_facets P), (cl_faces c). clear - Hd. intros fs fcs H. induction H as [|f' fc fs fcs Hf H IH]; intros [|[k'|] fdi] HL off; try discriminate; [contradiction| |];
      injection HL as HL; cbn [combine vbases_l map fst snd vface_funs In].
    - intros [E|E]; [|apply (IH fdi HL _ E)]. injection E as <- <- <-. destruct Hf as [[FF _] FI]. apply (vec_fun_deg _ _ d _ FF).
    - intros [E|E]; [discriminate|apply (IH fdi HL _ E)].
  Qed.
End Faces.
