(** Proofs about the scalar HHO operators: stabilisations of a cell, kernels, consistency. *)
From Coq Require Import List Arith Reals Lra Lia Bool.
From Verif Require Import Poly_Spec Poly_Proofs HHO_Spec HHO_Model HHO_Setting HHO_Proofs HHO2_Proofs HHO3_Proofs HHO4_Proofs HHO5_Proofs HHO6_Proofs.
Import ListNotations.
Open Scope R_scope.

Lemma bil_quadf N A v u : quadf N A v u = bil N A v u.
Proof. reflexivity. Qed.
Lemma bases_of_l c fdi : bases_of c fdi = bases_l (combine (cl_faces c) fdi).
Proof. reflexivity. Qed.
Lemma fold_combine {A} (step : A -> sface -> A) fd fcs : forall st,
  fold_left (fun (st : A) (fi : sface * option nat) => match snd fi with None => st | Some _ => step st (fst fi) end) (combine fcs (map (fun _ => Some fd) fcs)) st =
  @fold_left A sface step fcs st.
Proof. induction fcs as [|fc l IH]; intros st; simpl; [reflexivity|apply IH]. Qed.
Lemma fold_combine2 {A} (step : A -> sface * option nat -> A) fd fcs : forall st,
  fold_left step (combine fcs (map (fun _ => Some fd) fcs)) st = fold_left (fun st fc => step st (fc, Some fd)) fcs st.
Proof. induction fcs as [|fc l IH]; intros st; simpl; [reflexivity|apply IH]. Qed.

Lemma jumps_exist ldlt (HS : solves_spd ldlt) q u fs fcs : Forall2 face_fit fs fcs -> forall fdi off, length fdi = length fcs ->
  exists rs, jumps fs fdi (face_funs off (bases_l (combine fcs fdi)) u) q rs.
Proof.
  intros H. induction H as [|f fc fs fcs [[FF _] FI] H IH]; intros [|[k|] fdi] off L; try discriminate.
  - exists []. exact Logic.I.
  - cbn [combine bases_l map fst snd face_funs].
    destruct (l2_proj_exists _ _ FI _ FF ldlt HS k (psubp q (lincomb (b_size (el_basis (fc_elem fc) k)) (fun j => u (off + j)%nat) (b_poly (el_basis (fc_elem fc) k))))) as (r & Hr).
    destruct (IH fdi (off + b_size (el_basis (fc_elem fc) k))%nat ltac:(simpl in L; lia)) as (rs & Hrs).
    exists (Some r :: rs). split; [exact Hr|exact Hrs].
  - cbn [combine bases_l map fst snd face_funs]. destruct (IH fdi off ltac:(simpl in L; lia)) as (rs & Hrs). exists (None :: rs). exact Hrs.
Qed.
Lemma fsum3_swap fs us : forall vs g, (forall f a b, In f fs -> g f a b = g f b a) -> fsum3 fs us vs g = fsum3 fs vs us g.
Proof.
  revert us. induction fs as [|f fs IH]; intros [|[u|] us] [|[v|] vs] g H; cbn [fsum3]; try reflexivity.
  - rewrite (H f u v (or_introl eq_refl)), IH; [reflexivity|]. intros; apply H; right; assumption.
  - apply IH. intros; apply H; right; assumption.
Qed.
Lemma fsum3_pos fs us g : (forall f a, In f fs -> 0 <= g f a a) -> 0 <= fsum3 fs us us g.
Proof.
  revert us. induction fs as [|f fs IH]; intros [|[u|] us] H; cbn [fsum3]; try lra.
  - pose proof (H f u (or_introl eq_refl)). assert (0 <= fsum3 fs us us g) by (apply IH; intros; apply H; right; assumption). lra.
  - apply IH. intros; apply H; right; assumption.
Qed.
Lemma fsum3_def fs us g : (forall f a, In f fs -> 0 <= g f a a) -> fsum3 fs us us g = 0 -> on_facets fs us (fun f a => g f a a = 0).
Proof.
  revert us. induction fs as [|f fs IH]; intros [|[u|] us] H Z; cbn [on_facets]; try exact Logic.I; cbn [fsum3] in Z.
  - pose proof (H f u (or_introl eq_refl)). assert (0 <= fsum3 fs us us g) by (apply fsum3_pos; intros; apply H; right; assumption).
    split; [lra|]. apply IH; [intros; apply H; right; assumption|lra].
  - apply IH; [intros; apply H; right; assumption|exact Z].
Qed.
Lemma on_facets_impl fs us (Q Q' : facet -> pexp -> Prop) : (forall f u, In f fs -> Q f u -> Q' f u) -> on_facets fs us Q -> on_facets fs us Q'.
Proof.
  revert us. induction fs as [|f fs IH]; intros [|[u|] us] H; cbn [on_facets]; try tauto.
  - intros (A & B). split; [apply (H f u (or_introl eq_refl) A)|]. apply IH; [intros f' u' Hin; apply H; right; assumption|exact B].
  - apply IH. intros f' u' Hin; apply H; right; assumption.
Qed.
Lemma fsum2_zero fs us g : on_facets fs us (fun f u => g f u = 0) -> fsum2 fs us g = 0.
Proof.
  revert us. induction fs as [|f fs IH]; intros [|[u|] us]; cbn [on_facets fsum2]; try reflexivity.
  - intros (A & B). rewrite A, (IH _ B). lra.
  - apply IH.
Qed.
Lemma jumps_zero fs : forall ds us q rs fd, (forall f, In f fs -> integral (fa_on f) (fa_int f)) -> jumps fs ds us q rs -> (forall k, In (Some k) ds -> (k <= fd)%nat) ->
  on_facets fs us (fun f u => forall w, deg_le w fd -> fa_int f (PMul w (psubp q u)) = 0) -> on_facets fs rs (fun f r => forall x, fa_on f x -> peval r x = 0).
Proof.
  induction fs as [|f fs IH]; intros [|[k|] ds] [|[u|] us] q [|[r|] rs] fd HI J Hk; cbn [jumps on_facets] in *; try tauto.
  - intros (A & B). destruct J as ((Dr & Hr) & J). split.
    + apply (I_sq_def _ _ (HI f (or_introl eq_refl))). rewrite (Hr r Dr). apply A. apply (deg_le_mono _ k); [apply Hk; left; reflexivity|exact Dr].
    + apply (IH ds us q rs fd); [intros; apply HI; right; assumption|exact J|intros; apply Hk; right; assumption|exact B].
  - apply (IH ds us q rs fd); [intros; apply HI; right; assumption|exact J|intros; apply Hk; right; assumption].
Qed.
Lemma jumps_test fs : forall ds us q rs fd, (forall f, In f fs -> integral (fa_on f) (fa_int f)) -> jumps fs ds us q rs -> (forall k, In (Some k) ds -> (fd <= k)%nat) ->
  on_facets fs rs (fun f r => forall x, fa_on f x -> peval r x = 0) -> on_facets fs us (fun f u => forall w, deg_le w fd -> fa_int f (PMul w (psubp q u)) = 0).
Proof.
  induction fs as [|f fs IH]; intros [|[k|] ds] [|[u|] us] q [|[r|] rs] fd HI J Hk; cbn [jumps on_facets] in *; try tauto.
  - intros (A & B). destruct J as ((Dr & Hr) & J). split.
    + intros w Dw. rewrite <- Hr by (apply (deg_le_mono _ fd); [apply Hk; left; reflexivity|exact Dw]).
      apply (I_zero _ _ (HI f (or_introl eq_refl))). intros x Hx. cbn [peval]. rewrite (A x Hx). ring.
    + apply (IH ds us q rs); [intros; apply HI; right; assumption|exact J|intros; apply Hk; right; assumption|exact B].
  - apply (IH ds us q rs); [intros; apply HI; right; assumption|exact J|intros; apply Hk; right; assumption].
Qed.
(** jumps only depend on the values on the faces *)
Lemma jumps_ext fs : forall ds us q q' rs, (forall f, In f fs -> integral (fa_on f) (fa_int f)) -> (forall f x, In f fs -> fa_on f x -> peval q x = peval q' x) ->
  jumps fs ds us q rs -> jumps fs ds us q' rs.
Proof.
  induction fs as [|f fs IH]; intros [|[k|] ds] [|[u|] us] q q' [|[r|] rs] HI E; cbn [jumps]; try tauto.
  - intros ((Dr & Hr) & J). split.
    + split; [exact Dr|]. intros w Dw. rewrite (Hr w Dw). apply (int_ext _ _ (HI f (or_introl eq_refl))). intros x Hx. unfold psubp. cbn [peval].
      rewrite (E f x (or_introl eq_refl) Hx). reflexivity.
    + apply (IH _ _ q); [intros; apply HI; right; assumption|intros; eapply E; [right; eassumption|assumption]|exact J].
  - apply IH; [intros; apply HI; right; assumption|intros; eapply E; [right; eassumption|assumption]].
Qed.

Section Cell.
  Context (d : nat) (P : polytope) (c : scell) (HC : cell_fits d P c).
  Let HP := cf_poly _ _ _ HC.
  Let HI := poly_int _ _ HP.
  Context (ldlt : nat -> mtx -> (nat -> R) -> nat -> R) (HS : solves_spd ldlt).
  Lemma fint f : In f (po_facets P) -> integral (fa_on f) (fa_int f).
  Proof. intros H. apply (poly_facets _ _ HP f H). Qed.
  Lemma fon f x : In f (po_facets P) -> fa_on f x -> po_on P x.
  Proof. intros H. apply (poly_facets _ _ HP f H). Qed.
  Lemma face_jumps_exist cd fdi u q : length fdi = length (cl_faces c) -> exists rs, jumps (po_facets P) fdi (faces_funs c cd fdi u) q rs.
  Proof. intros L. apply (jumps_exist ldlt HS q u _ _ (faces_fit d P c HC) fdi _ L). Qed.

  Lemma hdg_form cd fdi hF u v du dv :
    let N := num_dofs c cd fdi in
    jumps (po_facets P) fdi (faces_funs c cd fdi u) (cell_fun c cd u) du ->
    jumps (po_facets P) fdi (faces_funs c cd fdi v) (cell_fun c cd v) dv ->
    bil N (hdg_stabilization ldlt c cd fdi hF) v u =
    fsum3 (po_facets P) du dv (fun f a b => / (if hF then fa_diam f else po_diam P) * fa_int f (PMul a b)).
  Proof.
    intros N Ju Jv. unfold hdg_stabilization.
    rewrite (stab_fold N (hdg_face ldlt (el_basis (cl_elem c) cd) (fun fc => / (if hF then el_diam (fc_elem fc) else el_diam (cl_elem c)))) (fun _ => True)
      (cell_fun c cd) (fun f => / (if hF then fa_diam f else po_diam P)) (po_facets P) (cl_faces c) (faces_fit d P c HC)) with (du := du) (dv := dv).
    - rewrite bil_zero. lra.
    - reflexivity.
    - intros f fc k _ Hf off data _ Hoff.
      destruct (hdg_face_form d P c HC ldlt HS cd N f fc k off data (fun fc => / (if hF then el_diam (fc_elem fc) else el_diam (cl_elem c))) Hf) as (A & EA & FA);
        [unfold N, num_dofs; lia|exact Hoff|]. exists A. split; [|exact FA]. rewrite EA. cbv beta. rewrite (cf_diam _ _ _ HC).
      destruct Hf as ((_ & _ & Hd) & _). rewrite Hd. reflexivity.
    - intros; exact Logic.I.
    - unfold N, num_dofs. rewrite bases_of_l. lia.
    - exact Ju.
    - exact Jv.
  Qed.
  Lemma hdg2_form cd fd kappa rd u v du dv :
    let fdi := all_faces c fd in
    let N := num_dofs c cd fdi in
    jumps (po_facets P) fdi (faces_funs c cd fdi u) (cell_fun c cd u) du ->
    jumps (po_facets P) fdi (faces_funs c cd fdi v) (cell_fun c cd v) dv ->
    bil N (hdg_stabilization2 ldlt d c (mkDegs cd fd rd) kappa) v u =
    fsum3 (po_facets P) du dv (fun f a b => quadf d kappa (fa_normal f) (fa_normal f) / po_diam P * fa_int f (PMul a b)).
  Proof.
    intros fdi N Ju Jv. unfold hdg_stabilization2. cbn [cell_degree face_degree]. rewrite <- fold_combine2.
    rewrite (stab_fold N (hdg_face ldlt (el_basis (cl_elem c) cd)
        (fun fc => sg d (fun i => fc_normal fc i * sg d (fun j => kappa i j * fc_normal fc j)) / el_diam (cl_elem c))) (fun _ => True)
      (cell_fun c cd) (fun f => quadf d kappa (fa_normal f) (fa_normal f) / po_diam P) (po_facets P) (cl_faces c) (faces_fit d P c HC)) with (du := du) (dv := dv).
    - rewrite bil_zero. lra.
    - reflexivity.
    - intros f fc k _ Hf off data _ Hoff.
      destruct (hdg_face_form d P c HC ldlt HS cd N f fc k off data (fun fc => sg d (fun i => fc_normal fc i * sg d (fun j => kappa i j * fc_normal fc j)) / el_diam (cl_elem c)) Hf) as (A & EA & FA);
        [unfold N, num_dofs; lia|exact Hoff|]. exists A. split; [|exact FA]. rewrite EA. cbv beta. rewrite (cf_diam _ _ _ HC).
      destruct Hf as ((_ & Hn & Hd) & _). rewrite Hn. reflexivity.
    - intros; exact Logic.I.
    - unfold N, num_dofs. rewrite bases_of_l. unfold fdi, all_faces. lia.
    - exact Ju.
    - exact Jv.
  Qed.
  Lemma hho_form cd fd rd rec u v ru rv du dv : (cd <= rd)%nat ->
    let fdi := all_faces c fd in
    let N := num_dofs c cd fdi in
    l2proj (po_int P) cd (rec_fun c rd N rec u) ru -> l2proj (po_int P) cd (rec_fun c rd N rec v) rv ->
    jumps (po_facets P) fdi (faces_funs c cd fdi u) (PAdd (rec_fun c rd N rec u) (psubp (cell_fun c cd u) ru)) du ->
    jumps (po_facets P) fdi (faces_funs c cd fdi v) (PAdd (rec_fun c rd N rec v) (psubp (cell_fun c cd v) rv)) dv ->
    bil N (make_scalar_hho_stabilization ldlt c (mkDegs cd fd rd) rec) v u =
    fsum3 (po_facets P) du dv (fun f a b => / po_diam P * fa_int f (PMul a b)).
  Proof.
    intros Hcd fdi N Pu Pv Ju Jv. unfold make_scalar_hho_stabilization, hho_stabilization. cbn [cell_degree face_degree reconstruction_degree].
    rewrite <- (fold_combine _ fd).
    assert (LE : forall z rz dz, l2proj (po_int P) cd (rec_fun c rd N rec z) rz ->
      jumps (po_facets P) fdi (faces_funs c cd fdi z) (PAdd (rec_fun c rd N rec z) (psubp (cell_fun c cd z) rz)) dz ->
      jumps (po_facets P) fdi (faces_funs c cd fdi z) (lift c ldlt cd rd N rec z) dz).
    { intros z rz dz Pz. apply jumps_ext; [exact fint|]. intros f x Hf Hx. unfold lift, psubp. cbn [peval]. f_equal. f_equal. unfold pscal. cbn [peval]. f_equal.
      symmetry. destruct (piT_proj d P c HC ldlt HS cd rd Hcd N rec z) as (D1 & T1). destruct Pz as (D2 & T2).
      apply (span_eq _ _ HI cd _ _ _ _ (fit_basis _ _ _ (cf_elem _ _ _ HC) cd)); [exact D1|exact D2| |apply (fon f x Hf Hx)].
      intros i Hi. pose proof (basis_deg _ _ _ (cf_elem _ _ _ HC) cd i Hi) as Db. rewrite (T1 _ Db), (T2 _ Db). reflexivity. }
    match goal with |- bil N (snd (fold_left ?st _ _)) v u = _ =>
      rewrite (stab_fold N st (fun k => k = fd) (lift c ldlt cd rd N rec) (fun _ => / po_diam P) (po_facets P) (cl_faces c) (faces_fit d P c HC)) with (du := du) (dv := dv) end.
    - rewrite bil_zero. lra.
    - reflexivity.
    - intros f fc k _ Hf off data -> Hoff. cbn [fst snd].
      destruct (hho_face_form d P c HC ldlt HS cd rd fd Hcd N rec f fc off data (el_diam (cl_elem c)) Hf) as (A & EA & FA);
          [unfold N, num_dofs; lia|exact Hoff|]. exists A. split; [|exact FA]. rewrite <- (cf_diam _ _ _ HC). exact EA.
    - intros k Hin. unfold fdi, all_faces in Hin. apply in_map_iff in Hin as (y & Ey & _). congruence.
    - unfold N, num_dofs. rewrite bases_of_l. unfold fdi, all_faces. lia.
    - apply (LE u ru du Pu Ju).
    - apply (LE v rv dv Pv Jv).
  Qed.
End Cell.
