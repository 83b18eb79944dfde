(** Proofs about the difference operator, the DG stabilisation and the forms on differences. *)
From Coq Require Import List Arith Reals Lra Lia Bool.
From Verif Require Import Poly_Spec Poly_Proofs HHO_Spec HHO_Model HHO_Setting HHO_Proofs HHO2_Proofs HHO3_Proofs HHO4_Proofs HHO5_Proofs HHO6_Proofs HHO7_Proofs HHO8_Proofs Stab_Model Stab_Spec.
Import ListNotations.
Open Scope R_scope.

(** * blocks *)
Lemma in_block_true r0 c0 nr nc i j : in_block r0 c0 nr nc i j = true <-> (r0 <= i < r0 + nr /\ c0 <= j < c0 + nc)%nat.
Proof. unfold in_block. rewrite !andb_true_iff, !Nat.leb_le, !Nat.ltb_lt. tauto. Qed.
Lemma in_block_false r0 c0 nr nc i j : ~ (r0 <= i < r0 + nr /\ c0 <= j < c0 + nc)%nat -> in_block r0 c0 nr nc i j = false.
Proof. intros H. destruct (in_block r0 c0 nr nc i j) eqn:E; [|reflexivity]. apply in_block_true in E. contradiction. Qed.
Lemma mv_add_block N M r0 c0 nr nc B u i : (c0 + nc <= N)%nat ->
  mv N (add_block M r0 c0 nr nc B) u i =
  mv N M u i + (if ((r0 <=? i) && (i <? r0 + nr))%nat then mv nc B (fun j => u (c0 + j)%nat) (i - r0) else 0).
Proof.
  intros H. destruct ((r0 <=? i) && (i <? r0 + nr))%nat eqn:E.
  - rewrite <- (mv_add_cols N M c0 nc (fun i j => B (i - r0)%nat j) u i H) at 1. unfold mv. apply sg_ext. intros j _.
    unfold add_block, in_block, add_cols. rewrite E. reflexivity.
  - rewrite Rplus_0_r. unfold mv. apply sg_ext. intros j _. unfold add_block, in_block. rewrite E. reflexivity.
Qed.
Lemma sg_rows N r0 nr (g : nat -> R) v : (r0 + nr <= N)%nat ->
  sg N (fun i => v i * (if ((r0 <=? i) && (i <? r0 + nr))%nat then g (i - r0)%nat else 0)) = sg nr (fun i => v (r0 + i)%nat * g i).
Proof.
  intros H. rewrite (sg_ext N _ (fun i => (if ((r0 <=? i) && (i <? r0 + nr))%nat then g (i - r0)%nat else 0) * v i)) by (intros; ring).
  rewrite (sg_cols N r0 nr g v H). apply sg_ext. intros. ring.
Qed.
(** v^T A u for a matrix with [m] rows and [n] columns *)
Definition bil2 (m n : nat) (A : mtx) (v u : nat -> R) : R := sg m (fun i => v i * mv n A u i).
Lemma bil2_bil n A v u : bil2 n n A v u = bil n A v u.
Proof. reflexivity. Qed.
Lemma bil2_add_block m n M r0 c0 nr nc B v u : (r0 + nr <= m)%nat -> (c0 + nc <= n)%nat ->
  bil2 m n (add_block M r0 c0 nr nc B) v u = bil2 m n M v u + sg nr (fun i => v (r0 + i)%nat * mv nc B (fun j => u (c0 + j)%nat) i).
Proof.
  intros Hr Hc. unfold bil2. rewrite <- (sg_rows m r0 nr (mv nc B (fun j => u (c0 + j)%nat)) v Hr), <- sg_plus.
  apply sg_ext. intros i _. rewrite mv_add_block by exact Hc. ring.
Qed.
Lemma set_add_block M r0 c0 nr nc B : (forall i j, (r0 <= i < r0 + nr)%nat -> (c0 <= j < c0 + nc)%nat -> M i j = 0) ->
  forall i j, set_block M r0 c0 nr nc B i j = add_block M r0 c0 nr nc B i j.
Proof.
  intros Z i j. unfold set_block, add_block. destruct (in_block r0 c0 nr nc i j) eqn:E; [|reflexivity].
  apply in_block_true in E. rewrite Z by lia. lra.
Qed.
Lemma mv_ext_m n A B u i : (forall j, (j < n)%nat -> A i j = B i j) -> mv n A u i = mv n B u i.
Proof. intros H. apply sg_ext. intros j Hj. rewrite H by exact Hj. reflexivity. Qed.
Lemma bil2_ext m n A B v u : (forall i j, (i < m)%nat -> (j < n)%nat -> A i j = B i j) -> bil2 m n A v u = bil2 m n B v u.
Proof. intros H. apply sg_ext. intros i Hi. f_equal. apply mv_ext_m. intros j Hj. apply H; assumption. Qed.

(** * the faces and their differences *)
Definition nested_fc (fc : sface) : Prop := forall deg deg', (deg <= deg')%nat ->
    (b_size (el_basis (fc_elem fc) deg) <= b_size (el_basis (fc_elem fc) deg'))%nat /\
    forall j, (j < b_size (el_basis (fc_elem fc) deg))%nat ->
      b_poly (el_basis (fc_elem fc) deg') j = b_poly (el_basis (fc_elem fc) deg) j.
Lemma fsum3_ext fs us vs g g' : (forall f a b, In f fs -> g f a b = g' f a b) -> fsum3 fs us vs g = fsum3 fs us vs g'.
Proof.
  revert us vs. induction fs as [|f fs IH]; intros [|[u|] us] [|[v|] vs] H; cbn [fsum3]; try reflexivity.
  - rewrite (H f u v (or_introl eq_refl)), (IH us vs); [reflexivity|]. intros; apply H; right; assumption.
  - apply IH. intros; apply H; right; assumption.
Qed.
Lemma fsum3_facets2 fs us ws us' ws' (Q Q' : facet -> pexp -> pexp -> Prop) g g' :
  on_facets2 fs us ws Q -> on_facets2 fs us' ws' Q' ->
  (forall f u w u' w', In f fs -> Q f u w -> Q' f u' w' -> g f u u' = g' f w w') ->
  fsum3 fs us us' g = fsum3 fs ws ws' g'.
Proof.
  revert us ws us' ws'. induction fs as [|f fs IH]; intros [|[u|] us] [|[w|] ws] [|[u'|] us'] [|[w'|] ws'] H H' E; cbn [on_facets2 fsum3] in *; try tauto; try reflexivity.
  - destruct H as (H1 & H). destruct H' as (H1' & H'). rewrite (E f u w u' w' (or_introl eq_refl) H1 H1').
    rewrite (IH us ws us' ws' H H'); [reflexivity|]. intros; eapply E; [right|eassumption|]; eassumption.
  - apply (IH us ws us' ws' H H'). intros; eapply E; [right|eassumption|]; eassumption.
Qed.
Lemma jumps_facets2 fs us ws (Q : facet -> pexp -> pexp -> Prop) q q' : (forall f, In f fs -> integral (fa_on f) (fa_int f)) -> on_facets2 fs us ws Q ->
  (forall f u w, In f fs -> Q f u w -> forall x, fa_on f x -> peval (psubp q u) x = peval (psubp q' w) x) ->
  forall ds rs, jumps fs ds us q rs -> jumps fs ds ws q' rs.
Proof.
  revert us ws. induction fs as [|f fs IH]; intros [|[u|] us] [|[w|] ws] FI H E [|[k|] ds] [|[r|] rs] J; cbn [on_facets2 jumps] in *; try tauto.
  - destruct H as (H1 & H). destruct J as ((Dr & Hr) & J). split.
    + split; [exact Dr|]. intros z Dz. rewrite (Hr z Dz). apply (int_ext _ _ (FI f (or_introl eq_refl))). intros x Hx. cbn [peval].
      f_equal. apply (E f u w (or_introl eq_refl) H1 x Hx).
    + apply (IH us ws); [intros; apply FI; right; assumption|exact H|intros; eapply E; [right| |]; eassumption|exact J].
  - apply (IH us ws); [intros; apply FI; right; assumption|exact H|intros; eapply E; [right| |]; eassumption|exact J].
Qed.
Definition diff_l (cd : nat) (l : list (sface * option nat)) : list (option (nat * (nat -> pexp))) :=
  map (fun fi => match snd fi with None => None | Some fd => let b := el_basis (fc_elem (fst fi)) (Nat.max cd fd) in Some (b_size b, b_poly b) end) l.
Lemma diff_l_eq cd fcs : forall fdi, bases_l (combine fcs (diff_degrees cd fdi)) = diff_l cd (combine fcs fdi).
Proof.
  induction fcs as [|fc fcs IH]; intros [|o fdi]; cbn [combine diff_degrees map]; try reflexivity.
  cbn [bases_l diff_l map fst snd]. destruct o; f_equal; apply IH.
Qed.
Lemma num_diffs_l c cd fdi : num_diffs c cd fdi = face_dofs (diff_l cd (combine (cl_faces c) fdi)).
Proof. unfold num_diffs. rewrite bases_of_l, diff_l_eq. reflexivity. Qed.
Lemma diff_funs_l c cd fdi x : diff_funs c cd fdi x = face_funs 0 (diff_l cd (combine (cl_faces c) fdi)) x.
Proof. unfold diff_funs. rewrite bases_of_l, diff_l_eq. reflexivity. Qed.
Lemma diff_dofs_from cd l : forall n, fold_left (fun n fi =>
    let dbs := b_size (el_basis (fc_elem (fst fi)) cd) in
    let fbs := match snd fi with None => 0%nat | Some fd => b_size (el_basis (fc_elem (fst fi)) fd) end in
    (n + Nat.max dbs fbs)%nat) l n = (n + diff_dofs cd l)%nat.
Proof.
  unfold diff_dofs. induction l as [|fi l IH]; intros n; cbn [fold_left]; [lia|]. rewrite IH, (IH (0 + _)%nat). lia.
Qed.
(** the faces without unknowns are counted too *)
Lemma diff_dofs_eq cd fcs : Forall nested_fc fcs -> forall fdi,
  diff_dofs cd (combine fcs fdi) = (face_dofs (diff_l cd (combine fcs fdi)) +
    fold_right (fun fi n => match snd fi with None => b_size (el_basis (fc_elem (fst fi)) cd) + n | Some _ => n end) 0 (combine fcs fdi))%nat.
Proof.
  intros H. induction H as [|fc fcs Hn H IH]; intros [|[fd|] fdi]; try reflexivity.
  - cbn [combine]. unfold diff_dofs at 1. cbn [fold_left]. cbv zeta. cbn [fst snd]. rewrite diff_dofs_from, IH. cbn [diff_l map fold_right fst snd face_dofs].
    assert (E : Nat.max (b_size (el_basis (fc_elem fc) cd)) (b_size (el_basis (fc_elem fc) fd)) = b_size (el_basis (fc_elem fc) (Nat.max cd fd))).
    { destruct (Nat.le_ge_cases cd fd) as [L|L].
      - rewrite (Nat.max_r cd fd) by exact L. pose proof (proj1 (Hn _ _ L)). lia.
      - rewrite (Nat.max_l cd fd) by exact L. pose proof (proj1 (Hn _ _ L)). lia. }
    rewrite E. fold (diff_l cd (combine fcs fdi)). lia.
  - cbn [combine]. unfold diff_dofs at 1. cbn [fold_left]. cbv zeta. cbn [fst snd]. rewrite diff_dofs_from, IH. cbn [diff_l map fold_right fst snd face_dofs]. fold (diff_l cd (combine fcs fdi)). lia.
Qed.

Section Cell.
  Context (d : nat) (P : polytope) (c : scell) (HC : cell_fits d P c) (HN : faces_nested c).
  Let HP := cf_poly _ _ _ HC.
  Let HI := poly_int _ _ HP.
  Context (ldlt : nat -> mtx -> (nat -> R) -> nat -> R) (HS : solves_spd ldlt).
  Context (cd : nat).
  Let cb := el_basis (cl_elem c) cd.

  (** ** the difference operator *)
  Lemma diff_face_some off offd data fc fd : diff_face ldlt cb cd (off, offd, data) (fc, Some fd) =
    let db := el_basis (fc_elem fc) (Nat.max cd fd) in let fb := el_basis (fc_elem fc) fd in
    let mass := accumulate (el_quad (fc_elem fc) (2 * Nat.max cd fd)) (phi db) (phi db) zeroM in
    let trace := accumulate (el_quad (fc_elem fc) (2 * Nat.max cd fd)) (phi db) (phi cb) zeroM in
    ((off + b_size fb)%nat, (offd + b_size db)%nat,
     set_block (set_block data offd 0 (b_size db) (b_size cb) (mopp (solveM ldlt (b_size db) mass trace))) offd off (b_size fb) (b_size fb) ident).
  Proof. unfold diff_face. cbn [fst snd]. rewrite (Nat.max_comm fd cd). reflexivity. Qed.
  (** the rows of the other faces *)
  Lemma diff_rows_before N u l : forall off offd data i, (i < offd)%nat ->
    mv N (snd (fold_left (diff_face ldlt cb cd) l (off, offd, data))) u i = mv N data u i.
  Proof.
    induction l as [|[fc [fd|]] l IH]; intros off offd data i Hi; cbn [fold_left]; [reflexivity| |].
    - rewrite diff_face_some. cbv zeta. rewrite IH by lia. apply mv_ext_m. intros j _. unfold set_block.
      rewrite !in_block_false by lia. reflexivity.
    - apply IH, Hi.
  Qed.
  Lemma diff_rows_after l : forall off offd data i j, (forall i j, (offd <= i)%nat -> data i j = 0) -> (forall fi, In fi l -> nested_fc (fst fi)) ->
    (offd + face_dofs (diff_l cd l) <= i)%nat ->
    snd (fold_left (diff_face ldlt cb cd) l (off, offd, data)) i j = 0.
  Proof.
    induction l as [|[fc [fd|]] l IH]; intros off offd data i j Z Hn Hi; cbn [fold_left].
    - apply Z. cbn in Hi. lia.
    - cbn [diff_l map face_dofs snd fst] in Hi. fold (diff_l cd l) in Hi. rewrite diff_face_some. cbv zeta. apply IH; [|intros; apply Hn; right; assumption|lia].
      intros a b Ha. unfold set_block.
      pose proof (proj1 (Hn _ (or_introl eq_refl) fd (Nat.max cd fd) ltac:(lia))) as L. cbn [fst] in L.
      rewrite !in_block_false by lia. apply Z. lia.
    - apply IH; [exact Z|intros; apply Hn; right; assumption|exact Hi].
  Qed.
  Lemma diff_fold N u fs fcs : Forall2 face_fit fs fcs -> (b_size cb <= N)%nat -> Forall nested_fc fcs -> (forall f x, In f fs -> fa_on f x -> po_on P x) -> forall fdi off offd data,
    length fdi = length fcs -> (b_size cb <= off)%nat -> (off + face_dofs (bases_l (combine fcs fdi)) <= N)%nat -> (forall i j, (offd <= i)%nat -> data i j = 0) ->
    on_facets2 fs (face_funs off (bases_l (combine fcs fdi)) u)
      (face_funs offd (diff_l cd (combine fcs fdi)) (mv N (snd (fold_left (diff_face ldlt cb cd) (combine fcs fdi) (off, offd, data))) u))
      (fun f uF w => forall x, fa_on f x -> peval w x = peval uF x - peval (cell_fun c cd u) x).
  Proof.
    intros H Hc. induction H as [|f fc fs fcs [[FF [_ _]] FI] H IH]; intros Hn Hon [|[fd|] fdi] off offd data L Ho HNN Z; try discriminate.
    - exact Logic.I.
    - inversion Hn as [|? ? Hn1 Hn2]; subst. cbn [combine bases_l diff_l map fst snd face_funs face_dofs on_facets2 fold_left] in *.
      fold (bases_l (combine fcs fdi)) in *. fold (diff_l cd (combine fcs fdi)) in *.
      destruct (Hn1 fd (Nat.max cd fd) ltac:(lia)) as (Ls & Hb). rewrite diff_face_some. cbv zeta.
      set (db := el_basis (fc_elem fc) (Nat.max cd fd)) in *. set (fb := el_basis (fc_elem fc) fd) in *.
      set (mass := accumulate (el_quad (fc_elem fc) (2 * Nat.max cd fd)) (phi db) (phi db) zeroM).
      set (trace := accumulate (el_quad (fc_elem fc) (2 * Nat.max cd fd)) (phi db) (phi cb) zeroM).
      set (data1 := set_block _ offd off (b_size fb) (b_size fb) ident).
      assert (Z1 : forall i j, (offd + b_size db <= i)%nat -> data1 i j = 0).
      { intros i j Hi. unfold data1, set_block. rewrite !in_block_false by lia. apply Z. lia. }
      split.
      2:{ apply (IH Hn2 (fun f' x Hf => Hon f' x (or_intror Hf)) fdi (off + b_size fb)%nat (offd + b_size db)%nat data1); [simpl in L; lia|lia|lia|exact Z1]. }
      assert (Row : forall i, (i < b_size db)%nat -> mv N data1 u (offd + i) =
        (if (i <? b_size fb)%nat then u (off + i)%nat else 0) - mv (b_size cb) (solveM ldlt (b_size db) mass trace) u i).
      { intros i Hi.
        assert (D2 : mv N data1 u (offd + i) = mv N (add_block (add_block zeroM offd 0 (b_size db) (b_size cb) (mopp (solveM ldlt (b_size db) mass trace))) offd off (b_size fb) (b_size fb) ident) u (offd + i)).
        { apply mv_ext_m. intros j Hj. unfold data1, set_block, add_block.
          destruct (in_block offd off (b_size fb) (b_size fb) (offd + i) j) eqn:E1.
          - apply in_block_true in E1. rewrite in_block_false by lia. unfold zeroM. lra.
          - destruct (in_block offd 0 (b_size db) (b_size cb) (offd + i) j); [unfold zeroM; lra|]. rewrite Z by lia. reflexivity. }
        rewrite D2, !mv_add_block by lia. rewrite mv_zero.
        replace ((offd <=? offd + i) && (offd + i <? offd + b_size db))%nat with true by (symmetry; apply andb_true_iff; split; [apply Nat.leb_le|apply Nat.ltb_lt]; lia).
        replace (offd + i - offd)%nat with i by lia. rewrite mv_opp. change (fun j => u (0 + j)%nat) with u.
        destruct (Nat.ltb_spec i (b_size fb)) as [Hf|Hf].
        - replace ((offd <=? offd + i) && (offd + i <? offd + b_size fb))%nat with true by (symmetry; apply andb_true_iff; split; [apply Nat.leb_le|apply Nat.ltb_lt]; lia).
          rewrite mv_ident by exact Hf. lra.
        - replace ((offd <=? offd + i) && (offd + i <? offd + b_size fb))%nat with false by (symmetry; apply andb_false_iff; right; apply Nat.ltb_ge; lia).
          lra. }
      assert (Pj : forall x, fa_on f x -> peval (lincomb (b_size db) (mv (b_size cb) (solveM ldlt (b_size db) mass trace) u) (b_poly db)) x = peval (cell_fun c cd u) x).
      { apply (span_eq _ _ FI (Nat.max cd fd) _ _ _ _ (fit_basis _ _ _ FF _)).
        - apply (fun_deg _ _ _ FF).
        - apply (deg_le_mono _ cd); [lia|]. apply (fun_deg _ _ _ (cf_elem _ _ _ HC)).
        - apply (mass_solve _ _ FI ldlt HS (Nat.max cd fd) _ _ _ (2 * Nat.max cd fd) _ _ _ _ _ (fit_basis _ _ _ FF _) (fit_quad _ _ _ FF)); [lia| |].
          + intros a b Ha Hbb. unfold mass. rewrite accumulate_eq. unfold zeroM, phi. rewrite Rplus_0_l. apply (acc_int _ _ FI _ FF).
            apply (deg_le_mono _ (Nat.max cd fd + Nat.max cd fd)); [lia|]. apply deg_le_mul; apply (basis_deg _ _ _ FF); assumption.
          + intros a Ha. unfold trace, phi. rewrite (acc_mv _ _ _ _ _ _ (b_poly db a)) by reflexivity. apply (acc_int _ _ FI _ FF).
            apply (deg_le_mono _ (Nat.max cd fd + cd)); [lia|]. apply deg_le_mul; [apply (basis_deg _ _ _ FF), Ha|]. apply (fun_deg _ _ _ (cf_elem _ _ _ HC)). }
      intros x Hx. rewrite <- (Pj x Hx), !peval_lincomb.
      rewrite (sg_ext (b_size db) _ (fun j => (if ((0 <=? j) && (j <? 0 + b_size fb))%nat then (fun j => u (off + j)%nat * peval (b_poly fb j) x) (j - 0)%nat else 0) * 1 +
         - (mv (b_size cb) (solveM ldlt (b_size db) mass trace) u j * peval (b_poly db j) x))).
      + rewrite sg_plus, sg_opp, (sg_cols (b_size db) 0 (b_size fb) (fun j => u (off + j)%nat * peval (b_poly fb j) x) (fun _ => 1)) by lia.
        rewrite (sg_ext (b_size fb) _ (fun j => u (off + j)%nat * peval (b_poly fb j) x)) by (intros; ring). ring.
      + intros j Hj. rewrite (diff_rows_before N u) by lia. rewrite (Row j Hj). cbn [Nat.leb andb Nat.add]. rewrite Nat.sub_0_r.
        destruct (Nat.ltb_spec j (b_size fb)) as [Hf|Hf]; [|ring]. fold db in Hb. rewrite (Hb j Hf). fold fb. ring.
    - inversion Hn as [|? ? Hn1 Hn2]; subst. cbn [combine bases_l diff_l map fst snd face_funs face_dofs on_facets2 fold_left] in *.
      apply (IH Hn2 (fun f' x Hf => Hon f' x (or_intror Hf)) fdi off offd data); [simpl in L; lia|exact Ho|exact HNN|exact Z].
  Qed.
  Lemma difference fdi u : length fdi = length (cl_faces c) ->
    on_facets2 (po_facets P) (faces_funs c cd fdi u) (diff_funs c cd fdi (times (num_dofs c cd fdi) (hho_difference ldlt c cd fdi) u))
      (fun f uF w => forall x, fa_on f x -> peval w x = peval uF x - peval (cell_fun c cd u) x).
  Proof.
    intros L. rewrite diff_funs_l. apply (diff_fold (num_dofs c cd fdi) u (po_facets P) (cl_faces c) (faces_fit d P c HC)).
    - unfold num_dofs. fold cb. lia.
    - exact HN.
    - apply (fon d P c HC).
    - exact L.
    - apply Nat.le_refl.
    - unfold num_dofs. fold cb. rewrite bases_of_l. lia.
    - reflexivity.
  Qed.
  Lemma difference_rest fdi i j : (num_diffs c cd fdi <= i)%nat -> hho_difference ldlt c cd fdi i j = 0.
  Proof.
    intros Hi. apply diff_rows_after; [reflexivity| |rewrite <- num_diffs_l; exact Hi].
    intros [fc o] Hin. apply in_combine_l in Hin. exact (proj1 (Forall_forall _ _) HN fc Hin).
  Qed.

  (** ** the DG stabilisation *)
  Definition sth (hF : bool) (f : facet) : R := if hF then fa_diam f else po_diam P.
  Lemma stab_h_eq hF f fc : face_fit f fc -> stab_h c hF fc = sth hF f.
  Proof. intros [[_ [_ Hd]] _]. unfold stab_h, sth. rewrite Hd, (cf_diam _ _ _ HC). reflexivity. Qed.
  Lemma dg_fold hF N u v fs fcs : Forall2 face_fit fs fcs -> (b_size cb <= N)%nat -> forall fdi off data,
    length fdi = length fcs -> (off + face_dofs (bases_l (combine fcs fdi)) <= N)%nat ->
    bil N (snd (fold_left (dg_face c cb hF) (combine fcs fdi) (off, data))) v u = bil N data v u +
    fsum3 fs (face_funs off (bases_l (combine fcs fdi)) u) (face_funs off (bases_l (combine fcs fdi)) v)
      (fun f a b => / sth hF f * fa_int f (PMul (psubp a (cell_fun c cd u)) (psubp b (cell_fun c cd v)))).
  Proof.
    intros H Hc. induction H as [|f fc fs fcs Hf H IH]; intros [|[fd|] fdi] off data L HNN; try discriminate.
    - simpl. lra.
    - pose proof Hf as [[FF [_ _]] FI]. cbn [combine bases_l map fst snd face_funs face_dofs fold_left fsum3] in *. fold (bases_l (combine fcs fdi)) in *.
      set (fb := el_basis (fc_elem fc) fd) in *.
      unfold dg_face at 2. cbn [fst snd]. cbv zeta. fold fb. rewrite IH by (simpl in L; lia). rewrite <- Rplus_assoc. f_equal. rewrite (stab_h_eq hF f fc Hf).
      assert (DT : forall z, deg_le (cell_fun c cd z) cd) by (intros z; apply (fun_deg _ _ _ (cf_elem _ _ _ HC))).
      assert (DB : forall i, (i < b_size cb)%nat -> deg_le (b_poly cb i) cd) by (intros i Hi; apply (basis_deg _ _ _ (cf_elem _ _ _ HC)), Hi).
      assert (Dcb : b_deg cb = cd) by apply (fit_deg _ _ _ (cf_elem _ _ _ HC)).
      set (tr := accumulate (el_quad (fc_elem fc) (fd + b_deg cb)) (phi fb) (phi cb) zeroM).
      set (uF := fun z : nat -> R => lincomb (b_size fb) (fun j => z (off + j)%nat) (b_poly fb)).
      assert (TT : forall z i, (i < b_size cb)%nat -> mv (b_size cb) (make_mass_matrix (fc_elem fc) cb 0) z i = fa_int f (PMul (b_poly cb i) (cell_fun c cd z))).
      { intros z i Hi. unfold make_mass_matrix, phi. rewrite (acc_mv _ _ _ _ _ _ (b_poly cb i)) by reflexivity. rewrite Dcb. apply (acc_int _ _ FI _ FF).
        apply (deg_le_mono _ (cd + cd)); [lia|]. apply deg_le_mul; [apply DB, Hi|apply DT]. }
      assert (FT : forall z i, (i < b_size fb)%nat -> mv (b_size cb) tr z i = fa_int f (PMul (b_poly fb i) (cell_fun c cd z))).
      { intros z i Hi. unfold tr, phi. rewrite (acc_mv _ _ _ _ _ _ (b_poly fb i)) by reflexivity. rewrite Dcb. apply (acc_int _ _ FI _ FF).
        apply deg_le_mul; [apply (basis_deg _ _ _ FF), Hi|apply DT]. }
      assert (TF : forall z i, (i < b_size cb)%nat -> mv (b_size fb) (mtrans tr) (fun j => z (off + j)%nat) i = fa_int f (PMul (b_poly cb i) (uF z))).
      { intros z i Hi. unfold uF. rewrite (I_mul_lincomb_r _ _ FI). apply sg_ext. intros j Hj. unfold mtrans, tr. rewrite accumulate_eq. unfold zeroM, phi. rewrite Rplus_0_l, Rmult_comm. f_equal.
        rewrite (I_comm _ _ FI). apply (acc_int _ _ FI _ FF). rewrite Dcb. apply deg_le_mul; [apply (basis_deg _ _ _ FF), Hj|apply DB, Hi]. }
      assert (MF : forall z i, (i < b_size fb)%nat -> mv (b_size fb) (make_mass_matrix (fc_elem fc) fb 0) (fun j => z (off + j)%nat) i = fa_int f (PMul (b_poly fb i) (uF z))).
      { intros z i Hi. apply (mass_mv _ _ FI _ FF); exact Hi. }
      rewrite <- !bil2_bil, !bil2_add_block by lia. rewrite !Rplus_assoc. f_equal.
      set (k := / sth hF f).
      rewrite (sg_ext (b_size cb) _ (fun i => k * (v i * fa_int f (PMul (b_poly cb i) (cell_fun c cd u))))) by (intros i Hi; rewrite mv_mscal; cbn [Nat.add]; rewrite <- (TT u i Hi); change (fun j => u j) with u; ring).
      rewrite (sg_ext (b_size fb) _ (fun i => k * (v (off + i)%nat * fa_int f (PMul (b_poly fb i) (uF u))))) by (intros i Hi; rewrite mv_mscal, (MF u i Hi); ring).
      rewrite (sg_ext (b_size cb) (fun i => _ * mv _ (mopp _) _ _) (fun i => (-k) * (v i * fa_int f (PMul (b_poly cb i) (uF u))))) by (intros i Hi; rewrite mv_opp, mv_mscal, (TF u i Hi); cbn [Nat.add]; ring).
      rewrite (sg_ext (b_size fb) (fun i => _ * mv _ (mopp _) _ _) (fun i => (-k) * (v (off + i)%nat * fa_int f (PMul (b_poly fb i) (cell_fun c cd u))))) by (intros i Hi; rewrite mv_opp, mv_mscal; cbn [Nat.add]; rewrite <- (FT u i Hi); change (fun j => u j) with u; ring).
      rewrite !sg_scal. rewrite <- !(I_mul_lincomb_l _ _ FI). change (lincomb (b_size cb) v (b_poly cb)) with (cell_fun c cd v).
      change (lincomb (b_size fb) (fun j => v (off + j)%nat) (b_poly fb)) with (uF v). change (lincomb (b_size fb) (fun j => u (off + j)%nat) (b_poly fb)) with (uF u).
      rewrite (I_mul_sub_l _ _ FI), !(I_mul_sub_r _ _ FI).
      rewrite (I_comm _ _ FI (uF v) (uF u)), (I_comm _ _ FI (cell_fun c cd v) (cell_fun c cd u)), (I_comm _ _ FI (cell_fun c cd v) (uF u)), (I_comm _ _ FI (uF v) (cell_fun c cd u)). ring.
    - cbn [combine bases_l map fst snd face_funs face_dofs fold_left fsum3] in *. apply IH; [simpl in L; lia|exact HNN].
  Qed.
  Lemma dg_form hF fdi u v : length fdi = length (cl_faces c) -> bil (num_dofs c cd fdi) (dg_stabilization c cd fdi hF) v u =
    fsum3 (po_facets P) (faces_funs c cd fdi u) (faces_funs c cd fdi v)
      (fun f a b => / sth hF f * fa_int f (PMul (psubp a (cell_fun c cd u)) (psubp b (cell_fun c cd v)))).
  Proof.
    intros L. unfold dg_stabilization. fold cb. rewrite (dg_fold hF (num_dofs c cd fdi) u v _ _ (faces_fit d P c HC)).
    - rewrite bil_zero, Rplus_0_l. reflexivity.
    - unfold num_dofs. fold cb. lia.
    - exact L.
    - unfold num_dofs. fold cb. rewrite bases_of_l. apply Nat.le_refl.
  Qed.

  (** ** the forms on differences *)
  Lemma dg_diff_fold hF ND x y fs fcs : Forall2 face_fit fs fcs -> forall fdi offd data,
    length fdi = length fcs -> (offd + face_dofs (diff_l cd (combine fcs fdi)) <= ND)%nat -> (forall i j, (offd <= i)%nat \/ (offd <= j)%nat -> data i j = 0) ->
    bil ND (snd (fold_left (dg_diff_face c cd hF) (combine fcs fdi) (offd, data))) y x = bil ND data y x +
    fsum3 fs (face_funs offd (diff_l cd (combine fcs fdi)) x) (face_funs offd (diff_l cd (combine fcs fdi)) y)
      (fun f a b => / sth hF f * fa_int f (PMul a b)).
  Proof.
    intros H. induction H as [|f fc fs fcs Hf H IH]; intros [|[fd|] fdi] offd data L HNN Z; try discriminate.
    - simpl. lra.
    - pose proof Hf as [[FF [_ _]] FI]. cbn [combine diff_l map fst snd face_funs face_dofs fold_left fsum3] in *. fold (diff_l cd (combine fcs fdi)) in *.
      set (db := el_basis (fc_elem fc) (Nat.max cd fd)) in *.
      unfold dg_diff_face at 2. cbn [fst snd]. cbv zeta. fold db. rewrite IH; [|simpl in L; lia|lia|].
      2:{ intros i j Hij. unfold set_block. rewrite in_block_false by lia. apply Z. lia. }
      rewrite <- Rplus_assoc. f_equal. rewrite (stab_h_eq hF f fc Hf).
      rewrite <- !bil2_bil, (bil2_ext ND ND _ _ y x (fun i j _ _ => set_add_block data offd offd (b_size db) (b_size db) (mscalm (/ sth hF f) (make_mass_matrix (fc_elem fc) db 0)) (fun i j Hi Hj => Z i j (or_introl (proj1 Hi))) i j)).
      rewrite bil2_add_block by lia. f_equal.
      rewrite (sg_ext (b_size db) _ (fun i => / sth hF f * (y (offd + i)%nat * fa_int f (PMul (b_poly db i) (lincomb (b_size db) (fun j => x (offd + j)%nat) (b_poly db)))))).
      + rewrite sg_scal, <- (I_mul_lincomb_l _ _ FI). rewrite (I_comm _ _ FI). reflexivity.
      + intros i Hi. rewrite mv_mscal. unfold db. rewrite (mass_mv _ _ FI _ FF) by exact Hi. ring.
    - cbn [combine diff_l map fst snd face_funs face_dofs fold_left fsum3] in *. apply IH; [simpl in L; lia|exact HNN|exact Z].
  Qed.
  Lemma dg_diff_form hF fdi ND x y : length fdi = length (cl_faces c) -> (num_diffs c cd fdi <= ND)%nat -> bil ND (dg_stabilization_diff c cd fdi hF) y x =
    fsum3 (po_facets P) (diff_funs c cd fdi x) (diff_funs c cd fdi y) (fun f a b => / sth hF f * fa_int f (PMul a b)).
  Proof.
    intros L Hle. unfold dg_stabilization_diff. rewrite !diff_funs_l. rewrite (dg_diff_fold hF ND x y _ _ (faces_fit d P c HC)).
    - rewrite bil_zero, Rplus_0_l. reflexivity.
    - exact L.
    - rewrite num_diffs_l in Hle. exact Hle.
    - reflexivity.
  Qed.
  Lemma hdg_diff_fold hF ND x y fs fcs : Forall2 face_fit fs fcs -> forall fdi offd data rx ry,
    length fdi = length fcs -> (offd + face_dofs (diff_l cd (combine fcs fdi)) <= ND)%nat ->
    jumps fs fdi (face_funs offd (diff_l cd (combine fcs fdi)) x) (PC 0) rx -> jumps fs fdi (face_funs offd (diff_l cd (combine fcs fdi)) y) (PC 0) ry ->
    bil ND (snd (fold_left (hdg_diff_face ldlt c cd hF) (combine fcs fdi) (offd, data))) y x = bil ND data y x +
    fsum3 fs rx ry (fun f a b => / sth hF f * fa_int f (PMul a b)).
  Proof.
    intros H. induction H as [|f fc fs fcs Hf H IH]; intros [|[fd|] fdi] offd data rx ry L HNN Jx Jy; try discriminate.
    - simpl. lra.
    - pose proof Hf as [[FF [_ _]] FI]. cbn [combine diff_l map fst snd face_funs face_dofs fold_left] in *. fold (diff_l cd (combine fcs fdi)) in *.
      set (db := el_basis (fc_elem fc) (Nat.max cd fd)) in *.
      destruct rx as [|[rx|] rxs]; try contradiction. destruct ry as [|[ry|] rys]; try contradiction. cbn [jumps fsum3] in *. destruct Jx as (Jx & Jxs). destruct Jy as (Jy & Jys).
      unfold hdg_diff_face at 2. cbn [fst snd]. cbv zeta. fold db. rewrite (IH _ _ _ rxs rys); [|simpl in L; lia|lia|exact Jxs|exact Jys].
      rewrite <- Rplus_assoc. f_equal. rewrite (stab_h_eq hF f fc Hf), bil_add, bil_scal. f_equal. f_equal.
      set (fb := el_basis (fc_elem fc) fd) in *. set (mass := accumulate _ (phi fb) (phi fb) zeroM). set (tr := accumulate _ (phi fb) (phi db) zeroM).
      unfold bil. rewrite (quadf_trans ND (b_size fb) _ _ y x) by trivial.
      assert (T : forall z i, (i < b_size fb)%nat -> mv (b_size db) tr z i = fa_int f (PMul (b_poly fb i) (lincomb (b_size db) z (b_poly db)))).
      { intros z i Hi. unfold tr, phi. rewrite (acc_mv _ _ _ _ _ _ (b_poly fb i)) by reflexivity. apply (acc_int _ _ FI _ FF).
        apply deg_le_mul; [apply (basis_deg _ _ _ FF), Hi|apply (fun_deg _ _ _ FF)]. }
      assert (MS : forall a b, (a < b_size fb)%nat -> (b < b_size fb)%nat -> mass a b = fa_int f (PMul (b_poly fb a) (b_poly fb b))).
      { intros a b Ha Hb. unfold mass. rewrite accumulate_eq. unfold zeroM, phi. rewrite Rplus_0_l. apply (acc_int _ _ FI _ FF).
        apply (deg_le_mono _ (fd + fd)); [lia|]. apply deg_le_mul; apply (basis_deg _ _ _ FF); assumption. }
      set (xF := fun z : nat -> R => lincomb (b_size db) (fun j => z (offd + j)%nat) (b_poly db)).
      assert (Neg : forall z r, l2proj (fa_int f) fd (psubp (PC 0) (xF z)) r -> forall w, deg_le w fd -> fa_int f (PMul w r) = - fa_int f (PMul w (xF z))).
      { intros z r (_ & Hr) w Dw. rewrite (Hr w Dw), (I_mul_sub_r _ _ FI). rewrite (I_zero _ _ FI (PMul w (PC 0))) by (intros; cbn [peval]; ring). ring. }
      rewrite (sg_ext (b_size fb) _ (fun i => (- mv (b_size db) (solveM ldlt (b_size fb) mass tr) (fun j => y (offd + j)%nat) i) * fa_int f (PMul (b_poly fb i) rx))).
      + rewrite <- (I_mul_lincomb_l _ _ FI (b_size fb) (fun i => - mv (b_size db) (solveM ldlt (b_size fb) mass tr) (fun j => y (offd + j)%nat) i)), (I_comm _ _ FI rx). apply (int_ext _ _ FI). intros p Hp. cbn [peval]. f_equal.
        apply (l2_eq _ _ FI _ FF fd _ _ _ Jy); [|exact Hp]. intros i Hi. rewrite (I_mul_sub_r _ _ FI), (I_zero _ _ FI (PMul _ (PC 0))) by (intros; cbn [peval]; ring).
        fold (xF y). fold fb. rewrite <- (mass_solve _ _ FI ldlt HS fd _ (b_poly fb) _ (2 * fd) mass (b_size db) tr (fun j => y (offd + j)%nat) (xF y) (fit_basis _ _ _ FF fd) (fit_quad _ _ _ FF) ltac:(lia) MS (fun a Ha => T _ a Ha) i Hi).
        fold fb. rewrite !(I_mul_lincomb_r _ _ FI), Rminus_0_l, <- sg_opp. apply sg_ext. intros; ring.
      + intros i Hi. rewrite !mv_add_cols, !mv_zero by lia. rewrite !Rplus_0_l, (T _ i Hi), (Neg x rx Jx (b_poly fb i) (basis_deg _ _ _ FF fd i Hi)). unfold xF. ring.
    - cbn [combine diff_l map fst snd face_funs face_dofs fold_left] in *.
      destruct rx as [|[rx|] rxs]; try contradiction. destruct ry as [|[ry|] rys]; try contradiction. cbn [jumps fsum3] in *. apply IH; [simpl in L; lia|exact HNN|exact Jx|exact Jy].
  Qed.
  Lemma hdg_diff_form hF fdi ND x y rx ry : length fdi = length (cl_faces c) -> (num_diffs c cd fdi <= ND)%nat ->
    jumps (po_facets P) fdi (diff_funs c cd fdi x) (PC 0) rx -> jumps (po_facets P) fdi (diff_funs c cd fdi y) (PC 0) ry ->
    bil ND (hdg_stabilization_diff ldlt c cd fdi hF) y x = fsum3 (po_facets P) rx ry (fun f a b => / sth hF f * fa_int f (PMul a b)).
  Proof.
    intros L Hle Jx Jy. unfold hdg_stabilization_diff. rewrite !diff_funs_l in *. rewrite (hdg_diff_fold hF ND x y _ _ (faces_fit d P c HC) fdi 0 zeroM rx ry L).
    - rewrite bil_zero, Rplus_0_l. reflexivity.
    - rewrite num_diffs_l in Hle. exact Hle.
    - exact Jx.
    - exact Jy.
  Qed.
  Lemma num_diffs_le fdi : (num_diffs c cd fdi <= diff_dofs cd (combine (cl_faces c) fdi))%nat.
  Proof. rewrite num_diffs_l, (diff_dofs_eq cd (cl_faces c) HN). lia. Qed.
  (** ** forms and differences *)
  Lemma dg_differences hF fdi u v : length fdi = length (cl_faces c) ->
    let D := hho_difference ldlt c cd fdi in let N := num_dofs c cd fdi in
    bil N (dg_stabilization c cd fdi hF) v u =
    bil (diff_dofs cd (combine (cl_faces c) fdi)) (dg_stabilization_diff c cd fdi hF) (times N D v) (times N D u).
  Proof.
    intros L D N. unfold N. rewrite (dg_form hF fdi u v L), (dg_diff_form hF fdi _ _ _ L (num_diffs_le fdi)). fold N.
    apply (fsum3_facets2 _ _ _ _ _ _ _ _ _ (difference fdi u L) (difference fdi v L)).
    intros f a w a' w' Hf Ha Ha'. f_equal. apply (int_ext _ _ (fint d P c HC f Hf)). intros x Hx. unfold psubp, pscal. cbn [peval]. rewrite (Ha x Hx), (Ha' x Hx). ring.
  Qed.
  Lemma hdg_differences hF fdi u v : length fdi = length (cl_faces c) ->
    let D := hho_difference ldlt c cd fdi in let N := num_dofs c cd fdi in
    bil N (hdg_stabilization ldlt c cd fdi hF) v u =
    bil (diff_dofs cd (combine (cl_faces c) fdi)) (hdg_stabilization_diff ldlt c cd fdi hF) (times N D v) (times N D u).
  Proof.
    intros L D N. destruct (face_jumps_exist d P c HC ldlt HS cd fdi u (cell_fun c cd u) L) as (ru & Ju).
    destruct (face_jumps_exist d P c HC ldlt HS cd fdi v (cell_fun c cd v) L) as (rv & Jv).
    unfold N. rewrite (hdg_form d P c HC ldlt HS cd fdi hF u v ru rv Ju Jv).
    symmetry. apply (hdg_diff_form hF fdi _ _ _ ru rv L (num_diffs_le fdi)).
    - apply (jumps_facets2 _ _ _ _ (cell_fun c cd u) (PC 0) (fint d P c HC) (difference fdi u L)); [|exact Ju].
      intros f a w Hf Ha x Hx. unfold psubp, pscal. cbn [peval]. rewrite (Ha x Hx). ring.
    - apply (jumps_facets2 _ _ _ _ (cell_fun c cd v) (PC 0) (fint d P c HC) (difference fdi v L)); [|exact Jv].
      intros f a w Hf Ha x Hx. unfold psubp, pscal. cbn [peval]. rewrite (Ha x Hx). ring.
  Qed.
End Cell.
