(** Proofs about the fluxes of the stabilisations. *)
From Coq Require Import List Arith Reals Lra Lia Bool.
From Verif Require Import Poly_Spec Poly_Proofs HHO_Spec HHO_Model HHO_Setting HHO_Proofs HHO2_Proofs HHO3_Proofs HHO4_Proofs HHO5_Proofs HHO6_Proofs HHO7_Proofs HHO8_Proofs HHO9_Proofs Stab_Model Stab_Spec Stab_Proofs Stab2_Proofs Stab3_Proofs.
Import ListNotations.
Open Scope R_scope.

Lemma faces_dofs_from l : forall n, fold_left (fun n fi => (n + match snd fi with None => 0%nat | Some fd => b_size (el_basis (fc_elem (fst fi)) fd) end)%nat) l n = (n + face_dofs (bases_l l))%nat.
Proof.
  induction l as [|[fc [k|]] l IH]; intros n; cbn [fold_left bases_l map fst snd face_dofs]; [lia| |]; rewrite IH; unfold bases_l; lia.
Qed.
Lemma faces_dofs_eq l : faces_dofs l = face_dofs (bases_l l).
Proof. unfold faces_dofs. rewrite faces_dofs_from. reflexivity. Qed.
Lemma sg_delta n (g : nat -> R) i : (i < n)%nat -> sg n (fun j => delta i j * g j) = g i.
Proof.
  induction n as [|n IH]; intros H; [lia|]. cbn [sg]. destruct (Nat.eq_dec i n) as [->|Ne].
  - unfold delta at 2. rewrite Nat.eqb_refl. rewrite sg_zero; [ring|]. intros j Hj. unfold delta. destruct (Nat.eqb_spec n j); [lia|ring].
  - rewrite IH by lia. unfold delta. destruct (Nat.eqb_spec i n); [lia|ring].
Qed.
Lemma face_funs_ext (bs : list (option (nat * (nat -> pexp)))) x y : forall off, (forall i, (off <= i)%nat -> x i = y i) -> face_funs off bs x = face_funs off bs y.
Proof.
  induction bs as [|[[n b]|] bs IH]; intros off H; cbn [face_funs]; [reflexivity| |].
  - f_equal; [|apply IH; intros; apply H; lia]. f_equal. unfold lincomb. clear IH. induction n as [|n IH]; cbn [psum]; [reflexivity|]. rewrite IH, H by lia. reflexivity.
  - f_equal. apply IH, H.
Qed.
Lemma face_funs_shift (bs : list (option (nat * (nat -> pexp)))) x k : forall off, face_funs (k + off) bs x = face_funs off bs (fun i => x (k + i)%nat).
Proof.
  induction bs as [|[[n b]|] bs IH]; intros off; cbn [face_funs]; [reflexivity| |].
  - f_equal; [|rewrite <- Nat.add_assoc; apply IH]. f_equal. unfold lincomb. clear IH. induction n as [|n IH]; cbn [psum]; [reflexivity|]. rewrite IH, Nat.add_assoc. reflexivity.
  - f_equal. apply IH.
Qed.

(** functions that vanish on the faces have zero coefficients *)
Lemma funs_coefs x fs fcs : Forall2 face_fit fs fcs -> forall fdi off, on_facets fs (face_funs off (bases_l (combine fcs fdi)) x) zero_on ->
  forall j, (j < face_dofs (bases_l (combine fcs fdi)))%nat -> x (off + j)%nat = 0.
Proof.
  intros H. induction H as [|f fc fs fcs [[FF _] FI] H IH]; intros [|[k|] fdi] off Z j Hj; cbn [combine bases_l map fst snd face_funs face_dofs on_facets] in *; try lia.
  - destruct Z as (Z0 & Z). set (b := el_basis (fc_elem fc) k) in *. destruct (Nat.lt_ge_cases j (b_size b)) as [L|L].
    + destruct (fit_basis _ _ _ FF k) as (_ & Ind & _). apply (Ind (fun j => x (off + j)%nat) Z0 j L).
    + pose proof (IH fdi (off + b_size b)%nat Z (j - b_size b)%nat) as Q. replace (off + b_size b + (j - b_size b))%nat with (off + j)%nat in Q by lia. apply Q. unfold bases_l. lia.
  - apply (IH fdi off Z j Hj).
Qed.

Section Cell.
  Context (d : nat) (P : polytope) (c : scell) (HC : cell_fits d P c).
  Let HP := cf_poly _ _ _ HC.
  Let HI := poly_int _ _ HP.
  Context (cd : nat).
  Let cb := el_basis (cl_elem c) cd.
  Let gF hF (vT : pexp) := fun (f : facet) (a b : pexp) => / sth P hF f * fa_int f (PMul a (psubp b vT)).
  Lemma flux_fold hF nf N x v fs fcs : Forall2 face_fit fs fcs -> (b_size cb <= N)%nat -> forall fdi off row A,
    length fdi = length fcs -> (off + face_dofs (bases_l (combine fcs fdi)) <= N)%nat -> (row + face_dofs (bases_l (combine fcs fdi)) <= nf)%nat ->
    bil2 nf N (snd (fold_left (flux_face c cb hF) (combine fcs fdi) (off, row, A))) x v = bil2 nf N A x v +
    fsum3 fs (face_funs row (bases_l (combine fcs fdi)) x) (face_funs off (bases_l (combine fcs fdi)) v) (gF hF (cell_fun c cd v)).
  Proof.
    intros H Hc. induction H as [|f fc fs fcs Hf H IH]; intros [|[fd|] fdi] off row A L HNN HNF; try discriminate.
    - simpl. lra.
    - pose proof Hf as [[FF [_ _]] FI]. cbn [combine bases_l map fst snd face_funs face_dofs fold_left fsum3] in *. fold (bases_l (combine fcs fdi)) in *.
      set (fb := el_basis (fc_elem fc) fd) in *.
      unfold flux_face at 2. cbn [fst snd]. cbv zeta. fold fb. rewrite IH by (simpl in L; lia). rewrite <- Rplus_assoc. f_equal. rewrite (stab_h_eq d P c HC hF f fc Hf).
      assert (Dcb : b_deg cb = cd) by apply (fit_deg _ _ _ (cf_elem _ _ _ HC)).
      set (tr := accumulate (el_quad (fc_elem fc) (b_deg cb + fd)) (phi fb) (phi cb) zeroM).
      set (uF := fun (o : nat) (z : nat -> R) => lincomb (b_size fb) (fun j => z (o + j)%nat) (b_poly fb)).
      assert (FT : forall z i, (i < b_size fb)%nat -> mv (b_size cb) tr z i = fa_int f (PMul (b_poly fb i) (cell_fun c cd z))).
      { intros z i Hi. unfold tr, phi. rewrite (acc_mv _ _ _ _ _ _ (b_poly fb i)) by reflexivity. rewrite Dcb. apply (acc_int _ _ FI _ FF).
        apply (deg_le_mono _ (fd + cd)); [lia|]. apply deg_le_mul; [apply (basis_deg _ _ _ FF), Hi|apply (fun_deg _ _ _ (cf_elem _ _ _ HC))]. }
      assert (MF : forall z i, (i < b_size fb)%nat -> mv (b_size fb) (make_mass_matrix (fc_elem fc) fb 0) (fun j => z (off + j)%nat) i = fa_int f (PMul (b_poly fb i) (uF off z))).
      { intros z i Hi. apply (mass_mv _ _ FI _ FF); exact Hi. }
      rewrite !bil2_add_block by lia. rewrite !Rplus_assoc. f_equal. unfold gF. set (k := / sth P hF f).
      rewrite (sg_ext (b_size fb) _ (fun i => k * (x (row + i)%nat * fa_int f (PMul (b_poly fb i) (uF off v))))) by (intros i Hi; rewrite mv_mscal, (MF v i Hi); ring).
      rewrite (sg_ext (b_size fb) (fun i => _ * mv _ (mopp _) _ _) (fun i => (-k) * (x (row + i)%nat * fa_int f (PMul (b_poly fb i) (cell_fun c cd v))))) by (intros i Hi; rewrite mv_opp, mv_mscal; cbn [Nat.add]; rewrite <- (FT v i Hi); change (fun j => v j) with v; ring).
      rewrite !sg_scal. rewrite <- !(I_mul_lincomb_l _ _ FI). change (lincomb (b_size fb) (fun j => v (off + j)%nat) (b_poly fb)) with (uF off v).
      change (lincomb (b_size fb) (fun j => x (row + j)%nat) (b_poly fb)) with (uF row x). rewrite (I_mul_sub_r _ _ FI). ring.
    - cbn [combine bases_l map fst snd face_funs face_dofs fold_left fsum3] in *. apply IH; [simpl in L; lia|exact HNN|exact HNF].
  Qed.
  Lemma flux_form hF fdi x v : length fdi = length (cl_faces c) ->
    bil2 (faces_dofs (combine (cl_faces c) fdi)) (num_dofs c cd fdi) (flux_matA c cd fdi hF) x v =
    fsum3 (po_facets P) (face_funs 0 (bases_of c fdi) x) (faces_funs c cd fdi v) (gF hF (cell_fun c cd v)).
  Proof.
    intros L. unfold flux_matA. fold cb. rewrite (flux_fold hF _ _ x v _ _ (faces_fit d P c HC)).
    - assert (Z : forall m n, bil2 m n zeroM x v = 0) by (intros; unfold bil2; apply sg_zero; intros; rewrite mv_zero; ring). rewrite Z, Rplus_0_l. reflexivity.
    - unfold num_dofs. fold cb. lia.
    - exact L.
    - unfold num_dofs. fold cb. rewrite bases_of_l. apply Nat.le_refl.
    - rewrite faces_dofs_eq. apply Nat.le_refl.
  Qed.
  (** a flux for every form that only sees the difference of the face functions and the projections of the cell function *)
  Context (ldlt : nat -> mtx -> (nat -> R) -> nat -> R) (HS : solves_spd ldlt).
  Lemma flux_exists hF b vs fs fcs : Forall2 face_fit fs fcs -> (forall f, In f fs -> sth P hF f <> 0) -> forall fdi off, length fdi = length fcs ->
    exists x, forall v w vT, In v vs -> projs fs fdi (face_funs off (bases_l (combine fcs fdi)) w) vT ->
      fsum3 fs (face_funs 0 (bases_l (combine fcs fdi)) x) (face_funs off (bases_l (combine fcs fdi)) v) (gF hF vT) =
      sg (face_dofs (bases_l (combine fcs fdi))) (fun i => b (off + i)%nat * (v (off + i)%nat - w (off + i)%nat)).
  Proof.
    intros H. induction H as [|f fc fs fcs Hf H IH]; intros Hh [|[fd|] fdi] off L; try discriminate.
    - exists (fun _ => 0). intros. reflexivity.
    - pose proof Hf as [[FF [_ _]] FI]. cbn [combine bases_l map fst snd face_funs face_dofs fsum3 projs] in *. fold (bases_l (combine fcs fdi)) in *.
      set (fb := el_basis (fc_elem fc) fd) in *. set (n := b_size fb) in *.
      destruct (IH ltac:(intros; apply Hh; right; assumption) fdi (off + n)%nat ltac:(simpl in L; lia)) as (x & Hx).
      set (M := make_mass_matrix (fc_elem fc) fb 0). set (y := ldlt n M (fun i => sth P hF f * b (off + i)%nat)).
      exists (fun i => if (i <? n)%nat then y i else x (i - n)%nat). intros v w vT Hv ((Dw & Pw) & Pj).
      replace (0 + n)%nat with (n + 0)%nat by lia. rewrite face_funs_shift.
      rewrite (face_funs_ext _ (fun i => if (n + i <? n)%nat then y (n + i)%nat else x (n + i - n)%nat) x) by (intros i Hi; destruct (Nat.ltb_spec (n + i) n); [lia|]; f_equal; lia).
      rewrite (Hx v w vT Hv Pj). rewrite sg_split. f_equal; [|apply sg_ext; intros; rewrite !Nat.add_assoc; reflexivity].
      assert (EX : forall z, fa_int f (PMul (lincomb n (fun j => (fun i => if (i <? n)%nat then y i else x (i - n)%nat) (0 + j)%nat) (b_poly fb)) z) = fa_int f (PMul (lincomb n y (b_poly fb)) z)).
      { intros z. apply (I_ext _ _ FI). intros q. cbn [peval]. f_equal. rewrite !peval_lincomb. apply sg_ext. intros j Hj. cbn [Nat.add]. destruct (Nat.ltb_spec j n); [reflexivity|lia]. }
      unfold gF at 1. rewrite EX. rewrite (I_mul_sub_r _ _ FI).
      rewrite <- (Pw (lincomb n y (b_poly fb))) by apply (fun_deg _ _ _ FF). rewrite <- (I_mul_sub_r _ _ FI).
      rewrite (I_comm _ _ FI). rewrite (I_ext _ _ FI _ (PMul (lincomb n (fun j => v (off + j)%nat - w (off + j)%nat) (b_poly fb)) (lincomb n y (b_poly fb)))).
      2:{ intros q. unfold psubp, pscal. cbn [peval]. rewrite !peval_lincomb. f_equal. rewrite <- sg_scal, <- sg_plus. apply sg_ext. intros; ring. }
      rewrite (I_mul_lincomb_l _ _ FI), <- sg_scal. apply sg_ext. intros j Hj. unfold n, fb. rewrite <- (mass_mv _ _ FI _ FF fd y j Hj). fold fb. fold n. fold M. unfold y at 1, mv.
      rewrite (HS n M (fun i => sth P hF f * b (off + i)%nat)); [|apply (mass_spd _ _ FI _ FF)|exact Hj].
      pose proof (Hh f (or_introl eq_refl)). field. assumption.
    - cbn [combine bases_l map fst snd face_funs face_dofs fsum3 projs] in *. apply IH; [intros; apply Hh; right; assumption|simpl in L; lia].
  Qed.

  Context (rd : nat) (Hrd : (1 <= rd)%nat) (Hcd : (cd <= rd)%nat) (fdi : list (option nat)) (HL : length fdi = length (cl_faces c)).
  Context (Hfd : forall k, In (Some k) fdi -> (rd <= k + 1)%nat).
  Let N := num_dofs c cd fdi.
  Let nf := faces_dofs (combine (cl_faces c) fdi).
  Let oper := fst (hho_laplacian_cdi ldlt d c rd cd fdi).
  (** the interpolate of the cell function *)
  Lemma interp_cell v : exists w, (forall j, (j < b_size cb)%nat -> w j = v j) /\ projs (po_facets P) fdi (faces_funs c cd fdi w) (cell_fun c cd v) /\
    projs (po_facets P) fdi (faces_funs c cd fdi w) (cell_fun c cd w).
  Proof.
    set (p := cell_fun c cd v). assert (Dp : deg_le p cd) by apply (fun_deg _ _ _ (cf_elem _ _ _ HC)).
    destruct (project_l2 d P c HC ldlt HS cd fdi p cd HL) as (HT & HF); [apply (deg_le_mono _ cd); [lia|exact Dp]|intros k Hk; apply (deg_le_mono _ cd); [lia|exact Dp]|].
    set (w := project_cdi ldlt c cd fdi (peval p) cd) in *. exists w.
    assert (EW : forall j, (j < b_size cb)%nat -> w j = v j).
    { intros j Hj. destruct (fit_basis _ _ _ (cf_elem _ _ _ HC) cd) as (_ & Ind & _).
      enough (w j - v j = 0) by lra. apply (Ind (fun i => w i - v i)); [|exact Hj]. intros x Hx.
      assert (Q : peval (cell_fun c cd w) x = peval p x).
      { unfold w. rewrite project_cell. apply (proj_id _ _ HI _ (cf_elem _ _ _ HC) ldlt HS cd p cd Dp x Hx). }
      unfold p, cell_fun in Q. rewrite !peval_lincomb in *.
      rewrite (sg_ext _ _ (fun i => w i * peval (b_poly (el_basis (cl_elem c) cd) i) x + (-1) * (v i * peval (b_poly (el_basis (cl_elem c) cd) i) x))) by (intros; ring).
      rewrite sg_plus, sg_scal. lra. }
    split; [exact EW|]. split; [exact HF|]. replace (cell_fun c cd w) with p; [exact HF|].
    unfold p, cell_fun. fold cb. unfold lincomb. clear HF HT. revert EW. generalize (b_size cb). intros n EW. induction n as [|n IH]; cbn [psum]; [reflexivity|]. rewrite IH by (intros; apply EW; lia). rewrite EW by lia. reflexivity.
  Qed.
  Lemma flux_solvable hF u : exists x, forall i, (i < N)%nat -> sg nf (fun j => flux_matA c cd fdi hF j i * x j) = mv N (hho_stabilization_cdi ldlt c rd cd fdi oper true) u i.
  Proof.
    set (S_ := hho_stabilization_cdi ldlt c rd cd fdi oper true). set (b := mv N S_ u).
    assert (Hh : forall f, In f (po_facets P) -> sth P hF f <> 0).
    { intros f Hf E. pose proof (sth_pos d P c HC ldlt cd rd fdi hF f Hf) as Q. rewrite E, Rinv_0 in Q. lra. }
    destruct (flux_exists hF b (map delta (seq 0 N)) _ _ (faces_fit d P c HC) Hh fdi (b_size cb) HL) as (x & Hx). exists x. intros i Hi.
    destruct (interp_cell (delta i)) as (w & EW & Pw & Pw').
    specialize (Hx (delta i) w (cell_fun c cd (delta i)) ltac:(apply in_map, in_seq; lia) Pw).
    pose proof (flux_form hF fdi x (delta i) HL) as FF. unfold faces_funs in FF. rewrite bases_of_l in FF. fold cb in FF. rewrite Hx in FF. clear Hx.
    rewrite (sg_ext nf _ (fun j => x j * mv N (flux_matA c cd fdi hF) (delta i) j)).
    2:{ intros j Hj. rewrite Rmult_comm. f_equal. unfold mv. rewrite (sg_ext N _ (fun l => delta i l * flux_matA c cd fdi hF j l)) by (intros; ring). symmetry. apply (sg_delta N (fun l => flux_matA c cd fdi hF j l) i Hi). }
    change (bil2 nf N (flux_matA c cd fdi hF) x (delta i) = b i). unfold nf, N; rewrite FF; fold N.
    pose proof (s_cell d P c HC ldlt HS cd rd Hrd Hcd fdi HL true w u Hfd Pw') as Z0.
    rewrite (s_sym d P c HC ldlt HS cd rd Hcd fdi HL true u w) in Z0. fold N oper S_ in Z0.
    assert (Z1 : bil N S_ w u = sg N (fun j => w j * b j)) by reflexivity. rewrite Z1 in Z0.
    rewrite <- (sg_delta N b i Hi). rewrite <- (Rminus_0_r (sg N _)). rewrite <- Z0.
    assert (E : N = (b_size cb + face_dofs (bases_l (combine (cl_faces c) fdi)))%nat) by reflexivity. rewrite E. rewrite !sg_split.
    rewrite (sg_ext (b_size cb) (fun j => w j * b j) (fun j => delta i j * b j)) by (intros j Hj; rewrite (EW j Hj); reflexivity).
    set (n := face_dofs _). rewrite (sg_ext n _ (fun j => delta i (b_size cb + j)%nat * b (b_size cb + j)%nat + (-1) * (w (b_size cb + j)%nat * b (b_size cb + j)%nat))) by (intros; ring).
    rewrite sg_plus, sg_scal. ring.
  Qed.
  Lemma flux_full_rank hF x : (forall i, (i < N)%nat -> sg nf (fun j => mtrans (flux_matA c cd fdi hF) i j * x j) = 0) -> forall j, (j < nf)%nat -> x j = 0.
  Proof.
    intros Z. set (v := fun i => if (i <? b_size cb)%nat then 0 else x (i - b_size cb)%nat).
    pose proof (flux_form hF fdi x v HL) as FF. fold nf N in FF.
    assert (Z1 : bil2 nf N (flux_matA c cd fdi hF) x v = 0).
    { unfold bil2, mv. rewrite (sg_ext nf _ (fun j => sg N (fun i => v i * (flux_matA c cd fdi hF j i * x j)))) by (intros j _; rewrite <- sg_scal; apply sg_ext; intros; ring).
      rewrite sg_swap. apply sg_zero. intros i Hi. rewrite sg_scal. specialize (Z i Hi). unfold mtrans in Z. rewrite Z. ring. }
    rewrite Z1 in FF. symmetry in FF. unfold faces_funs in FF. fold cb in FF.
    replace (b_size cb) with (b_size cb + 0)%nat in FF by lia. rewrite face_funs_shift in FF.
    rewrite (face_funs_ext _ (fun i => v (b_size cb + i)%nat) x) in FF by (intros i Hi; unfold v; destruct (Nat.ltb_spec (b_size cb + i) (b_size cb)); [lia|]; f_equal; lia).
    assert (CV : forall y, peval (cell_fun c cd v) y = 0).
    { intros y. unfold cell_fun. fold cb. rewrite peval_lincomb. apply sg_zero. intros j Hj. unfold v. destruct (Nat.ltb_spec j (b_size cb)); [ring|lia]. }
    rewrite (fsum3_ext _ _ _ _ (fun f a b => / sth P hF f * fa_int f (PMul a b))) in FF.
    2:{ intros f a b Hf. unfold gF. f_equal. apply (I_ext _ _ (fint d P c HC f Hf)). intros y. unfold psubp, pscal. cbn [peval]. rewrite CV. ring. }
    apply fsum3_def in FF; [|intros f a Hf; apply (s_nonneg d P c HC ldlt cd rd fdi hF f a Hf)].
    unfold nf. rewrite faces_dofs_eq. apply (funs_coefs x _ _ (faces_fit d P c HC) fdi 0). revert FF. apply on_facets_impl. intros f a Hf. apply (s_sq0 d P c HC ldlt cd rd fdi hF f a Hf).
  Qed.
  Lemma fluxes_form qr hF u v : solves_full_rank qr ->
    fsum3 (po_facets P) (face_funs 0 (bases_of c fdi) (times N (hho_stabilization_fluxes ldlt qr c rd cd fdi oper hF) u)) (faces_funs c cd fdi v) (gF hF (cell_fun c cd v)) =
    bil N (hho_stabilization_cdi ldlt c rd cd fdi oper true) v u.
  Proof.
    intros HQ. rewrite <- (flux_form hF fdi _ v HL). fold nf. fold N. set (A := flux_matA c cd fdi hF). set (S_ := hho_stabilization_cdi ldlt c rd cd fdi oper true).
    set (X := hho_stabilization_fluxes ldlt qr c rd cd fdi oper hF).
    assert (SX : forall i j, (i < N)%nat -> (j < N)%nat -> sg nf (fun k => A k i * X k j) = S_ i j).
    { intros i j Hi Hj. unfold X, hho_stabilization_fluxes. fold nf. fold oper S_ A. fold cb.
      replace (b_size cb + nf)%nat with N by (unfold N, num_dofs, nf; rewrite faces_dofs_eq, bases_of_l; reflexivity).
      apply (HQ N nf (mtrans A) (fun k => S_ k j)); [exact (flux_full_rank hF)| |exact Hi].
      destruct (flux_solvable hF (delta j)) as (x & Hx). exists x. intros l Hl. unfold mtrans. fold A in Hx. rewrite (Hx l Hl). fold S_. unfold mv.
      rewrite (sg_ext N _ (fun k => delta j k * S_ l k)) by (intros; ring). apply (sg_delta N (fun k => S_ l k) j Hj). }
    unfold bil2, bil, times, mv. rewrite (sg_ext nf _ (fun k => sg N (fun j => sg N (fun i => X k j * u j * (A k i * v i))))).
    2:{ intros k _. rewrite Rmult_comm, <- sg_scal. apply sg_ext. intros j _. rewrite Rmult_comm, <- sg_scal. reflexivity. }
    rewrite sg_swap. rewrite (sg_ext N _ (fun j => sg N (fun i => v i * (S_ i j * u j)))).
    2:{ intros j Hj. rewrite sg_swap. apply sg_ext. intros i Hi. rewrite <- (SX i j Hi Hj).
        rewrite (Rmult_comm (sg nf _)), <- !sg_scal. apply sg_ext. intros. ring. }
    rewrite sg_swap. apply sg_ext. intros i _. rewrite sg_scal. reflexivity.
  Qed.
End Cell.

(** the forms on differences as mass matrices *)
Lemma no_none_rest cd fcs : forall fdi, ~ In None fdi ->
  fold_right (fun fi n => match snd fi with None => b_size (el_basis (fc_elem (fst fi)) cd) + n | Some _ => n end)%nat 0%nat (combine fcs fdi : list (sface * option nat)) = 0%nat.
Proof.
  induction fcs as [|fc fcs IH]; intros [|[k|] fdi] H; cbn [combine fold_right snd fst]; try reflexivity.
  - apply IH. intros Hin. apply H. right. exact Hin.
  - exfalso. apply H. left. reflexivity.
Qed.
Section Diff.
  Context (d : nat) (P : polytope) (c : scell) (HC : cell_fits d P c) (HN : faces_nested c).
  Context (cd : nat) (fdi : list (option nat)) (HL : length fdi = length (cl_faces c)) (HA : ~ In None fdi).
  Let ND := diff_dofs cd (combine (cl_faces c) fdi).
  Lemma all_diffs : ND = num_diffs c cd fdi.
  Proof. unfold ND. rewrite (diff_dofs_eq cd (cl_faces c) HN), num_diffs_l, (no_none_rest cd (cl_faces c) fdi HA). lia. Qed.
  Lemma dd_pos hF f : In f (po_facets P) -> 0 < / sth P hF f.
  Proof. intros Hf. apply Rinv_0_lt_compat. unfold sth. destruct (poly_diam _ _ (cf_poly _ _ _ HC)) as (A & B). destruct hF; [apply B, Hf|exact A]. Qed.
  Lemma dg_diff_spd hF : spd ND (dg_stabilization_diff c cd fdi hF).
  Proof.
    assert (FF : forall x y, bil ND (dg_stabilization_diff c cd fdi hF) y x = fsum3 (po_facets P) (diff_funs c cd fdi x) (diff_funs c cd fdi y) (fun f a b => / sth P hF f * fa_int f (PMul a b))).
    { intros x y. apply (dg_diff_form d P c HC cd hF fdi ND x y HL). rewrite all_diffs. apply Nat.le_refl. }
    assert (NN : forall f a, In f (po_facets P) -> 0 <= / sth P hF f * fa_int f (PMul a a)).
    { intros f a Hf. apply Rmult_le_pos; [left; apply (dd_pos hF f Hf)|apply (I_sq_pos _ _ (fint d P c HC f Hf))]. }
    split.
    - intros i j Hi Hj.
      assert (E : forall i j, (i < ND)%nat -> (j < ND)%nat -> bil ND (dg_stabilization_diff c cd fdi hF) (delta i) (delta j) = dg_stabilization_diff c cd fdi hF i j).
      { clear i j Hi Hj. intros i j Hi Hj. unfold bil. rewrite (sg_delta ND _ i Hi). unfold mv. rewrite (sg_ext ND _ (fun l => delta j l * dg_stabilization_diff c cd fdi hF i l)) by (intros; ring). apply (sg_delta ND (fun l => dg_stabilization_diff c cd fdi hF i l) j Hj). }
      rewrite <- (E i j Hi Hj), <- (E j i Hj Hi), !FF. apply fsum3_swap. intros f a b Hf. rewrite (I_comm _ _ (fint d P c HC f Hf)). reflexivity.
    - intros x. change (quadf ND (dg_stabilization_diff c cd fdi hF) x x) with (bil ND (dg_stabilization_diff c cd fdi hF) x x). rewrite FF. split; [apply fsum3_pos; exact NN|].
      intros Z i Hi. apply fsum3_def in Z; [|exact NN]. rewrite diff_funs_l, <- diff_l_eq in Z. rewrite all_diffs, num_diffs_l, <- diff_l_eq in Hi.
      apply (funs_coefs x _ _ (faces_fit d P c HC) (diff_degrees cd fdi) 0); [|exact Hi]. revert Z. apply on_facets_impl. intros f a Hf H. unfold zero_on.
      apply (I_sq_def _ _ (fint d P c HC f Hf)). apply Rmult_integral in H as [H|H]; [|exact H]. pose proof (dd_pos hF f Hf). lra.
  Qed.
  Lemma diff_fluxes ldlt (HS : solves_spd ldlt) n st hF u y :
    fsum3 (po_facets P) (diff_funs c cd fdi (times n (stabilization_fluxes ldlt c cd fdi st hF) u)) (diff_funs c cd fdi y) (fun f a b => / sth P hF f * fa_int f (PMul a b)) =
    sg ND (fun i => y i * times n st u i).
  Proof.
    rewrite <- (dg_diff_form d P c HC cd hF fdi ND _ y HL) by (rewrite all_diffs; apply Nat.le_refl).
    unfold bil. apply sg_ext. intros i Hi. f_equal. unfold stabilization_fluxes. fold ND.
    apply (mv_solveM ldlt n ND (dg_stabilization_diff c cd fdi hF) st u i HS (dg_diff_spd hF) Hi).
  Qed.
End Diff.
