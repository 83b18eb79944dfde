(** Proofs about project_gradient: the gradients of the functions of the basis without the constants are independent. *)
From Coq Require Import List Arith Reals Lra Lia Bool.
From Verif Require Import Poly_Spec Poly_Proofs HHO_Spec VHHO_Spec HHO_Model VHHO_Model HHO_Setting HHO_Proofs HHO2_Proofs VHHO_Proofs VHHO4_Proofs PGrad_Model.
Import ListNotations.
Open Scope R_scope.

Section P.
  Context (d : nat) (P : polytope) (c : scell) (HC : cell_fits d P c) (Hd : (0 < d)%nat) (k : nat) (Hk : (1 <= k)%nat).
  Let e := cl_elem c.
  Let I := po_int P.
  Let HP := cf_poly _ _ _ HC.
  Let HI : integral (po_on P) I := poly_int _ _ HP.
  Let F : elem_fits (po_on P) I e := cf_elem _ _ _ HC.
  Let b := el_basis e k.
  Let s := b_size b.
  Let gb := vec_basis d b.
  (** the basis without its first function *)
  Definition tailb : sbasis := mkSB (b_deg b) (s - 1) (fun l => b_poly b (S l)).
  Definition n : nat := (d * (s - 1))%nat.
  Lemma s_pos : (0 < s)%nat. Proof. apply (cf_one _ _ _ HC k). Qed.
  Lemma n_eq : (v_size gb - d)%nat = n.
  Proof. change (v_size gb) with (d * s)%nat. unfold n. pose proof s_pos. nia. Qed.
  Lemma tail_comp j : v_comp gb (d + j)%nat = v_comp (vec_basis d tailb) j.
  Proof.
    unfold gb. cbn [vec_basis v_comp tailb b_poly]. replace (d + j)%nat with (j + 1 * d)%nat by lia.
    rewrite Nat.mod_add, Nat.div_add by lia. rewrite Nat.add_1_r. reflexivity.
  Qed.
  Definition GB (j : nat) : tf := mgrad d (v_comp gb (d + j)%nat).
  Lemma GB_eq j a q x : (q < d)%nat -> peval (GB j (d * a + q)%nat) x = vdphi gb x (d + j) a q.
  Proof. intros Hq. unfold GB. rewrite mgrad_row by exact Hq. reflexivity. Qed.
  Definition rfun (u : nat -> R) : tf := vlin n u (fun j => v_comp gb (d + j)%nat).
  Lemma rfun_comp u a x : (a < d)%nat -> peval (rfun u a) x = peval (lincomb (s - 1) (comp d a u) (b_poly tailb)) x.
  Proof.
    intros Ha. rewrite <- (vec_comp d tailb (s - 1) u a x Ha). unfold rfun. rewrite !peval_vlin. apply sg_ext. intros j _. rewrite tail_comp. reflexivity.
  Qed.
  Lemma rfun_grad u m x : peval (mgrad d (rfun u) m) x = peval (vlin n u GB m) x.
  Proof. unfold mgrad at 1, rfun. unfold vlin at 1. rewrite pdiff_lincomb, peval_vlin. reflexivity. Qed.
  Lemma split_e m : (m < d * d)%nat -> exists i j, (i < d)%nat /\ (j < d)%nat /\ m = (d * i + j)%nat.
  Proof.
    intros H. exists (m / d)%nat, (m mod d)%nat. split; [apply Nat.div_lt_upper_bound; nia|].
    split; [apply Nat.mod_upper_bound; lia|apply Nat.div_mod; lia].
  Qed.
  Lemma GB_indep : vindep (po_on P) (d * d) n GB.
  Proof.
    intros u H j Hj. unfold n in Hj. pose proof s_pos as Sp.
    assert (A : (j mod d < d)%nat) by (apply Nat.mod_upper_bound; lia).
    assert (B : (j / d < s - 1)%nat) by (apply Nat.div_lt_upper_bound; lia).
    set (a := (j mod d)%nat) in *. set (t := lincomb (s - 1) (comp d a u) (b_poly tailb)).
    assert (Z : forall q x, (q < d)%nat -> po_on P x -> peval (pdiff q t) x = 0).
    { intros q x Hq Hx. rewrite <- (pdiff_ext (rfun u a) t q (fun y => rfun_comp u a y A)).
      rewrite <- (mgrad_row d (rfun u) a q x Hq), rfun_grad. apply H; [nia|exact Hx]. }
    destruct (poly_point _ _ HP) as (x0 & H0).
    destruct (fit_basis _ _ _ F k) as (_ & Ind & _). fold b s in Ind.
    assert (E : u j = comp d a u (j / d)%nat) by (unfold comp, a; f_equal; apply Nat.div_mod; lia).
    rewrite E. apply (Ind (fun l => match l with O => - peval t x0 | S l => comp d a u l end)) with (j := S (j / d)); [|lia].
    intros y Hy. rewrite peval_lincomb. replace s with (S (s - 1)) by lia. rewrite sg_first. unfold b at 1, e. rewrite (proj2 (cf_one _ _ _ HC k)).
    pose proof (poly_conn _ _ HP t Z y x0 Hy H0) as Q. unfold t in Q at 1. rewrite peval_lincomb in Q. cbn [tailb b_poly] in Q. rewrite Q. lra.
  Qed.
  Lemma gb_deg j : (j < v_size gb)%nat -> vdeg d (v_comp gb j) k.
  Proof.
    intros Hj a Ha. unfold gb in *. cbn [vec_basis v_comp v_size] in *. destruct (_ =? a)%nat; [|apply deg_le_const].
    apply (basis_deg _ _ e F). apply Nat.div_lt_upper_bound; [lia|]. exact Hj.
  Qed.
  Lemma deg_mgrad V m : vdeg d V m -> vdeg (d * d) (mgrad d V) (m - 1).
  Proof. intros H q Hq. unfold mgrad. apply deg_le_diff, H. apply Nat.div_lt_upper_bound; nia. Qed.
  Lemma dd_blocks f : sg (d * d) f = sg d (fun a => sg d (fun q => f (d * a + q)%nat)).
  Proof. apply sg_blocks. Qed.
  Lemma stiff_gram i j : (i < n)%nat -> (j < n)%nat -> shift d d (vstiff d e gb) i j = I (vdot (d * d) (GB i) (GB j)).
  Proof.
    intros Hi Hj. unfold shift, vstiff. change (v_deg gb) with (b_deg b). unfold b. rewrite (fit_deg _ _ _ F). fold b.
    replace (0 <? k)%nat with true by (symmetry; apply Nat.ltb_lt; lia).
    rewrite <- (exact_int _ _ HI _ (fit_quad _ _ _ F) (2 * (k - 1)) (vdot (d * d) (GB i) (GB j))).
    - generalize (el_quad e (2 * (k - 1))). intros q.
      cut (forall M, fold_left (fun M qp => let '(x, w) := qp in fun i j => M i j + sg d (fun a => sg d (fun c => w * vdphi gb x i a c * vdphi gb x j a c))) q M (d + i)%nat (d + j)%nat =
        M (d + i)%nat (d + j)%nat + qsum q (peval (vdot (d * d) (GB i) (GB j)))); [intros G; rewrite G; unfold zeroM; lra|].
      induction q as [|[x w] q IH]; intros M; cbn [fold_left qsum]; [lra|]. rewrite IH, peval_vdot, dd_blocks, <- sg_scal, Rplus_assoc. f_equal. f_equal.
      apply sg_ext. intros a _. rewrite <- sg_scal. apply sg_ext. intros r Hr. rewrite !GB_eq by exact Hr. ring.
    - pose proof n_eq as N. apply (deg_le_mono _ (k - 1 + (k - 1))); [lia|]. apply deg_vdot; apply deg_mgrad, gb_deg; lia.
  Qed.
  (** the gradients of the fields of degree k are those of the fields without constant *)
  Lemma span W : vdeg d W k -> vvars d d W -> exists y, forall m x, (m < d * d)%nat -> peval (mgrad d W m) x = peval (vlin n y GB m) x.
  Proof.
    intros DW VW. destruct (choose d (fun a u => forall x, peval (W a) x = peval (lincomb s u (b_poly b)) x)) as (cs & Hcs).
    { intros a Ha. apply (cf_span _ _ _ HC); [apply VW|apply DW]; exact Ha. }
    exists (fun j => cs (j mod d) (S (j / d))). intros m x Hm. destruct (split_e m Hm) as (a & q & Ha & Hq & ->).
    rewrite <- rfun_grad, !mgrad_row by exact Hq. rewrite (pdiff_ext _ _ q (fun y => rfun_comp _ a y Ha)), (pdiff_ext _ _ q (Hcs a Ha)).
    rewrite !pdiff_lincomb. pose proof s_pos. replace s with (S (s - 1)) at 1 by lia. rewrite sg_first.
    rewrite (pdiff_ext (b_poly b 0) (PC 1) q (proj2 (cf_one _ _ _ HC k))). cbn [pdiff peval]. rewrite Rmult_0_r, Rplus_0_l.
    apply sg_ext. intros l _. unfold comp. rewrite idx_mod, idx_div by exact Ha. reflexivity.
  Qed.
  Context (ldlt : nat -> mtx -> (nat -> R) -> nat -> R) (HS : solves_spd ldlt) (f : pt -> mtx) (di : nat).
  Let u := project_gradient ldlt d e k f di.
  Let q := el_quad e (2 * (k + di)).
  Lemma weak_basis j : (j < n)%nat -> I (vdot (d * d) (GB j) (vlin n u GB)) = qsum q (fun x => sg d (fun a => sg d (fun r => peval (GB j (d * a + r)%nat) x * f x a r))).
  Proof.
    intros Hj. rewrite (vdot_lin_r _ _ HI). unfold u, project_gradient. fold b gb. rewrite n_eq. fold q. set (rhs := fun i => fold_left _ q zeroV (d + i)%nat).
    transitivity (rhs j).
    - rewrite <- (HS n (shift d d (vstiff d e gb)) rhs (vM_spd _ _ HI (d * d) n GB GB_indep _ stiff_gram) j Hj).
      apply sg_ext. intros i Hi. rewrite stiff_gram by assumption. ring.
    - unfold rhs. clear rhs. generalize q. intros l.
      cut (forall z, fold_left (fun r qp => let '(x, w) := qp in fun i => r i + sg d (fun a => sg d (fun c => vdphi gb x i a c * (w * f x a c)))) l z (d + j)%nat =
        z (d + j)%nat + qsum l (fun x => sg d (fun a => sg d (fun r => peval (GB j (d * a + r)%nat) x * f x a r)))); [intros G; rewrite G; unfold zeroV; lra|].
      induction l as [|[x w] l IH]; intros z; cbn [fold_left qsum]; [lra|]. rewrite IH, <- sg_scal, Rplus_assoc. f_equal. f_equal.
      apply sg_ext. intros a _. rewrite <- sg_scal. apply sg_ext. intros r Hr. rewrite GB_eq by exact Hr. ring.
  Qed.
  Lemma weak W : vdeg d W k -> vvars d d W ->
    I (vdot (d * d) (mgrad d W) (mgrad d (rfun u))) = qsum q (fun x => sg d (fun a => sg d (fun r => peval (mgrad d W (d * a + r)%nat) x * f x a r))).
  Proof.
    intros DW VW. destruct (span W DW VW) as (y & Hy).
    rewrite (vdot_ext _ _ HI (d * d) _ _ (vlin n y GB) (vlin n u GB)) by (intros; first [apply Hy; assumption|apply rfun_grad]).
    rewrite (vdot_lin_l _ _ HI).
    rewrite (sg_ext n _ (fun j => qsum q (fun x => y j * sg d (fun a => sg d (fun r => peval (GB j (d * a + r)%nat) x * f x a r))))) by (intros j Hj; rewrite (weak_basis j Hj), qsum_scal; reflexivity).
    rewrite <- qsum_sg. apply qsum_ext. intros x.
    rewrite (sg_ext n _ (fun j => sg d (fun a => sg d (fun r => y j * (peval (GB j (d * a + r)%nat) x * f x a r))))).
    - rewrite sg_swap. apply sg_ext. intros a Ha. rewrite sg_swap. apply sg_ext. intros r Hr.
      rewrite Hy by nia. rewrite peval_vlin, Rmult_comm, <- sg_scal. apply sg_ext. intros j _. ring.
    - intros j _. rewrite <- sg_scal. apply sg_ext. intros a _. rewrite <- sg_scal. reflexivity.
  Qed.
  Lemma rfun_deg y : vdeg d (rfun y) k.
  Proof. apply vdeg_vlin. intros j Hj. apply gb_deg. pose proof n_eq. lia. Qed.
  Lemma rfun_vars y : vvars d d (rfun y).
  Proof.
    intros a Ha. unfold rfun, vlin, lincomb. induction n as [|m IH]; cbn [psum pvars pscal]; [exact Logic.I|]. repeat split; [exact IH|].
    unfold gb. cbn [vec_basis v_comp]. destruct (_ =? a)%nat; [apply (cf_vars _ _ _ HC)|exact Logic.I].
  Qed.
End P.
