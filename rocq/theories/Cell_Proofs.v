(** Proofs about the material points of a cell: the projections of their data, and what a history of calls keeps. *)
From Coq Require Import List Arith ZArith Reals Lra Lia Bool.
From Verif Require Import Common Poly_Spec HHO_Spec VHHO_Spec HHO_Model VHHO_Model HHO_Setting HHO_Proofs HHO2_Proofs VHHO_Proofs VHHO5_Proofs Cell_Spec Cell_Model.
Import ListNotations.
Open Scope R_scope.

Definition data {S} (l : list (mpoint S)) : list (pt * R * S) := map (fun q => (mp_x q, mp_w q, mp_s q)) l.

Section D.
  Context {S : Type}.
  Implicit Types (l : list (mpoint S)).
  Lemma dsum_ext (L : list (pt * R * S)) f g : (forall x s, f x s = g x s) -> dsum L f = dsum L g.
  Proof. intros H. induction L as [|[[x w] s] L IH]; simpl; [reflexivity|]. rewrite IH, H. reflexivity. Qed.
  Lemma dsum_add (L : list (pt * R * S)) f g : dsum L (fun x s => f x s + g x s) = dsum L f + dsum L g.
  Proof. induction L as [|[[x w] s] L IH]; simpl; [lra|]. rewrite IH. ring. Qed.
  Lemma dsum_scal (L : list (pt * R * S)) k f : dsum L (fun x s => k * f x s) = k * dsum L f.
  Proof. induction L as [|[[x w] s] L IH]; simpl; [lra|]. rewrite IH. ring. Qed.
  Lemma dsum_zero (L : list (pt * R * S)) : dsum L (fun _ _ => 0) = 0.
  Proof. induction L as [|[[x w] s] L IH]; simpl; [lra|]. rewrite IH. ring. Qed.
  Lemma dsum_sg (L : list (pt * R * S)) n f : dsum L (fun x s => sg n (fun j => f j x s)) = sg n (fun j => dsum L (f j)).
  Proof. induction n as [|n IH]; cbn [sg]; [apply dsum_zero|]. rewrite dsum_add, IH. reflexivity. Qed.
  Lemma cell_rhs_eq b v l i : cell_rhs b v l i = dsum (data l) (fun x s => phi b x i * v s).
  Proof.
    unfold cell_rhs. cut (forall r, fold_left (fun r q => fun i => r i + mp_w q * v (mp_s q) * phi b (mp_x q) i) l r i =
      r i + dsum (data l) (fun x s => phi b x i * v s)); [intros H; rewrite H; unfold zeroV; lra|].
    induction l as [|q l IH]; intros r; [cbn; lra|]. change (data (q :: l)) with ((mp_x q, mp_w q, mp_s q) :: data l). cbn [fold_left dsum]. rewrite IH. ring.
  Qed.
  Lemma state_rhs_eq b (plas : S -> bool) l i :
    fold_left (fun r q => if plas (mp_s q) then (fun i => r i + mp_w q * phi b (mp_x q) i) else r) l zeroV i =
    dsum (data l) (fun x s => phi b x i * (if plas s then 1 else 0)).
  Proof.
    cut (forall r, fold_left (fun r q => if plas (mp_s q) then (fun i => r i + mp_w q * phi b (mp_x q) i) else r) l r i =
      r i + dsum (data l) (fun x s => phi b x i * (if plas s then 1 else 0))); [intros H; rewrite H; unfold zeroV; lra|].
    induction l as [|q l IH]; intros r; [cbn; lra|]. change (data (q :: l)) with ((mp_x q, mp_w q, mp_s q) :: data l). cbn [fold_left dsum]. rewrite IH. destruct (plas (mp_s q)); ring.
  Qed.
End D.

Section P.
  Context (ldlt : nat -> mtx -> (nat -> R) -> nat -> R) (HS : solves_spd ldlt) (d : nat) (P : polytope) (c : scell) (HC : cell_fits d P c) {S : Type}.
  Let e := cl_elem c.
  Let I := po_int P.
  Let HI : integral (po_on P) I := poly_int _ _ (cf_poly _ _ _ HC).
  Let F : elem_fits (po_on P) I e := cf_elem _ _ _ HC.
  (** the scalar projection of the data of the points *)
  Lemma scalar_weak k rhs (L : list (pt * R * S)) g : (forall i, rhs i = dsum L (fun x s => phi (el_basis e k) x i * g x s)) ->
    let b := el_basis e k in
    let r := lincomb (b_size b) (ldlt (b_size b) (make_mass_matrix e b 0) rhs) (b_poly b) in
    forall w, pvars d w -> deg_le w k -> I (PMul w r) = dsum L (fun x s => peval w x * g x s).
  Proof.
    intros HR b r w Vw Dw. destruct (cf_span _ _ _ HC k w Vw Dw) as (a & Ha).
    rewrite (I_ext _ _ HI (PMul w r) (PMul (lincomb (b_size b) a (b_poly b)) r)) by (intros x; cbn [peval]; rewrite (Ha x); reflexivity).
    rewrite (I_mul_lincomb_l _ _ HI).
    rewrite (dsum_ext L _ (fun x s => sg (b_size b) (fun j => a j * (phi b x j * g x s)))).
    - rewrite dsum_sg. apply sg_ext. intros j Hj. rewrite dsum_scal. f_equal. rewrite <- HR.
      rewrite <- (HS _ _ rhs (mass_spd _ _ HI e F k) j Hj). symmetry. apply (mass_mv _ _ HI e F k _ j Hj).
    - intros x s. rewrite (Ha x). rewrite peval_lincomb, Rmult_comm, <- sg_scal. apply sg_ext. intros j _. unfold phi, b, e. ring.
  Qed.
  (** the matrix basis: degree, independence, span *)
  Lemma mat_deg k j : (j < v_size (mat_basis d (el_basis e k)))%nat -> vdeg (d * d) (v_comp (mat_basis d (el_basis e k)) j) k.
  Proof.
    intros Hj a Ha. cbn [mat_basis v_comp v_size] in *. destruct (a =? _)%nat; [|apply deg_le_const].
    apply (basis_deg _ _ e F). apply Nat.div_lt_upper_bound; [nia|]. apply Nat.div_lt_upper_bound; [nia|]. nia.
  Qed.
  Lemma mat_entry k n a i j x : (i < d)%nat -> (j < d)%nat ->
    peval (vlin (d * d * n) a (v_comp (mat_basis d (el_basis e k))) (d * i + j)%nat) x = peval (lincomb n (comp d j (comp d i a)) (b_poly (el_basis e k))) x.
  Proof. intros Hi Hj. rewrite <- Nat.mul_assoc, mat_comp by assumption. apply vec_comp, Hj. Qed.
  Lemma split_idx m : (m < d * d)%nat -> exists i j, (i < d)%nat /\ (j < d)%nat /\ m = (d * i + j)%nat.
  Proof.
    intros H. assert (d <> 0)%nat by nia. exists (m / d)%nat, (m mod d)%nat. split; [apply Nat.div_lt_upper_bound; nia|].
    split; [apply Nat.mod_upper_bound; lia|apply Nat.div_mod; lia].
  Qed.
  Lemma mat_indep k : vindep (po_on P) (d * d) (v_size (mat_basis d (el_basis e k))) (v_comp (mat_basis d (el_basis e k))).
  Proof.
    intros a H j Hj. cbn [mat_basis v_size] in *. set (n := b_size (el_basis e k)) in *.
    assert (Hd : (0 < d)%nat) by nia.
    assert (A : (j mod d < d)%nat) by (apply Nat.mod_upper_bound; lia).
    assert (B : (j / d mod d < d)%nat) by (apply Nat.mod_upper_bound; lia).
    destruct (fit_basis _ _ _ F k) as (_ & Ind & _). fold n in Ind.
    pose proof (Ind (comp d (j / d mod d) (comp d (j mod d) a))) as Q.
    assert (E : comp d (j / d mod d) (comp d (j mod d) a) (j / d / d)%nat = a j).
    { unfold comp. f_equal. rewrite <- (Nat.div_mod (j / d) d) by lia. rewrite <- (Nat.div_mod j d) by lia. reflexivity. }
    rewrite <- E. apply Q.
    - intros x Hx. unfold n. rewrite <- mat_entry by assumption. apply H; [nia|exact Hx].
    - apply Nat.div_lt_upper_bound; [lia|]. apply Nat.div_lt_upper_bound; [lia|]. nia.
  Qed.
  Lemma mat_span k V : vdeg (d * d) V k -> vvars d (d * d) V -> exists a, forall m x, (m < d * d)%nat ->
    peval (V m) x = peval (vlin (v_size (mat_basis d (el_basis e k))) a (v_comp (mat_basis d (el_basis e k))) m) x.
  Proof.
    intros HV HW. set (b := el_basis e k).
    destruct (choose (d * d) (fun m a => forall x, peval (V m) x = peval (lincomb (b_size b) a (b_poly b)) x)) as (cs & Hcs).
    { intros m Hm. apply (cf_span _ _ _ HC); [apply HW|apply HV]; exact Hm. }
    exists (fun f => cs (d * (f mod d) + f / d mod d)%nat (f / d / d)%nat). intros m x Hm.
    destruct (split_idx m Hm) as (i & j & Hi & Hj & ->). change (v_size (mat_basis d b)) with (d * d * b_size b)%nat. unfold b at 2. rewrite mat_entry by assumption.
    rewrite (Hcs _ Hm x). apply lincomb_coef. intros r _. unfold comp. repeat first [rewrite idx_mod by assumption|rewrite idx_div by assumption]. reflexivity.
  Qed.
  Lemma matrix_weak k (str : S -> mtx) (l : list (mpoint S)) :
    let r := vlin (v_size (mat_basis d (el_basis e k))) (projectStressOnCell ldlt d e k str l) (v_comp (mat_basis d (el_basis e k))) in
    vdeg (d * d) r k /\
    forall W, vdeg (d * d) W k -> vvars d (d * d) W ->
    I (vdot (d * d) W r) = dsum (data l) (fun x s => sg d (fun a => sg d (fun c => peval (W (d * a + c)%nat) x * str s a c))).
  Proof.
    intros r. split; [apply vdeg_vlin; intros; apply mat_deg; assumption|]. intros W DW VW.
    set (gb := mat_basis d (el_basis e k)) in *. destruct (mat_span k W DW VW) as (a & Ha). fold gb in Ha.
    rewrite (vdot_ext _ _ HI (d * d) W r (vlin (v_size gb) a (v_comp gb)) r) by (auto; intros; apply Ha; assumption).
    rewrite (vdot_lin_l _ _ HI).
    assert (Sp : spd (v_size gb) (vmass (d * d) e gb 0)).
    { apply (vM_spd _ _ HI (d * d) (v_size gb) (v_comp gb) (mat_indep k)). intros i j Hi Hj.
      apply (vmass_gram _ _ HI e F (d * d) k); try assumption; [apply (fit_deg _ _ _ F)|intros; apply mat_deg; assumption]. }
    assert (R : forall j, (j < v_size gb)%nat -> I (vdot (d * d) (v_comp gb j) r) =
      dsum (data l) (fun x s => sg d (fun a => sg d (fun c => vphi gb x j (d * a + c)%nat * str s a c)))).
    { intros j Hj. unfold r. rewrite (vdot_lin_r _ _ HI). unfold projectStressOnCell. fold gb.
      set (rhs := fold_left _ l zeroV).
      transitivity (rhs j).
      - rewrite <- (HS _ _ rhs Sp j Hj). apply sg_ext. intros i Hi.
        rewrite (vmass_gram _ _ HI e F (d * d) k gb 0 j i); try assumption; [ring|apply (fit_deg _ _ _ F)|intros; apply mat_deg; assumption].
      - unfold rhs. cut (forall z, fold_left (fun r q => fun i => r i +
          sg d (fun a => sg d (fun c => vphi gb (mp_x q) i (d * a + c)%nat * (mp_w q * str (mp_s q) a c)))) l z j = z j +
          dsum (data l) (fun x s => sg d (fun a => sg d (fun c => vphi gb x j (d * a + c)%nat * str s a c)))); [intros H; rewrite H; unfold zeroV; lra|].
        clear. induction l as [|q l IH]; intros z; [cbn; lra|]. change (data (q :: l)) with ((mp_x q, mp_w q, mp_s q) :: data l).
        cbn [fold_left dsum]. rewrite IH, <- sg_scal, Rplus_assoc. f_equal. f_equal. apply sg_ext. intros a _. rewrite <- sg_scal. apply sg_ext. intros b _. ring. }
    rewrite (sg_ext _ _ (fun j => a j * dsum (data l) (fun x s => sg d (fun a => sg d (fun c => vphi gb x j (d * a + c)%nat * str s a c)))))
      by (intros j Hj; rewrite (R j Hj); reflexivity).
    transitivity (dsum (data l) (fun x s => sg (v_size gb) (fun j => a j * sg d (fun a => sg d (fun c => vphi gb x j (d * a + c)%nat * str s a c))))).
    { rewrite dsum_sg. apply sg_ext. intros j _. rewrite dsum_scal. reflexivity. }
    apply dsum_ext. intros x s.
    rewrite (sg_ext (v_size gb) _ (fun j => sg d (fun i => sg d (fun q => a j * peval (v_comp gb j (d * i + q)%nat) x * str s i q)))).
    - rewrite sg_swap. apply sg_ext. intros i Hi. rewrite sg_swap. apply sg_ext. intros q Hq.
      rewrite (Ha (d * i + q)%nat x) by nia. rewrite peval_vlin. rewrite Rmult_comm, <- sg_scal. apply sg_ext. intros j _. ring.
    - intros j _. rewrite <- sg_scal. apply sg_ext. intros i _. rewrite <- sg_scal. apply sg_ext. intros q _. unfold vphi. ring.
  Qed.
End P.

(** * histories *)
Section H.
  Context {S : Type}.
  Implicit Types (l : claw S).
  (** points and weights of the cells *)
  Definition places (c : list (mpoint S)) : list (pt * R) := map (fun q => (mp_x q, mp_w q)) c.
  Lemma set_at_map {A B} (g : A -> B) (f : A -> A) : (forall x, g (f x) = g x) -> forall (l : list A) i, map g (set_at l i f) = map g l.
  Proof. intros H. induction l as [|x t IH]; intros [|i]; cbn; rewrite ?H, ?IH; reflexivity. Qed.
  Lemma set_at_length {A} (f : A -> A) : forall (l : list A) i, length (set_at l i f) = length l.
  Proof. induction l as [|x t IH]; intros [|i]; cbn; rewrite ?IH; reflexivity. Qed.
  Lemma set_at_nth {A} (f : A -> A) d : forall (l : list A) i j, (i < length l)%nat -> nth j (set_at l i f) d = if (j =? i)%nat then f (nth j l d) else nth j l d.
  Proof. induction l as [|x t IH]; intros [|i] [|j] H; cbn in *; try lia; try reflexivity. apply IH. lia. Qed.
  Lemma update_places upd (c : list (mpoint S)) : places (cell_update upd c) = places c.
  Proof. unfold places, cell_update. rewrite map_map. reflexivity. Qed.
  Lemma step_places upd l o l' : lstep upd l o = Ok l' -> l_nb l' = l_nb l /\ map places (l_cells l') = map places (l_cells l).
  Proof.
    destruct o as [|id qp f]; cbn; intros H.
    - injection H as <-. cbn. split; [reflexivity|]. rewrite map_map. apply map_ext. apply update_places.
    - unfold law_at in H. destruct (getCellQPs l id) as [c| |]; try discriminate. destruct (qp <? length c)%nat; try discriminate.
      injection H as <-. cbn. split; [reflexivity|]. apply set_at_map. intros x. unfold places. apply set_at_map. reflexivity.
  Qed.
  Lemma run_places upd os : forall l l', lrun upd l os = Ok l' -> l_nb l' = l_nb l /\ map places (l_cells l') = map places (l_cells l).
  Proof.
    induction os as [|o os IH]; cbn; intros l l' H; [injection H as <-; auto|].
    destruct (lstep upd l o) as [l1| |] eqn:E; try discriminate. destruct (step_places _ _ _ _ E) as (A & B). destruct (IH _ _ H) as (C & D).
    rewrite C, D. auto.
  Qed.
  Lemma make_fold (fresh : S) degree msh : forall l, fold_left (fun l e => let c := cell_make fresh e degree in mkLaw (l_nb l + length c) (l_cells l ++ [c])) msh l =
    mkLaw (l_nb l + list_sum (map (fun e => length (el_quad e degree)) msh)) (l_cells l ++ map (fun e => cell_make fresh e degree) msh).
  Proof.
    induction msh as [|e msh IH]; intros [n cs]; cbn [fold_left map list_sum fold_right l_nb l_cells]; [rewrite Nat.add_0_r, app_nil_r; reflexivity|].
    rewrite IH. cbn [l_nb l_cells]. unfold cell_make at 1. rewrite map_length, <- app_assoc, <- Nat.add_assoc. reflexivity.
  Qed.
  Lemma make_eq (fresh : S) degree msh : law_make fresh msh degree = mkLaw (list_sum (map (fun e => length (el_quad e degree)) msh)) (map (fun e => cell_make fresh e degree) msh).
  Proof. unfold law_make. rewrite make_fold. reflexivity. Qed.
  Lemma make_places (fresh : S) e degree : places (cell_make fresh e degree) = el_quad e degree.
  Proof. unfold places, cell_make. rewrite map_map. cbn. rewrite <- (map_id (el_quad e degree)) at 2. apply map_ext. intros [x w]. reflexivity. Qed.
End H.
