(** Theorems about the material points of a mesh and the fields computed from them. *)
From Coq Require Import List Arith ZArith Reals Lra Lia Bool.
From Verif Require Import Common Poly_Spec HHO_Spec VHHO_Spec HHO_Model VHHO_Model HHO_Setting HHO_Proofs HHO2_Proofs VHHO_Proofs VHHO5_Proofs Cell_Spec Cell_Model Cell_Proofs HHOInst_Proofs HHOInst2_Proofs HHOInst_Properties HHO9_Proofs.
Import ListNotations.
Open Scope R_scope.

(** ** C203: every cell keeps its own points, whatever the program does with the law *)
(** points and weights are those of the quadrature of the cell, in order, after any history of calls; the number of
    points is the total; only the numbers of cells are accepted *)
Theorem C203_points : forall (S : Type) (fresh : S) upd msh degree os l,
  lrun upd (law_make fresh msh degree) os = Ok l ->
  l_nb l = list_sum (map (fun e => length (el_quad e degree)) msh) /\
  (forall i e, nth_error msh i = Some e -> exists c, getCellQPs l (Z.of_nat i) = Ok c /\ map (fun q => (mp_x q, mp_w q)) c = el_quad e degree) /\
  (forall id, ~ (0 <= id < Z.of_nat (length msh))%Z -> getCellQPs l id = Throw OutOfRange).
Proof.
  intros S fresh upd msh degree os l H. destruct (run_places _ _ _ _ H) as (A & B). rewrite make_eq in A, B. cbn [l_nb l_cells] in A, B.
  rewrite map_map in B. rewrite (map_ext _ (fun e => el_quad e degree)) in B by (intros; apply make_places).
  assert (LN : length (l_cells l) = length msh) by (rewrite <- (map_length places (l_cells l)), B, map_length; reflexivity).
  split; [exact A|]. split.
  - intros i e E. assert (Hi : (i < length msh)%nat) by (apply nth_error_Some; congruence).
    exists (nth i (l_cells l) []). split.
    + unfold getCellQPs. replace ((0 <=? Z.of_nat i) && (Z.of_nat i <? Z.of_nat (length (l_cells l))))%Z with true; [rewrite Nat2Z.id; reflexivity|].
      symmetry. apply andb_true_iff. split; [apply Z.leb_le|apply Z.ltb_lt]; lia.
    + change (places (nth i (l_cells l) []) = el_quad e degree). change (places (nth i (l_cells l) [])) with (places (nth i (l_cells l) [])).
      rewrite <- (map_nth places). apply nth_error_nth. rewrite B. rewrite nth_error_map, E. reflexivity.
  - intros id N. unfold getCellQPs. rewrite LN. destruct (Z.leb_spec 0 id), (Z.ltb_spec id (Z.of_nat (length msh))); cbn [andb]; try reflexivity. lia.
Qed.
(** a new law has new states everywhere *)
Theorem C203_fresh : forall (S : Type) (fresh : S) msh degree id c q,
  getCellQPs (law_make fresh msh degree) id = Ok c -> In q c -> mp_s q = fresh.
Proof.
  intros S fresh msh degree id c q H Hq. rewrite make_eq in H. unfold getCellQPs in H. cbn [l_cells] in H. destruct (_ && _); [|discriminate].
  injection H as <-. assert (In (nth (Z.to_nat id) (map (fun e => cell_make fresh e degree) msh) []) ([] :: map (fun e => cell_make fresh e degree) msh)) as I.
  { destruct (nth_in_or_default (Z.to_nat id) (map (fun e => cell_make fresh e degree) msh) []) as [I| ->]; [right; exact I|left; reflexivity]. }
  destruct I as [I|I]; [rewrite <- I in Hq; destruct Hq|]. apply in_map_iff in I. destruct I as (e & E & _). rewrite <- E in Hq.
  unfold cell_make in Hq. apply in_map_iff in Hq. destruct Hq as (p & <- & _). reflexivity.
Qed.
(** update() updates the state of every point of every cell, once *)
Theorem C203_update : forall (S : Type) (upd : S -> S) l id,
  getCellQPs (law_update upd l) id =
  match getCellQPs l id with Ok c => Ok (map (fun q => mkPoint (mp_x q) (mp_w q) (upd (mp_s q))) c) | Throw e => Throw e | UB => UB end.
Proof.
  intros S upd l id. unfold getCellQPs, law_update. cbn [l_cells]. rewrite map_length. destruct (_ && _); [|reflexivity].
  f_equal. change (@nil (mpoint S)) with (cell_update upd []) at 1. rewrite map_nth. reflexivity.
Qed.
(** an evaluation changes the state of its point and of no other *)
Theorem C203_local : forall (S : Type) (l : claw S) id qp f l', law_at l id qp f = Ok l' ->
  exists c, getCellQPs l id = Ok c /\ (qp < length c)%nat /\
  exists c', getCellQPs l' id = Ok c' /\ length c' = length c /\
    (forall q, nth_error c qp = Some q -> nth_error c' qp = Some (mkPoint (mp_x q) (mp_w q) (f (mp_s q)))) /\
    (forall j, j <> qp -> nth_error c' j = nth_error c j) /\
  forall id', id' <> id -> getCellQPs l' id' = getCellQPs l id'.
Proof.
  intros S l id qp f l' H. unfold law_at in H. destruct (getCellQPs l id) as [c| |] eqn:E; try discriminate.
  exists c. split; [reflexivity|]. destruct (Nat.ltb_spec qp (length c)) as [Q|Q]; [|discriminate]. split; [exact Q|].
  injection H as <-. set (g := fun q : mpoint S => mkPoint (mp_x q) (mp_w q) (f (mp_s q))).
  unfold getCellQPs in *. cbn [l_cells]. rewrite set_at_length. destruct ((0 <=? id) && (id <? Z.of_nat (length (l_cells l))))%Z eqn:B; [|discriminate].
  injection E as Ec. apply andb_true_iff in B. destruct B as (B1 & B2). apply Z.leb_le in B1. apply Z.ltb_lt in B2.
  exists (set_at c qp g). rewrite set_at_nth by lia. rewrite Nat.eqb_refl, Ec. split; [reflexivity|]. split; [apply set_at_length|].
  assert (N : forall (c : list (mpoint S)) qp j, (qp < length c)%nat -> nth_error (set_at c qp g) j = if (j =? qp)%nat then option_map g (nth_error c j) else nth_error c j).
  { clear. induction c as [|x t IH]; intros [|i] [|j] H; cbn in *; try lia; try reflexivity. apply IH. lia. }
  split; [intros q E; rewrite N by exact Q; rewrite Nat.eqb_refl, E; reflexivity|].
  split; [intros j J; rewrite N by exact Q; apply Nat.eqb_neq in J; rewrite J; reflexivity|].
  intros id' ND. destruct (Z.leb_spec 0 id'), (Z.ltb_spec id' (Z.of_nat (length (l_cells l)))); cbn [andb]; try reflexivity.
  rewrite set_at_nth by lia. destruct (Nat.eqb_spec (Z.to_nat id') (Z.to_nat id)); [lia|reflexivity].
Qed.
(** two cells, two points each: a point evaluated, then update *)
Example C203_run : let q2 := fun _ : nat => [(fun _ : nat => 0, 1); (fun _ => 1, 2)] in
  let e := mkElem q2 (fun k => mkSB k 1 (fun _ => PC 1)) 1 in
  exists l c, lrun (fun s => 10 * s)%nat (law_make 1%nat [e; e] 4) [At 1 1%nat (fun s => s + 4)%nat; Update] = Ok l /\
  l_nb l = 4%nat /\ getCellQPs l 1 = Ok c /\ map mp_s c = [10; 50]%nat /\ getCellQPs l 2 = Throw OutOfRange.
Proof. intros q2 e. eexists. eexists. split; [reflexivity|]. repeat split. Qed.

(** ** C204: the fields of the cumulated plastic strain and of the state are the projections of the values at the points *)
(** the field with given coefficients; the points hold the values of a program that kept them *)
Definition field (c : scell) (k : nat) (u : nat -> R) : pexp := lincomb (b_size (el_basis (cl_elem c) k)) u (b_poly (el_basis (cl_elem c) k)).
Definition points_of (c : scell) (degree : nat) {S} (l : list (mpoint S)) : Prop := map (fun q => (mp_x q, mp_w q)) l = el_quad (cl_elem c) degree.
Definition values {S} (l : list (mpoint S)) : list (pt * R * S) := map (fun q => (mp_x q, mp_w q, mp_s q)) l.
(** the polynomial [r] of degree [k] is the L2 projection of the values [g] at the points *)
Definition projects (d : nat) (P : polytope) (k : nat) {S} (l : list (mpoint S)) (g : S -> R) (r : pexp) : Prop :=
  deg_le r k /\ pvars d r /\
  forall w, pvars d w -> deg_le w k -> po_int P (PMul w r) = dsum (values l) (fun x s => peval w x * g s).
Lemma field_vars d P c k u : cell_fits d P c -> pvars d (field c k u).
Proof. intros HC. unfold field, lincomb. induction (b_size _); simpl; [exact Logic.I|]. repeat split; [assumption|apply (cf_vars _ _ _ HC)]. Qed.
Theorem C204_plastic_strain : forall ldlt, solves_spd ldlt -> forall d P c, cell_fits d P c -> forall (S : Type) k (eqp : S -> R) l,
  projects d P k l eqp (field c k (projectPOnCell ldlt true (cl_elem c) k eqp l)).
Proof.
  intros ldlt HS d P c HC S k eqp l. split; [apply (fun_deg _ _ _ (cf_elem _ _ _ HC))|]. split; [apply (field_vars d P), HC|]. intros w Vw Dw.
  apply (scalar_weak ldlt HS d P c HC k (cell_rhs (el_basis (cl_elem c) k) eqp l) (values l) (fun _ s => eqp s)); try assumption.
  intros i. apply cell_rhs_eq.
Qed.
Theorem C204_state : forall ldlt, solves_spd ldlt -> forall d P c, cell_fits d P c -> forall (S : Type) k (plas : S -> bool) l,
  projects d P k l (fun s => if plas s then 1 else 0) (field c k (projectStateOnCell ldlt true (cl_elem c) k plas l)).
Proof.
  intros ldlt HS d P c HC S k plas l. split; [apply (fun_deg _ _ _ (cf_elem _ _ _ HC))|]. split; [apply (field_vars d P), HC|]. intros w Vw Dw.
  apply (scalar_weak ldlt HS d P c HC k _ (values l) (fun _ s => if plas s then 1 else 0)); try assumption.
  intros i. apply state_rhs_eq.
Qed.
(** without plasticity the fields are zero *)
Theorem C204_elastic : forall ldlt (S : Type) c k (eqp : S -> R) plas l x,
  peval (field c k (projectPOnCell ldlt false (cl_elem c) k eqp l)) x = 0 /\ peval (field c k (projectStateOnCell ldlt false (cl_elem c) k plas l)) x = 0.
Proof. intros. split; unfold field; rewrite peval_lincomb; apply sg_zero; intros; cbn; unfold zeroV; ring. Qed.
(** what a projection is good for: the total of the values is kept *)
Theorem C204_total : forall d P c, cell_fits d P c -> forall (S : Type) k (l : list (mpoint S)) g r, projects d P k l g r ->
  po_int P r = dsum (values l) (fun _ s => g s).
Proof.
  intros d P c HC S k l g r (_ & _ & H). pose proof (poly_int _ _ (cf_poly _ _ _ HC)) as HI.
  rewrite (I_ext _ _ HI r (PMul (PC 1) r)) by (intros x; cbn [peval]; ring). rewrite H; [|exact Logic.I|apply deg_le_const].
  apply dsum_ext. intros. cbn [peval]. ring.
Qed.
(** the values of a polynomial are replaced by its L2 projection, and a polynomial of the degree of the field is found *)
Lemma dsum_points c degree S (l : list (mpoint S)) f : points_of c degree l -> dsum (values l) (fun x _ => f x) = qsum (el_quad (cl_elem c) degree) f.
Proof. intros <-. induction l as [|q l IH]; [reflexivity|]. cbn. f_equal. exact IH. Qed.
Lemma dsum_in S (l : list (mpoint S)) f g : (forall q, In q l -> f (mp_x q) (mp_s q) = g (mp_x q) (mp_s q)) -> dsum (values l) f = dsum (values l) g.
Proof. induction l as [|q l IH]; intros H; [reflexivity|]. cbn. rewrite (H q (or_introl eq_refl)). f_equal. apply IH. intros; apply H; right; assumption. Qed.
Theorem C204_polynomial : forall d P c, cell_fits d P c -> forall (S : Type) k degree (l : list (mpoint S)) g r p m, projects d P k l g r ->
  points_of c degree l -> (forall q, In q l -> g (mp_s q) = peval p (mp_x q)) -> deg_le p m -> (k + m <= degree)%nat ->
  (forall w, pvars d w -> deg_le w k -> po_int P (PMul w r) = po_int P (PMul w p)) /\
  (pvars d p -> (m <= k)%nat -> forall x, po_on P x -> peval r x = peval p x).
Proof.
  intros d P c HC S k degree l g r p m (D & V & H) PO E Dp K. pose proof (poly_int _ _ (cf_poly _ _ _ HC)) as HI.
  assert (A : forall w, pvars d w -> deg_le w k -> po_int P (PMul w r) = po_int P (PMul w p)).
  { intros w Vw Dw. rewrite H by assumption. rewrite (dsum_in S l _ (fun x _ => peval (PMul w p) x)) by (intros q Hq; cbn [peval]; rewrite E by exact Hq; reflexivity).
    rewrite (dsum_points c degree S l _ PO). apply (exact_int _ _ HI _ (fit_quad _ _ _ (cf_elem _ _ _ HC))). apply (deg_le_mono _ (k + m)); [exact K|]. apply deg_le_mul; assumption. }
  split; [exact A|]. intros Vp Mk x Hx.
  apply (span_eq _ _ HI k _ _ _ _ (fit_basis _ _ _ (cf_elem _ _ _ HC) k)); try assumption; [apply (deg_le_mono _ m); assumption|].
  intros i Hi. apply A; [apply (cf_vars _ _ _ HC)|apply (basis_deg _ _ _ (cf_elem _ _ _ HC)), Hi].
Qed.
(** it is the best fit of the values in the sense of least squares, if the points integrate products exactly *)
Theorem C204_least_squares : forall d P c, cell_fits d P c -> forall (S : Type) k degree (l : list (mpoint S)) g r, projects d P k l g r ->
  points_of c degree l -> (2 * k <= degree)%nat -> forall v, pvars d v -> deg_le v k ->
  dsum (values l) (fun x s => (g s - peval r x) * (g s - peval r x)) <=
  dsum (values l) (fun x s => (g s - peval v x) * (g s - peval v x)).
Proof.
  intros d P c HC S k degree l g r (D & V & H) PO K v Vv Dv. pose proof (poly_int _ _ (cf_poly _ _ _ HC)) as HI.
  pose (w := psubp r v).
  assert (Vw : pvars d w) by (unfold w, psubp, pscal; cbn [pvars]; tauto). assert (Dw : deg_le w k) by (apply deg_le_sub; assumption).
  assert (EX : forall p q, deg_le p k -> deg_le q k -> dsum (values l) (fun x _ => peval (PMul p q) x) = po_int P (PMul p q)).
  { intros p q Dp Dq. rewrite (dsum_points c degree S l _ PO). apply (exact_int _ _ HI _ (fit_quad _ _ _ (cf_elem _ _ _ HC))).
    apply (deg_le_mono _ (k + k)); [lia|]. apply deg_le_mul; assumption. }
  rewrite (dsum_ext (values l) (fun x s => (g s - peval v x) * (g s - peval v x)) (fun x s => (g s - peval r x) * (g s - peval r x) +
    (2 * (peval w x * g s) + ((-2) * peval (PMul w r) x + peval (PMul w w) x)))) by (intros x s; unfold w, psubp, pscal; cbn [peval]; ring).
  rewrite !dsum_add, !dsum_scal. rewrite <- (H w Vw Dw), (EX w r Dw D), (EX w w Dw Dw). pose proof (I_sq_pos _ _ HI w). lra.
Qed.
(** there is only one *)
Theorem C204_unique : forall d P c, cell_fits d P c -> forall (S : Type) k (l : list (mpoint S)) g g' r r', projects d P k l g r -> projects d P k l g' r' ->
  (forall q, In q l -> g (mp_s q) = g' (mp_s q)) -> forall x, po_on P x -> peval r x = peval r' x.
Proof.
  intros d P c HC S k l g g' r r' (D & V & H) (D' & V' & H') E. pose proof (poly_int _ _ (cf_poly _ _ _ HC)) as HI.
  apply (span_eq _ _ HI k _ _ _ _ (fit_basis _ _ _ (cf_elem _ _ _ HC) k)); try assumption. intros i Hi.
  assert (Vi := cf_vars _ _ _ HC k i). assert (Di := basis_deg _ _ _ (cf_elem _ _ _ HC) k i Hi). rewrite H, H' by assumption.
  apply dsum_in. intros q Hq. rewrite (E q Hq). reflexivity.
Qed.

(** ** C205: each entry of the field of the stress is the projection of that entry at the points *)
Definition mfield (d : nat) (c : scell) (k : nat) (u : nat -> R) (a b : nat) : pexp :=
  vlin (v_size (mat_basis d (el_basis (cl_elem c) k))) u (v_comp (mat_basis d (el_basis (cl_elem c) k))) (d * a + b)%nat.
Theorem C205_stress : forall ldlt, solves_spd ldlt -> forall d P c, cell_fits d P c -> forall (S : Type) k (str : S -> mtx) l a b, (a < d)%nat -> (b < d)%nat ->
  projects d P k l (fun s => str s a b) (mfield d c k (projectStressOnCell ldlt d (cl_elem c) k str l) a b).
Proof.
  intros ldlt HS d P c HC S k str l a b Ha Hb. pose proof (poly_int _ _ (cf_poly _ _ _ HC)) as HI.
  destruct (matrix_weak ldlt HS d P c HC k str l) as (D & H). unfold mfield. split; [apply D; nia|]. split.
  - unfold vlin. generalize (v_size (mat_basis d (el_basis (cl_elem c) k))), (projectStressOnCell ldlt d (cl_elem c) k str l). intros n u.
    unfold lincomb. induction n as [|n IH]; cbn [psum pvars]; [exact Logic.I|]. split; [exact IH|]. split; [exact Logic.I|]. cbn [mat_basis v_comp]. destruct (_ =? _)%nat; [apply (cf_vars _ _ _ HC)|exact Logic.I].
  - intros w Vw Dw. set (r := vlin _ _ _) in *. pose (W := fun e => if (e =? d * a + b)%nat then w else PC 0).
    rewrite (I_ext _ _ HI (PMul w (r (d * a + b)%nat)) (vdot (d * d) W r)).
    + rewrite H.
      * apply dsum_ext. intros x s. rewrite (sg_ext d _ (fun i => if (a =? i)%nat then peval w x * str s i b else 0)); [apply (sg_pick0 d a (fun i => peval w x * str s i b)), Ha|].
        intros i Hi. destruct (Nat.eqb_spec a i) as [<-|N].
        -- rewrite (sg_ext d _ (fun j => if (b =? j)%nat then peval w x * str s a j else 0)); [apply (sg_pick0 d b (fun j => peval w x * str s a j)), Hb|].
           intros j Hj. unfold W. destruct (Nat.eqb_spec (d * a + j) (d * a + b)), (Nat.eqb_spec b j); try lia; cbn [peval]; ring.
        -- apply sg_zero. intros j Hj. unfold W. destruct (Nat.eqb_spec (d * i + j) (d * a + b)) as [E|E]; [|cbn [peval]; ring].
           exfalso. apply N. rewrite <- (idx_div d a b Hb), <- E. apply idx_div, Hj.
      * intros e He. unfold W. destruct (_ =? _)%nat; [exact Dw|apply deg_le_const].
      * intros e He. unfold W. destruct (_ =? _)%nat; [exact Vw|exact Logic.I].
    + intros x. rewrite peval_vdot. rewrite (sg_ext _ _ (fun e => if (d * a + b =? e)%nat then peval w x * peval (r e) x else 0)).
      * rewrite (sg_pick0 (d * d) (d * a + b) (fun e => peval w x * peval (r e) x)) by nia. reflexivity.
      * intros e He. unfold W. rewrite Nat.eqb_sym. destruct (_ =? _)%nat; cbn [peval]; ring.
Qed.
(** the field of symmetric stresses is symmetric *)
Theorem C205_symmetric : forall ldlt, solves_spd ldlt -> forall d P c, cell_fits d P c -> forall (S : Type) k (str : S -> mtx) l,
  (forall q, In q l -> forall a b, (a < d)%nat -> (b < d)%nat -> str (mp_s q) a b = str (mp_s q) b a) ->
  let u := projectStressOnCell ldlt d (cl_elem c) k str l in
  forall a b x, (a < d)%nat -> (b < d)%nat -> po_on P x -> peval (mfield d c k u a b) x = peval (mfield d c k u b a) x.
Proof.
  intros ldlt HS d P c HC S k str l Sy u a b x Ha Hb Hx.
  apply (C204_unique d P c HC S k l _ _ _ _ (C205_stress ldlt HS d P c HC S k str l a b Ha Hb) (C205_stress ldlt HS d P c HC S k str l b a Hb Ha)); [|exact Hx].
  intros q Hq. apply Sy; assumption.
Qed.

(** the hypotheses hold for the triangle (0,0), (2,0), (0,1): the plastic strain with value x + y at the points of a
    law of degree 2 is found, and so is a constant stress *)
Example C204_linear : forall l : list (mpoint R), points_of c1 2 l -> (forall q, In q l -> mp_s q = mp_x q 0%nat + mp_x q 1%nat) ->
  forall x, po_on T1 x -> peval (field c1 1 (projectPOnCell elim_solve true (cl_elem c1) 1 (fun s => s) l)) x = x 0%nat + x 1%nat.
Proof.
  intros l PO E x Hx. pose proof (C204_plastic_strain elim_solve elim_solves 2 T1 c1 c1_fits R 1 (fun s => s) l) as PR.
  destruct (C204_polynomial 2 T1 c1 c1_fits R 1 2 l _ _ (PAdd (PX 0) (PX 1)) 1 PR PO) as (_ & H); [exact E|apply deg_le_pdeg; cbn; lia|lia|].
  rewrite H; [reflexivity|cbn; lia|lia|exact Hx].
Qed.
Example C204_points : exists l : list (mpoint R), points_of c1 2 l /\ forall q, In q l -> mp_s q = mp_x q 0%nat + mp_x q 1%nat.
Proof.
  exists (map (fun q => mkPoint (fst q) (snd q) (fst q 0%nat + fst q 1%nat)) (el_quad (cl_elem c1) 2)). split.
  - unfold points_of. rewrite map_map. cbn [mp_x mp_w]. rewrite <- (map_id (el_quad (cl_elem c1) 2)) at 2. apply map_ext. intros [x w]. reflexivity.
  - intros q Hq. apply in_map_iff in Hq. destruct Hq as (p & <- & _). reflexivity.
Qed.
Example C205_constant : forall l : list (mpoint unit), points_of c1 2 l -> forall x, po_on T1 x ->
  peval (mfield 2 c1 1 (projectStressOnCell elim_solve 2 (cl_elem c1) 1 (fun _ a b => INR a + 3 * INR b) l) 0 1) x = 3.
Proof.
  intros l PO x Hx. pose proof (C205_stress elim_solve elim_solves 2 T1 c1 c1_fits unit 1 (fun _ a b => INR a + 3 * INR b) l 0 1 ltac:(lia) ltac:(lia)) as PR.
  destruct (C204_polynomial 2 T1 c1 c1_fits unit 1 2 l _ _ (PC 3) 0 PR PO) as (_ & H); [intros; cbn; lra|apply deg_le_const|lia|].
  rewrite H; [reflexivity|exact Logic.I|lia|exact Hx].
Qed.

Print Assumptions C203_points.
Print Assumptions C203_fresh.
Print Assumptions C203_update.
Print Assumptions C203_local.
Print Assumptions C204_plastic_strain.
Print Assumptions C204_state.
Print Assumptions C204_elastic.
Print Assumptions C204_total.
Print Assumptions C204_polynomial.
Print Assumptions C204_least_squares.
Print Assumptions C204_unique.
Print Assumptions C205_stress.
Print Assumptions C205_symmetric.
