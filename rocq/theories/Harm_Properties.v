(** Properties C22, C85: the harmonic enrichment of the scalar bases. *)
From Coq Require Import List Arith ZArith Reals Lia Lra Bool.
From Verif Require Import Common Tensor_Spec Law2_Proofs Bases_Model Bases_Spec Bases_Proofs Bases2_Proofs Bases3_Proofs Harm_Spec Harm_Model Harm_Proofs Harm2_Proofs Harm3_Proofs.
Import ListNotations.
Open Scope R_scope.

(** the objects a program can hold: constructed, then any number of calls of maximum_polynomial_degree(pd) *)
Inductive held (d fbd : nat) : hbasis -> Prop :=
| held_make : held d fbd (harm_make d fbd)
| held_set B pd B' : held d fbd B -> set_poly_degree d pd B = Ok B' -> held d fbd B'.
Lemma held_state d fbd B : d = 2%nat \/ d = 3%nat -> held d fbd B -> exists pd, (pd <= fbd)%nat /\ B = state d fbd pd.
Proof.
  intros D H. induction H as [|B p B' H (pd & L & ->) E]; [exists fbd; split; [lia|apply make_state]|].
  rewrite (set_state d fbd pd p D) in E. injection E as <-. eexists. split; [|reflexivity]. destruct (Nat.leb_spec p fbd); lia.
Qed.

(** ** C85: sizes after any history of calls *)
Theorem C85_last_call_wins d fbd B pd : d = 2%nat \/ d = 3%nat -> held d fbd B ->
  exists B', set_poly_degree d pd B = Ok B' /\ full_degree B' = fbd /\ (poly_degree B' <= fbd)%nat /\
    poly_degree B' = (if (pd <=? fbd)%nat then pd else poly_degree B).
Proof.
  intros D H. destruct (held_state d fbd B D H) as (p & L & ->). exists (state d fbd (if (pd <=? fbd)%nat then pd else p)). split; [apply set_state, D|]. cbn.
  repeat split. destruct (Nat.leb_spec pd fbd); lia.
Qed.
Theorem C85_sizes d fbd B n : d = 2%nat \/ d = 3%nat -> held d fbd B -> fits (poly_degree B) d -> is_binomial (poly_degree B) d n ->
  poly_size B = n /\ full_size B = (n + harm_size B)%nat /\
  (harm_size B + (if (d =? 2)%nat then 2 * poly_degree B + 1 else (poly_degree B + 1) * (poly_degree B + 1)) =
    (if (d =? 2)%nat then 2 * fbd + 1 else (fbd + 1) * (fbd + 1)))%nat.
Proof.
  intros D H F N. destruct (held_state d fbd B D H) as (p & L & ->). cbn [poly_degree poly_size full_size harm_size state] in *. rewrite (scalar_size_spec p d n F N).
  split; [reflexivity|]. split; [reflexivity|]. unfold hsz. destruct D as [-> | ->]; cbn [Nat.eqb]; nia.
Qed.
Theorem C85_other_dimensions k d : d <> 2%nat -> d <> 3%nat -> harmonic_basis_size k d = Throw InvalidArgument.
Proof. intros H2 H3. unfold harmonic_basis_size. destruct (Nat.eqb_spec d 2); [contradiction|]. destruct (Nat.eqb_spec d 3); [contradiction|reflexivity]. Qed.
Print Assumptions C85_last_call_wins.
Print Assumptions C85_sizes.
Print Assumptions C85_other_dimensions.
Example C85_ex : exists B, held 2 4 B /\ poly_degree B = 1%nat /\ full_size B = 9%nat.
Proof. exists (state 2 4 1). split; [|split; reflexivity]. eapply held_set; [apply held_make|]. rewrite make_state. apply (set_state 2 4 4 1). auto. Qed.

(** ** C22 in the plane *)
Theorem C22_plane_functions fbd B : held 2 fbd B -> fits (poly_degree B) 2 ->
  exists E, enumerates (poly_degree B) 2 E /\ length E = poly_size B /\ forall bar len diam x,
    top2_functions B (box_frame bar len) bar diam x =
      Ok (map (fun a => monomial a (fun i => 2 / len i * (x i - bar i)) 0) E ++
          flat_map (fun n => [cre (rel bar diam x 0) (rel bar diam x 1) n; cim (rel bar diam x 0) (rel bar diam x 1) n])
            (seq (S (poly_degree B)) (fbd - poly_degree B))).
Proof.
  intros H Fit. destruct (held_state 2 fbd B ltac:(auto) H) as (pd & L & ->). cbn [poly_degree poly_size state] in *.
  exists (map as2 (exps2 pd)). split; [apply enum2|]. split; [rewrite map_length; symmetry; apply size2, Fit|]. intros bar len diam x. rewrite (top2_eval fbd pd L Fit). f_equal. f_equal.
  rewrite map_map. apply map_ext. intros e. rewrite monomial2. unfold mono2, scaling_point, passage, scaling_factor, box_frame. cbn [sig f_axes f_len f_bar Nat.eqb].
  f_equal; f_equal; ring.
Qed.
Lemma harmonic2_rel f bar diam : harmonic2 f -> harmonic2 (fun s t => f (rel bar diam (xy s t) 0) (rel bar diam (xy s t) 1)).
Proof.
  intros (fx & fy & fxx & fyy & H1 & H2 & H3 & H4 & H5). unfold rel. cbn [xy].
  exists (fun s t => fx (2 * (s - bar 0%nat) / diam) (2 * (t - bar 1%nat) / diam) * (2 / diam)), (fun s t => fy (2 * (s - bar 0%nat) / diam) (2 * (t - bar 1%nat) / diam) * (2 / diam)),
    (fun s t => fxx (2 * (s - bar 0%nat) / diam) (2 * (t - bar 1%nat) / diam) * (2 / diam) * (2 / diam)), (fun s t => fyy (2 * (s - bar 0%nat) / diam) (2 * (t - bar 1%nat) / diam) * (2 / diam) * (2 / diam)).
  assert (A : forall b s, dlim (fun t => 2 * (t - b) / diam) s (2 / diam)).
  { intros b s. eapply d_ext; [|apply (d_aff (- (2 * b / diam)) (2 / diam))]. intros t. cbv beta. unfold Rdiv. ring. }
  split; [|split; [|split; [|split]]].
  - intros s t. apply (d_comp (fun s => 2 * (s - bar 0%nat) / diam) (fun u => f u (2 * (t - bar 1%nat) / diam))); [apply A|apply H1].
  - intros s t. apply (d_comp (fun s => 2 * (s - bar 1%nat) / diam) (fun u => f (2 * (s - bar 0%nat) / diam) u)); [apply A|apply H2].
  - intros s t. match goal with |- derivable_pt_lim ?g ?a ?l => change (dlim g a l) end. eapply d_eq; [|apply d_mult; [apply (d_comp (fun s => 2 * (s - bar 0%nat) / diam) (fun u => fx u (2 * (t - bar 1%nat) / diam)) _ (2 / diam)); [apply A|apply H3]|apply d_const]]. cbv beta. ring.
  - intros s t. match goal with |- derivable_pt_lim ?g ?a ?l => change (dlim g a l) end. eapply d_eq; [|apply d_mult; [apply (d_comp (fun s => 2 * (s - bar 1%nat) / diam) (fun u => fy (2 * (s - bar 0%nat) / diam) u) _ (2 / diam)); [apply A|apply H4]|apply d_const]]. cbv beta. ring.
  - intros s t. cbv beta. specialize (H5 (2 * (s - bar 0%nat) / diam) (2 * (t - bar 1%nat) / diam)).
    set (q := 2 / diam). transitivity ((fxx (2 * (s - bar 0%nat) / diam) (2 * (t - bar 1%nat) / diam) + fyy (2 * (s - bar 0%nat) / diam) (2 * (t - bar 1%nat) / diam)) * q * q); [ring|]. rewrite H5. ring.
Qed.
Lemma harmonic2_ext f g : (forall x y, f x y = g x y) -> harmonic2 f -> harmonic2 g.
Proof.
  intros E (fx & fy & fxx & fyy & H1 & H2 & H). exists fx, fy, fxx, fyy.
  split; [intros x y; apply (d_ext (fun t => f t y)); [intros; apply E|apply H1]|].
  split; [intros x y; apply (d_ext (fun t => f x t)); [intros; apply E|apply H2]|exact H].
Qed.
(** the list of pairs as a list indexed by (real or imaginary part, degree) *)
Definition pidx (s k : nat) : list (bool * nat) := pairs (pair true) (pair false) s k.
Lemma pairs_map {A} (g h : nat -> A) s k : pairs g h s k = map (fun i : bool * nat => if fst i then g (snd i) else h (snd i)) (pidx s k).
Proof. unfold pidx, pairs. rewrite !flat_map_concat_map, concat_map, map_map. reflexivity. Qed.
Definition cpart (x y : R) (i : bool * nat) : R := if fst i then cre x y (snd i) else cim x y (snd i).
Theorem C22_plane_harmonic fbd B bar len diam j : held 2 fbd B -> fits (poly_degree B) 2 -> (poly_size B <= j < full_size B)%nat ->
  harmonic2 (fun s t => function_of (top2_functions B (box_frame bar len) bar diam) j (xy s t)).
Proof.
  intros H Fit J. destruct (held_state 2 fbd B ltac:(auto) H) as (pd & L & ->). cbn [poly_degree poly_size full_size state] in *. rewrite (hs2 fbd pd L), (size2 pd Fit) in *.
  set (k := (j - length (exps2 pd))%nat). destruct (nth_error (pidx (S pd) (fbd - pd)) k) as [i|] eqn:E.
  2: { apply nth_error_None in E. unfold pidx in E. rewrite len_pairs in E. unfold k in E. lia. }
  apply (harmonic2_ext (fun s t => cpart (rel bar diam (xy s t) 0) (rel bar diam (xy s t) 1) i)).
  - intros s t. unfold function_of. rewrite (top2_eval fbd pd L Fit). rewrite app_nth2 by (rewrite map_length; lia). rewrite map_length. fold k. rewrite pairs_map. symmetry.
    apply nth_error_nth. rewrite (map_nth_error _ _ _ E). reflexivity.
  - apply (harmonic2_rel (fun x y => cpart x y i)). unfold cpart. destruct (fst i); [apply harmonic_cre|apply harmonic_cim].
Qed.
Print Assumptions C22_plane_functions.
Print Assumptions C22_plane_harmonic.

(** gradients of a basis up to a factor on the functions from [p] on *)
Definition gradients_up_to (factor : R) (p d size : nat) (eval : (nat -> R) -> outcome (list R)) (grad : (nat -> R) -> outcome (list (list R))) : Prop :=
  forall x, exists G, grad x = Ok G /\ length G = size /\
    forall j, (j < size)%nat -> exists row, nth_error G j = Some row /\ length row = d /\
      forall c, (c < d)%nat -> derivable_pt_lim (fun t => function_of eval j (move x c t)) (x c) ((if (j <? p)%nat then 1 else factor) * nth c row 0).
Lemma d_rel (bar : nat -> R) diam x c : dlim (fun t => 2 * (t - bar c) / diam) x (2 / diam).
Proof. eapply d_ext; [|apply (d_aff (- (2 * bar c / diam)) (2 / diam))]. intros t. cbv beta. unfold Rdiv. ring. Qed.
(** the polynomial rows are gradients; the harmonic rows lack the factor 2/diam *)
Theorem C22_plane_gradients_partial fbd B bar len diam : held 2 fbd B -> fits (poly_degree B) 2 ->
  gradients_up_to (2 / diam) (poly_size B) 2 (full_size B) (top2_functions B (box_frame bar len) bar diam) (top2_gradients B (box_frame bar len) bar diam).
Proof.
  intros H Fit. destruct (held_state 2 fbd B ltac:(auto) H) as (pd & L & ->). cbn [poly_degree poly_size full_size state] in *. rewrite (hs2 fbd pd L), (size2 pd Fit) in *.
  intros x. eexists. split; [apply (top2_grad fbd pd L Fit)|]. split; [rewrite app_length, map_length, len_pairs; lia|]. intros j J. destruct (Nat.ltb_spec j (length (exps2 pd))) as [Hj|Hj].
  - destruct (nth_error (exps2 pd) j) as [e|] eqn:E; [|apply nth_error_None in E; lia]. exists (mrow bar len x e). split; [rewrite nth_error_app1 by (rewrite map_length; lia); apply map_nth_error, E|].
    split; [reflexivity|]. intros c Hc.
    apply (d_ext (fun t => mono2 (box_frame bar len) (move x c t) e)).
    { intros t. unfold function_of. rewrite (top2_eval fbd pd L Fit). rewrite app_nth1 by (rewrite map_length; lia). symmetry. apply nth_error_nth. apply map_nth_error, E. }
    unfold mono2. eapply d_eq; [|apply d_prod2; apply d_loc; exact Hc]. cbv beta. rewrite !sp_same. unfold mrow. destruct c as [|[|c]]; [| |lia]; cbn [nth]; unfold passage, box_frame; cbn [f_axes Nat.eqb]; ring.
  - set (k := (j - length (exps2 pd))%nat). destruct (nth_error (pidx (S pd) (fbd - pd)) k) as [i|] eqn:E.
    2: { apply nth_error_None in E. unfold pidx in E. rewrite len_pairs in E. unfold k in E. lia. }
    set (X := hep bar diam x 0). set (Y := hep bar diam x 1).
    exists (if fst i then gre X Y (snd i) else gim X Y (snd i)). split; [|split].
    + rewrite nth_error_app2 by (rewrite map_length; lia). rewrite map_length. fold k. rewrite pairs_map. rewrite (map_nth_error _ _ _ E). reflexivity.
    + destruct (fst i); reflexivity.
    + intros c Hc. apply (d_ext (fun t => cpart (hep bar diam (move x c t) 0) (hep bar diam (move x c t) 1) i)).
      { intros t. unfold function_of. rewrite (top2_eval fbd pd L Fit). rewrite app_nth2 by (rewrite map_length; lia). rewrite map_length. fold k. rewrite pairs_map. symmetry.
        apply nth_error_nth. rewrite (map_nth_error _ _ _ E). reflexivity. }
      rewrite Rmult_comm. unfold cpart, hep, move. destruct (d_cpow_y X Y (snd i)) as (D1 & D2). destruct (d_cpow_z X Y (snd i)) as (D3 & D4).
      destruct c as [|[|c]]; [| |lia]; cbn [Nat.eqb]; destruct (fst i); unfold gre, gim; cbn [nth]; fold (hep bar diam x 0) (hep bar diam x 1); fold X Y.
      * apply (d_comp (fun t => 2 * (t - bar 0%nat) / diam) (fun u => cre u Y (snd i))); [apply d_rel|exact D1].
      * apply (d_comp (fun t => 2 * (t - bar 0%nat) / diam) (fun u => cim u Y (snd i))); [apply d_rel|exact D2].
      * apply (d_comp (fun t => 2 * (t - bar 1%nat) / diam) (fun u => cre X u (snd i))); [apply d_rel|exact D3].
      * apply (d_comp (fun t => 2 * (t - bar 1%nat) / diam) (fun u => cim X u (snd i))); [apply d_rel|exact D4].
Qed.
(** hence on a cell of diameter two they are gradients *)
Theorem C22_plane_gradients_diam2_partial fbd B bar len : held 2 fbd B -> fits (poly_degree B) 2 ->
  gradients_ok 2 (full_size B) (top2_functions B (box_frame bar len) bar 2) (top2_gradients B (box_frame bar len) bar 2).
Proof.
  intros H Fit x. destruct (C22_plane_gradients_partial fbd B bar len 2 H Fit x) as (G & E & LG & K). exists G. split; [exact E|]. split; [exact LG|]. intros j J. destruct (K j J) as (row & N & LR & D).
  exists row. split; [exact N|]. split; [exact LR|]. intros c Hc. specialize (D c Hc). replace (2 / 2) with 1 in D by field. destruct (j <? poly_size B)%nat; rewrite Rmult_1_l in D; exact D.
Qed.
(** and on no other: for a harmonic part of degree one already the gradient of x is wrong *)
Theorem C22_plane_gradients_refuted bar len diam : diam <> 2 -> diam <> 0 ->
  exists B, held 2 1 B /\ ~ gradients_ok 2 (full_size B) (top2_functions B (box_frame bar len) bar diam) (top2_gradients B (box_frame bar len) bar diam).
Proof.
  intros H2 H0. assert (HB : held 2 1 (state 2 1 0)) by (eapply held_set; [apply held_make|rewrite make_state; apply (set_state 2 1 1 0); auto]).
  assert (Fit : fits 0 2) by (unfold fits; cbn; lia). exists (state 2 1 0). split; [exact HB|]. intros K. set (x := bar).
  destruct (K x) as (G & E & LG & D). destruct (C22_plane_gradients_partial 1 (state 2 1 0) bar len diam HB Fit x) as (G' & E' & LG' & D'). rewrite E in E'. injection E' as <-.
  assert (FS : full_size (state 2 1 0) = 3%nat) by reflexivity. assert (PS : poly_size (state 2 1 0) = 1%nat) by reflexivity. rewrite FS in *. rewrite PS in *.
  destruct (D 1%nat ltac:(lia)) as (row & N & LR & DD). destruct (D' 1%nat ltac:(lia)) as (row' & N' & LR' & DD'). rewrite N in N'. injection N' as <-.
  specialize (DD 0%nat ltac:(lia)). specialize (DD' 0%nat ltac:(lia)). cbn [Nat.ltb Nat.leb] in DD'. pose proof (uniqueness_limite _ _ _ _ DD DD') as U.
  assert (R1 : nth 0 row 0 = 1).
  { rewrite (top2_grad 1 0 ltac:(lia) Fit) in E. injection E as <-. cbn [exps2 map app pairs flat_map seq nth_error Nat.sub] in N. unfold exps2, pairs in N. cbn in N. injection N as <-. cbn. unfold cre. cbn. ring. }
  rewrite R1 in U. apply H2. apply (Rmult_eq_reg_l (/ diam)); [|apply Rinv_neq_0_compat, H0]. rewrite Rinv_l by exact H0. unfold Rdiv in U. lra.
Qed.
Print Assumptions C22_plane_gradients_partial.
Print Assumptions C22_plane_gradients_diam2_partial.
Print Assumptions C22_plane_gradients_refuted.

(** ** C22 in space *)
(** the point is not on the line through the barycenter parallel to the x axis *)
Definition off_line (bar x : nat -> R) : Prop := x 1%nat <> bar 1%nat \/ x 2%nat <> bar 2%nat.
Lemma off_line_axis bar diam x : diam <> 0 -> off_line bar x -> off_axis bar diam x.
Proof.
  intros D H. unfold off_axis, hep. intros E.
  assert (S1 : 0 <= (2 * (x 1%nat - bar 1%nat) / diam) * (2 * (x 1%nat - bar 1%nat) / diam)) by apply Rle_0_sqr.
  assert (S2 : 0 <= (2 * (x 2%nat - bar 2%nat) / diam) * (2 * (x 2%nat - bar 2%nat) / diam)) by apply Rle_0_sqr.
  assert (Z : forall i, (2 * (x i - bar i) / diam) * (2 * (x i - bar i) / diam) = 0 -> x i = bar i).
  { intros i Q. assert (Q' : 2 * (x i - bar i) / diam = 0) by (apply Rmult_integral in Q; destruct Q; assumption).
    assert (Q2 : x i - bar i = (2 * (x i - bar i) / diam) * diam / 2) by (field; exact D). rewrite Q' in Q2. lra. }
  destruct H as [H|H]; apply H; apply Z; lra.
Qed.
Theorem C22_space_functions_partial fbd B : held 3 fbd B -> fits (poly_degree B) 3 ->
  exists E, enumerates (poly_degree B) 3 E /\ length E = poly_size B /\ forall bar len diam x, diam <> 0 -> off_line bar x ->
    top3_functions B (box_frame bar len) bar diam x =
      Ok (map Some (map (fun a => monomial a (fun i => 2 / len i * (x i - bar i)) 0) E ++
          flat_map (fun n => map (fun m => solid_c n m (rel bar diam x 0) (rel bar diam x 1) (rel bar diam x 2)) (seq 0 (S n)) ++
                             map (fun m => solid_s n m (rel bar diam x 0) (rel bar diam x 1) (rel bar diam x 2)) (seq 1 n))
            (seq (S (poly_degree B)) (fbd - poly_degree B)))).
Proof.
  intros H Fit. destruct (held_state 3 fbd B ltac:(auto) H) as (pd & L & ->). cbn [poly_degree poly_size state] in *.
  exists (map as3 (exps3 pd)). split; [apply enum3|]. split; [rewrite map_length; symmetry; apply size3, Fit|]. intros bar len diam x D OL. rewrite (top3_eval fbd pd L Fit) by (right; apply off_line_axis; assumption). f_equal. f_equal. f_equal.
  rewrite map_map. apply map_ext. intros e. rewrite monomial3. unfold mono3, scaling_point, passage, scaling_factor, box_frame. cbn [sig f_axes f_len f_bar Nat.eqb].
  f_equal; [f_equal|]; f_equal; ring.
Qed.
(** the listed functions are harmonic, everywhere, whatever their index *)
Theorem C22_space_harmonic n m bar diam : harmonic3 (fun s t u => solid_c n m (rel bar diam (xyz s t u) 0) (rel bar diam (xyz s t u) 1) (rel bar diam (xyz s t u) 2)) /\
  harmonic3 (fun s t u => solid_s n m (rel bar diam (xyz s t u) 0) (rel bar diam (xyz s t u) 1) (rel bar diam (xyz s t u) 2)).
Proof.
  assert (K : forall f, harmonic3 f -> harmonic3 (fun s t u => f (rel bar diam (xyz s t u) 0) (rel bar diam (xyz s t u) 1) (rel bar diam (xyz s t u) 2))).
  { intros f (fx & fy & fz & fxx & fyy & fzz & H1 & H2 & H3 & H4 & H5 & H6 & H7). unfold rel. cbn [xyz].
    set (X := fun s => 2 * (s - bar 0%nat) / diam). set (Y := fun s => 2 * (s - bar 1%nat) / diam). set (Z := fun s => 2 * (s - bar 2%nat) / diam). set (q := 2 / diam).
    change (harmonic3 (fun s t u => f (X s) (Y t) (Z u))).
    exists (fun s t u => fx (X s) (Y t) (Z u) * q), (fun s t u => fy (X s) (Y t) (Z u) * q), (fun s t u => fz (X s) (Y t) (Z u) * q),
      (fun s t u => fxx (X s) (Y t) (Z u) * q * q), (fun s t u => fyy (X s) (Y t) (Z u) * q * q), (fun s t u => fzz (X s) (Y t) (Z u) * q * q).
    assert (AX : forall s, dlim X s q) by (intros; apply d_rel). assert (AY : forall s, dlim Y s q) by (intros; apply d_rel). assert (AZ : forall s, dlim Z s q) by (intros; apply d_rel).
    split; [intros s t u; apply (d_comp X (fun v => f v (Y t) (Z u))); [apply AX|apply H1]|].
    split; [intros s t u; apply (d_comp Y (fun v => f (X s) v (Z u))); [apply AY|apply H2]|].
    split; [intros s t u; apply (d_comp Z (fun v => f (X s) (Y t) v)); [apply AZ|apply H3]|].
    split; [|split; [|split]].
    - intros s t u. match goal with |- derivable_pt_lim ?g ?a ?l => change (dlim g a l) end. eapply d_eq; [|apply d_mult; [apply (d_comp X (fun v => fx v (Y t) (Z u)) _ q); [apply AX|apply H4]|apply d_const]]. cbv beta. ring.
    - intros s t u. match goal with |- derivable_pt_lim ?g ?a ?l => change (dlim g a l) end. eapply d_eq; [|apply d_mult; [apply (d_comp Y (fun v => fy (X s) v (Z u)) _ q); [apply AY|apply H5]|apply d_const]]. cbv beta. ring.
    - intros s t u. match goal with |- derivable_pt_lim ?g ?a ?l => change (dlim g a l) end. eapply d_eq; [|apply d_mult; [apply (d_comp Z (fun v => fz (X s) (Y t) v) _ q); [apply AZ|apply H6]|apply d_const]]. cbv beta. ring.
    - intros s t u. cbv beta. specialize (H7 (X s) (Y t) (Z u)). transitivity ((fxx (X s) (Y t) (Z u) + fyy (X s) (Y t) (Z u) + fzz (X s) (Y t) (Z u)) * q * q); [ring|]. rewrite H7. ring. }
  split; [apply (K (solid_c n m)), solid_c_harmonic|apply (K (solid_s n m)), solid_s_harmonic].
Qed.
Print Assumptions C22_space_functions_partial.
Print Assumptions C22_space_harmonic.

(** the value of function j, 0 if it is not finite *)
Definition value3 (eval : (nat -> R) -> outcome (list fl)) (j : nat) (x : nat -> R) : R :=
  match eval x with Ok l => match nth j l None with Some v => v | None => 0 end | _ => 0 end.
Definition ridx (s k : nat) : list (bool * nat * nat) := rows (fun n m => (true, n, m)) (fun n m => (false, n, m)) s k.
Lemma rows_map {A} (g h : nat -> nat -> A) s k : rows g h s k = map (fun i : bool * nat * nat => if fst (fst i) then g (snd (fst i)) (snd i) else h (snd (fst i)) (snd i)) (ridx s k).
Proof. unfold ridx, rows. rewrite !flat_map_concat_map, concat_map, map_map. f_equal. apply map_ext. intros n. rewrite map_app, !map_map. reflexivity. Qed.
Lemma ridx_in s k b n m : In (b, n, m) (ridx s k) -> (m <= n)%nat.
Proof. unfold ridx, rows. intros H. apply in_flat_map in H. destruct H as (n' & _ & H). apply in_app_or in H. destruct H as [H|H]; apply in_map_iff in H; destruct H as (m' & E & H); apply in_seq in H; injection E as <- <- <-; lia. Qed.
Definition spart (x y z : R) (i : bool * nat * nat) : R := if fst (fst i) then solid_c (snd (fst i)) (snd i) x y z else solid_s (snd (fst i)) (snd i) x y z.
Lemma off_axis_near bar diam x c : (c < 3)%nat -> off_axis bar diam x -> exists d, 0 < d /\ forall t, Rabs (t - x c) < d -> off_axis bar diam (move x c t).
Proof.
  intros Hc H. set (f := fun t => hep bar diam (move x c t) 1 * hep bar diam (move x c t) 1 + hep bar diam (move x c t) 2 * hep bar diam (move x c t) 2).
  assert (D : exists l, dlim f (x c) l).
  { unfold f, hep, move. destruct c as [|[|[|c]]]; [| | |lia]; cbn [Nat.eqb]; eexists.
    - apply d_const.
    - apply d_plus; [apply d_mult; apply d_rel|apply d_const].
    - apply d_plus; [apply d_const|apply d_mult; apply d_rel]. }
  destruct D as (l & D). assert (C : continuity_pt f (x c)) by (apply derivable_continuous_pt; exists l; exact D).
  assert (N : f (x c) <> 0) by (unfold f, hep; rewrite !move_same; exact H).
  destruct (continuous_neq_0 f (x c) C N) as ((d & Hd) & K). exists d. split; [exact Hd|]. intros t Ht. replace t with (x c + (t - x c)) by ring. apply (K (t - x c)). exact Ht.
Qed.
Theorem C22_space_gradients_partial fbd B bar len diam x : held 3 fbd B -> fits (poly_degree B) 3 -> diam <> 0 -> off_line bar x ->
  exists G, top3_gradients B (box_frame bar len) bar diam x = Ok G /\ length G = full_size B /\
    forall j, (j < full_size B)%nat -> exists row, nth_error G j = Some (map Some row) /\ length row = 3%nat /\
      forall c, (c < 3)%nat -> derivable_pt_lim (fun t => value3 (top3_functions B (box_frame bar len) bar diam) j (move x c t)) (x c)
        ((if (j <? poly_size B)%nat then 1 else 2 / diam) * nth c row 0).
Proof.
  intros H Fit ND OL. apply (off_line_axis bar diam x ND) in OL. destruct (held_state 3 fbd B ltac:(auto) H) as (pd & L & ->). cbn [poly_degree poly_size full_size state] in *.
  set (F := box_frame bar len). set (X := hep bar diam x 0). set (Y := hep bar diam x 1). set (Z := hep bar diam x 2).
  rewrite (hs3 fbd pd L (gc X Y Z) (gs X Y Z)), (size3 pd Fit) in *.
  eexists. split; [apply (top3_grad fbd pd L Fit); right; exact OL|]. fold X Y Z. split; [rewrite map_length, app_length, map_length; reflexivity|]. intros j J.
  destruct (Nat.ltb_spec j (length (exps3 pd))) as [Hj|Hj].
  - destruct (nth_error (exps3 pd) j) as [e|] eqn:E; [|apply nth_error_None in E; lia]. exists (row3 F x e).
    split; [apply map_nth_error; rewrite nth_error_app1 by (rewrite map_length; lia); apply map_nth_error, E|]. split; [destruct e as [[]]; reflexivity|]. intros c Hc.
    destruct (off_axis_near bar diam x c Hc OL) as (d & Hd & Near).
    apply (d_local (fun t => mono3 F (move x c t) e) _ _ _ d Hd).
    { intros t Ht. unfold value3. rewrite (top3_eval fbd pd L Fit) by (right; apply Near, Ht). rewrite map_app, app_nth1 by (rewrite !map_length; lia).
      rewrite (nth_error_nth (map Some (map (mono3 F (move x c t)) (exps3 pd))) j None (x := Some (mono3 F (move x c t) e))); [reflexivity|]. do 2 apply map_nth_error. exact E. }
    unfold mono3. destruct e as [[a b] c']. cbn [fst snd]. eapply d_eq; [|apply d_prod3; apply d_loc; exact Hc]. cbv beta. rewrite !sp_same. unfold row3. cbn [map]. destruct c as [|[|[|c]]]; [| | |lia]; cbn [nth]; ring.
  - set (k := (j - length (exps3 pd))%nat). rewrite (rows_map (gc X Y Z) (gs X Y Z)) in *. rewrite map_length in J. destruct (nth_error (ridx (S pd) (fbd - pd)) k) as [i|] eqn:E.
    2: { apply nth_error_None in E. unfold k in E. lia. }
    destruct i as [[b n] m]. pose proof (ridx_in _ _ _ _ _ (nth_error_In _ _ E)) as Lm.
    exists (if b then gc X Y Z n m else gs X Y Z n m). split; [|split].
    + apply map_nth_error. rewrite nth_error_app2 by (rewrite map_length; lia). rewrite map_length. fold k. rewrite (map_nth_error _ _ _ E). reflexivity.
    + destruct b; reflexivity.
    + intros c Hc. destruct (off_axis_near bar diam x c Hc OL) as (d & Hd & Near).
      apply (d_local (fun t => spart (hep bar diam (move x c t) 0) (hep bar diam (move x c t) 1) (hep bar diam (move x c t) 2) (b, n, m)) _ _ _ d Hd).
      { intros t Ht. unfold value3. rewrite (top3_eval fbd pd L Fit) by (right; apply Near, Ht). rewrite map_app, app_nth2 by (rewrite !map_length; lia). rewrite !map_length. fold k. rewrite rows_map, map_map.
        erewrite (nth_error_nth (map _ _) k None); [|apply (map_nth_error _ _ _ E)]. reflexivity. }
      rewrite Rmult_comm. unfold spart, hep, move. destruct (d_solid_x n m X Y Z Lm) as (D1 & D2). unfold off_axis in OL. fold Y Z in OL.
      pose proof (d_solid_c_y n m X Y Z Lm _ eq_refl OL) as D3. pose proof (d_solid_s_y n m X Y Z Lm _ eq_refl OL) as D4.
      pose proof (d_solid_c_z n m X Y Z Lm _ eq_refl OL) as D5. pose proof (d_solid_s_z n m X Y Z Lm _ eq_refl OL) as D6.
      destruct c as [|[|[|c]]]; [| | |lia]; cbn [Nat.eqb fst snd]; destruct b; unfold gc, gs, grow; cbn [nth]; fold (hep bar diam x 0) (hep bar diam x 1) (hep bar diam x 2); fold X Y Z.
      * apply (d_comp (fun t => 2 * (t - bar 0%nat) / diam) (fun u => solid_c n m u Y Z)); [apply d_rel|exact D1].
      * apply (d_comp (fun t => 2 * (t - bar 0%nat) / diam) (fun u => solid_s n m u Y Z)); [apply d_rel|exact D2].
      * apply (d_comp (fun t => 2 * (t - bar 1%nat) / diam) (fun u => solid_c n m X u Z)); [apply d_rel|]. eapply d_eq; [|exact D3]. ring.
      * apply (d_comp (fun t => 2 * (t - bar 1%nat) / diam) (fun u => solid_s n m X u Z)); [apply d_rel|]. eapply d_eq; [|exact D4]. unfold Rdiv. ring.
      * apply (d_comp (fun t => 2 * (t - bar 2%nat) / diam) (fun u => solid_c n m X Y u)); [apply d_rel|]. eapply d_eq; [|exact D5]. unfold Rdiv. ring.
      * apply (d_comp (fun t => 2 * (t - bar 2%nat) / diam) (fun u => solid_s n m X Y u)); [apply d_rel|]. eapply d_eq; [|exact D6]. unfold Rdiv. ring.
Qed.
Print Assumptions C22_space_gradients_partial.
(** on the line itself the functions of degree two and the gradients of degree one are not finite *)
Theorem C22_space_functions_refuted bar len diam x : x 1%nat = bar 1%nat -> x 2%nat = bar 2%nat ->
  exists B l, held 3 2 B /\ top3_functions B (box_frame bar len) bar diam x = Ok l /\ In None l.
Proof.
  intros E1 E2. exists (state 3 2 0). assert (HB : held 3 2 (state 3 2 0)) by (eapply held_set; [apply held_make|rewrite make_state; apply (set_state 3 2 2 0); auto]).
  set (X := hep bar diam x 0). assert (H1 : hep bar diam x 1 = 0) by (unfold hep; rewrite E1; unfold Rdiv; ring). assert (H2 : hep bar diam x 2 = 0) by (unfold hep; rewrite E2; unfold Rdiv; ring).
  assert (K : exists h, eval_harmonic3 2 X 0 0 = Ok h /\ length h = 9%nat /\ nth_error h 5 = Some None).
  { unfold eval_harmonic3, eval_cs. cbn [harmonic_basis_size Nat.eqb bind Nat.add Nat.mul seq fold_left]. cbn [mset Nat.ltb Nat.leb andb bind].
    unfold cs_step, cs_ladder, cs_up. cbn [Nat.add Nat.leb Nat.ltb Nat.sub andb bind mset mget]. unfold mget, mset. cbn [Nat.add Nat.leb Nat.ltb Nat.sub Nat.eqb andb bind].
    unfold fdiv. assert (Z : forall a, a * (0 * 0 + 0 * 0) = 0) by (intros; ring). rewrite !Z. destruct (Req_EM_T 0 0) as [_|N]; [|contradiction]. cbn [fmul fl2].
    unfold ret_of, oput, put. cbn [repeat vset upd bind fst snd Nat.eqb andb]. unfold vset. cbn [upd bind fst snd repeat Nat.eqb andb]. eexists. split; [reflexivity|]. split; reflexivity. }
  destruct K as (h & Eh & Lh & Nh). unfold top3_functions. cbn [state poly_degree harm_size full_degree]. change (0 <? hsz 2 3 - hsz 0 3)%nat with true. cbv iota.
  rewrite H1, H2. fold X. rewrite Eh. change (full_size (state 3 2 0)) with 9%nat. rewrite loop3_prefix by (cbn; lia). cbn [bind]. unfold copy_tail. unfold fl in *. rewrite app_length, map_length, repeat_length, Lh.
  change (length (exps3 0)) with 1%nat. change (hsz 2 3 - hsz 0 3)%nat with 8%nat. cbn [Nat.add Nat.sub Nat.leb andb].
  eexists. split; [exact HB|]. split; [reflexivity|]. apply in_or_app. right. destruct h as [|h0 h]; [discriminate Lh|]. cbn [skipn]. apply (nth_error_In h 4). exact Nh.
Qed.
Print Assumptions C22_space_functions_refuted.
Example C22_space_ex : (exists B, held 3 3 B /\ poly_degree B = 1%nat /\ full_size B = 16%nat) /\ off_line (xyz 0 0 0) (xyz 0 1 0) /\ solid_c 2 0 1 1 0 = 1 / 2 /\ solid_s 2 1 1 0 1 = 1.
Proof.
  split; [exists (state 3 3 1); split; [eapply held_set; [apply held_make|]; rewrite make_state; apply (set_state 3 3 3 1); auto|split; reflexivity]|].
  split; [left; cbn; lra|]. unfold solid_c, solid_s, cre, cim. cbn. split; lra.
Qed.
