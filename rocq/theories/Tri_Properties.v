(** C25, C26: triangle quadratures from tables.  [tri_eps] = 1e-14 is the
    accuracy of the printed tables; errors are relative to the size of the
    integrand ([pmag], the value obtained with absolute coefficients at the
    largest coordinates). *)
From Coq Require Import Reals List Lia Lra QArith Qreals Bool.
From Verif Require Import Common Poly_Spec Poly_Proofs Quad_Model Quad_Spec Geo_Model Geo_Proofs QChk_Proofs Tri_Tables Tri_Model Tri_Proofs Tri2_Proofs.
Import ListNotations.
Local Open Scope R_scope.

(** ** C25 *)
(** degrees up to 20: plane triangles *)
Theorem C25_dunavant_partial : forall degree p0 p1 p2,
  ((21 < degree)%nat -> dunavant 2 degree p0 p1 p2 = Throw InvalidArgument) /\
  ((degree <= 20)%nat -> exists r, dunavant 2 degree p0 p1 p2 = Ok r /\ r <> [] /\
     forall p I, pvars 2 p -> (pdeg p <= degree)%nat -> is_int_triangle p0 p1 p2 (peval p) I ->
       Rabs (qsum r (peval p) - I) <= tri_eps * Rabs (cross2 p0 p1 p2) *
         pmag p (fun i => Rabs (p0 i) + Rabs (p1 i - p0 i) + Rabs (p2 i - p0 i) + Rabs (p0 i))).
Proof.
  intros degree p0 p1 p2. unfold dunavant. cbv zeta. change (length dunavant_rules) with 21%nat. split; intro H.
  - destruct (Nat.ltb_spec 21 degree); [reflexivity|lia].
  - destruct (Nat.ltb_spec 21 degree); [lia|]. destruct (dn_rule degree H) as (t & E & L & A). unfold vget. rewrite E. cbn [bind].
    eexists. split; [reflexivity|]. split.
    + intro Z. apply (f_equal (@length _)) in Z. rewrite dunavant_len, L in Z. cbn [length] in Z.
      assert (Hi : ((if Nat.eqb degree 0 then 0 else degree - 1) < 20)%nat) by (destruct (Nat.eqb_spec degree 0); lia).
      revert Z Hi. generalize (if Nat.eqb degree 0 then 0%nat else (degree - 1)%nat). intros i Z Hi. do 20 (destruct i as [|i]; [discriminate|]). lia.
    + intros p I _ Dg (J & HJ & ->). rewrite dunavant_points by (intros; now apply peval_ext). rewrite kahan2.
      pose proof (acc_affine3 (dref (dexp t)) degree tri_eps (Rabs (cross2 p0 p1 p2)) p0 (psubt p1 p0) (psubt p2 p0) p0 p J tri_eps_pos Dg A HJ) as B.
      rewrite Rabs_Rabsolu in B. replace (2 * (Rabs (cross2 p0 p1 p2) / 2)) with (Rabs (cross2 p0 p1 p2)) by field. exact B.
Qed.
Print Assumptions C25_dunavant_partial.

(** the same for triangles in space *)
Theorem C25_dunavant_space_partial : forall degree p0 p1 p2,
  ((21 < degree)%nat -> dunavant 3 degree p0 p1 p2 = Throw InvalidArgument) /\
  ((degree <= 20)%nat -> exists r, dunavant 3 degree p0 p1 p2 = Ok r /\
     forall p I, pvars 3 p -> (pdeg p <= degree)%nat -> is_int_triangle3 p0 p1 p2 (peval p) I ->
       Rabs (qsum r (peval p) - I) <= tri_eps * sqrt (cross3_sq p0 p1 p2) *
         pmag p (fun i => Rabs (p0 i) + Rabs (p1 i - p0 i) + Rabs (p2 i - p0 i) + Rabs (p0 i))).
Proof.
  intros degree p0 p1 p2. unfold dunavant. cbv zeta. change (length dunavant_rules) with 21%nat. split; intro H.
  - destruct (Nat.ltb_spec 21 degree); [reflexivity|lia].
  - destruct (Nat.ltb_spec 21 degree); [lia|]. destruct (dn_rule degree H) as (t & E & L & A). unfold vget. rewrite E. cbn [bind].
    eexists. split; [reflexivity|].
    intros p I _ Dg (J & HJ & ->). rewrite dunavant_points by (intros; now apply peval_ext). rewrite kahan3.
    pose proof (acc_affine3 (dref (dexp t)) degree tri_eps (sqrt (cross3_sq p0 p1 p2)) p0 (psubt p1 p0) (psubt p2 p0) p0 p J tri_eps_pos Dg A HJ) as B.
    rewrite (Rabs_right (sqrt _)) in B by (apply Rle_ge, sqrt_pos). replace (2 * (sqrt (cross3_sq p0 p1 p2) / 2)) with (sqrt (cross3_sq p0 p1 p2)) by field. exact B.
Qed.
Print Assumptions C25_dunavant_space_partial.

(** number of points *)
Theorem C25_size_partial : forall D degree p0 p1 p2, (1 <= degree <= 20)%nat -> exists r, dunavant D degree p0 p1 p2 = Ok r /\
  length r = nth (degree - 1) [1; 3; 4; 6; 7; 12; 13; 16; 19; 25; 27; 33; 37; 42; 48; 52; 61; 70; 73; 79]%nat 0%nat.
Proof.
  intros D degree p0 p1 p2 H. unfold dunavant. cbv zeta. change (length dunavant_rules) with 21%nat. destruct (Nat.ltb_spec 21 degree); [lia|].
  destruct (dn_rule degree ltac:(lia)) as (t & E & L & _). unfold vget. rewrite E. cbn [bind]. eexists. split; [reflexivity|].
  rewrite dunavant_len, L. destruct (Nat.eqb_spec degree 0); [lia|]. reflexivity.
Qed.
Print Assumptions C25_size_partial.

(** degree 21 neither throws nor integrates: the terminator of the table is
    taken as a rule, and the result is empty *)
Theorem C25_degree_21_refuted :
  ~ (forall degree p0 p1 p2, dunavant 2 degree p0 p1 p2 = Throw InvalidArgument \/
       exists r, dunavant 2 degree p0 p1 p2 = Ok r /\ r <> [] /\
         forall I, is_int_triangle p0 p1 p2 (peval (PC 1)) I -> Rabs (qsum r (peval (PC 1)) - I) <= Rabs (cross2 p0 p1 p2) / 4).
Proof.
  intro H. specialize (H 21%nat (fun _ => 0) (fun i => match i with O => 1 | _ => 0 end) (fun i => match i with 1%nat => 1 | _ => 0 end)).
  destruct H as [H|(r & H & N & _)].
  - unfold dunavant in H. cbv zeta in H. change (length dunavant_rules) with 21%nat in H. cbn [Nat.ltb Nat.leb Nat.eqb Nat.sub] in H. unfold vget in H.
    change (nth_error dunavant_rules 20) with (Some (@nil dunavant_point)) in H. cbn [bind flat_map] in H. discriminate.
  - unfold dunavant in H. cbv zeta in H. change (length dunavant_rules) with 21%nat in H. cbn [Nat.ltb Nat.leb Nat.eqb Nat.sub] in H. unfold vget in H.
    change (nth_error dunavant_rules 20) with (Some (@nil dunavant_point)) in H. cbn [bind flat_map] in H. congruence.
Qed.
Print Assumptions C25_degree_21_refuted.

(** ** C26 *)
Lemma qpos_lt q : qpos q = true -> 0 < Q2R q.
Proof.
  unfold qpos. intro H. apply Z.ltb_lt, IZR_lt in H. rewrite q2r_frac. apply Rdiv_lt_0_compat; [exact H|]. apply IZR_lt. reflexivity.
Qed.
Lemma tg_points (o u v : pt) c t f : (forall x y : pt, (forall i, x i = y i) -> f x = f y) ->
  qsum (map (fun gp => (padd (padd o (pscale (Q2R (tg_l0 gp)) u)) (pscale (Q2R (tg_l1 gp)) v), 2 * Q2R (tg_weight gp) * c)) t) f =
  qsum (map (fun q => ((fun i => o i + fst q 0%nat * u i + fst q 1%nat * v i) : pt, 2 * c * snd q)) (tabRn (tgq t))) f.
Proof.
  intro Hf. induction t as [|g t IH]; [reflexivity|]. unfold tgq, tabRn in *. cbn [map qsum fst snd]. rewrite IH.
  f_equal. rewrite (Hf _ (fun i => o i + Q2R (tg_l0 g) * u i + Q2R (tg_l1 g) * v i)) by reflexivity. unfold ptl. cbn [map nth]. ring.
Qed.

Theorem C26_triangle_gauss : forall triquad degree p0 p1 p2, (degree <= 30)%nat ->
  exists r, triangle_gauss triquad 2 degree p0 p1 p2 = Ok r /\ r <> [] /\
  (* positive weights, points inside the triangle *)
  (forall x w, In (x, w) r -> (0 < Rabs (cross2 p0 p1 p2) -> 0 < w) /\
     exists l0 l1 l2, 0 < l0 /\ 0 < l1 /\ 0 < l2 /\ l0 + l1 + l2 = 1 /\ forall i, x i = l0 * p0 i + l1 * p1 i + l2 * p2 i) /\
  forall p I, pvars 2 p -> (pdeg p <= degree)%nat -> is_int_triangle p0 p1 p2 (peval p) I ->
    Rabs (qsum r (peval p) - I) <= tri_eps * Rabs (cross2 p0 p1 p2) *
      pmag p (fun i => Rabs (p0 i) + Rabs (p1 i - p0 i) + Rabs (p2 i - p0 i)).
Proof.
  intros triquad degree p0 p1 p2 H. unfold triangle_gauss. cbv zeta. change (length triangle_gauss_rules) with 31%nat.
  destruct (Nat.ltb_spec degree 31); [|lia]. destruct (tg_rule degree H) as (t & E & N & In1 & A). unfold vget. rewrite E. cbn [bind].
  eexists. split; [reflexivity|]. split; [|split].
  - destruct t; [congruence|]. discriminate.
  - intros x w Hx. apply in_map_iff in Hx as (g & Eg & Hg). apply pair_equal_spec in Eg as [<- <-].
    unfold tg_inside in In1. rewrite forallb_forall in In1. specialize (In1 g Hg). apply andb_true_iff in In1 as [In1 W]. apply andb_true_iff in In1 as [In1 L2]. apply andb_true_iff in In1 as [L0 L1].
    apply qpos_lt in W, L0, L1, L2. rewrite !Q2R_minus in L2. replace (Q2R 1) with 1 in L2 by (unfold Q2R; cbn; lra).
    rewrite kahan2. split; [intro P; nra|]. exists (1 - Q2R (tg_l0 g) - Q2R (tg_l1 g)), (Q2R (tg_l0 g)), (Q2R (tg_l1 g)).
    repeat split; try assumption; [ring|]. intro i. unfold padd, pscale, psubt. ring.
  - intros p I _ Dg (J & HJ & ->). rewrite tg_points by (intros; now apply peval_ext). rewrite kahan2.
    pose proof (acc_affine2 (tabRn (tgq t)) degree tri_eps (Rabs (cross2 p0 p1 p2)) p0 (psubt p1 p0) (psubt p2 p0) p J tri_eps_pos Dg A HJ) as B.
    rewrite Rabs_Rabsolu in B. replace (2 * (Rabs (cross2 p0 p1 p2) / 2)) with (Rabs (cross2 p0 p1 p2)) by field. exact B.
Qed.
Print Assumptions C26_triangle_gauss.

(** triangles in space (faces of polyhedra) *)
Theorem C26_triangle_gauss_space : forall triquad degree p0 p1 p2, (degree <= 30)%nat ->
  exists r, triangle_gauss triquad 3 degree p0 p1 p2 = Ok r /\ r <> [] /\
  forall p I, pvars 3 p -> (pdeg p <= degree)%nat -> is_int_triangle3 p0 p1 p2 (peval p) I ->
    Rabs (qsum r (peval p) - I) <= tri_eps * sqrt (cross3_sq p0 p1 p2) *
      pmag p (fun i => Rabs (p0 i) + Rabs (p1 i - p0 i) + Rabs (p2 i - p0 i)).
Proof.
  intros triquad degree p0 p1 p2 H. unfold triangle_gauss. cbv zeta. change (length triangle_gauss_rules) with 31%nat.
  destruct (Nat.ltb_spec degree 31); [|lia]. destruct (tg_rule degree H) as (t & E & N & In1 & A). unfold vget. rewrite E. cbn [bind].
  eexists. split; [reflexivity|]. split; [destruct t; [congruence|discriminate]|].
  intros p I _ Dg (J & HJ & ->). rewrite tg_points by (intros; now apply peval_ext). rewrite kahan3.
  pose proof (acc_affine2 (tabRn (tgq t)) degree tri_eps (sqrt (cross3_sq p0 p1 p2)) p0 (psubt p1 p0) (psubt p2 p0) p J tri_eps_pos Dg A HJ) as B.
  rewrite (Rabs_right (sqrt _)) in B by (apply Rle_ge, sqrt_pos). replace (2 * (sqrt (cross3_sq p0 p1 p2) / 2)) with (sqrt (cross3_sq p0 p1 p2)) by field. exact B.
Qed.
Print Assumptions C26_triangle_gauss_space.

(** the hypotheses are met: x^2 y over the unit triangle (twice the reference area is 1) integrates to 1/60 *)
Example tri_case : is_int_triangle (fun _ => 0) (fun i => match i with O => 1 | _ => 0 end) (fun i => match i with 1%nat => 1 | _ => 0 end)
  (peval (PMul (PX 0) (PMul (PX 0) (PX 1)))) (1 / 60) /\ (pdeg (PMul (PX 0) (PMul (PX 0) (PX 1))) <= 3)%nat.
Proof.
  split; [|cbn; lia]. exists (1 / 60). split.
  - pose proof (is_int_simplex_mono [2; 1]%nat 1) as H. cbn [length] in H.
    replace (1 / 60) with (smoment 2 [2; 1]%nat 1) by (unfold smoment; cbn; field).
    eapply is_int_simplex_ext; [|exact H]. intros x. cbn. ring.
  - unfold cross2. replace ((1 - 0) * (1 - 0) - (0 - 0) * (0 - 0)) with 1 by ring. rewrite Rabs_R1. ring.
Qed.
