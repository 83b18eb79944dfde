(** Properties C23, C24, C28, C70, C71, C72: one-dimensional and tensor-product
    quadrature.  [quad_eps] = 4e-15 is the accuracy of the printed tables; every
    error bound is relative to the size of the integrand ([pmag], the value
    obtained with absolute coefficients at the largest coordinates). *)
From Coq Require Import Reals List Lia Lra QArith Qreals.
From Verif Require Import Common Poly_Spec Poly_Proofs Quad_Model Quad_Spec Quad_Proofs Quad2_Proofs.
Import ListNotations.
Open Scope R_scope.

Lemma div2_lt d : (d < 40 -> d / 2 < 20)%nat.
Proof. intro H. apply Nat.div_lt_upper_bound; lia. Qed.
Lemma div2_ge d : (40 <= d -> 20 <= d / 2)%nat.
Proof. intro H. apply Nat.div_le_lower_bound; lia. Qed.
Lemma div2_spec d : (d <= 2 * (d / 2) + 1)%nat.
Proof. pose proof (Nat.div_mod d 2 ltac:(lia)). pose proof (Nat.mod_upper_bound d 2 ltac:(lia)). lia. Qed.
Lemma eps_pos : 0 <= quad_eps <= 1 / 10.
Proof. unfold quad_eps. split; [apply div_nonneg; [lra|apply pow_lt; lra]|]. unfold Rdiv. apply Rmult_le_reg_r with (10 ^ 15); [apply pow_lt; lra|]. field_simplify; lra. Qed.

Lemma tabR_map (t : table1) (f g : R -> R) :
  map (fun qp => (f (Q2R (fst qp)), g (Q2R (snd qp)))) t = map (fun p => (f (fst p), g (snd p))) (tabR t).
Proof. unfold tabR. now rewrite map_map. Qed.

(** ** C23 *)
Theorem C23_gauss_legendre : forall degree a b,
  ((40 <= degree)%nat -> gauss_legendre degree a b = Throw InvalidArgument) /\
  ((degree < 40)%nat -> exists r, gauss_legendre degree a b = Ok r /\
     length r = (degree / 2 + 1)%nat /\
     (a < b -> Forall (fun q => a < fst q < b /\ 0 < snd q) r) /\
     (* polynomial of degree <= degree = coefficient list of length <= degree + 1 *)
     forall c I, (length c <= degree + 1)%nat -> is_int1 (cpoly c) a b I ->
       Rabs (qsum r (cpoly c) - I) <= quad_eps * (Rabs (b - a) / 2) * cpoly (map Rabs c) (Rmax (Rabs a) (Rabs b))).
Proof.
  intros degree a b. unfold gauss_legendre. cbv zeta. cbn [gauss_rules length Nat.sub].
  split; intro H.
  - pose proof (div2_ge _ H). destruct (Nat.leb_spec 20 (degree / 2)); [reflexivity|lia].
  - pose proof (div2_lt _ H). destruct (Nat.leb_spec 20 (degree / 2)); [lia|].
    destruct (gauss_nth (degree / 2) H0) as (L & A & F). fold gauss_rules.
    eexists; split; [reflexivity|]. split; [rewrite map_length, L; lia|].
    rewrite (tabR_map _ (fun x => 1 / 2 * (a + b) + 1 / 2 * (b - a) * x) (fun x => 1 / 2 * (b - a) * x)). split.
    + intro Hab. rewrite Forall_forall in F |- *. intros q Iq. apply in_map_iff in Iq. destruct Iq as ([x w] & <- & Iq).
      specialize (F _ Iq). cbn [fst snd] in *. destruct F as [F1 F2]. split; [nra|]. apply Rmult_lt_0_compat; [lra|exact F2].
    + intros c I Lc HI. apply (acc_interval _ (2 * S (degree / 2))); try apply eps_pos; auto. pose proof (div2_spec degree). lia.
Qed.

(** the same rule mapped on the segment from a to b of the plane or space:
    [I] is the mean value of p on the segment *)
Theorem C23_gauss_legendre_segment : forall D degree a b,
  ((40 <= degree)%nat -> gauss_legendre_seg D degree a b = Throw InvalidArgument) /\
  ((degree < 40)%nat -> exists r, gauss_legendre_seg D degree a b = Ok r /\
     length r = (degree / 2 + 1)%nat /\
     (* every point lies on the segment *)
     Forall (fun q => exists t, 0 < t < 1 /\ forall i, fst q i = a i + t * (b i - a i)) r /\
     forall p I, (pdeg p <= degree)%nat ->
       is_int1 (fun t => peval p (fun i => a i + t * (b i - a i))) 0 1 I ->
       Rabs (qsum r (peval p) - distance D a b * I)
         <= quad_eps * (distance D a b / 2) * pmag p (fun i => Rmax (Rabs (a i)) (Rabs (b i)))).
Proof.
  intros D degree a b. unfold gauss_legendre_seg. cbv zeta. cbn [gauss_rules length Nat.sub].
  split; intro H.
  - pose proof (div2_ge _ H). destruct (Nat.leb_spec 20 (degree / 2)); [reflexivity|lia].
  - pose proof (div2_lt _ H). destruct (Nat.leb_spec 20 (degree / 2)); [lia|].
    destruct (gauss_nth (degree / 2) H0) as (L & A & F). fold gauss_rules.
    eexists; split; [reflexivity|]. split; [rewrite map_length, L; lia|]. split.
    + rewrite Forall_forall in F |- *. intros q Iq. apply in_map_iff in Iq. destruct Iq as ([x w] & <- & Iq).
      specialize (F (Q2R x, Q2R w)). cbn [fst snd] in *.
      destruct F as [F1 F2]; [apply in_map_iff; now exists (x, w)|].
      exists ((1 + Q2R x) / 2). split; [lra|]. intro i. unfold padd, pscale, psubt. field.
    + intros p I Dg HI.
      pose proof (acc_segment (tabR (nth (degree / 2) gauss_rules [])) (2 * S (degree / 2)) quad_eps (distance D a b) a b p I) as B.
      unfold tabR in B at 2. rewrite map_map in B. apply B; auto; try apply eps_pos.
      * apply sqrt_pos.
      * pose proof (div2_spec degree). lia.
Qed.

(* non-vacuity: the integral of 1 + x^2 on [0,2] by the rule of degree 2 *)
Example C23_case : exists r I, gauss_legendre 2 0 2 = Ok r /\ length r = 2%nat /\ is_int1 (cpoly [1; 0; 1]) 0 2 I /\ I = 14 / 3.
Proof.
  destruct (proj2 (C23_gauss_legendre 2 0 2)) as (r & E & L & _); [lia|]. exists r, (14 / 3).
  split; [exact E|]. split; [exact L|]. split; [|reflexivity].
  exists (fun x => x + x ^ 3 / 3). split; [|field].
  intro x. replace (cpoly [1; 0; 1] x) with (1 + (3 * x ^ 2) * / 3 + x ^ 3 * 0) by (cbn [cpoly]; field).
  replace (1 + 3 * x ^ 2 * / 3 + x ^ 3 * 0) with (1 + (INR 3 * x ^ pred 3 * / 3 + x ^ 3 * 0)) by (cbn [INR pred]; ring).
  apply derivable_pt_lim_plus; [apply derivable_pt_lim_id|].
  apply (derivable_pt_lim_mult (fun x => x ^ 3) (fun _ => / 3) x); [apply derivable_pt_lim_pow|apply derivable_pt_lim_const].
Qed.
Print Assumptions C23_gauss_legendre.
Print Assumptions C23_gauss_legendre_segment.

(** ** C24 *)
Lemma lobatto_num_spec d : (d <= 37 -> 1 <= lobatto_rule_num d < 20)%nat /\ (38 <= d -> 20 <= lobatto_rule_num d)%nat /\
  (d + 1 <= 2 * lobatto_rule_num d)%nat.
Proof.
  unfold lobatto_rule_num. pose proof (Nat.div_mod d 2 ltac:(lia)) as E. pose proof (Nat.mod_upper_bound d 2 ltac:(lia)) as B.
  set (q := (d / 2)%nat) in *. set (r := (d mod 2)%nat) in *. clearbody q r.
  destruct (Nat.eqb_spec r 0) as [Z|Z].
  - replace (d + 1 + 3)%nat with ((q + 2) * 2)%nat by lia. rewrite Nat.div_mul by lia. lia.
  - replace (d + 3)%nat with ((q + 2) * 2)%nat by lia. rewrite Nat.div_mul by lia. lia.
Qed.

Theorem C24_gauss_lobatto : forall degree a b,
  ((38 <= degree)%nat -> gauss_lobatto degree a b = Throw InvalidArgument) /\
  ((degree <= 37)%nat -> exists r, gauss_lobatto degree a b = Ok r /\
     (exists w, hd_error r = Some (a, w)) /\ (exists w l, r = l ++ [(b, w)]) /\
     (a < b -> Forall (fun q => a <= fst q <= b /\ 0 < snd q) r) /\
     forall c I, (length c <= degree + 1)%nat -> is_int1 (cpoly c) a b I ->
       Rabs (qsum r (cpoly c) - I) <= quad_eps * (Rabs (b - a) / 2) * cpoly (map Rabs c) (Rmax (Rabs a) (Rabs b))).
Proof.
  intros degree a b. unfold gauss_lobatto. cbv zeta. cbn [lobatto_rules length].
  destruct (lobatto_num_spec degree) as (N1 & N2 & N3).
  split; intro H.
  - pose proof (N2 H). destruct (Nat.leb_spec 20 (lobatto_rule_num degree)); [reflexivity|lia].
  - specialize (N1 H). destruct (Nat.leb_spec 20 (lobatto_rule_num degree)); [lia|].
    destruct (lobatto_nth (lobatto_rule_num degree) N1) as (L & A & F & Hh & Hl). fold lobatto_rules.
    eexists; split; [reflexivity|].
    rewrite (tabR_map _ (fun x => 1 / 2 * (a + b) + 1 / 2 * (b - a) * x) (fun x => 1 / 2 * (b - a) * x)). split; [|split; [|split]].
    + destruct Hh as (w & Hh). destruct (tabR (nth (lobatto_rule_num degree) lobatto_rules [])) as [|q t]; [discriminate|].
      injection Hh as ->. cbn [map hd_error fst snd]. eexists. f_equal. f_equal. field.
    + destruct Hl as (w & l & ->). rewrite map_app. cbn [map fst snd]. eexists _, _. f_equal. f_equal. f_equal. field.
    + intro Hab. rewrite Forall_forall in F |- *. intros q Iq. apply in_map_iff in Iq. destruct Iq as ([x w] & <- & Iq).
      specialize (F _ Iq). cbn [fst snd] in *. destruct F as [F1 F2]. split; [nra|]. apply Rmult_lt_0_compat; [lra|exact F2].
    + intros c I Lc HI. apply (acc_interval _ (2 * lobatto_rule_num degree)); try apply eps_pos; auto. lia.
Qed.

Theorem C24_gauss_lobatto_segment : forall D degree a b,
  ((38 <= degree)%nat -> gauss_lobatto_seg D degree a b = Throw InvalidArgument) /\
  ((degree <= 37)%nat -> exists r, gauss_lobatto_seg D degree a b = Ok r /\
     (exists q, hd_error r = Some q /\ forall i, fst q i = a i) /\ (exists q l, r = l ++ [q] /\ forall i, fst q i = b i) /\
     forall p I, (pdeg p <= degree)%nat ->
       is_int1 (fun t => peval p (fun i => a i + t * (b i - a i))) 0 1 I ->
       Rabs (qsum r (peval p) - distance D a b * I)
         <= quad_eps * (distance D a b / 2) * pmag p (fun i => Rmax (Rabs (a i)) (Rabs (b i)))).
Proof.
  intros D degree a b. unfold gauss_lobatto_seg. cbv zeta. cbn [lobatto_rules length].
  destruct (lobatto_num_spec degree) as (N1 & N2 & N3).
  split; intro H.
  - pose proof (N2 H). destruct (Nat.leb_spec 20 (lobatto_rule_num degree)); [reflexivity|lia].
  - specialize (N1 H). destruct (Nat.leb_spec 20 (lobatto_rule_num degree)); [lia|].
    destruct (lobatto_nth (lobatto_rule_num degree) N1) as (L & A & F & Hh & Hl). fold lobatto_rules.
    eexists; split; [reflexivity|]. 
    assert (EM : map (fun qp => (padd (pscale (1 / 2) (padd a b)) (pscale (Q2R (fst qp)) (pscale (1 / 2) (psubt b a))), 1 / 2 * distance D a b * Q2R (snd qp)))
              (nth (lobatto_rule_num degree) lobatto_rules []) =
            map (fun p => (padd (pscale (1 / 2) (padd a b)) (pscale (fst p) (pscale (1 / 2) (psubt b a))), 1 / 2 * distance D a b * snd p))
              (tabR (nth (lobatto_rule_num degree) lobatto_rules []))) by (unfold tabR; now rewrite map_map).
    split; [|split].
    + rewrite EM. destruct Hh as (w & Hh). destruct (tabR (nth (lobatto_rule_num degree) lobatto_rules [])) as [|q t]; [discriminate|].
      injection Hh as ->. cbn [map hd_error fst snd]. eexists. split; [reflexivity|]. intro i. cbn [fst]. unfold padd, pscale, psubt. field.
    + rewrite EM. destruct Hl as (w & l & ->). rewrite map_app. cbn [map fst snd]. eexists _, _. split; [reflexivity|].
      intro i. cbn [fst]. unfold padd, pscale, psubt. field.
    + intros p I Dg HI. rewrite EM. apply (acc_segment _ (2 * lobatto_rule_num degree)); auto; try apply eps_pos.
      * apply sqrt_pos.
      * lia.
Qed.
Example C24_case : exists r, gauss_lobatto 3 0 1 = Ok r /\ hd_error (map fst r) = Some 0.
Proof.
  destruct (proj2 (C24_gauss_lobatto 3 0 1)) as (r & E & (w & Hh) & _); [lia|]. exists r. split; [exact E|].
  destruct r as [|q r]; [discriminate|]. injection Hh as ->. reflexivity.
Qed.
Print Assumptions C24_gauss_lobatto.
Print Assumptions C24_gauss_lobatto_segment.

(** ** C28 *)
Lemma Forall_impl_fst (t : list (R * R)) : Forall (fun p => -1 < fst p < 1 /\ 0 < snd p) t -> Forall (fun q => -1 <= fst q <= 1) t.
Proof. apply Forall_impl. intros q [H _]. lra. Qed.
Lemma square_weights t : Forall (fun p => -1 < fst p < 1 /\ 0 < snd p) (tabR t) -> forall z w, In (z, w) (square_points t) -> 0 < w.
Proof.
  intros F z w I. unfold square_points in I. apply in_flat_map in I. destruct I as ((y & v) & Iy & I).
  apply in_map_iff in I. destruct I as ((x & u) & E & Ix). injection E as <- <-. rewrite Forall_forall in F. cbn [fst snd].
  apply Rmult_lt_0_compat; [apply (F (Q2R x, Q2R u))|apply (F (Q2R y, Q2R v))]; apply in_map_iff; [now exists (x, u)|now exists (y, v)].
Qed.
Lemma square_length t : length (square_points t) = (length t * length t)%nat.
Proof.
  unfold square_points. generalize t at 2 3. intro u. induction u as [|q u IH]; [reflexivity|].
  cbn [flat_map length]. rewrite app_length, map_length, IH. reflexivity.
Qed.

(** shape of the result: rejected from degree 40 on, else (degree/2+1)^2 points
    with non-negative weights *)
Theorem C28_rule : forall degree p0 p1 p2 p3,
  ((40 <= degree)%nat -> tensorized_gauss_legendre degree p0 p1 p2 p3 = Throw InvalidArgument) /\
  ((degree < 40)%nat -> exists r, tensorized_gauss_legendre degree p0 p1 p2 p3 = Ok r /\
     length r = ((degree / 2 + 1) * (degree / 2 + 1))%nat /\ Forall (fun q => 0 <= snd q) r).
Proof.
  intros degree p0 p1 p2 p3. unfold tensorized_gauss_legendre. cbv zeta. cbn [gauss_rules length Nat.sub].
  split; intro H.
  - pose proof (div2_ge _ H). destruct (Nat.leb_spec 20 (degree / 2)); [reflexivity|lia].
  - pose proof (div2_lt _ H). destruct (Nat.leb_spec 20 (degree / 2)); [lia|]. fold gauss_rules.
    destruct (gauss_nth (degree / 2) H0) as (L & A & F). eexists; split; [reflexivity|].
    split; [rewrite map_length, square_length, L; lia|].
    rewrite Forall_forall. intros q Iq. apply in_map_iff in Iq. destruct Iq as ([z w] & <- & Iq). cbn [fst snd].
    apply Rmult_le_pos; [left; eapply square_weights; eauto|apply Rabs_pos].
Qed.

(** On a convex quadrangle a rule of even degree is exact (up to the tables)
    for all polynomials of that degree. *)
Theorem C28_tensorized_even : forall degree p0 p1 p2 p3, (degree < 40)%nat -> Nat.Even degree -> convex_ccw p0 p1 p2 p3 ->
  exists r, tensorized_gauss_legendre degree p0 p1 p2 p3 = Ok r /\
    forall p I, pvars 2 p -> (pdeg p <= degree)%nat -> is_int_quad p0 p1 p2 p3 (peval p) I ->
      Rabs (qsum r (peval p) - I) <= 5 * quad_eps * (pmag p (quad_radius p0 p1 p2 p3) * quad_jmag p0 p1 p2 p3).
Proof.
  intros degree p0 p1 p2 p3 H [k Ek] CC. unfold tensorized_gauss_legendre. cbv zeta. cbn [gauss_rules length Nat.sub].
  pose proof (div2_lt _ H) as H0. destruct (Nat.leb_spec 20 (degree / 2)); [lia|]. fold gauss_rules.
  destruct (gauss_nth (degree / 2) H0) as (L & A & F). eexists; split; [reflexivity|].
  intros p I V Dg HI. pose proof eps_pos. apply (quad_acc _ (2 * S (degree / 2))); auto; try lra; try lia.
  - now apply Forall_impl_fst.
  - clear A. subst degree. rewrite (Nat.mul_comm 2 k), Nat.div_mul by lia. lia.
Qed.

(** On a parallelogram (in particular on every cell of a Cartesian mesh) every
    degree is. *)
Theorem C28_tensorized_parallelogram : forall degree p0 p1 p2 p3, (degree < 40)%nat ->
  parallelogram 2 p0 p1 p2 p3 -> 0 <= cross2 p0 p1 p3 ->
  exists r, tensorized_gauss_legendre degree p0 p1 p2 p3 = Ok r /\
    forall p I, pvars 2 p -> (pdeg p <= degree)%nat -> is_int_quad p0 p1 p2 p3 (peval p) I ->
      Rabs (qsum r (peval p) - I) <= 5 * quad_eps * (cross2 p0 p1 p3 / 4) * pmag p (pgram_radius p0 p1 p3).
Proof.
  intros degree p0 p1 p2 p3 H PG Hc. unfold tensorized_gauss_legendre. cbv zeta. cbn [gauss_rules length Nat.sub].
  pose proof (div2_lt _ H) as H0. destruct (Nat.leb_spec 20 (degree / 2)); [lia|]. fold gauss_rules.
  destruct (gauss_nth (degree / 2) H0) as (L & A & F). eexists; split; [reflexivity|].
  intros p I V Dg HI. pose proof eps_pos as HE.
  assert (P0 := PG 0%nat ltac:(lia)). assert (P1 := PG 1%nat ltac:(lia)).
  set (Fz := fun z : pt => fun i : nat => p0 i + (1 + z 0%nat) / 2 * (p1 i - p0 i) + (1 + z 1%nat) / 2 * (p3 i - p0 i)).
  assert (EB : forall z, peval p (bilin p0 p1 p2 p3 z) = peval p (Fz z)).
  { intro z. apply (peval_agree 2); [exact V|]. intros i Hi. unfold Fz, bilin. rewrite (PG i Hi). field. }
  assert (EJ : forall z, bilin_jac p0 p1 p2 p3 z = cross2 p0 p1 p3 / 4).
  { intro z. unfold bilin_jac, bilin_d0, bilin_d1, cross2. rewrite P0, P1. field. }
  rewrite (mapped_eq _ (fun z => pt2 (quad_X 0 p0 p1 p2 p3 (z 0%nat) (z 1%nat)) (quad_X 1 p0 p1 p2 p3 (z 0%nat) (z 1%nat)))
             Fz (fun z => quad_J p0 p1 p2 p3 (z 0%nat) (z 1%nat)) (fun _ => cross2 p0 p1 p3 / 4)).
  2:{ intros z w _. split.
      - rewrite <- EB. apply (peval_agree 2); [exact V|]. intros i Hi. now apply bil_pt.
      - rewrite quad_J_is, EJ. apply Rabs_right. lra. }
  assert (V3 : pvars 3 p) by (clear - V; induction p; cbn [pvars] in *; try (destruct V; split); auto; lia).
  unfold is_int_quad in HI.
  destruct (Req_dec (cross2 p0 p1 p3) 0) as [Z|NZ].
  - rewrite Z. replace (0 / 4) with 0 by field.
    assert (I = 0).
    { apply (is_int_cube_unique 2 (fun _ => 0) I 0); [|apply is_int_cube_zero].
      refine (is_int_cube_ext 2 (fun z => peval p (bilin p0 p1 p2 p3 z) * bilin_jac p0 p1 p2 p3 z) _ I _ HI).
      intro z. rewrite EJ, Z. field. }
    subst I. rewrite (qsum_ext _ _ (fun _ => 0)) by (intro; ring). rewrite qsum_zero.
    replace (0 - 0) with 0 by ring. rewrite Rabs_R0. lra.
  - assert (HJ : is_int_cube 2 (fun z => peval p (Fz z)) (I / (cross2 p0 p1 p3 / 4))).
    { replace (I / (cross2 p0 p1 p3 / 4)) with (/ (cross2 p0 p1 p3 / 4) * I) by (field; auto).
      refine (is_int_cube_ext 2 (fun z => / (cross2 p0 p1 p3 / 4) * (peval p (bilin p0 p1 p2 p3 z) * bilin_jac p0 p1 p2 p3 z)) _ _ _ _).
      - intro z. rewrite EJ, EB. field. auto.
      - now apply is_int_cube_scal. }
    pose proof (square_affine_acc (nth (degree / 2) gauss_rules []) (2 * S (degree / 2)) quad_eps (cross2 p0 p1 p3 / 4) p0 p1 p3 p
                  _ ltac:(lra) ltac:(lra) ltac:(lia) A V3 ltac:(pose proof (div2_spec degree); lia) HJ) as B.
    replace (cross2 p0 p1 p3 / 4 * (I / (cross2 p0 p1 p3 / 4))) with I in B by (field; auto). exact B.
Qed.

Definition unit_square (i : nat) : pt := nth i [pt2 0 0; pt2 1 0; pt2 1 1; pt2 0 1] (fun _ => 0).
Example C28_case : convex_ccw (pt2 0 0) (pt2 2 0) (pt2 1 1) (pt2 0 1) /\ ~ parallelogram 2 (pt2 0 0) (pt2 2 0) (pt2 1 1) (pt2 0 1) /\
  parallelogram 2 (pt2 0 0) (pt2 2 0) (pt2 3 1) (pt2 1 1) /\
  exists I, is_int_quad (pt2 0 0) (pt2 2 0) (pt2 1 1) (pt2 0 1) (peval (PMul (PX 0) (PX 1))) I.
Proof.
  split; [unfold convex_ccw, cross2; cbn [pt2]; lra|]. split; [intro H; specialize (H 0%nat ltac:(lia)); cbn [pt2] in H; lra|].
  split; [intros i Hi; destruct i as [|[|i]]; [| |lia]; cbn [pt2]; lra|].
  destruct (cube_int_exists 2 (PMul (psub (bil (pt2 0 0) (pt2 2 0) (pt2 1 1) (pt2 0 1)) (PMul (PX 0) (PX 1))) (bjac (pt2 0 0) (pt2 2 0) (pt2 1 1) (pt2 0 1)))) as [I HI].
  { cbn; repeat split; lia. }
  exists I. unfold is_int_quad.
  refine (is_int_cube_ext 2 _ (fun z => peval (PMul (PX 0) (PX 1)) (bilin (pt2 0 0) (pt2 2 0) (pt2 1 1) (pt2 0 1) z) * bilin_jac (pt2 0 0) (pt2 2 0) (pt2 1 1) (pt2 0 1) z) I _ HI).
  intro z. cbn [peval psub]. rewrite !bil_eval, bjac_eval. reflexivity.
Qed.
Print Assumptions C28_rule.
Print Assumptions C28_tensorized_even.
Print Assumptions C28_tensorized_parallelogram.

(** ** C72: odd degree on a general convex quadrangle *)
Theorem C72_odd_degree_partial : forall degree p0 p1 p2 p3, (degree < 40)%nat -> Nat.Odd degree -> convex_ccw p0 p1 p2 p3 ->
  exists r, tensorized_gauss_legendre degree p0 p1 p2 p3 = Ok r /\
    forall p I, pvars 2 p -> (pdeg p <= degree - 1)%nat -> is_int_quad p0 p1 p2 p3 (peval p) I ->
      Rabs (qsum r (peval p) - I) <= 5 * quad_eps * (pmag p (quad_radius p0 p1 p2 p3) * quad_jmag p0 p1 p2 p3).
Proof.
  intros degree p0 p1 p2 p3 H [k Ek] CC. unfold tensorized_gauss_legendre. cbv zeta. cbn [gauss_rules length Nat.sub].
  pose proof (div2_lt _ H) as H0. destruct (Nat.leb_spec 20 (degree / 2)); [lia|]. fold gauss_rules.
  destruct (gauss_nth (degree / 2) H0) as (L & A & F). eexists; split; [reflexivity|].
  intros p I V Dg HI. pose proof eps_pos. apply (quad_acc _ (2 * S (degree / 2))); auto; try lra; try lia.
  - now apply Forall_impl_fst.
  - pose proof (div2_spec degree). lia.
Qed.

(** x over the trapezoid (0,0) (2,0) (1,1) (0,1): the rule of degree 1 gives
    9/8, the integral is 7/6. *)
Theorem C72_odd_degree_refuted : exists p0 p1 p2 p3 p r I,
  convex_ccw p0 p1 p2 p3 /\ pvars 2 p /\ pdeg p = 1%nat /\ is_int_quad p0 p1 p2 p3 (peval p) I /\
  tensorized_gauss_legendre 1 p0 p1 p2 p3 = Ok r /\ Rabs (qsum r (peval p) - I) = 1 / 24.
Proof.
  exists (pt2 0 0), (pt2 2 0), (pt2 1 1), (pt2 0 1), (PX 0). eexists. exists (7 / 6).
  split; [unfold convex_ccw, cross2; cbn [pt2]; lra|]. split; [cbn; lia|]. split; [reflexivity|]. split; [|split; [reflexivity|]].
  - unfold is_int_quad.
    set (g := fun z : pt => bilin (pt2 0 0) (pt2 2 0) (pt2 1 1) (pt2 0 1) z 0%nat * bilin_jac (pt2 0 0) (pt2 2 0) (pt2 1 1) (pt2 0 1) z).
    set (m := [(9 / 32, [0; 0]%nat); (9 / 32, [1; 0]%nat); (-6 / 32, [0; 1]%nat); (-6 / 32, [1; 1]%nat); (1 / 32, [0; 2]%nat); (1 / 32, [1; 2]%nat)] : mlist).
    assert (E : forall z, meval m z = g z).
    { intro z. unfold g, m, bilin_jac, bilin_d0, bilin_d1, bilin. cbn [meval mono pt2 pow]. field. }
    refine (is_int_cube_ext 2 (meval m) g (7 / 6) E _).
    assert (MK : mok 2 3 m) by (repeat constructor; cbn; lia).
    replace (7 / 6) with (fold_right (fun t r => fst t * cmoment (snd t) + r) 0 m).
    + exact (is_int_cube_meval 2 3 m MK).
    + unfold m. cbn [fold_right fst snd cmoment]. unfold imom. cbn [INR pow]. field.
  - cbn [qsum map square_points flat_map nth gauss_rules gauss_rule_1 fst snd app peval Nat.div Nat.divmod].
    unfold quad_X, quad_J. cbn [pt2].
    replace (Q2R 0) with 0 by (unfold Q2R; cbn; field). replace (Q2R 2) with 2 by (unfold Q2R; cbn; field).
    match goal with |- context [Rabs (?a * ?b - ?c * ?d)] => replace (a * b - c * d) with (3 / 8) by field end.
    rewrite (Rabs_right (3 / 8)) by lra. rewrite Rabs_left by lra. lra.
Qed.
Print Assumptions C72_odd_degree_partial.
Print Assumptions C72_odd_degree_refuted.

(** ** C70: rectangular faces and parallelepipeds in space *)
Lemma norm3_sq v : norm 3 v * norm 3 v = v 0%nat * v 0%nat + v 1%nat * v 1%nat + v 2%nat * v 2%nat.
Proof. unfold norm. rewrite sqrt_sqrt; cbn [dot]; nra. Qed.

Theorem C70_face : forall degree p0 p1 p2 p3,
  ((40 <= degree)%nat -> tensorized_gauss_legendre_face degree p0 p1 p2 p3 = Throw InvalidArgument) /\
  ((degree < 40)%nat -> parallelogram 3 p0 p1 p2 p3 ->
   (* rectangle *) dot 3 (psubt p1 p0) (psubt p3 p0) = 0 ->
   exists r, tensorized_gauss_legendre_face degree p0 p1 p2 p3 = Ok r /\
    forall p I, pvars 3 p -> (pdeg p <= degree)%nat -> is_int_pgram3 p0 p1 p3 (peval p) I ->
      Rabs (qsum r (peval p) - I) <= 5 * quad_eps * (sqrt (cross3_sq p0 p1 p3) / 4) * pmag p (pgram_radius p0 p1 p3)).
Proof.
  intros degree p0 p1 p2 p3. unfold tensorized_gauss_legendre_face. cbv zeta. cbn [gauss_rules length Nat.sub].
  split; [intro H; pose proof (div2_ge _ H); destruct (Nat.leb_spec 20 (degree / 2)); [reflexivity|lia]|].
  intros H PG RC. pose proof (div2_lt _ H) as H0. destruct (Nat.leb_spec 20 (degree / 2)); [lia|]. fold gauss_rules.
  destruct (gauss_nth (degree / 2) H0) as (L & A & F). eexists; split; [reflexivity|].
  intros p I V Dg (J & HJ & ->). pose proof eps_pos as HE.
  set (v0 := pscale (/ 2) (psubt p1 p0)). set (v1 := pscale (/ 2) (psubt p3 p0)).
  assert (EM : norm 3 v0 * norm 3 v1 = sqrt (cross3_sq p0 p1 p3) / 4).
  { apply Rsqr_inj; [apply Rmult_le_pos; apply sqrt_pos|pose proof (sqrt_pos (cross3_sq p0 p1 p3)); lra|].
    unfold Rsqr. replace (norm 3 v0 * norm 3 v1 * (norm 3 v0 * norm 3 v1)) with ((norm 3 v0 * norm 3 v0) * (norm 3 v1 * norm 3 v1)) by ring.
    rewrite !norm3_sq. set (S := sqrt (cross3_sq p0 p1 p3)). replace (S / 4 * (S / 4)) with (S * S / 16) by field.
    unfold S. rewrite sqrt_sqrt by (unfold cross3_sq; repeat apply Rplus_le_le_0_compat; apply pow2_ge_0). unfold cross3_sq, v0, v1, pscale, psubt.
    cbn [dot] in RC. unfold psubt in RC.
    set (a := p1 0%nat - p0 0%nat) in *. set (b := p1 1%nat - p0 1%nat) in *. set (c := p1 2%nat - p0 2%nat) in *.
    set (d := p3 0%nat - p0 0%nat) in *. set (e := p3 1%nat - p0 1%nat) in *. set (f := p3 2%nat - p0 2%nat) in *.
    assert (Z : (a * d + b * e + c * f) * (a * d + b * e + c * f) = 0) by (replace (a * d + b * e + c * f) with 0 by lra; ring).
    apply Rminus_diag_uniq. transitivity ((a * d + b * e + c * f) * (a * d + b * e + c * f) / 16); [|rewrite Z; field].
    fold a b c d e f. clearbody a b c d e f. field. }
  set (Fz := fun z : pt => fun i : nat => p0 i + (1 + z 0%nat) / 2 * (p1 i - p0 i) + (1 + z 1%nat) / 2 * (p3 i - p0 i)).
  rewrite (mapped_eq _ (fun z => padd (padd (pscale (z 0%nat) v0) (pscale (z 1%nat) v1)) (pscale (/ 4) (padd (padd (padd p0 p1) p2) p3)))
             Fz (fun _ => norm 3 v0 * norm 3 v1) (fun _ => sqrt (cross3_sq p0 p1 p3) / 4)).
  2:{ intros z w _. split; [|exact EM]. apply (peval_agree 3); [exact V|]. intros i Hi.
      unfold Fz, v0, v1, padd, pscale, psubt. rewrite (PG i Hi). field. }
  apply (square_affine_acc _ (2 * S (degree / 2))); auto; try lra; try lia.
  - pose proof (sqrt_pos (cross3_sq p0 p1 p3)). lra.
  - pose proof (div2_spec degree). lia.
Qed.

(** The right angle is needed: on a skew face the weights do not add up to the
    area. *)
Theorem C70_skew_face_refuted : exists p0 p1 p2 p3 r I,
  parallelogram 3 p0 p1 p2 p3 /\ is_int_pgram3 p0 p1 p3 (fun _ => 1) I /\
  tensorized_gauss_legendre_face 0 p0 p1 p2 p3 = Ok r /\ I = 1 /\ qsum r (fun _ => 1) = sqrt 2.
Proof.
  exists (pt3 0 0 0), (pt3 1 0 0), (pt3 2 1 0), (pt3 1 1 0). eexists. exists 1.
  split; [intros i Hi; destruct i as [|[|[|i]]]; [| | |lia]; cbn [pt3]; lra|].
  split; [|split; [reflexivity|split; [reflexivity|]]].
  - exists 4. split.
    + assert (K : forall k, is_int1 (fun _ => k) (-1) 1 (2 * k)).
      { intro k. replace (2 * k) with (k * ((1 ^ 1 - (-1) ^ 1) / INR 1)) by (cbn [pow INR]; field).
        apply (is_int1_ext (fun x => k * x ^ 0)); [intro; cbn [pow]; ring|]. apply is_int1_scal, (is_int1_pow 0). }
      exists (fun _ => 2). split.
      * intro s. exists (fun _ => 1). split; [reflexivity|]. replace 2 with (2 * 1) by ring. apply K.
      * replace 4 with (2 * 2) by ring. apply K.
    + unfold cross3_sq. cbn [pt3]. replace (_ + _ + _) with 1 by ring. rewrite sqrt_1. field.
  - cbn [qsum map square_points flat_map nth gauss_rules gauss_rule_1 fst snd app peval Nat.div Nat.divmod].
    replace (Q2R 2) with 2 by (unfold Q2R; cbn; field). unfold norm. cbn [dot]. unfold pscale, psubt. cbn [pt3].
    replace (0 + / 2 * (1 - 0) * (/ 2 * (1 - 0)) + / 2 * (0 - 0) * (/ 2 * (0 - 0)) + / 2 * (0 - 0) * (/ 2 * (0 - 0))) with (/ 2 * / 2) by field.
    replace (0 + / 2 * (1 - 0) * (/ 2 * (1 - 0)) + / 2 * (1 - 0) * (/ 2 * (1 - 0)) + / 2 * (0 - 0) * (/ 2 * (0 - 0))) with (2 * (/ 2 * / 2)) by field.
    rewrite (sqrt_mult 2 (/ 2 * / 2)) by lra. rewrite !(sqrt_square (/ 2)) by lra. field.
Qed.

Theorem C70_hexahedron : forall degree p,
  ((40 <= degree)%nat -> tensorized_gauss_legendre_hex degree p = Throw InvalidArgument) /\
  ((degree < 40)%nat -> parallelepiped p ->
   exists r, tensorized_gauss_legendre_hex degree p = Ok r /\
    forall q I, pvars 3 q -> (pdeg q <= degree)%nat ->
      is_int_ppiped (p 0%nat) (p 1%nat) (p 3%nat) (p 4%nat) (peval q) I ->
      Rabs (qsum r (peval q) - I) <= 20 * quad_eps * (Rabs (triple (p 0%nat) (p 1%nat) (p 3%nat) (p 4%nat)) / 8)
                                     * pmag q (ppiped_radius (p 0%nat) (p 1%nat) (p 3%nat) (p 4%nat))).
Proof.
  intros degree p. unfold tensorized_gauss_legendre_hex. cbv zeta. cbn [gauss_rules length Nat.sub].
  split; [intro H; pose proof (div2_ge _ H); destruct (Nat.leb_spec 20 (degree / 2)); [reflexivity|lia]|].
  intros H PG. pose proof (div2_lt _ H) as H0. destruct (Nat.leb_spec 20 (degree / 2)); [lia|]. fold gauss_rules.
  destruct (gauss_nth (degree / 2) H0) as (L & A & F). eexists; split; [reflexivity|].
  intros q I V Dg (J & HJ & ->). pose proof eps_pos as HE.
  pose proof (cube_points_map (nth (degree / 2) gauss_rules []) (fun xi eta zeta => pt3 (hex_X 0 p xi eta zeta) (hex_X 1 p xi eta zeta) (hex_X 2 p xi eta zeta))
             (fun xi eta zeta => Rabs (det33 (hex_Jac p xi eta zeta)))) as CP.
  cbv zeta in CP. rewrite CP. clear CP.
  set (Fz := fun z : pt => fun i : nat => p 0%nat i + (1 + z 0%nat) / 2 * (p 1%nat i - p 0%nat i) + (1 + z 1%nat) / 2 * (p 3%nat i - p 0%nat i) + (1 + z 2%nat) / 2 * (p 4%nat i - p 0%nat i)).
  rewrite (mapped_eq _ (fun z => pt3 (hex_X 0 p (z 0%nat) (z 1%nat) (z 2%nat)) (hex_X 1 p (z 0%nat) (z 1%nat) (z 2%nat)) (hex_X 2 p (z 0%nat) (z 1%nat) (z 2%nat)))
             Fz (fun z => Rabs (det33 (hex_Jac p (z 0%nat) (z 1%nat) (z 2%nat)))) (fun _ => Rabs (triple (p 0%nat) (p 1%nat) (p 3%nat) (p 4%nat)) / 8)).
  2:{ intros z w _. split.
      - apply (peval_agree 3); [exact V|]. intros i Hi. destruct (PG i Hi) as (E2 & E5 & E6 & E7).
        transitivity (hex_X i p (z 0%nat) (z 1%nat) (z 2%nat)); [destruct i as [|[|[|i]]]; [| | |lia]; reflexivity|].
        unfold Fz, hex_X. rewrite E2, E5, E6, E7. field.
      - assert (EJ : forall r i, (i < 3)%nat -> hex_Jac p (z 0%nat) (z 1%nat) (z 2%nat) r i =
           match r with O => p 1%nat i - p 0%nat i | 1%nat => p 3%nat i - p 0%nat i | _ => p 4%nat i - p 0%nat i end / 2).
        { intros r i Hi. destruct (PG i Hi) as (E2 & E5 & E6 & E7). destruct r as [|[|r]]; unfold hex_Jac; rewrite E2, E5, E6, E7; field. }
        unfold det33. rewrite !EJ by lia. transitivity (Rabs (triple (p 0%nat) (p 1%nat) (p 3%nat) (p 4%nat) / 8)); [f_equal; unfold triple; field|].
        unfold Rdiv. rewrite Rabs_mult, (Rabs_right (/ 8)) by lra. reflexivity. }
  apply (cube_affine_acc _ (2 * S (degree / 2))); auto; try lra; try lia.
  - pose proof (Rabs_pos (triple (p 0%nat) (p 1%nat) (p 3%nat) (p 4%nat))). lra.
  - pose proof (div2_spec degree). lia.
Qed.
Example C70_case : parallelogram 3 (pt3 0 0 1) (pt3 2 0 1) (pt3 2 3 1) (pt3 0 3 1) /\
  dot 3 (psubt (pt3 2 0 1) (pt3 0 0 1)) (psubt (pt3 0 3 1) (pt3 0 0 1)) = 0 /\
  parallelepiped (fun k => nth k [pt3 0 0 0; pt3 2 0 0; pt3 3 1 0; pt3 1 1 0; pt3 0 0 1; pt3 2 0 1; pt3 3 1 1; pt3 1 1 1] (pt3 0 0 0)).
Proof.
  split; [intros i Hi; destruct i as [|[|[|i]]]; [| | |lia]; cbn [pt3]; lra|]. split; [cbn [dot]; unfold psubt; cbn [pt3]; lra|].
  intros i Hi. cbn [nth]. destruct i as [|[|[|i]]]; [| | |lia]; cbn [pt3]; lra.
Qed.
Print Assumptions C70_face.
Print Assumptions C70_skew_face_refuted.
Print Assumptions C70_hexahedron.

(** ** C71: the closed-form Gauss rules used for 1D cells are exact *)
Theorem C71_closed_form_gauss : forall golub_welsch degree a b c I, (degree <= 9)%nat -> (length c <= degree + 1)%nat ->
  a <= b -> is_int1 (cpoly c) a b I ->
  length (integrate_1D golub_welsch degree a b) = (degree / 2 + 1)%nat /\
  qsum (integrate_1D golub_welsch degree a b) (cpoly c) = I.
Proof.
  intros gw degree a b c I Hd Lc Hab HI. split.
  - unfold integrate_1D. rewrite map_length. clear - Hd. unfold bones_gauss_legendre.
    do 10 (destruct degree as [|degree]; [reflexivity|]). lia.
  - pose proof (bones_rule gw degree Hd) as E.
    assert (A : acc (bones_gauss_legendre gw degree) (2 * (degree / 2 + 1)) 0).
    { intros k Hk. rewrite (E k Hk), Rminus_diag_eq, Rabs_R0 by reflexivity. lra. }
    pose proof (acc_interval _ _ 0 a b c I (Rle_refl 0) A ltac:(pose proof (div2_spec degree); lia) HI) as B.
    unfold integrate_1D. rewrite Rabs_right by lra.
    rewrite (map_ext _ (fun t => (1 / 2 * (a + b) + 1 / 2 * (b - a) * fst t, 1 / 2 * (b - a) * snd t))).
    2:{ intro t. f_equal; field. }
    rewrite !Rmult_0_l in B.
    match type of B with Rabs ?x <= 0 => assert (x = 0) by (destruct (Req_dec x 0) as [Z|Z]; [exact Z|apply Rabs_pos_lt in Z; lra]) end.
    lra.
Qed.
Print Assumptions C71_closed_form_gauss.
Example C71_case : qsum (integrate_1D (fun _ => []) 3 0 2) (cpoly [1; 0; 1]) = 14 / 3.
Proof.
  destruct C23_case as (r & I & _ & _ & HI & ->).
  now apply (C71_closed_form_gauss (fun _ => []) 3 0 2 [1; 0; 1] (14 / 3)); try exact HI; cbn; try lia; lra.
Qed.
