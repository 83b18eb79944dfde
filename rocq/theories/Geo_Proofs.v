From Coq Require Import Reals List Lia Lra Permutation ZArith.
From Verif Require Import Common Poly_Spec Poly_Proofs Quad_Model Quad_Spec Quad_Proofs Quad2_Proofs Geo_Spec Geo_Model.
Import ListNotations.
Open Scope R_scope.

(** ** Heron's formula *)
Definition heron (x y z : R) : R := 2 * x * y + 2 * y * z + 2 * z * x - x * x - y * y - z * z.
Lemma dot_nonneg D u : 0 <= dot D u u.
Proof. induction D; cbn [dot]; nra. Qed.
Lemma norm_sq D u : norm D u * norm D u = dot D u u.
Proof. apply sqrt_sqrt, dot_nonneg. Qed.
Lemma norm_nonneg D u : 0 <= norm D u.
Proof. apply sqrt_pos. Qed.

Lemma sort3_heron l1 l2 l3 : let l := sortR [l1; l2; l3] in
  let a := nth 2 l 0 in let b := nth 1 l 0 in let c := nth 0 l 0 in
  (a + (b + c)) * (c - (a - b)) * (c + (a - b)) * (a + (b - c)) = heron (l1 * l1) (l2 * l2) (l3 * l3).
Proof.
  cbv zeta. unfold heron, sortR, insertR. destruct (Rle_dec l2 l3); destruct (Rle_dec l1 l2); try destruct (Rle_dec l1 l3); cbn [nth]; try ring; lra.
Qed.

Lemma kahan_heron D p0 p1 p2 : area_triangle_kahan D p0 p1 p2 =
  1 / 4 * sqrt (heron (dot D (psubt p1 p0) (psubt p1 p0)) (dot D (psubt p2 p0) (psubt p2 p0)) (dot D (psubt p2 p1) (psubt p2 p1))).
Proof. unfold area_triangle_kahan. cbv zeta. rewrite (sort3_heron (norm D (psubt p1 p0))), !norm_sq. reflexivity. Qed.

Lemma sqrt_sq_abs x : sqrt (x * x) = Rabs x.
Proof. apply sqrt_Rsqr_abs. Qed.

Lemma kahan2 p0 p1 p2 : area_triangle_kahan 2 p0 p1 p2 = Rabs (cross2 p0 p1 p2) / 2.
Proof.
  rewrite kahan_heron. replace (heron _ _ _) with ((2 * cross2 p0 p1 p2) * (2 * cross2 p0 p1 p2)).
  - rewrite sqrt_sq_abs, Rabs_mult, (Rabs_right 2) by lra. field.
  - unfold heron, cross2, psubt. cbn [dot]. ring.
Qed.
Lemma cross3_nonneg p0 p1 p2 : 0 <= cross3_sq p0 p1 p2.
Proof. unfold cross3_sq. repeat apply Rplus_le_le_0_compat; apply pow2_ge_0. Qed.
Lemma kahan3 p0 p1 p2 : area_triangle_kahan 3 p0 p1 p2 = sqrt (cross3_sq p0 p1 p2) / 2.
Proof.
  rewrite kahan_heron. replace (heron _ _ _) with ((2 * 2) * cross3_sq p0 p1 p2).
  - rewrite sqrt_mult_alt, sqrt_square by lra. field.
  - unfold heron, cross3_sq, psubt. cbn [dot]. ring.
Qed.
Lemma volume_triple p0 p1 p2 p3 : volume_tetrahedron_kahan p0 p1 p2 p3 = Rabs (triple p0 p1 p2 p3) / 6.
Proof. unfold volume_tetrahedron_kahan, triple, vcross, psubt. cbn [dot pt3]. f_equal. f_equal. ring. Qed.

(** ** degenerate simplices *)
Lemma cross2_collinear a b c : cross2 a b c = 0 <-> collinear 2 a b c.
Proof.
  unfold cross2, collinear. split.
  - intro H. destruct (Req_dec (b 0%nat - a 0%nat) 0) as [U0|U0]; [|exists (c 0%nat - a 0%nat), (- (b 0%nat - a 0%nat)); split; [right; lra|intros i Hi; destruct i as [|[|i]]; [lra|lra|lia]]].
    destruct (Req_dec (b 1%nat - a 1%nat) 0) as [U1|U1]; [|exists (c 1%nat - a 1%nat), (- (b 1%nat - a 1%nat)); split; [right; lra|intros i Hi; destruct i as [|[|i]]; [lra|lra|lia]]].
    exists 1, 0. split; [left; lra|]. intros i Hi. destruct i as [|[|i]]; [| |lia]; lra.
  - intros (s & t & N & E). pose proof (E 0%nat ltac:(lia)) as E0. pose proof (E 1%nat ltac:(lia)) as E1.
    set (u0 := b 0%nat - a 0%nat) in *. set (u1 := b 1%nat - a 1%nat) in *. set (v0 := c 0%nat - a 0%nat) in *. set (v1 := c 1%nat - a 1%nat) in *.
    clearbody u0 u1 v0 v1. destruct N as [N|N].
    + apply (Rmult_eq_reg_l s); [|exact N]. replace (s * (u0 * v1 - u1 * v0)) with ((s * u0 + t * v0) * v1 - (s * u1 + t * v1) * v0) by ring. rewrite E0, E1. ring.
    + apply (Rmult_eq_reg_l t); [|exact N]. replace (t * (u0 * v1 - u1 * v0)) with (u0 * (s * u1 + t * v1) - u1 * (s * u0 + t * v0)) by ring. rewrite E0, E1. ring.
Qed.

Lemma dep2 (u v : pt) : u 1%nat * v 2%nat - u 2%nat * v 1%nat = 0 -> u 2%nat * v 0%nat - u 0%nat * v 2%nat = 0 -> u 0%nat * v 1%nat - u 1%nat * v 0%nat = 0 ->
  exists s t, (s <> 0 \/ t <> 0) /\ forall i, (i < 3)%nat -> s * u i + t * v i = 0.
Proof.
  intros X Y Z.
  destruct (Req_dec (u 0%nat) 0) as [U0|U0]; [|exists (v 0%nat), (- u 0%nat); split; [right; lra|intros i Hi; destruct i as [|[|[|i]]]; [lra|lra|lra|lia]]].
  destruct (Req_dec (u 1%nat) 0) as [U1|U1]; [|exists (v 1%nat), (- u 1%nat); split; [right; lra|intros i Hi; destruct i as [|[|[|i]]]; [lra|lra|lra|lia]]].
  destruct (Req_dec (u 2%nat) 0) as [U2|U2]; [|exists (v 2%nat), (- u 2%nat); split; [right; lra|intros i Hi; destruct i as [|[|[|i]]]; [lra|lra|lra|lia]]].
  exists 1, 0. split; [left; lra|]. intros i Hi. destruct i as [|[|[|i]]]; [| | |lia]; lra.
Qed.
Lemma dep2_conv (u v : pt) s t : (s <> 0 \/ t <> 0) -> (forall i, (i < 3)%nat -> s * u i + t * v i = 0) ->
  forall i j, (i < 3)%nat -> (j < 3)%nat -> u i * v j - u j * v i = 0.
Proof.
  intros N E i j Hi Hj. pose proof (E i Hi) as E0. pose proof (E j Hj) as E1. destruct N as [N|N].
  - apply (Rmult_eq_reg_l s); [|exact N]. replace (s * (u i * v j - u j * v i)) with ((s * u i + t * v i) * v j - (s * u j + t * v j) * v i) by ring. rewrite E0, E1. ring.
  - apply (Rmult_eq_reg_l t); [|exact N]. replace (t * (u i * v j - u j * v i)) with (u i * (s * u j + t * v j) - u j * (s * u i + t * v i)) by ring. rewrite E0, E1. ring.
Qed.
Lemma sumsq3 x y z : x ^ 2 + y ^ 2 + z ^ 2 = 0 -> x = 0 /\ y = 0 /\ z = 0.
Proof. intro H. repeat split; nra. Qed.
Lemma cross3_collinear a b c : cross3_sq a b c = 0 <-> collinear 3 a b c.
Proof.
  unfold cross3_sq, collinear. cbv zeta. set (u := fun i => b i - a i). set (v := fun i => c i - a i). split.
  - intro H. apply (sumsq3 (u 1%nat * v 2%nat - u 2%nat * v 1%nat) (u 2%nat * v 0%nat - u 0%nat * v 2%nat) (u 0%nat * v 1%nat - u 1%nat * v 0%nat)) in H.
    destruct H as (X & Y & Z). exact (dep2 u v X Y Z).
  - intros (s & t & N & E). pose proof (dep2_conv u v s t N E) as K. fold (u 1%nat) (u 2%nat) (u 0%nat) (v 0%nat) (v 1%nat) (v 2%nat). rewrite !K by lia. ring.
Qed.

Lemma triple_coplanar a b c d : triple a b c d = 0 <-> coplanar a b c d.
Proof.
  unfold triple, coplanar. cbv zeta. set (u := fun i => b i - a i). set (v := fun i => c i - a i). set (w := fun i => d i - a i).
  split.
  - intro H.
    assert (H' : u 0%nat * (v 1%nat * w 2%nat - v 2%nat * w 1%nat) - u 1%nat * (v 0%nat * w 2%nat - v 2%nat * w 0%nat) + u 2%nat * (v 0%nat * w 1%nat - v 1%nat * w 0%nat) = 0) by exact H.
    clear H. (* rows of cofactors *)
    assert (C : forall i j, (i, j) = (1, 2)%nat \/ (i, j) = (2, 0)%nat \/ (i, j) = (0, 1)%nat ->
       forall k, (k < 3)%nat -> (v i * w j - v j * w i) * u k + (w i * u j - w j * u i) * v k + (u i * v j - u j * v i) * w k = 0).
    { intros i j [E|[E|E]] k Hk; injection E as -> ->; destruct k as [|[|[|k]]]; try lia; first [ring|rewrite <- H'; ring]. }
    destruct (Req_dec (u 1%nat * v 2%nat - u 2%nat * v 1%nat) 0) as [X|X]; [|eexists _, _, _; split; [|apply (C 1%nat 2%nat); auto]; auto].
    destruct (Req_dec (u 2%nat * v 0%nat - u 0%nat * v 2%nat) 0) as [Y|Y]; [|eexists _, _, _; split; [|apply (C 2%nat 0%nat); auto]; auto].
    destruct (Req_dec (u 0%nat * v 1%nat - u 1%nat * v 0%nat) 0) as [Z|Z]; [|eexists _, _, _; split; [|apply (C 0%nat 1%nat); auto]; auto].
    destruct (dep2 u v X Y Z) as (s & t & N & E). exists s, t, 0. split; [tauto|]. intros i Hi. pose proof (E i Hi) as Ei. unfold u, v in Ei. rewrite Ei. ring.
  - intros (r & s & t & N & E0'). assert (E : forall i, (i < 3)%nat -> r * u i + s * v i + t * w i = 0) by exact E0'.
    pose proof (E 0%nat ltac:(lia)) as E0. pose proof (E 1%nat ltac:(lia)) as E1. pose proof (E 2%nat ltac:(lia)) as E2.
    set (D := u 0%nat * (v 1%nat * w 2%nat - v 2%nat * w 1%nat) - u 1%nat * (v 0%nat * w 2%nat - v 2%nat * w 0%nat) + u 2%nat * (v 0%nat * w 1%nat - v 1%nat * w 0%nat)).
    assert (Dr : r * D = 0).
    { unfold D. transitivity ((r * u 0%nat + s * v 0%nat + t * w 0%nat) * (v 1%nat * w 2%nat - v 2%nat * w 1%nat) - (r * u 1%nat + s * v 1%nat + t * w 1%nat) * (v 0%nat * w 2%nat - v 2%nat * w 0%nat) + (r * u 2%nat + s * v 2%nat + t * w 2%nat) * (v 0%nat * w 1%nat - v 1%nat * w 0%nat)); [ring|]. rewrite E0, E1, E2. ring. }
    assert (Ds : s * D = 0).
    { unfold D. transitivity (- (r * u 0%nat + s * v 0%nat + t * w 0%nat) * (u 1%nat * w 2%nat - u 2%nat * w 1%nat) + (r * u 1%nat + s * v 1%nat + t * w 1%nat) * (u 0%nat * w 2%nat - u 2%nat * w 0%nat) - (r * u 2%nat + s * v 2%nat + t * w 2%nat) * (u 0%nat * w 1%nat - u 1%nat * w 0%nat)); [ring|]. rewrite E0, E1, E2. ring. }
    assert (Dt : t * D = 0).
    { unfold D. transitivity ((r * u 0%nat + s * v 0%nat + t * w 0%nat) * (u 1%nat * v 2%nat - u 2%nat * v 1%nat) - (r * u 1%nat + s * v 1%nat + t * w 1%nat) * (u 0%nat * v 2%nat - u 2%nat * v 0%nat) + (r * u 2%nat + s * v 2%nat + t * w 2%nat) * (u 0%nat * v 1%nat - u 1%nat * v 0%nat)); [ring|]. rewrite E0, E1, E2. ring. }
    destruct N as [N|[N|N]]; apply Rmult_integral in Dr; apply Rmult_integral in Ds; apply Rmult_integral in Dt; tauto.
Qed.

(** ** barycenter *)
Lemma fold_padd l : forall p k, fold_left padd l p k = p k + sumR (map (fun q => q k) l).
Proof. induction l as [|q l IH]; intros p k; cbn [fold_left map sumR]; [ring|]. rewrite IH. unfold padd. ring. Qed.
Lemma sumR_perm l l' : Permutation l l' -> sumR l = sumR l'.
Proof. induction 1; cbn [sumR]; try lra. Qed.
Lemma barycenter_mean pts : pts <> [] -> exists b, barycenter pts = Ok b /\ forall k, b k = sumR (map (fun q => q k) pts) / INR (length pts).
Proof.
  intro H. destruct pts as [|p t]; [congruence|]. eexists; split; [reflexivity|]. intro k.
  unfold pscale. rewrite fold_padd. cbn [map sumR]. unfold Rdiv. ring.
Qed.

(** ** tetrahedron test *)
Lemma tetra_bary a b c d q : triple a b c d <> 0 ->
  let D := triple a b c d in
  let v0 := psubt b a in let v1 := psubt c a in let v2 := psubt c b in let v3 := psubt d a in let v4 := psubt d b in
  let t0 := dot 3 (vcross v3 v0) (psubt q a) in let t1 := dot 3 (vcross v0 v1) (psubt q a) in
  let t2 := dot 3 (vcross v4 v2) (psubt q b) in let t3 := dot 3 (vcross v1 v3) (psubt q a) in
  t0 + t1 + t2 + t3 = D /\ (forall i, (i < 3)%nat -> q i = t2 / D * a i + t3 / D * b i + t0 / D * c i + t1 / D * d i) /\
  forall la lb lc ld, la + lb + lc + ld = 1 -> (forall i, (i < 3)%nat -> q i = la * a i + lb * b i + lc * c i + ld * d i) ->
    t2 = la * D /\ t3 = lb * D /\ t0 = lc * D /\ t1 = ld * D.
Proof.
  intros N D v0 v1 v2 v3 v4 t0 t1 t2 t3.
  assert (S : t0 + t1 + t2 + t3 = D).
  { unfold t0, t1, t2, t3, D, v0, v1, v2, v3, v4, triple, vcross, psubt. cbn [dot pt3]. ring. }
  split; [exact S|]. split.
  - intros i Hi. apply (Rmult_eq_reg_l D); [|exact N].
    transitivity (t2 * a i + t3 * b i + t0 * c i + t1 * d i); [|field; exact N].
    unfold t0, t1, t2, t3, D, v0, v1, v2, v3, v4, triple, vcross, psubt. cbn [dot pt3].
    destruct i as [|[|[|i]]]; [| | |lia]; ring.
  - intros la lb lc ld L E. unfold t0, t1, t2, t3, D, v0, v1, v2, v3, v4, triple, vcross, psubt. cbn [dot pt3].
    rewrite !E by lia. replace la with (1 - lb - lc - ld) by lra. repeat split; ring.
Qed.

Lemma count_pos t0 t1 t2 t3 D : t0 + t1 + t2 + t3 = D -> 0 < D ->
  let count t := if Rlt_dec t 0 then (-1)%Z else 1%Z in
  let c := (count t0 + count t1 + count t2 + count t3)%Z in
  (Z.eqb c 4 || Z.eqb c (-4))%bool = true <-> 0 <= t0 /\ 0 <= t1 /\ 0 <= t2 /\ 0 <= t3.
Proof.
  intros S H. cbv beta zeta.
  destruct (Rlt_dec t0 0), (Rlt_dec t1 0), (Rlt_dec t2 0), (Rlt_dec t3 0); repeat match goal with n : ~ _ < _ |- _ => apply Rnot_lt_le in n end;
    cbn; split; intro K; try discriminate; try reflexivity; try (destruct K as (? & ? & ? & ?)); first [repeat split; lra|exfalso; lra].
Qed.
Lemma count_neg t0 t1 t2 t3 D : t0 + t1 + t2 + t3 = D -> D < 0 ->
  let count t := if Rlt_dec t 0 then (-1)%Z else 1%Z in
  let c := (count t0 + count t1 + count t2 + count t3)%Z in
  (Z.eqb c 4 || Z.eqb c (-4))%bool = true <-> t0 < 0 /\ t1 < 0 /\ t2 < 0 /\ t3 < 0.
Proof.
  intros S H. cbv beta zeta.
  destruct (Rlt_dec t0 0), (Rlt_dec t1 0), (Rlt_dec t2 0), (Rlt_dec t3 0); repeat match goal with n : ~ _ < _ |- _ => apply Rnot_lt_le in n end;
    cbn; split; intro K; try discriminate; try reflexivity; try (destruct K as (? & ? & ? & ?)); first [repeat split; lra|exfalso; lra].
Qed.

Lemma inside_pos a b c d q : 0 < triple a b c d -> is_inside_tetra a b c d q = true <-> in_tetra a b c d q.
Proof.
  intro H. destruct (tetra_bary a b c d q) as (S & B & U); [lra|].
  unfold is_inside_tetra. cbv zeta in *.
  set (t0 := dot 3 (vcross (psubt d a) (psubt b a)) (psubt q a)) in *. set (t1 := dot 3 (vcross (psubt b a) (psubt c a)) (psubt q a)) in *.
  set (t2 := dot 3 (vcross (psubt d b) (psubt c b)) (psubt q b)) in *. set (t3 := dot 3 (vcross (psubt c a) (psubt d a)) (psubt q a)) in *.
  rewrite (count_pos t0 t1 t2 t3 _ S H). set (D := triple a b c d) in *. clearbody t0 t1 t2 t3 D. split.
  - intros (P0 & P1 & P2 & P3). exists (t2 / D), (t3 / D), (t0 / D), (t1 / D).
    repeat split; try (apply div_nonneg; lra); auto. field_simplify; [|lra]. replace (t2 + t3 + t0 + t1) with D by lra. field. lra.
  - intros (la & lb & lc & ld & P0 & P1 & P2 & P3 & L & E). destruct (U la lb lc ld L E) as (-> & -> & -> & ->).
    repeat split; apply Rmult_le_pos; lra.
Qed.
Lemma inside_neg a b c d q : triple a b c d < 0 -> is_inside_tetra a b c d q = true <-> in_open_tetra a b c d q.
Proof.
  intro H. destruct (tetra_bary a b c d q) as (S & B & U); [lra|].
  unfold is_inside_tetra. cbv zeta in *.
  set (t0 := dot 3 (vcross (psubt d a) (psubt b a)) (psubt q a)) in *. set (t1 := dot 3 (vcross (psubt b a) (psubt c a)) (psubt q a)) in *.
  set (t2 := dot 3 (vcross (psubt d b) (psubt c b)) (psubt q b)) in *. set (t3 := dot 3 (vcross (psubt c a) (psubt d a)) (psubt q a)) in *.
  rewrite (count_neg t0 t1 t2 t3 _ S H). set (D := triple a b c d) in *. clearbody t0 t1 t2 t3 D.
  assert (P : forall t, t < 0 -> 0 < t / D).
  { intros t Ht. replace (t / D) with ((- t) / (- D)) by (field; lra). apply Rdiv_lt_0_compat; lra. }
  split.
  - intros (P0 & P1 & P2 & P3). exists (t2 / D), (t3 / D), (t0 / D), (t1 / D).
    repeat split; auto. field_simplify; [|lra]. replace (t2 + t3 + t0 + t1) with D by lra. field. lra.
  - intros (la & lb & lc & ld & P0 & P1 & P2 & P3 & L & E). destruct (U la lb lc ld L E) as (-> & -> & -> & ->).
    repeat split; nra.
Qed.

Lemma inside_polygon_true pts q : is_inside_polygon pts q = true.
Proof.
  unfold is_inside_polygon. apply forallb_forall. intros i Hi. apply in_seq in Hi. rewrite Nat.mod_small by lia.
  cbv zeta. match goal with |- context [Rlt_dec ?x 0] => replace x with 0 by ring end. destruct (Rlt_dec 0 0); [lra|reflexivity].
Qed.
