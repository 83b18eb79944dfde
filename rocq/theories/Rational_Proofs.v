From Coq Require Import ZArith QArith Qabs Qfield Lia Znumtheory Bool.
From Verif Require Import Common Rational_Model Rational_Spec.
Local Open Scope Z_scope.

Lemma gcd_loop_spec fuel : forall a b, (Z.abs_nat b < fuel)%nat ->
  exists g, gcd_loop fuel a b = Some g /\ Z.abs g = Z.gcd a b.
Proof.
  induction fuel as [|n IH]; intros a b H; [lia|].
  cbn [gcd_loop]. destruct (Z.eqb_spec b 0) as [->|Hb].
  - exists a. split; [reflexivity|]. rewrite Z.gcd_0_r. reflexivity.
  - destruct (IH b (Z.rem a b)) as (g & E & G).
    { pose proof (Z.rem_bound_abs a b Hb). lia. }
    exists g. split; [exact E|]. rewrite G.
    rewrite Z.gcd_comm, Z.gcd_rem by exact Hb. apply Z.gcd_comm.
Qed.

Lemma gcd_spec a b : exists g, gcd a b = Some g /\ Z.abs g = Z.gcd a b.
Proof. apply gcd_loop_spec. lia. Qed.

Lemma gcd_divides a b g : gcd a b = Some g -> b <> 0 ->
  g <> 0 /\ exists p q, a = p * g /\ b = q * g /\ Z.gcd p q = 1.
Proof.
  intros E Hb. destruct (gcd_spec a b) as (g' & E' & G). rewrite E in E'. injection E' as <-.
  assert (Hg : g <> 0).
  { intros ->. simpl in G. symmetry in G. apply Z.gcd_eq_0_r in G. contradiction. }
  split; [exact Hg|].
  assert (D1 : (g | a)) by (apply Z.divide_abs_l; rewrite G; apply Z.gcd_divide_l).
  assert (D2 : (g | b)) by (apply Z.divide_abs_l; rewrite G; apply Z.gcd_divide_r).
  destruct D1 as [p Hp], D2 as [q Hq]. exists p, q.
  repeat split; auto.
  subst a b. rewrite Z.gcd_mul_mono_r in G.
  assert (Z.abs g <> 0) by lia. nia.
Qed.

Lemma quot_mul a g : g <> 0 -> idiv (a * g) g = Ok a.
Proof.
  intros H. unfold idiv. destruct (Z.eqb_spec g 0); [contradiction|].
  f_equal. apply Z.quot_mul. exact H.
Qed.

Lemma adjust_den r : den r <> 0 -> 0 < den (adjust_signs r).
Proof. unfold adjust_signs; intros. destruct (Z.leb_spec 0 (den r)); simpl; lia. Qed.

Lemma inject_nz d : d <> 0 -> ~ (inject_Z d == 0)%Q.
Proof. intros H E. apply H. unfold Qeq in E; simpl in E. lia. Qed.

Lemma value_eq r s : den r <> 0 -> den s <> 0 ->
  num r * den s = num s * den r -> (value r == value s)%Q.
Proof.
  intros Hr Hs E. unfold value.
  pose proof (inject_nz _ Hr). pose proof (inject_nz _ Hs).
  assert (E' : (inject_Z (num r) * inject_Z (den s) == inject_Z (num s) * inject_Z (den r))%Q).
  { rewrite <- !inject_Z_mult. rewrite E. reflexivity. }
  apply (Qmult_inj_r _ _ (inject_Z (den r) * inject_Z (den s))).
  - intros C. apply Qmult_integral in C. tauto.
  - transitivity (inject_Z (num r) * inject_Z (den s))%Q; [field; auto|].
    rewrite E'. field; auto.
Qed.

Lemma value_adjust r : den r <> 0 -> (value (adjust_signs r) == value r)%Q.
Proof.
  intros H. pose proof (adjust_den r H). apply value_eq; try lia.
  unfold adjust_signs. destruct (Z.leb_spec 0 (den r)); simpl; ring.
Qed.

Lemma simplify_spec r : den r <> 0 ->
  exists s, simplify r = Ok s /\ 0 < den s /\ (value s == value r)%Q /\ Z.gcd (num s) (den s) = 1.
Proof.
  intros H. unfold simplify.
  destruct (gcd_spec (num r) (den r)) as (g & E & G). rewrite E. cbn [lift_gcd bind].
  destruct (gcd_divides _ _ _ E H) as (Hg & p & q & Hp & Hq & C).
  rewrite Hp, quot_mul by exact Hg. cbn [bind].
  rewrite Hq, quot_mul by exact Hg. cbn [bind].
  assert (q <> 0) by (intros ->; lia).
  eexists; split; [reflexivity|]. split; [|split].
  - apply adjust_den; simpl; assumption.
  - rewrite value_adjust by (simpl; assumption). apply value_eq; simpl; auto.
    rewrite Hp, Hq. ring.
  - unfold adjust_signs; simpl. destruct (Z.leb_spec 0 q); simpl; auto.
    rewrite Z.gcd_opp_l, Z.gcd_opp_r. exact C.
Qed.

Lemma radd_spec x y : den x <> 0 -> den y <> 0 ->
  exists z, radd x y = Ok z /\ 0 < den z /\ (value z == value x + value y)%Q.
Proof.
  intros Hx Hy. destruct (simplify_spec (mkR (num x * den y + den x * num y) (den x * den y))) as (s & E & P & V & _).
  - simpl; intros C. apply Z.mul_eq_0 in C. tauto.
  - exists s. split; [exact E|]. split; [exact P|]. rewrite V. unfold value; simpl.
    rewrite inject_Z_plus, !inject_Z_mult.
    pose proof (inject_nz _ Hx). pose proof (inject_nz _ Hy). field; auto.
Qed.

Lemma rsub_spec x y : den x <> 0 -> den y <> 0 ->
  exists z, rsub x y = Ok z /\ 0 < den z /\ (value z == value x - value y)%Q.
Proof.
  intros Hx Hy. destruct (simplify_spec (mkR (num x * den y - den x * num y) (den x * den y))) as (s & E & P & V & _).
  - simpl; intros C. apply Z.mul_eq_0 in C. tauto.
  - exists s. split; [exact E|]. split; [exact P|]. rewrite V. unfold value; simpl.
    unfold Z.sub. rewrite inject_Z_plus, inject_Z_opp, !inject_Z_mult.
    pose proof (inject_nz _ Hx). pose proof (inject_nz _ Hy). field; auto.
Qed.

Lemma rat_make_spec n d : d <> 0 ->
  0 < den (rat_make n d) /\ (value (rat_make n d) == inject_Z n / inject_Z d)%Q.
Proof.
  intros H. split; [apply adjust_den; exact H|]. unfold rat_make.
  rewrite value_adjust by exact H. reflexivity.
Qed.

Lemma ropp_spec x : den x <> 0 -> 0 < den (ropp x) /\ (value (ropp x) == - value x)%Q.
Proof.
  intros H. destruct (rat_make_spec (- num x) (den x) H) as [P V]. split; [exact P|].
  unfold ropp. rewrite V. rewrite inject_Z_opp. unfold value. pose proof (inject_nz _ H). field; auto.
Qed.

Lemma rinv_spec x : den x <> 0 -> num x <> 0 -> 0 < den (rinv x) /\ (value (rinv x) == / value x)%Q.
Proof.
  intros H N. destruct (rat_make_spec (den x) (num x) N) as [P V]. split; [exact P|].
  unfold rinv. rewrite V. unfold value. pose proof (inject_nz _ H). pose proof (inject_nz _ N). field; auto.
Qed.

Lemma rmul_spec x y : den x <> 0 -> den y <> 0 ->
  exists z, rmul x y = Ok z /\ den z <> 0 /\ (value z == value x * value y)%Q.
Proof.
  intros Hx Hy. unfold rmul.
  destruct (gcd_spec (num x) (den y)) as (g1 & E1 & _). rewrite E1.
  destruct (gcd_divides _ _ _ E1 Hy) as (Hg1 & p1 & q1 & Hp1 & Hq1 & _).
  destruct (gcd_spec (den x) (num y)) as (g2 & E2 & G2). rewrite E2. cbn [lift_gcd bind].
  assert (Hg2 : g2 <> 0).
  { intros ->. simpl in G2. symmetry in G2. apply Z.gcd_eq_0_l in G2. contradiction. }
  assert (D1 : (g2 | den x)) by (apply Z.divide_abs_l; rewrite G2; apply Z.gcd_divide_l).
  assert (D2 : (g2 | num y)) by (apply Z.divide_abs_l; rewrite G2; apply Z.gcd_divide_r).
  destruct D1 as [p2 Hp2], D2 as [q2 Hq2].
  rewrite Hp1, quot_mul by exact Hg1. rewrite Hp2, quot_mul by exact Hg2.
  rewrite Hq2, quot_mul by exact Hg2. rewrite Hq1, quot_mul by exact Hg1. cbn [bind].
  assert (q1 <> 0) by (intros ->; lia). assert (p2 <> 0) by (intros ->; lia).
  assert (p2 * q1 <> 0) by (intros C; apply Z.mul_eq_0 in C; tauto).
  eexists; split; [reflexivity|]. split; [simpl; assumption|].
  unfold value; simpl. rewrite Hp1, Hp2, Hq1, Hq2. rewrite !inject_Z_mult.
  pose proof (inject_nz _ Hg1). pose proof (inject_nz _ Hg2).
  pose proof (inject_nz q1 ltac:(assumption)). pose proof (inject_nz p2 ltac:(assumption)).
  field; auto.
Qed.

Lemma rmul_int_spec x k : den x <> 0 ->
  exists z, rmul_int x k = Ok z /\ 0 < den z /\ (value z == value x * inject_Z k)%Q.
Proof.
  intros Hx. destruct (simplify_spec (mkR (num x * k) (den x)) Hx) as (s & E & P & V & _).
  exists s. split; [exact E|]. split; [exact P|]. rewrite V. unfold value; simpl.
  rewrite inject_Z_mult. pose proof (inject_nz _ Hx). field; auto.
Qed.

Lemma rdiv_int_spec x k : den x <> 0 -> k <> 0 ->
  exists z, rdiv_int x k = Ok z /\ den z <> 0 /\ (value z == value x / inject_Z k)%Q.
Proof.
  intros Hx Hk. eexists; split; [reflexivity|]. simpl. split.
  - intros C; apply Z.mul_eq_0 in C; tauto.
  - unfold value; simpl. rewrite inject_Z_mult. pose proof (inject_nz _ Hx). pose proof (inject_nz _ Hk).
    field; auto.
Qed.

Lemma value_num_nz x : den x <> 0 -> ~ (value x == 0)%Q -> num x <> 0.
Proof.
  intros H V E. apply V. unfold value. rewrite E.
  pose proof (inject_nz _ H). change (inject_Z 0) with 0%Q. field; auto.
Qed.

Lemma rdiv_spec x y : den x <> 0 -> den y <> 0 -> ~ (value y == 0)%Q ->
  exists z, rdiv x y = Ok z /\ den z <> 0 /\ (value z == value x / value y)%Q.
Proof.
  intros Hx Hy V. pose proof (value_num_nz _ Hy V) as N.
  destruct (rinv_spec y Hy N) as [P W].
  destruct (rmul_spec x (rinv y) Hx ltac:(lia)) as (z & E & D & M).
  exists z. split; [exact E|]. split; [exact D|]. rewrite M, W. reflexivity.
Qed.

Lemma reval_correct e q : meaning e = Some q ->
  exists r, reval e = Ok r /\ den r <> 0 /\ (value r == q)%Q /\
            (last_op_adjusts_signs e = true -> 0 < den r).
Proof.
  revert q; induction e as [n d|n|x IHx y IHy|x IHx y IHy|x IHx y IHy|x IHx y IHy|x IHx|x IHx|x IHx k|x IHx k|x IHx];
    intros q M; cbn [meaning] in M; cbn [reval last_op_adjusts_signs].
  - destruct (Z.eqb_spec d 0) as [?|Hd]; [discriminate|]. injection M as <-.
    destruct (rat_make_spec n d Hd). eexists; split; [reflexivity|]. repeat split; auto; lia.
  - injection M as <-. eexists; split; [reflexivity|]. simpl. repeat split; auto; try lia.
    unfold value; simpl. field.
  - destruct (meaning x) as [a|]; [|discriminate]. destruct (meaning y) as [b|]; [|discriminate]. injection M as <-.
    destruct (IHx _ eq_refl) as (r & -> & Dr & Vr & _), (IHy _ eq_refl) as (s & -> & Ds & Vs & _). cbn [bind].
    destruct (radd_spec r s Dr Ds) as (t & -> & P & V). exists t. rewrite V, Vr, Vs. repeat split; auto; try reflexivity; lia.
  - destruct (meaning x) as [a|]; [|discriminate]. destruct (meaning y) as [b|]; [|discriminate]. injection M as <-.
    destruct (IHx _ eq_refl) as (r & -> & Dr & Vr & _), (IHy _ eq_refl) as (s & -> & Ds & Vs & _). cbn [bind].
    destruct (rsub_spec r s Dr Ds) as (t & -> & P & V). exists t. rewrite V, Vr, Vs. repeat split; auto; try reflexivity; lia.
  - destruct (meaning x) as [a|]; [|discriminate]. destruct (meaning y) as [b|]; [|discriminate]. injection M as <-.
    destruct (IHx _ eq_refl) as (r & -> & Dr & Vr & _), (IHy _ eq_refl) as (s & -> & Ds & Vs & _). cbn [bind].
    destruct (rmul_spec r s Dr Ds) as (t & -> & P & V). exists t. rewrite V, Vr, Vs. repeat split; auto; try reflexivity; discriminate.
  - destruct (meaning x) as [a|]; [|discriminate]. destruct (meaning y) as [b|]; [|discriminate].
    destruct (Qeq_bool b 0) eqn:Eb; [discriminate|]. injection M as <-.
    apply Qeq_bool_neq in Eb.
    destruct (IHx _ eq_refl) as (r & -> & Dr & Vr & _), (IHy _ eq_refl) as (s & -> & Ds & Vs & _). cbn [bind].
    destruct (rdiv_spec r s Dr Ds) as (t & -> & P & V); [rewrite Vs; exact Eb|].
    exists t. rewrite V, Vr, Vs. repeat split; auto; try reflexivity; discriminate.
  - destruct (meaning x) as [a|]; [|discriminate]. injection M as <-.
    destruct (IHx _ eq_refl) as (r & -> & Dr & Vr & _). cbn [bind].
    destruct (ropp_spec r Dr) as [P V]. exists (ropp r). rewrite V, Vr. repeat split; auto; try reflexivity; lia.
  - destruct (meaning x) as [a|]; [|discriminate]. destruct (Qeq_bool a 0) eqn:Ea; [discriminate|]. injection M as <-.
    apply Qeq_bool_neq in Ea.
    destruct (IHx _ eq_refl) as (r & -> & Dr & Vr & _). cbn [bind].
    destruct (rinv_spec r Dr) as [P V]; [apply value_num_nz; auto; rewrite Vr; exact Ea|].
    exists (rinv r). rewrite V, Vr. repeat split; auto; try reflexivity; lia.
  - destruct (meaning x) as [a|]; [|discriminate]. injection M as <-.
    destruct (IHx _ eq_refl) as (r & -> & Dr & Vr & _). cbn [bind].
    destruct (rmul_int_spec r k Dr) as (t & -> & P & V). exists t. rewrite V, Vr. repeat split; auto; try reflexivity; lia.
  - destruct (meaning x) as [a|]; [|discriminate]. destruct (Z.eqb_spec k 0) as [?|Hk]; [discriminate|]. injection M as <-.
    destruct (IHx _ eq_refl) as (r & -> & Dr & Vr & _). cbn [bind].
    destruct (rdiv_int_spec r k Dr Hk) as (t & -> & P & V). exists t. rewrite V, Vr. repeat split; auto; try reflexivity; discriminate.
  - destruct (IHx _ M) as (r & -> & Dr & Vr & _). cbn [bind].
    destruct (simplify_spec r Dr) as (t & -> & P & V & _). exists t. rewrite V, Vr. repeat split; auto; try reflexivity; lia.
Qed.

Lemma lcm_spec a b : (a <> 0 \/ b <> 0) -> exists l, lcm a b = Ok l /\ Z.abs l = Z.lcm a b.
Proof.
  intros H. unfold lcm. destruct (gcd_spec a b) as (g & -> & G). cbn [lift_gcd bind].
  assert (Hg : g <> 0).
  { intros ->. simpl in G. symmetry in G. destruct H as [H|H]; apply H;
      [apply Z.gcd_eq_0_l in G|apply Z.gcd_eq_0_r in G]; exact G. }
  unfold idiv. destruct (Z.eqb_spec g 0); [contradiction|]. cbn [bind].
  eexists; split; [reflexivity|].
  unfold Z.lcm. rewrite <- G.
  assert (D1 : (g | a)) by (apply Z.divide_abs_l; rewrite G; apply Z.gcd_divide_l).
  assert (D2 : (g | b)) by (apply Z.divide_abs_l; rewrite G; apply Z.gcd_divide_r).
  destruct D1 as [p ->], D2 as [q ->].
  assert (E1 : Z.quot (Z.abs (p * g)) g = Z.abs p * Z.sgn g).
  { rewrite Z.abs_mul. replace (Z.abs p * Z.abs g) with (Z.abs p * Z.sgn g * g) by (rewrite <- (Z.sgn_abs g); ring).
    apply Z.quot_mul; exact Hg. }
  assert (E2 : q * g / Z.abs g = q * Z.sgn g).
  { replace (q * g) with (q * Z.sgn g * Z.abs g).
    - apply Z.div_mul. lia.
    - rewrite <- Z.mul_assoc. f_equal. rewrite Z.mul_comm. apply Z.abs_sgn. }
  rewrite E1, E2. rewrite !Z.abs_mul, ?Z.abs_involutive.
  assert (Z.abs (Z.sgn g) = 1) by (destruct g; simpl in *; lia). nia.
Qed.

Section order.
  Lemma cross_lt x y : 0 < den x -> 0 < den y ->
    ((value x < value y)%Q <-> num x * den y < den x * num y).
  Proof.
    intros Hx Hy. unfold value.
    destruct (den x) as [|dx|]; try lia. destruct (den y) as [|dy|]; try lia.
    unfold Qdiv, Qinv, Qmult, Qlt; cbn [Qnum Qden inject_Z]. rewrite !Pos.mul_1_l, !Z.mul_1_r, (Z.mul_comm (num y)). reflexivity.
  Qed.
  Lemma cross_le x y : 0 < den x -> 0 < den y ->
    ((value x <= value y)%Q <-> num x * den y <= den x * num y).
  Proof.
    intros Hx Hy. unfold value.
    destruct (den x) as [|dx|]; try lia. destruct (den y) as [|dy|]; try lia.
    unfold Qdiv, Qinv, Qmult, Qle; cbn [Qnum Qden inject_Z]. rewrite !Pos.mul_1_l, !Z.mul_1_r, (Z.mul_comm (num y)). reflexivity.
  Qed.
End order.

Lemma order_correct x y : 0 < den x -> 0 < den y ->
  (rlt x y = true <-> (value x < value y)%Q) /\
  (rle x y = true <-> (value x <= value y)%Q) /\
  (rgt x y = true <-> (value y < value x)%Q) /\
  (rge x y = true <-> (value y <= value x)%Q).
Proof.
  intros Hx Hy. rewrite cross_lt, cross_le, (cross_lt y x), (cross_le y x) by assumption.
  unfold rgt, rge, rlt, rle. rewrite !negb_true_iff.
  rewrite Z.ltb_lt, Z.leb_le, Z.leb_gt, Z.ltb_ge. repeat split; lia.
Qed.

Lemma rabs_correct x : 0 < den x -> 0 < den (rabs x) /\ (value (rabs x) == Qabs (value x))%Q.
Proof.
  intros H. unfold rabs.
  destruct (order_correct x (rat_of_int 0) H ltac:(simpl; lia)) as (L & _).
  assert (V0 : (value (rat_of_int 0) == 0)%Q) by (unfold value; simpl; field).
  destruct (rlt x (rat_of_int 0)) eqn:E.
  - destruct (ropp_spec x ltac:(lia)) as [P V]. split; [exact P|].
    rewrite V. rewrite Qabs_neg; [reflexivity|].
    apply Qlt_le_weak. destruct L as [L _]. specialize (L eq_refl). rewrite V0 in L. exact L.
  - split; [exact H|]. rewrite Qabs_pos; [reflexivity|].
    apply Qnot_lt_le. intros C. rewrite <- V0 in C. apply L in C. discriminate.
Qed.
