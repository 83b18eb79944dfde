(** The triangle tables are accurate (kernel computation), and accuracy carries
    over to every triangle. *)
From Coq Require Import Reals List Lia Lra Psatz ZArith QArith Qreals Bool Factorial.
From Verif Require Import Common Poly_Spec Poly_Proofs Quad_Model Quad_Proofs Quad_Spec Geo_Model Geo_Proofs QChk_Proofs Tri_Tables Tri_Model.
Import ListNotations.
Local Open Scope R_scope.

(** ** triangle_gauss tables *)
Definition tgq (t : list triangle_gauss_point) : qtab := map (fun g => ([tg_l0 g; tg_l1 g], tg_weight g)) t.
Definition qpos (q : Q) : bool := Z.ltb 0 (Qnum q).
Definition tg_inside (t : list triangle_gauss_point) : bool :=
  forallb (fun g => qpos (tg_l0 g) && qpos (tg_l1 g) && qpos (1 - tg_l0 g - tg_l1 g) && qpos (tg_weight g))%bool t.
Definition tg_distinct : list (nat * list triangle_gauss_point) :=
  [ (1, triangle_gauss_rule_1); (2, triangle_gauss_rule_2); (3, triangle_gauss_rule_3); (4, triangle_gauss_rule_4);
    (5, triangle_gauss_rule_5); (6, triangle_gauss_rule_6); (7, triangle_gauss_rule_7); (8, triangle_gauss_rule_8);
    (9, triangle_gauss_rule_9); (10, triangle_gauss_rule_10); (11, triangle_gauss_rule_11); (12, triangle_gauss_rule_12);
    (13, triangle_gauss_rule_13); (14, triangle_gauss_rule_14); (15, triangle_gauss_rule_15); (16, triangle_gauss_rule_16);
    (17, triangle_gauss_rule_17); (19, triangle_gauss_rule_18); (21, triangle_gauss_rule_20); (25, triangle_gauss_rule_22);
    (30, triangle_gauss_rule_26) ]%nat.
Lemma tg_tables_ok : forallb (fun c => tab_ok 2 (fst c) (tgq (snd c)) && tg_inside (snd c) && negb (Nat.eqb (length (snd c)) 0))%bool tg_distinct = true.
Proof. vm_cast_no_check (eq_refl true). Qed.

Definition tab_good (d : nat) (t : list triangle_gauss_point) : Prop :=
  t <> [] /\ tg_inside t = true /\
  forall a, length a = 2%nat -> (lsum a <= d)%nat -> Rabs (qsum (tabRn (tgq t)) (mono a) - smoment 2 a 1) <= tri_eps.
Lemma tri_eps_pos : 0 <= tri_eps. Proof. unfold tri_eps. lra. Qed.
Lemma tg_good e t : In (e, t) tg_distinct -> (e <= 30)%nat -> tab_good e t.
Proof.
  intros Hin He. pose proof tg_tables_ok as H. rewrite forallb_forall in H. specialize (H _ Hin). cbn [fst snd] in H.
  apply andb_true_iff in H as [H H3]. apply andb_true_iff in H as [H1 H2]. split; [|split; [exact H2|]].
  - intro E. rewrite E in H3. discriminate.
  - intros a La Ha. pose proof (tab_moments 2 e _ H1 He a La Ha). lra.
Qed.
Lemma good_mono d e t : (d <= e)%nat -> tab_good e t -> tab_good d t.
Proof. intros H (A & B & C). split; [exact A|]. split; [exact B|]. intros a La Ha. apply C; [exact La|lia]. Qed.

(** the check that covers degree [d] *)
Definition tg_cover (d : nat) : nat :=
  if Nat.leb d 17 then d else if Nat.leb d 19 then 19 else if Nat.leb d 21 then 21 else if Nat.leb d 25 then 25 else 30%nat.
Lemma tg_nth i : (i < 30)%nat -> exists t, nth_error triangle_gauss_rules i = Some t /\ In (tg_cover (S i), t) tg_distinct.
Proof.
  assert (A : forall i t, nth_error (removelast triangle_gauss_rules) i = Some t -> In (tg_cover (S i), t) tg_distinct).
  { intros j t. unfold triangle_gauss_rules, tg_distinct. cbn [removelast].
    do 30 (destruct j as [|j]; [cbn [nth_error]; intros [= <-]; cbv [tg_cover Nat.leb In]; auto 40|]). destruct j; discriminate. }
  intro H. destruct (nth_error (removelast triangle_gauss_rules) i) as [t|] eqn:E.
  - exists t. split; [|now apply A]. replace triangle_gauss_rules with (removelast triangle_gauss_rules ++ [[]]) by reflexivity.
    rewrite nth_error_app1; [exact E|exact H].
  - apply nth_error_None in E. cbn in E. lia.
Qed.
Lemma tg_rule degree : (degree <= 30)%nat -> exists t,
  nth_error triangle_gauss_rules (if Nat.eqb degree 0 then 0 else degree - 1)%nat = Some t /\ tab_good degree t.
Proof.
  intro H. set (i := (if Nat.eqb degree 0 then 0 else degree - 1)%nat).
  assert (Hi : (i < 30)%nat /\ (degree <= S i)%nat) by (unfold i; destruct (Nat.eqb_spec degree 0); lia). destruct Hi as [Hi Hd].
  destruct (tg_nth i Hi) as (t & E & Hin). exists t. split; [exact E|].
  assert (C : (S i <= tg_cover (S i) <= 30)%nat).
  { unfold tg_cover. destruct (Nat.leb_spec (S i) 17), (Nat.leb_spec (S i) 19), (Nat.leb_spec (S i) 21), (Nat.leb_spec (S i) 25); lia. }
  apply (good_mono _ (tg_cover (S i))); [lia|]. apply tg_good; [exact Hin|lia].
Qed.

(** ** From the reference triangle to any triangle *)
Lemma acc_affine2 (r : list (pt * R)) d eps c (o u v : pt) p J : 0 <= eps -> (pdeg p <= d)%nat ->
  (forall a, length a = 2%nat -> (lsum a <= d)%nat -> Rabs (qsum r (mono a) - smoment 2 a 1) <= eps) ->
  is_int_simplex 2 1 (fun z => peval p (fun i => o i + z 0%nat * u i + z 1%nat * v i)) J ->
  Rabs (qsum (map (fun q => ((fun i => o i + fst q 0%nat * u i + fst q 1%nat * v i) : pt, c * snd q)) r) (peval p) - c * J)
    <= eps * Rabs c * pmag p (fun i => Rabs (o i) + Rabs (u i) + Rabs (v i)).
Proof.
  intros He Dg A HJ.
  set (sb := fun i => PAdd (PAdd (PC (o i)) (PMul (PX 0) (PC (u i)))) (PMul (PX 1) (PC (v i)))).
  assert (E : qsum (map (fun q => ((fun i => o i + fst q 0%nat * u i + fst q 1%nat * v i) : pt, c * snd q)) r) (peval p) = c * qsum r (peval (psub sb p))).
  { clear. induction r as [|[x w] r IH]; cbn [map qsum fst snd]; [ring|]. rewrite IH, psub_eval. rewrite (peval_ext p (fun i => peval (sb i) x) (fun i => o i + x 0%nat * u i + x 1%nat * v i)) by reflexivity. ring. }
  rewrite E, <- Rmult_minus_distr_l, Rabs_mult.
  assert (B : Rabs (qsum r (peval (psub sb p)) - J) <= eps * pmag (psub sb p) (fun _ => 1)).
  { apply (accurate_simplex r 2 d); [exact He| | |exact A|].
    - apply psub_vars. intro i. cbn. repeat split; lia.
    - pose proof (psub_deg sb p (fun i => le_n 1)). lia.
    - eapply is_int_simplex_ext; [|exact HJ]. intro z. rewrite psub_eval. reflexivity. }
  rewrite psub_mag in B. rewrite (pmag_ext p (fun i => pmag (sb i) (fun _ => 1)) (fun i => Rabs (o i) + Rabs (u i) + Rabs (v i))) in B
    by (intro k; cbn; ring).
  rewrite (Rmult_comm eps), Rmult_assoc. apply Rmult_le_compat_l; [apply Rabs_pos|exact B].
Qed.

(** ** Dunavant tables *)
(** the barycentric triples (and weight) an entry stands for *)
Definition dperms (e : dunavant_point) : list (Q * Q * Q * Q) :=
  let '(a, b, c, w) := (dp_l0 e, dp_l1 e, dp_l2 e, dp_weight e) in
  match dp_perms e with
  | 1%nat => [ (a, b, c, w) ]
  | 3%nat => [ (a, b, c, w); (b, c, a, w); (b, a, c, w) ]
  | 6%nat => [ (a, b, c, w); (a, c, b, w); (b, a, c, w); (b, c, a, w); (c, a, b, w); (c, b, a, w) ]
  | _ => []
  end.
Definition dexp (t : list dunavant_point) : list (Q * Q * Q * Q) := flat_map dperms t.
Definition dq (l : list (Q * Q * Q * Q)) : qtab := map (fun e => let '(a, b, c, w) := e in ([b; c], (w * (1 # 2))%Q)) l.
Definition dsum_ok (e : Q * Q * Q * Q) : bool :=
  let '(a, b, c, w) := e in let s := (a + b + c - 1)%Q in Z.leb (Z.abs (Qnum s) * 10 ^ 15) (Zpos (Qden s)).
Definition dunavant_sizes : list nat := [1; 3; 4; 6; 7; 12; 13; 16; 19; 25; 27; 33; 37; 42; 48; 52; 61; 70; 73; 79]%nat.
Lemma dn_tables_ok : forallb (fun c => let '(d, n, t) := c in
    tab_ok 2 d (dq (dexp t)) && forallb dsum_ok (dexp t) && Nat.eqb (length (dexp t)) n)%bool
  (combine (combine (seq 1 20) dunavant_sizes) dunavant_rules) = true.
Proof. vm_cast_no_check (eq_refl true). Qed.
