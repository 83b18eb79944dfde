(** Proofs about the vector bases: differential operators, tangential bases. *)
From Coq Require Import List Arith ZArith Bool Reals Lia Lra.
From Verif Require Import Common Tensor_Spec Tensor_Proofs Law2_Proofs Bases_Model Bases_Spec Bases_Proofs Bases2_Proofs Bases3_Proofs VBases_Model VBases_Spec VBases_Proofs VBases2_Proofs VBases3_Proofs.
Import ListNotations.
Open Scope R_scope.

(** the Jacobian matrix of the function with component c, from the gradient of the scalar function *)
Definition Dm (c : nat) (row : list R) (a b : nat) : R := if (a =? c)%nat then nth b row 0 else 0.
Section Ops.
  Context (d n : nat) (es : (nat -> R) -> outcome (list R)) (gs ev : (nat -> R) -> outcome mat).
  Context (GO : gradients_ok d n es gs).
  Context (EL : forall x, exists phi, es x = Ok phi /\ length phi = n).
  Context (EV : forall x phi, es x = Ok phi -> ev x = Ok (vrows d phi)).
  Lemma vcomp_ev i c a x : (i < n)%nat -> (c < d)%nat -> (a < d)%nat -> vcomp ev (d * i + c) a x = if (a =? c)%nat then function_of es i x else 0.
  Proof.
    intros Hi Hc Ha. unfold vcomp, function_of. destruct (EL x) as (phi & E & L). rewrite (EV x phi E), E. apply vcomp_vrows; lia.
  Qed.
  Lemma jac_ev x G i c row : gs x = Ok G -> (i < n)%nat -> (c < d)%nat -> nth_error G i = Some row ->
    (forall b, (b < d)%nat -> derivable_pt_lim (fun t => function_of es i (move x b t)) (x b) (nth b row 0)) -> jacobian d ev (d * i + c) x (Dm c row).
  Proof.
    intros EG Hi Hc ER HD a b Ha Hb. unfold Dm. destruct (Nat.eqb_spec a c) as [->|N].
    - eapply d_ext; [|apply HD, Hb]. intros t. cbv beta. rewrite vcomp_ev by assumption. rewrite Nat.eqb_refl. reflexivity.
    - eapply d_ext; [|apply (d_const 0)]. intros t. cbv beta. rewrite vcomp_ev by assumption. apply Nat.eqb_neq in N. rewrite N. reflexivity.
  Qed.
  Lemma op_ok {A} (op : (nat -> nat -> R) -> A) oper :
    (forall x G, gs x = Ok G -> length G = n -> (forall i, (i < n)%nat -> length (nth i G []) = d) ->
      oper x = Ok (flat_map (fun i => map (fun c => op (Dm c (nth i G []))) (seq 0 d)) (seq 0 n))) ->
    operator_ok d (d * n) ev oper op.
  Proof.
    intros H x. destruct (GO x) as (G & EG & LG & HG). eexists. split; [apply (H x G EG LG)|].
    - intros i Hi. destruct (HG i Hi) as (row & Hr & Lr & _). rewrite (nth_error_nth _ _ _ Hr). exact Lr.
    - split.
      + rewrite (flat_map_length_const _ d), seq_length; [reflexivity|]. intros. rewrite map_length, seq_length. reflexivity.
      + intros j Hj. destruct (split_index _ _ _ Hj) as (i & c & Hi & Hc & ->). destruct (HG i Hi) as (row & Hr & Lr & HD).
        exists (Dm c row). split; [exact (jac_ev x G i c row EG Hi Hc Hr HD)|].
        rewrite (nth_error_nth' _ (op (Dm 0 []))).
        2:{ rewrite (flat_map_length_const _ d), seq_length; [exact Hj|]. intros. rewrite map_length, seq_length. reflexivity. }
        rewrite (nth_flat _ d) by (try assumption; intros; rewrite map_length, seq_length; reflexivity).
        rewrite nth_map_seq by exact Hc. rewrite Nat.add_0_l, (nth_error_nth _ _ _ Hr). reflexivity.
  Qed.
End Ops.

(** ** the loops *)
Section Loops.
  Context (d n : nat) (Hd : d = 2%nat \/ d = 3%nat) (G : mat) (LG : length G = n) (LR : forall i, (i < n)%nat -> length (nth i G []) = d).
  Lemma row_Dm c di : (c < d)%nat -> length di = d -> row_mat d c di = Ok (as_matrix d (Dm c di)).
  Proof.
    intros Hc Hb. destruct Hd as [-> | ->].
    - destruct di as [|b0 [|b1 [|]]]; try discriminate Hb. upto 2%nat c; reflexivity.
    - destruct di as [|b0 [|b1 [|b2 [|]]]]; try discriminate Hb. upto 3%nat c; reflexivity.
  Qed.
  Lemma gradients_loop : vec_gradients d n G = Ok (flat_map (fun i => map (fun c => as_matrix d (Dm c (nth i G []))) (seq 0 d)) (seq 0 n)).
  Proof.
    unfold vec_gradients. rewrite (for_app' _ (fun i => map (fun c => as_matrix d (Dm c (nth i G []))) (seq 0 d))); [rewrite Nat.sub_0_r; reflexivity|lia|].
    intros s i Hi. rewrite (vget_nth _ _ []) by lia. cbn [bind]. rewrite (for_app' _ (fun c => [as_matrix d (Dm c (nth i G []))])); [|lia|].
    - rewrite Nat.sub_0_r, flat_single. reflexivity.
    - intros s' c Hc. rewrite row_Dm by (try lia; apply LR; lia). reflexivity.
  Qed.
  Lemma sgradients_loop : vec_sgradients d n G = Ok (flat_map (fun i => map (fun c => sym_gradient d (Dm c (nth i G []))) (seq 0 d)) (seq 0 n)).
  Proof.
    unfold vec_sgradients. rewrite (for_app' _ (fun i => map (fun c => sym_gradient d (Dm c (nth i G []))) (seq 0 d))); [rewrite Nat.sub_0_r; reflexivity|lia|].
    intros s i Hi. rewrite (vget_nth _ _ []) by lia. cbn [bind]. rewrite (for_app' _ (fun c => [sym_gradient d (Dm c (nth i G []))])); [|lia|].
    - rewrite Nat.sub_0_r, flat_single. reflexivity.
    - intros s' c Hc. rewrite row_Dm by (try lia; apply LR; lia). cbn [bind]. apply f_equal. f_equal. f_equal.
      unfold sym_part, transpose, sym_gradient. destruct Hd as [-> | ->]; reflexivity.
  Qed.
  Lemma vset_next {A} (z : A) (L : list A) v m r : r = length L -> vset (L ++ repeat z (S m)) r v = Ok ((L ++ [v]) ++ repeat z m).
  Proof. intros ->. unfold vset. cbn [repeat]. rewrite upd_app, <- app_assoc. reflexivity. Qed.
  Lemma div_Dm c di : (c < d)%nat -> length di = d -> divergence d (Dm c di) = nth c di 0.
  Proof. intros Hc _. unfold divergence. rewrite (sig_single d c); [unfold Dm; rewrite Nat.eqb_refl; reflexivity|exact Hc|]. intros i _ Ni. unfold Dm. apply Nat.eqb_neq in Ni. rewrite Ni. reflexivity. Qed.
  Lemma divergences_loop : vec_divergences d n (d * n) G = Ok (flat_map (fun i => map (fun c => divergence d (Dm c (nth i G []))) (seq 0 d)) (seq 0 n)).
  Proof.
    unfold vec_divergences, zeros. pose proof (for_fill 0 d
      (fun ret i => for_range 0 d (fun ret c => do p <- mread G i c; vset ret (d * i + c) p) (Ok ret))
      (fun i => map (fun c => divergence d (Dm c (nth i G []))) (seq 0 d)) n 0 [] 0 0) as K.
    rewrite Nat.add_0_r, Nat.add_0_l in K. cbn [app repeat] in K. rewrite app_nil_r in K. apply K; clear K.
    - intros i L m I EL. pose proof (for_fill 0 1 (fun ret c => do p <- mread G i c; vset ret (d * i + c) p)
        (fun c => [divergence d (Dm c (nth i G []))]) d 0 L m (d * i)) as K. rewrite Nat.mul_1_l, Nat.add_0_l in K. rewrite K; clear K.
      + rewrite flat_single. reflexivity.
      + intros c L' m' Ic E'. unfold mread. rewrite (vget_nth _ _ []) by lia. cbn [bind]. rewrite (vget_nth _ _ 0) by (rewrite LR; lia). cbn [bind].
        change (1 + m')%nat with (S m'). rewrite vset_next by lia. rewrite div_Dm by (try apply LR; lia). rewrite <- app_assoc. reflexivity.
      + reflexivity.
      + lia.
    - intros i I. rewrite map_length, seq_length. reflexivity.
    - reflexivity.
  Qed.
End Loops.
Lemma curls2_loop n G : length G = n -> (forall i, (i < n)%nat -> length (nth i G []) = 2%nat) ->
  vec2_curls n (2 * n) G = Ok (flat_map (fun i => map (fun c => - curl2 (Dm c (nth i G []))) (seq 0 2)) (seq 0 n)).
Proof.
  intros LG LR. unfold vec2_curls, zeros.
  pose proof (for_fill 0 2 (fun ret i => do di <- vget G i; do d0 <- vget di 0; do d1 <- vget di 1; do ret <- vset ret (2 * i) d1; vset ret (2 * i + 1) (- d0))
    (fun i => map (fun c => - curl2 (Dm c (nth i G []))) (seq 0 2)) n 0 [] 0 0) as K.
  rewrite Nat.add_0_r, Nat.add_0_l in K. cbn [app repeat] in K. rewrite app_nil_r in K. apply K; clear K.
  - intros i L m I EL. rewrite (vget_nth _ _ []) by lia. cbn [bind]. pose proof (LR i ltac:(lia)) as Lr. destruct (nth i G []) as [|a [|b [|]]]; try discriminate Lr.
    unfold vget. cbn [nth_error bind]. change (2 + m)%nat with (S (S m)). rewrite vset_next by lia. cbn [bind]. rewrite vset_next by (rewrite app_length; cbn; lia).
    apply f_equal. rewrite <- !app_assoc. cbn [app]. unfold curl2, Dm. cbn [seq map Nat.eqb nth app]. f_equal. f_equal; [ring|]. f_equal. ring.
  - reflexivity.
  - reflexivity.
Qed.
Lemma curls3_loop n G : length G = n -> (forall i, (i < n)%nat -> length (nth i G []) = 3%nat) ->
  vec3_curls2 n (3 * n) G = Ok (flat_map (fun i => map (fun c => curl3 (Dm c (nth i G []))) (seq 0 3)) (seq 0 n)).
Proof.
  intros LG LR. unfold vec3_curls2, zero_rows.
  pose proof (for_fill (repeat 0 3) 3 (fun ret i => do di <- vget G i; do d0 <- vget di 0; do d1 <- vget di 1; do d2 <- vget di 2;
    do ret <- mput ret (3 * i) 1 d2; do ret <- mput ret (3 * i) 2 (- d1);
    do ret <- mput ret (3 * i + 1) 0 (- d2); do ret <- mput ret (3 * i + 1) 2 d0;
    do ret <- mput ret (3 * i + 2) 0 d1; mput ret (3 * i + 2) 1 (- d0))
    (fun i => map (fun c => curl3 (Dm c (nth i G []))) (seq 0 3)) n 0 [] 0 0) as K.
  rewrite Nat.add_0_r, Nat.add_0_l in K. cbn [app] in K. change (repeat (repeat 0 3) 0) with (@nil (list R)) in K. rewrite app_nil_r in K. apply K; clear K.
  - intros i L m I EL. rewrite (vget_nth _ _ []) by lia. cbn [bind]. pose proof (LR i ltac:(lia)) as Lr. destruct (nth i G []) as [|a [|b [|c [|]]]]; try discriminate Lr.
    unfold vget. cbn [nth_error bind]. change (repeat (repeat 0 3) (3 + m)) with ([0; 0; 0] :: [0; 0; 0] :: [0; 0; 0] :: repeat [0; 0; 0] m).
    assert (EL3 : length L = (3 * i)%nat) by lia.
    rewrite (mput_at _ _ _ _ _ _ EL3); unfold vset; cbn [upd bind]. rewrite (mput_at _ _ _ _ _ _ EL3); unfold vset; cbn [upd bind].
    assert (Q : forall (l : mat) (a : list R) t, l ++ a :: t = (l ++ [a]) ++ t) by (intros; rewrite <- app_assoc; reflexivity).
    rewrite (Q L). assert (EL4 : forall r : list R, length (L ++ [r]) = (3 * i + 1)%nat) by (intros; rewrite app_length; cbn; lia).
    rewrite (mput_at _ _ _ _ _ _ (EL4 _)); unfold vset; cbn [upd bind]. rewrite (mput_at _ _ _ _ _ _ (EL4 _)); unfold vset; cbn [upd bind].
    rewrite (Q (L ++ _)). assert (EL5 : forall r s : list R, length ((L ++ [r]) ++ [s]) = (3 * i + 2)%nat) by (intros; rewrite !app_length; cbn; lia).
    rewrite (mput_at _ _ _ _ _ _ (EL5 _ _)); unfold vset; cbn [upd bind]. rewrite (mput_at _ _ _ _ _ _ (EL5 _ _)); unfold vset; cbn [upd bind].
    apply f_equal. rewrite <- !app_assoc. cbn [app]. unfold curl3, Dm. cbn [seq map Nat.eqb nth app].
    f_equal. f_equal; [|f_equal; [|f_equal]]; repeat (f_equal; try ring).
  - reflexivity.
  - reflexivity.
Qed.

(** ** the classes *)
Lemma EL2 deg F : fits deg 2 -> forall x, exists phi, mono2_functions deg F x = Ok phi /\ length phi = scalar_basis_size deg 2.
Proof. intros H x. rewrite EE2 by exact H. eexists. split; [reflexivity|]. rewrite map_length. symmetry. apply EE_len; [auto|exact H]. Qed.
Lemma EL3 deg F : fits deg 3 -> forall x, exists phi, mono3_functions deg F x = Ok phi /\ length phi = scalar_basis_size deg 3.
Proof. intros H x. rewrite EE3 by exact H. eexists. split; [reflexivity|]. rewrite map_length. symmetry. apply EE_len; [auto|exact H]. Qed.
Lemma EV2 deg F : fits deg 2 -> forall x phi, mono2_functions deg F x = Ok phi -> vec2c_functions deg F x = Ok (vrows 2 phi).
Proof. intros H x phi. rewrite vec2c_eq, EE2 by exact H. intros [= <-]. reflexivity. Qed.
Lemma EV3 deg F : fits deg 3 -> forall x phi, mono3_functions deg F x = Ok phi -> vec3c_functions deg F x = Ok (vrows 3 phi).
Proof. intros H x phi. rewrite vec3c_eq, EE3 by exact H. intros [= <-]. reflexivity. Qed.
Ltac ops2 H := apply (op_ok 2 _ (mono2_functions _ _) (mono2_gradients _ _) _ (mono2_gradients_ok _ _ H) (EL2 _ _ H) (EV2 _ _ H)).
Ltac ops3 H := apply (op_ok 3 _ (mono3_functions _ _) (mono3_gradients _ _) _ (mono3_gradients_ok _ _ H) (EL3 _ _ H) (EV3 _ _ H)).
Lemma vec2_grad deg F : fits deg 2 -> operator_ok 2 (vector_basis_size deg 2 2) (vec2c_functions deg F) (vec2c_gradients deg F) (as_matrix 2).
Proof. intros H. ops2 H. intros x G EG LG LR. unfold vec2c_gradients. rewrite EG. cbn [bind]. apply gradients_loop; auto. Qed.
Lemma vec2_sgrad deg F : fits deg 2 -> operator_ok 2 (vector_basis_size deg 2 2) (vec2c_functions deg F) (vec2c_sgradients deg F) (sym_gradient 2).
Proof. intros H. ops2 H. intros x G EG LG LR. unfold vec2c_sgradients. rewrite EG. cbn [bind]. apply sgradients_loop; auto. Qed.
Lemma vec2_div deg F : fits deg 2 -> operator_ok 2 (vector_basis_size deg 2 2) (vec2c_functions deg F) (vec2c_divergences deg F) (divergence 2).
Proof. intros H. ops2 H. intros x G EG LG LR. unfold vec2c_divergences. rewrite EG. cbn [bind]. apply divergences_loop; auto. Qed.
Lemma vec2_curl deg F : fits deg 2 -> operator_ok 2 (vector_basis_size deg 2 2) (vec2c_functions deg F) (vec2c_curls deg F) (fun D => - curl2 D).
Proof. intros H. ops2 H. intros x G EG LG LR. unfold vec2c_curls. rewrite EG. cbn [bind]. apply curls2_loop; auto. Qed.
Lemma vec3_grad deg F : fits deg 3 -> operator_ok 3 (vector_basis_size deg 3 3) (vec3c_functions deg F) (vec3c_gradients deg F) (as_matrix 3).
Proof. intros H. ops3 H. intros x G EG LG LR. unfold vec3c_gradients. rewrite EG. cbn [bind]. apply gradients_loop; auto. Qed.
Lemma vec3_sgrad deg F : fits deg 3 -> operator_ok 3 (vector_basis_size deg 3 3) (vec3c_functions deg F) (vec3c_sgradients deg F) (sym_gradient 3).
Proof. intros H. ops3 H. intros x G EG LG LR. unfold vec3c_sgradients. rewrite EG. cbn [bind]. apply sgradients_loop; auto. Qed.
Lemma vec3_div deg F : fits deg 3 -> operator_ok 3 (vector_basis_size deg 3 3) (vec3c_functions deg F) (vec3c_divergences deg F) (divergence 3).
Proof. intros H. ops3 H. intros x G EG LG LR. unfold vec3c_divergences. rewrite EG. cbn [bind]. apply divergences_loop; auto. Qed.
Lemma vec3_curl deg F : fits deg 3 -> operator_ok 3 (vector_basis_size deg 3 3) (vec3c_functions deg F) (vec3c_curls2 deg F) curl3.
Proof. intros H. ops3 H. intros x G EG LG LR. unfold vec3c_curls2. rewrite EG. cbn [bind]. apply curls3_loop; auto. Qed.

(** ** divergences of the Raviart-Thomas bases *)
Lemma rt_divergences_eq d k vd sphi b G : length b = d ->
  let n := scalar_basis_size (k - 1) d in let beg := rt_begin d k in
  length sphi = n -> length G = n -> (forall i, (i < n)%nat -> length (nth i G []) = d) -> length vd = (d * n)%nat -> (beg <= n)%nat ->
  rt_divergences d k (d * n + (n - beg)) vd sphi b G
  = Ok (vd ++ map (fun i => INR d * nth i sphi 0 + sig d (fun c => nth c b 0 * nth c (nth i G []) 0)) (seq beg (n - beg))).
Proof.
  intros Hb n beg Hs HG HR Hv Hn. unfold rt_divergences. fold n beg. unfold zeros. rewrite <- Hv, set_block_zero. cbn [bind].
  replace n with (beg + (n - beg))%nat at 1 by lia.
  pose proof (for_fill 0 1 (fun ret i => do p <- vget sphi i;
    do s <- for_range 0 d (fun s c => do bc <- vget b c; do g <- mread G i c; Ok (s + bc * g)) (Ok (INR d * p));
    vset ret (vector_basis_size (k - 1) d d + i - beg) s)
    (fun i => [INR d * nth i sphi 0 + sig d (fun c => nth c b 0 * nth c (nth i G []) 0)]) (n - beg) beg vd 0 (length vd)) as K.
  rewrite Nat.mul_1_l, Nat.add_0_r in K. rewrite K; clear K.
  - cbn [repeat]. rewrite app_nil_r, flat_single. reflexivity.
  - intros i L m I EL. rewrite (vget_nth _ _ 0) by lia. cbn [bind].
    assert (SUM : forall q s0, (q <= d)%nat -> for_range 0 q (fun s c => do bc <- vget b c; do g <- mread G i c; Ok (s + bc * g)) (Ok s0) = Ok (s0 + sig q (fun c => nth c b 0 * nth c (nth i G []) 0))).
    { unfold for_range. induction q as [|q IH]; intros s0 Hq; [cbn; rewrite Rplus_0_r; reflexivity|]. rewrite Nat.sub_0_r in *. rewrite seq_S, fold_left_app, Nat.add_0_l. rewrite IH by lia.
      cbn [fold_left bind]. rewrite (vget_nth b _ 0) by lia. cbn [bind]. unfold mread. rewrite (vget_nth G _ []) by lia. cbn [bind]. rewrite (vget_nth _ _ 0) by (rewrite HR; lia). cbn [bind sig].
      apply f_equal. ring. }
    rewrite SUM by lia. cbn [bind]. change (1 + m)%nat with (S m). rewrite vset_next by (unfold vector_basis_size; fold n; lia). rewrite <- app_assoc. reflexivity.
  - reflexivity.
  - reflexivity.
Qed.
Section RTDiv.
  Context (d m : nat) (F : frame) (bar : nat -> R) (Hd : d = 2%nat \/ d = 3%nat).
  Notation n := (length (EE d m)).
  Notation phi x := (map (fun e => monomial e (loc d F x) 0) (EE d m)).
  Context (gs : (nat -> R) -> outcome mat) (ev : (nat -> R) -> outcome mat) (dv : (nat -> R) -> outcome (list R)).
  Context (GO : gradients_ok d n (fun x => Ok (phi x)) gs).
  Context (EV : forall x, ev x = Ok (rt_all d m F bar x)).
  Context (DV : forall x G, gs x = Ok G -> length G = n -> (forall i, (i < n)%nat -> length (nth i G []) = d) ->
    dv x = Ok (flat_map (fun i => map (fun c => divergence d (Dm c (nth i G []))) (seq 0 d)) (seq 0 n)
      ++ map (fun i => INR d * nth i (phi x) 0 + sig d (fun c => nth c (from_bar d bar x) 0 * nth c (nth i G []) 0)) (seq (length (LL d m)) (n - length (LL d m))))).
  Lemma rt_div_ok : operator_ok d (d * n + length (TT d m)) ev dv (divergence d).
  Proof.
    intros x. destruct (GO x) as (G & EG & LG & HG).
    assert (LR : forall i, (i < n)%nat -> length (nth i G []) = d).
    { intros i Hi. destruct (HG i Hi) as (row & Hr & Lr & _). rewrite (nth_error_nth _ _ _ Hr). exact Lr. }
    set (A := flat_map (fun i => map (fun c => divergence d (Dm c (nth i G []))) (seq 0 d)) (seq 0 n)).
    assert (LA : length A = (d * n)%nat).
    { unfold A. rewrite (flat_map_length_const _ d), seq_length; [reflexivity|]. intros. rewrite map_length, seq_length. reflexivity. }
    eexists. split; [apply (DV x G EG LG LR)|]. fold A. pose proof (len_TT d m Hd) as LT. pose proof (len_LL d m Hd) as LLE. split.
    - rewrite app_length, map_length, seq_length, LA. lia.
    - intros j Hj. destruct (Nat.lt_ge_cases j (d * n)) as [C|C].
      + destruct (split_index _ _ _ C) as (i & c & Hi & Hc & ->). destruct (HG i Hi) as (row & Hr & Lr & HD).
        exists (Dm c row). split.
        * assert (VC : forall a y, (a < d)%nat -> vcomp ev (d * i + c) a y = if (a =? c)%nat then nth i (phi y) 0 else 0).
          { intros a y Ha. unfold vcomp. rewrite EV. unfold rt_all. rewrite app_nth1 by (rewrite len_vrows, map_length; exact C). apply vcomp_vrows; rewrite ?map_length; assumption. }
          intros a b Ha Hb. unfold Dm. destruct (Nat.eqb_spec a c) as [->|N].
          -- eapply d_ext; [|apply HD, Hb]. intros t. cbv beta. rewrite VC by exact Hc. rewrite Nat.eqb_refl. reflexivity.
          -- eapply d_ext; [|apply (d_const 0)]. intros t. cbv beta. rewrite VC by exact Ha. apply Nat.eqb_neq in N. rewrite N. reflexivity.
        * rewrite nth_error_app1 by lia. rewrite (nth_error_nth' _ (divergence d (Dm 0 []))) by lia. unfold A.
          rewrite (nth_flat _ d) by (try assumption; intros; rewrite map_length, seq_length; reflexivity).
          rewrite nth_map_seq by exact Hc. rewrite Nat.add_0_l, (nth_error_nth _ _ _ Hr). reflexivity.
      + set (l := (j - d * n)%nat). assert (Hl : (l < length (TT d m))%nat) by (unfold l; lia). set (i := (length (LL d m) + l)%nat).
        assert (Hi : (i < n)%nat) by (unfold i; lia). destruct (HG i Hi) as (row & Hr & Lr & HD).
        assert (PH : forall y, nth l (map (fun e => monomial e (loc d F y) 0) (TT d m)) 0 = nth i (phi y) 0).
        { intros y. rewrite (EE_split d m Hd), map_app. rewrite app_nth2 by (rewrite map_length; unfold i; lia). rewrite map_length. unfold i. f_equal. lia. }
        exists (fun a b => (if (a =? b)%nat then 1 else 0) * nth i (phi x) 0 + (x a - bar a) * nth b row 0). split.
        * intros a b Ha Hb.
          assert (VC : forall y, vcomp ev j a y = (y a - bar a) * nth i (phi y) 0).
          { intros y. unfold vcomp. rewrite EV. unfold rt_all. rewrite app_nth2 by (rewrite len_vrows, map_length; exact C). rewrite len_vrows, map_length. fold l.
            rewrite nth_rt_rows by (rewrite ?map_length; assumption). rewrite PH. unfold from_bar. rewrite nth_map_seq by exact Ha. reflexivity. }
          assert (M : move x b (x b) a = x a) by (unfold move; destruct (Nat.eqb_spec a b) as [->|]; reflexivity).
          assert (MM : nth i (phi (move x b (x b))) 0 = nth i (phi x) 0).
          { f_equal. apply map_ext. intros e. apply mono_ext. intros q _. unfold loc, local_coord. f_equal. f_equal. apply map_ext. intros p. unfold move. destruct (Nat.eqb_spec p b) as [->|]; reflexivity. }
          eapply d_ext; [intros t; cbv beta; symmetry; apply VC|].
          eapply d_eq; [|apply (d_mult (fun t => move x b t a - bar a) (fun t => nth i (phi (move x b t)) 0)); [|apply (HD b Hb)]].
          -- cbv beta. rewrite M, MM. reflexivity.
          -- destruct (Nat.eqb_spec a b) as [->|N].
             ++ eapply d_eq; [|apply (d_minus (fun t => move x b t b) (fun _ => bar b)); [|apply d_const]].
                2:{ eapply d_ext; [|apply d_id]. intros t. unfold move. rewrite Nat.eqb_refl. reflexivity. } ring.
             ++ eapply d_ext; [|apply (d_const (x a - bar a))]. intros t. cbv beta. unfold move. apply Nat.eqb_neq in N. rewrite N. reflexivity.
        * rewrite nth_error_app2 by lia. rewrite LA. fold l. erewrite map_nth_error.
          2:{ rewrite (nth_error_nth' _ 0%nat) by (rewrite seq_length; lia). rewrite seq_nth by lia. reflexivity. }
          fold i. rewrite (nth_error_nth _ _ _ Hr). apply f_equal. unfold divergence. symmetry.
          rewrite (sig_ext d _ (fun a => nth i (phi x) 0 + nth a (from_bar d bar x) 0 * nth a row 0)).
          -- rewrite sig_add. f_equal. destruct Hd as [-> | ->]; cbn [sig INR]; ring.
          -- intros a Ha. rewrite Nat.eqb_refl. unfold from_bar. rewrite nth_map_seq by exact Ha. ring.
  Qed.
End RTDiv.
Lemma grad_as_EE2 m F : fits m 2 -> gradients_ok 2 (length (EE 2 m)) (fun x => Ok (map (fun e => monomial e (loc 2 F x) 0) (EE 2 m))) (mono2_gradients m F).
Proof.
  intros H. rewrite <- (EE_len 2) by (auto || exact H). intros x. destruct (mono2_gradients_ok m F H x) as (G & EG & LG & HG). exists G. split; [exact EG|]. split; [exact LG|].
  intros j Hj. destruct (HG j Hj) as (row & Hr & Lr & HD). exists row. split; [exact Hr|]. split; [exact Lr|]. intros c Hc. eapply d_ext; [|apply HD, Hc].
  intros t. unfold function_of. rewrite EE2 by exact H. reflexivity.
Qed.
Lemma grad_as_EE3 m F : fits m 3 -> gradients_ok 3 (length (EE 3 m)) (fun x => Ok (map (fun e => monomial e (loc 3 F x) 0) (EE 3 m))) (mono3_gradients m F).
Proof.
  intros H. rewrite <- (EE_len 3) by (auto || exact H). intros x. destruct (mono3_gradients_ok m F H x) as (G & EG & LG & HG). exists G. split; [exact EG|]. split; [exact LG|].
  intros j Hj. destruct (HG j Hj) as (row & Hr & Lr & HD). exists row. split; [exact Hr|]. split; [exact Lr|]. intros c Hc. eapply d_ext; [|apply HD, Hc].
  intros t. unfold function_of. rewrite EE3 by exact H. reflexivity.
Qed.
Lemma rt2_div m F bar : fits m 2 -> operator_ok 2 (2 * length (EE 2 m) + length (TT 2 m)) (rt2_functions (S m) F bar) (rt2_divergences (S m) F bar) (divergence 2).
Proof.
  intros H. apply (rt_div_ok 2 m F bar (or_introl eq_refl) _ _ _ (grad_as_EE2 m F H) (fun x => rt2_eq m F bar x H)).
  intros x G EG LG LR. unfold rt2_divergences, rt_make. rewrite rt_size2. cbn [bind Nat.eqb]. replace (S m - 1)%nat with m by lia.
  pose proof (EE_len 2 m (or_introl eq_refl) H) as LN. pose proof (begin2 m H) as LB. pose proof (len_LL 2 m (or_introl eq_refl)) as LLE.
  unfold vec2c_divergences. rewrite EG. cbn [bind]. unfold vector_basis_size. rewrite LN. rewrite divergences_loop by auto. cbn [bind]. rewrite EE2 by exact H. cbn [bind].
  pose proof (rt_divergences_eq 2 (S m) (flat_map (fun i => map (fun c => divergence 2 (Dm c (nth i G []))) (seq 0 2)) (seq 0 (length (EE 2 m))))
    (map (fun e => monomial e (loc 2 F x) 0) (EE 2 m)) (from_bar 2 bar x) G (len_from 2 bar x)) as K.
  cbv zeta in K. replace (S m - 1)%nat with m in K by lia. rewrite LN, LB in K. rewrite <- (len_TT 2 m) in K by auto. rewrite K.
  - rewrite <- (len_TT 2 m) by auto. reflexivity.
  - apply map_length.
  - exact LG.
  - exact LR.
  - rewrite (flat_map_length_const _ 2), seq_length; [reflexivity|]. intros. rewrite map_length, seq_length. reflexivity.
  - exact LLE.
Qed.
Lemma rt3_div m F bar : fits (S m) 3 -> operator_ok 3 (3 * length (EE 3 (S m)) + length (TT 3 (S m))) (rt3_functions (S (S m)) F bar) (rt3_divergences (S (S m)) F bar) (divergence 3).
Proof.
  intros H. apply (rt_div_ok 3 (S m) F bar (or_intror eq_refl) _ _ _ (grad_as_EE3 (S m) F H) (fun x => rt3_eq m F bar x H)).
  intros x G EG LG LR. unfold rt3_divergences, rt_make. rewrite rt_size3. cbn [bind Nat.eqb]. replace (S (S m) - 1)%nat with (S m) by lia.
  pose proof (EE_len 3 (S m) (or_intror eq_refl) H) as LN. pose proof (begin3 m H) as LB. pose proof (len_LL 3 (S m) (or_intror eq_refl)) as LLE.
  unfold vec3c_divergences. rewrite EG. cbn [bind]. unfold vector_basis_size. rewrite LN. rewrite divergences_loop by auto. cbn [bind]. rewrite EE3 by exact H. cbn [bind].
  pose proof (rt_divergences_eq 3 (S (S m)) (flat_map (fun i => map (fun c => divergence 3 (Dm c (nth i G []))) (seq 0 3)) (seq 0 (length (EE 3 (S m)))))
    (map (fun e => monomial e (loc 3 F x) 0) (EE 3 (S m))) (from_bar 3 bar x) G (len_from 3 bar x)) as K.
  cbv zeta in K. replace (S (S m) - 1)%nat with (S m) in K by lia. rewrite LN, LB in K. rewrite <- (len_TT 3 (S m)) in K by auto. rewrite K.
  - rewrite <- (len_TT 3 (S m)) by auto. reflexivity.
  - apply map_length.
  - exact LG.
  - exact LR.
  - rewrite (flat_map_length_const _ 3), seq_length; [reflexivity|]. intros. rewrite map_length, seq_length. reflexivity.
  - exact LLE.
Qed.

(** ** the deprecated curl in 3D *)
Lemma jac_unique d ev j x D D' : jacobian d ev j x D -> jacobian d ev j x D' -> forall a b, (a < d)%nat -> (b < d)%nat -> D a b = D' a b.
Proof. intros H H' a b Ha Hb. exact (uniqueness_limite _ _ _ _ (H a b Ha Hb) (H' a b Ha Hb)). Qed.
Definition unit_box : frame := box_frame (fun _ => 0) (fun _ => 2).
Lemma old_curl : ~ operator_ok 3 (vector_basis_size 1 3 3) (vec3c_functions 1 unit_box) (vec3c_curls 1 unit_box) curl3.
Proof.
  assert (F1 : fits 1 3) by (unfold fits; cbn; lia). intros H. destruct (H (fun _ => 0)) as (G & EG & LG & HG). destruct (vec3_curl 1 unit_box F1 (fun _ => 0)) as (G' & EG' & LG' & HG').
  assert (S4 : scalar_basis_size 1 3 = 4%nat) by (vm_compute; reflexivity).
  unfold vec3c_curls in EG. unfold vec3c_curls2 in EG'. rewrite mono3_grad in EG, EG' by exact F1. unfold vector_basis_size in *. rewrite S4 in *. cbn [bind] in EG, EG'.
  assert (Q : nth_error G 6 = nth_error G' 6).
  { destruct (HG 6%nat ltac:(lia)) as (D & JD & ->). destruct (HG' 6%nat ltac:(lia)) as (D' & JD' & ->).
    pose proof (jac_unique _ _ _ _ _ _ JD JD') as U. apply f_equal. unfold curl3. rewrite !U by lia. reflexivity. }
  assert (R2 : nth_error (exps3 1) 2 = Some (0, 1, 0)%nat) by reflexivity. 
  assert (P : passage unit_box 1 1 = 1 /\ passage unit_box 0 1 = 0 /\ passage unit_box 2 1 = 0).
  { unfold passage, scaling_factor, unit_box, box_frame. cbn [f_axes f_len Nat.eqb]. repeat split; lra. }
  destruct P as (P1 & P0 & P2).
  change (exps3 1) with [(0, 0, 0); (0, 0, 1); (0, 1, 0); (1, 0, 0)]%nat in EG, EG'. cbn [map] in EG, EG'.
  assert (RW : exists u v, row3 unit_box (fun _ => 0) (0, 1, 0)%nat = [u; 1; v]).
  { unfold row3. cbn [map]. rewrite P1, P0, P2. eexists. eexists. apply f_equal. f_equal. cbn. ring. }
  destruct RW as (u & v & RW). rewrite RW in EG, EG'.
  assert (RL : forall e, exists u v w, row3 unit_box (fun _ => 0) e = [u; v; w]) by (intros [[a b] c]; unfold row3; cbn [map]; eauto).
  destruct (RL (0, 0, 0)%nat) as (a1 & a2 & a3 & R0). destruct (RL (0, 0, 1)%nat) as (b1 & b2 & b3 & R1). destruct (RL (1, 0, 0)%nat) as (c1 & c2 & c3 & R3).
  rewrite R0, R1, R3 in EG, EG'. clear - EG EG' Q. unfold vec3_curls, vec3_curls2, for_range, mput, vget, vset, zero_rows in EG, EG'. cbn in EG, EG'.
  injection EG as <-. injection EG' as <-. cbn in Q. injection Q as Q1. lra.
Qed.
