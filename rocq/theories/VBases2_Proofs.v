(** Proofs about the vector and matrix bases: what each class returns, linear independence. *)
From Coq Require Import List Arith ZArith Bool Reals Lia Lra.
From Verif Require Import Common Tensor_Spec Tensor_Proofs Law2_Proofs Bases_Model Bases_Spec Bases_Proofs Bases2_Proofs Bases3_Proofs VBases_Model VBases_Spec VBases_Proofs.
Import ListNotations.
Open Scope R_scope.

Lemma nth_vrows d phi i c : (i < length phi)%nat -> (c < d)%nat -> nth (d * i + c) (vrows d phi) [] = axis d c (nth i phi 0).
Proof.
  intros Hi Hc. unfold vrows. rewrite (nth_flat _ d) by (try lia; intros; rewrite map_length, seq_length; reflexivity).
  rewrite nth_map_seq by exact Hc. reflexivity.
Qed.
Lemma len_vrows d phi : length (vrows d phi) = (d * length phi)%nat.
Proof. unfold vrows. rewrite (flat_map_length_const _ d), seq_length; [reflexivity|]. intros. rewrite map_length, seq_length. reflexivity. Qed.
Lemma vrows_rows d phi : Forall (fun r => length r = d) (vrows d phi).
Proof.
  apply Forall_forall. intros r I. unfold vrows in I. apply in_flat_map in I. destruct I as (i & _ & I). apply in_map_iff in I. destruct I as (c & <- & _). apply len_axis.
Qed.
Lemma vcomp_vrows d phi i c a : (i < length phi)%nat -> (c < d)%nat -> (a < d)%nat -> nth a (nth (d * i + c) (vrows d phi) []) 0 = if (a =? c)%nat then nth i phi 0 else 0.
Proof. intros Hi Hc Ha. rewrite nth_vrows by assumption. rewrite nth_axis. apply Nat.ltb_lt in Ha. rewrite Ha. reflexivity. Qed.
(** a function index is (scalar index, component) *)
Lemma split_index d n j : (j < d * n)%nat -> exists i c, (i < n)%nat /\ (c < d)%nat /\ j = (d * i + c)%nat.
Proof.
  intros H. assert (d <> 0%nat) by (intros ->; lia). exists (j / d)%nat, (j mod d)%nat. split; [apply Nat.div_lt_upper_bound; assumption|].
  split; [apply Nat.mod_upper_bound; assumption|apply Nat.div_mod; assumption].
Qed.

Section Vec.
  Context (d dm : nat) (E : list (list nat)) (ref : (nat -> R) -> nat -> R).
  Context (NE : NoDup E) (LE : forall a, In a E -> length a = dm) (ON : onto dm ref).
  Notation phi x := (map (fun e => monomial e (ref x) 0) E).
  Lemma len_phi x : length (phi x) = length E. Proof. apply map_length. Qed.
  Lemma nth_phi x i : (i < length E)%nat -> nth i (phi x) 0 = monomial (nth i E []) (ref x) 0.
  Proof. intros H. rewrite (nth_indep _ 0 (monomial [] (ref x) 0)) by (rewrite len_phi; exact H). exact (map_nth (fun e => monomial e (ref x) 0) E [] i). Qed.
  Lemma onto_mono y : exists x, (forall i, (i < dm)%nat -> ref x i = y i) /\ forall i, (i < length E)%nat -> monomial (nth i E []) (ref x) 0 = monomial (nth i E []) y 0.
  Proof. destruct (ON y) as [x Hx]. exists x. split; [exact Hx|]. intros i Hi. apply mono_ext_len. intros k Hk. apply Hx. rewrite (LE _ (nth_In E [] Hi)) in Hk. lia. Qed.
  (** the part of a combination carried by one component *)
  Lemma vec_sum x (k : nat -> R) a : (a < d)%nat ->
    sig (d * length E) (fun j => k j * nth a (nth j (vrows d (phi x)) []) 0) = sig (length E) (fun i => k (d * i + a)%nat * monomial (nth i E []) (ref x) 0).
  Proof.
    intros Ha. rewrite sig_block. apply sig_ext. intros i Hi. rewrite (sig_single d a); [|exact Ha|].
    2:{ intros c Hc Nc. rewrite vcomp_vrows by (rewrite ?len_phi; assumption). destruct (Nat.eqb_spec a c); [congruence|ring]. }
    rewrite vcomp_vrows by (rewrite ?len_phi; assumption). rewrite Nat.eqb_refl, nth_phi by exact Hi. reflexivity.
  Qed.
  Lemma vec_indep eval : (forall x, eval x = Ok (vrows d (phi x))) -> vindependent d (d * length E) eval.
  Proof.
    intros EV k H j Hj. destruct (split_index _ _ _ Hj) as (i & c & Hi & Hc & ->).
    apply (indep_idx dm E (fun i => k (d * i + c)%nat) NE LE); [|exact Hi]. intros y. destruct (onto_mono y) as (x & _ & Hx).
    specialize (H x c Hc). unfold vcomp in H. rewrite EV in H. rewrite vec_sum in H by exact Hc. rewrite <- H. apply sig_ext. intros l Hl. rewrite Hx by exact Hl. reflexivity.
  Qed.
  Lemma vec_returns eval : (forall x, eval x = Ok (vrows d (phi x))) -> returns_vectors d (d * length E) eval.
  Proof. intros EV x. exists (vrows d (phi x)). split; [apply EV|]. split; [rewrite len_vrows, len_phi; reflexivity|apply vrows_rows]. Qed.
End Vec.

(** ** the concrete scalar bases *)
Definition EE (d deg : nat) : list (list nat) := if (d =? 2)%nat then map as2 (exps2 deg) else map as3 (exps3 deg).
Definition loc (d : nat) (F : frame) : (nat -> R) -> nat -> R := local_coord d (f_bar F) (f_axes F) (f_len F).
Lemma EE2 deg F x : fits deg 2 -> mono2_functions deg F x = Ok (map (fun e => monomial e (loc 2 F x) 0) (EE 2 deg)).
Proof. intros H. rewrite mono2_eval by exact H. unfold EE. cbn [Nat.eqb]. rewrite map_map. apply f_equal, map_ext. intros e. rewrite monomial2. unfold loc. rewrite <- !scaling_local. reflexivity. Qed.
Lemma EE3 deg F x : fits deg 3 -> mono3_functions deg F x = Ok (map (fun e => monomial e (loc 3 F x) 0) (EE 3 deg)).
Proof. intros H. rewrite mono3_eval by exact H. unfold EE. cbn [Nat.eqb]. rewrite map_map. apply f_equal, map_ext. intros e. rewrite monomial3. unfold loc. rewrite <- !scaling_local. reflexivity. Qed.
Lemma EE_enum d deg : d = 2%nat \/ d = 3%nat -> enumerates deg d (EE d deg).
Proof. intros [-> | ->]; [apply enum2|apply enum3]. Qed.
Lemma EE_len d deg : d = 2%nat \/ d = 3%nat -> fits deg d -> scalar_basis_size deg d = length (EE d deg).
Proof. intros [-> | ->] F; unfold EE; cbn [Nat.eqb]; rewrite map_length; [apply size2|apply size3]; exact F. Qed.
Lemma EE_nodup d deg : d = 2%nat \/ d = 3%nat -> NoDup (EE d deg). Proof. intros H. apply (EE_enum d deg H). Qed.
Lemma EE_dim d deg a : d = 2%nat \/ d = 3%nat -> In a (EE d deg) -> length a = d. Proof. intros H I. apply (EE_enum d deg H) in I. apply I. Qed.
(** the exponents of degree exactly deg *)
Definition TT (d deg : nat) : list (list nat) :=
  if (d =? 2)%nat then map as2 (map (fun i => ((deg - i)%nat, i)) (seq 0 (S deg)))
  else map as3 (flat_map (fun a => map (fun b => (a, b, (deg - a - b)%nat)) (seq 0 (S (deg - a)))) (seq 0 (S deg))).
Lemma exps3_S deg : exps3 (S deg) = exps3 deg ++ flat_map (fun a => map (fun b => (a, b, (S deg - a - b)%nat)) (seq 0 (S (S deg - a)))) (seq 0 (S (S deg))).
Proof.
  set (f := fun k => flat_map (fun a => map (fun b => (a, b, (k - a - b)%nat)) (seq 0 (S (k - a)))) (seq 0 (S k))).
  change (flat_map f (seq 0 (S (S deg))) = flat_map f (seq 0 (S deg)) ++ f (S deg)). clearbody f.
  rewrite (seq_S (S deg) 0), Nat.add_0_l. apply flat_map_snoc.
Qed.
Lemma EE_S d deg : d = 2%nat \/ d = 3%nat -> EE d (S deg) = EE d deg ++ TT d (S deg).
Proof. intros [-> | ->]; unfold EE, TT; cbn [Nat.eqb]; rewrite <- map_app; [rewrite exps2_S|rewrite exps3_S]; reflexivity. Qed.
Lemma EE_0 d : d = 2%nat \/ d = 3%nat -> EE d 0 = TT d 0. Proof. intros [-> | ->]; reflexivity. Qed.
(** the exponents of degree below deg *)
Definition LL (d deg : nat) : list (list nat) := match deg with O => [] | S m => EE d m end.
Lemma EE_split d deg : d = 2%nat \/ d = 3%nat -> EE d deg = LL d deg ++ TT d deg.
Proof. intros H. destruct deg as [|m]; [apply EE_0, H|apply EE_S, H]. Qed.
Lemma TT_top d deg : d = 2%nat \/ d = 3%nat -> enumerates_top deg d (TT d deg).
Proof.
  intros H. pose proof (EE_enum d deg H) as [N C]. rewrite (EE_split d deg H) in N, C. split.
  - clear C. induction (LL d deg) as [|a l IH]; [exact N|]. apply IH. inversion N. assumption.
  - intros a. split.
    + intros I. assert (IE : In a (EE d deg)) by (rewrite EE_split by exact H; apply in_app_iff; right; exact I).
      apply (EE_enum d deg H) in IE. destruct IE as [L Hs]. split; [exact L|]. destruct deg as [|m]; [lia|].
      destruct (Nat.eq_dec (list_sum a) (S m)) as [Q|Q]; [exact Q|]. exfalso.
      assert (I2 : In a (EE d m)) by (apply (EE_enum d m H); split; [exact L|lia]). clear - N I I2. cbn [LL] in N.
      induction (EE d m) as [|b l IH]; [destruct I2|]. cbn [app] in N. inversion N; subst. destruct I2 as [->|I2]; [|apply IH; assumption].
      apply H1, in_app_iff. right. exact I.
    + intros [L Hs]. assert (I : In a (LL d deg ++ TT d deg)) by (apply C; split; [exact L|lia]). apply in_app_iff in I. destruct I as [I|I]; [|exact I].
      exfalso. destruct deg as [|m]; [destruct I|]. cbn [LL] in I. apply (EE_enum d m H) in I. lia.
Qed.
Lemma box_coord d bar len x i : (i < d)%nat -> loc d (box_frame bar len) x i = 2 / len i * (x i - bar i).
Proof.
  intros H. unfold loc, local_coord, box_frame. cbn [f_bar f_axes f_len]. rewrite <- sig_fold. rewrite (Tensor_Proofs.sig_single d i); [|exact H|].
  - rewrite Nat.eqb_refl. ring.
  - intros j _ N. destruct (Nat.eqb_spec j i); [contradiction|ring].
Qed.
Lemma box_onto d bar len : (forall i, (i < d)%nat -> len i <> 0) -> onto d (loc d (box_frame bar len)).
Proof. intros H y. exists (fun i => bar i + y i * len i / 2). intros i Hi. rewrite box_coord by exact Hi. field. apply H, Hi. Qed.

(** ** Raviart-Thomas vectors *)
Lemma vset_repeat_at (l : list R) s v (m : nat) : length l = s -> vset (l ++ repeat 0 (S m)) s v = Ok (l ++ v :: repeat 0 m).
Proof. intros H. cbn [repeat]. unfold vset. rewrite <- H, upd_app. reflexivity. Qed.
Lemma row_fill_gen (L T : mat) (v : nat -> R) r n : length L = r -> forall s m,
  fold_left (fun st c => do ret <- st; mput ret r c (v c)) (seq s n) (Ok (L ++ (map v (seq 0 s) ++ repeat 0 (n + m)) :: T))
  = Ok (L ++ (map v (seq 0 (s + n)) ++ repeat 0 m) :: T).
Proof.
  intros HL. induction n as [|n IH]; intros s m; [rewrite Nat.add_0_r; reflexivity|].
  cbn [seq fold_left]. cbn [bind]. rewrite mput_at by exact HL. replace (S n + m)%nat with (S (n + m)) by lia.
  rewrite vset_repeat_at by (rewrite map_length, seq_length; reflexivity). cbn [bind].
  replace (map v (seq 0 s) ++ v s :: repeat 0 (n + m)) with (map v (seq 0 (S s)) ++ repeat 0 (n + m)).
  - rewrite IH. replace (s + S n)%nat with (S s + n)%nat by lia. reflexivity.
  - rewrite seq_S, map_app, <- app_assoc. reflexivity.
Qed.
Lemma row_fill (L T : mat) (v : nat -> R) d r : length L = r ->
  for_range 0 d (fun ret c => mput ret r c (v c)) (Ok (L ++ repeat 0 d :: T)) = Ok (L ++ map v (seq 0 d) :: T).
Proof.
  intros H. unfold for_range. rewrite Nat.sub_0_r. pose proof (row_fill_gen L T v r d H 0 0) as K. cbn [seq map app] in K. rewrite Nat.add_0_r in K. rewrite K.
  cbn [repeat]. rewrite app_nil_r. reflexivity.
Qed.
Lemma for_ext {A} beg fin (f g : A -> nat -> outcome A) st : (forall s i, (beg <= i < fin)%nat -> f s i = g s i) -> for_range beg fin f st = for_range beg fin g st.
Proof. intros H. unfold for_range. apply fold_ext_in. intros st' i I. apply in_seq in I. destruct st'; cbn [bind]; try reflexivity. apply H. lia. Qed.
Lemma set_block_zero {A} (z : A) b m : set_block (repeat z (length b + m)) b = Ok (b ++ repeat z m).
Proof.
  unfold set_block. rewrite repeat_length. destruct (Nat.leb_spec (length b) (length b + m)); [|lia]. rewrite skipn_rep. f_equal. f_equal. f_equal. lia.
Qed.
(** the rows added to the vector basis *)
Definition rt_rows (d : nat) (b phi : list R) : mat := map (fun p => map (fun c => nth c b 0 * p) (seq 0 d)) phi.
Lemma flat_seq_nth {B} (g : R -> B) (sphi : list R) beg m : (beg + m)%nat = length sphi -> flat_map (fun i => [g (nth i sphi 0)]) (seq beg m) = map g (skipn beg sphi).
Proof.
  intros H. rewrite flat_single. revert beg H. induction m as [|m IH]; intros beg H.
  - cbn. rewrite skipn_all2 by lia. reflexivity.
  - cbn [seq map]. rewrite IH by lia. rewrite <- map_cons with (f := g). f_equal.
    assert (K : forall beg (l : list R), (beg < length l)%nat -> nth beg l 0 :: skipn (S beg) l = skipn beg l).
    { clear. induction beg as [|beg IH]; intros [|a l] H; cbn [length] in H; try lia; [reflexivity|]. cbn [nth]. change (skipn (S (S beg)) (a :: l)) with (skipn (S beg) l). rewrite IH by lia. reflexivity. }
    apply K. lia.
Qed.
Lemma rt_functions_eq d k vb sphi b : length b = d ->
  let n := scalar_basis_size (k - 1) d in let beg := rt_begin d k in
  length sphi = n -> length vb = (d * n)%nat -> (beg <= n)%nat ->
  rt_functions d k (d * n + (n - beg)) vb sphi b = Ok (vb ++ rt_rows d b (skipn beg sphi)).
Proof.
  intros Hb n beg Hs Hv Hn. unfold rt_functions. fold n beg. unfold zero_rows. rewrite <- Hv, set_block_zero. cbn [bind].
  replace n with (beg + (n - beg))%nat at 1 by lia.
  pose proof (for_fill (repeat 0 d) 1 (fun ret i => for_range 0 d (fun ret c => do p <- vget sphi i; do bc <- vget b c; mput ret (vector_basis_size (k - 1) d d + i - beg) c (bc * p)) (Ok ret))
    (fun i => [map (fun c => nth c b 0 * nth i sphi 0) (seq 0 d)]) (n - beg) beg vb 0 (length vb)) as K.
  rewrite Nat.mul_1_l, Nat.add_0_r in K. rewrite K; clear K.
  - cbn [repeat]. rewrite app_nil_r. f_equal. f_equal. unfold rt_rows. rewrite <- (flat_seq_nth (fun p => map (fun c => nth c b 0 * p) (seq 0 d)) sphi beg (n - beg)) by lia. reflexivity.
  - intros i L m I EL. cbn [Nat.add repeat]. unfold vector_basis_size. fold n.
    rewrite (for_ext _ _ _ (fun ret c => mput ret (length L) c (nth c b 0 * nth i sphi 0))).
    + rewrite row_fill by reflexivity. reflexivity.
    + intros s c Hc. rewrite (vget_nth _ _ 0) by lia. cbn [bind]. rewrite (vget_nth _ _ 0) by lia. cbn [bind]. f_equal. lia.
  - intros. reflexivity.
  - reflexivity.
Qed.
Lemma len_rt_rows d b phi : length (rt_rows d b phi) = length phi. Proof. apply map_length. Qed.
Lemma nth_rt_rows d b phi l a : (l < length phi)%nat -> (a < d)%nat -> nth a (nth l (rt_rows d b phi) []) 0 = nth a b 0 * nth l phi 0.
Proof.
  intros Hl Ha. unfold rt_rows. rewrite (nth_indep _ [] ((fun p => map (fun c => nth c b 0 * p) (seq 0 d)) 0)) by (rewrite map_length; exact Hl).
  rewrite map_nth with (f := fun p => map (fun c => nth c b 0 * p) (seq 0 d)). rewrite nth_map_seq by exact Ha. reflexivity.
Qed.
Lemma rt_rows_len d b phi : Forall (fun r => length r = d) (rt_rows d b phi).
Proof. apply Forall_forall. intros r I. apply in_map_iff in I. destruct I as (p & <- & _). rewrite map_length, seq_length. reflexivity. Qed.
(** sizes *)
Lemma len_TT d deg : d = 2%nat \/ d = 3%nat -> (length (TT d deg) = length (EE d deg) - length (LL d deg))%nat.
Proof. intros H. rewrite (EE_split d deg H), app_length. lia. Qed.
Lemma len_EE2 deg : (2 * length (EE 2 deg) = (deg + 1) * (deg + 2))%nat.
Proof. unfold EE. cbn [Nat.eqb]. rewrite map_length. apply length_exps2. Qed.
Lemma len_EE3 deg : (6 * length (EE 3 deg) = (deg + 1) * (deg + 2) * (deg + 3))%nat.
Proof. unfold EE. cbn [Nat.eqb]. rewrite map_length. apply length_exps3. Qed.
Lemma len_TT2 deg : length (TT 2 deg) = S deg.
Proof. unfold TT. cbn [Nat.eqb]. rewrite !map_length, seq_length. reflexivity. Qed.
Lemma len_TT3 deg : (2 * length (TT 3 deg) = (deg + 1) * (deg + 2))%nat.
Proof. rewrite len_TT by (right; reflexivity). destruct deg as [|m]; [reflexivity|]. cbn [LL]. pose proof (len_EE3 m). pose proof (len_EE3 (S m)). nia. Qed.
Lemma len_LL d deg : d = 2%nat \/ d = 3%nat -> (length (LL d deg) <= length (EE d deg))%nat.
Proof. intros H. rewrite (EE_split d deg H), app_length. lia. Qed.
Lemma rising_le k d : (rising k d <= rising (S k) d)%Z.
Proof.
  induction d as [|d IH]; cbn [rising]; [lia|]. pose proof (rising_pos k d). apply Z.mul_le_mono_nonneg; lia.
Qed.
Lemma fits_pred k d : fits (S k) d -> fits k d.
Proof. unfold fits. pose proof (rising_le k d). lia. Qed.
Lemma fits_lt k d : (1 <= d)%nat -> fits k d -> (Z.of_nat k < 2 ^ 64)%Z.
Proof.
  unfold fits. intros H F. destruct d as [|d]; [lia|]. clear H. cbn [rising] in F. pose proof (rising_pos k d). nia.
Qed.
Lemma begin2 m : fits m 2 -> rt_begin 2 (S m) = length (LL 2 m).
Proof.
  intros H. unfold rt_begin. cbn [Nat.eqb]. destruct m as [|m].
  - vm_compute. reflexivity.
  - replace (Z.of_nat (S (S m)) - 2)%Z with (Z.of_nat m) by lia. apply fits_pred in H. rewrite u64_small.
    + change (Z.to_nat (scalar_basis_size_u (Z.of_nat m) 2)) with (scalar_basis_size m 2). apply (EE_len 2); [left; reflexivity|exact H].
    + split; [lia|]. apply (fits_lt m 2); [lia|exact H].
Qed.
Lemma begin3 m : fits (S m) 3 -> rt_begin 3 (S (S m)) = length (LL 3 (S m)).
Proof.
  intros H. unfold rt_begin. cbn [Nat.eqb LL]. apply fits_pred in H.
  destruct (Nat.ltb_spec 2 (S (S m))).
  - replace (S (S m) - 2)%nat with m by lia. apply (EE_len 3); [right; reflexivity|exact H].
  - assert (m = 0%nat) as -> by lia. reflexivity.
Qed.
Lemma rt_size2 m : vector_basis_size_RT (S m) 2 2 = Ok (2 * length (EE 2 m) + length (TT 2 m))%nat.
Proof. unfold vector_basis_size_RT. cbn [Nat.eqb andb]. f_equal. rewrite len_TT2. pose proof (len_EE2 m). nia. Qed.
Lemma rt_size3 m : vector_basis_size_RT (S m) 3 3 = Ok (3 * length (EE 3 m) + length (TT 3 m))%nat.
Proof.
  unfold vector_basis_size_RT. cbn [Nat.eqb andb]. f_equal. pose proof (len_TT3 m). pose proof (len_EE3 m).
  symmetry. apply Nat.div_unique with 0%nat; [lia|]. nia.
Qed.
Lemma vec2c_eq deg F x : fits deg 2 -> vec2c_functions deg F x = Ok (vrows 2 (map (fun e => monomial e (loc 2 F x) 0) (EE 2 deg))).
Proof.
  intros H. unfold vec2c_functions. rewrite EE2 by exact H. cbn [bind]. unfold vector_basis_size. rewrite (EE_len 2) by (auto || exact H). apply vec_functions_eq, map_length.
Qed.
Lemma vec3c_eq deg F x : fits deg 3 -> vec3c_functions deg F x = Ok (vrows 3 (map (fun e => monomial e (loc 3 F x) 0) (EE 3 deg))).
Proof.
  intros H. unfold vec3c_functions. rewrite EE3 by exact H. cbn [bind]. unfold vector_basis_size. rewrite (EE_len 3) by (auto || exact H). apply vec_functions_eq, map_length.
Qed.
(** all rows of a Raviart-Thomas basis of degree m + 1 *)
Definition rt_all (d m : nat) (F : frame) (bar x : nat -> R) : mat :=
  vrows d (map (fun e => monomial e (loc d F x) 0) (EE d m)) ++ rt_rows d (from_bar d bar x) (map (fun e => monomial e (loc d F x) 0) (TT d m)).
Lemma len_from d bar x : length (from_bar d bar x) = d. Proof. unfold from_bar. rewrite map_length, seq_length. reflexivity. Qed.
Lemma skip_mono d m (f : list nat -> R) : d = 2%nat \/ d = 3%nat -> skipn (length (LL d m)) (map f (EE d m)) = map f (TT d m).
Proof.
  intros H. rewrite (EE_split d m H), map_app. rewrite skipn_app. rewrite map_length, Nat.sub_diag. cbn [skipn].
  rewrite skipn_all2 by (rewrite map_length; lia). reflexivity.
Qed.
Lemma rt2_eq m F bar x : fits m 2 -> rt2_functions (S m) F bar x = Ok (rt_all 2 m F bar x).
Proof.
  intros H. unfold rt2_functions, rt_make. rewrite rt_size2. cbn [bind Nat.eqb]. replace (S m - 1)%nat with m by lia. rewrite vec2c_eq, EE2 by exact H. cbn [bind].
  pose proof (EE_len 2 m (or_introl eq_refl) H) as LN. pose proof (begin2 m H) as LB. pose proof (len_LL 2 m (or_introl eq_refl)) as LLE.
  pose proof (rt_functions_eq 2 (S m) (vrows 2 (map (fun e => monomial e (loc 2 F x) 0) (EE 2 m))) (map (fun e => monomial e (loc 2 F x) 0) (EE 2 m)) (from_bar 2 bar x) (len_from 2 bar x)) as K.
  cbv zeta in K. replace (S m - 1)%nat with m in K by lia. rewrite LN, LB in K. rewrite <- (len_TT 2 m) in K by auto.
  rewrite K.
  - rewrite skip_mono by auto. reflexivity.
  - apply map_length.
  - rewrite len_vrows, map_length. reflexivity.
  - exact LLE.
Qed.
Lemma rt3_eq m F bar x : fits (S m) 3 -> rt3_functions (S (S m)) F bar x = Ok (rt_all 3 (S m) F bar x).
Proof.
  intros H. unfold rt3_functions, rt_make. rewrite rt_size3. cbn [bind Nat.eqb]. replace (S (S m) - 1)%nat with (S m) by lia. rewrite vec3c_eq, EE3 by exact H. cbn [bind].
  pose proof (EE_len 3 (S m) (or_intror eq_refl) H) as LN. pose proof (begin3 m H) as LB. pose proof (len_LL 3 (S m) (or_intror eq_refl)) as LLE.
  pose proof (rt_functions_eq 3 (S (S m)) (vrows 3 (map (fun e => monomial e (loc 3 F x) 0) (EE 3 (S m)))) (map (fun e => monomial e (loc 3 F x) 0) (EE 3 (S m))) (from_bar 3 bar x) (len_from 3 bar x)) as K.
  cbv zeta in K. replace (S (S m) - 1)%nat with (S m) in K by lia. rewrite LN, LB in K. rewrite <- (len_TT 3 (S m)) in K by auto.
  rewrite K.
  - rewrite skip_mono by auto. reflexivity.
  - apply map_length.
  - rewrite len_vrows, map_length. reflexivity.
  - exact LLE.
Qed.
(** at degree 1 in 3D the loop over the added functions is empty *)
Lemma rt3_one F bar x : exists v, vec3c_functions 0 F x = Ok v /\ length v = 3%nat /\ rt3_functions 1 F bar x = Ok (v ++ [[0; 0; 0]]).
Proof.
  assert (H : fits 0 3) by (unfold fits; cbn; lia). unfold rt3_functions, rt_make. rewrite rt_size3. cbn [bind Nat.eqb Nat.sub].
  rewrite vec3c_eq, EE3 by exact H. cbn [bind].
  eexists. split; [reflexivity|]. split; [reflexivity|]. reflexivity.
Qed.
Lemma rt_all_len d m F bar x : length (rt_all d m F bar x) = (d * length (EE d m) + length (TT d m))%nat.
Proof. unfold rt_all. rewrite app_length, len_vrows, len_rt_rows, !map_length. reflexivity. Qed.
Lemma rt_indep d m bar len eval : d = 2%nat \/ d = 3%nat -> (forall i, (i < d)%nat -> len i <> 0) ->
  (forall x, eval x = Ok (rt_all d m (box_frame bar len) bar x)) -> vindependent d (d * length (EE d m) + length (TT d m)) eval.
Proof.
  intros Hd HL EV k H.
  set (ref := loc d (box_frame bar len)).
  assert (Z : forall a, (a < d)%nat -> (forall i, (i < length (EE d m))%nat -> k (d * i + a)%nat = 0) /\ (forall l, (l < length (TT d m))%nat -> k (d * length (EE d m) + l)%nat = 0)).
  { intros a Ha. apply (shift_indep d m (EE d m) (TT d m) (fun i => k (d * i + a)%nat) (fun l => k (d * length (EE d m) + l)%nat) a (len a / 2)).
    - apply EE_nodup, Hd.
    - intros e I. apply (EE_enum d m Hd), I.
    - apply (TT_top d m Hd).
    - intros e I. apply (TT_top d m Hd), I.
    - exact Ha.
    - specialize (HL a Ha). intros Q. apply HL. lra.
    - intros y. destruct (onto_mono d (EE d m) ref (fun a I => EE_dim d m a Hd I) (box_onto d bar len HL) y) as (x & Hr & Hx).
      specialize (H x a Ha). unfold vcomp in H. rewrite EV in H. rewrite sig_plus in H. rewrite <- H. f_equal.
      + unfold rt_all. rewrite (sig_ext (d * length (EE d m)) _ (fun j => k j * nth a (nth j (vrows d (map (fun e => monomial e (ref x) 0) (EE d m))) []) 0)).
        * rewrite vec_sum by exact Ha. apply sig_ext. intros i Hi. rewrite Hx by exact Hi. reflexivity.
        * intros j Hj. rewrite app_nth1 by (rewrite len_vrows, map_length; exact Hj). reflexivity.
      + apply sig_ext. intros l Hl. unfold rt_all. rewrite app_nth2 by (rewrite len_vrows, map_length; lia). rewrite len_vrows, map_length.
        replace (d * length (EE d m) + l - d * length (EE d m))%nat with l by lia. rewrite nth_rt_rows by (rewrite ?map_length; assumption).
        rewrite (nth_phi (TT d m) (loc d (box_frame bar len)) x l Hl). unfold from_bar. rewrite nth_map_seq by exact Ha.
        rewrite (mono_ext_len (nth l (TT d m) []) y (ref x) 0).
        * f_equal. f_equal. rewrite <- Hr by exact Ha. unfold ref. rewrite box_coord by exact Ha. field. apply HL, Ha.
        * intros q Hq. symmetry. apply Hr. rewrite (proj1 (proj1 (proj2 (TT_top d m Hd) _) (nth_In _ [] Hl))) in Hq. lia. }
  intros j Hj. destruct (Nat.lt_ge_cases j (d * length (EE d m))) as [C|C].
  - destruct (split_index _ _ _ C) as (i & c & Hi & Hc & ->). apply (proj1 (Z c Hc) i Hi).
  - replace j with (d * length (EE d m) + (j - d * length (EE d m)))%nat by lia. apply (proj2 (Z 0%nat ltac:(lia))). lia.
Qed.
Lemma rt_returns d m F bar eval : (forall x, eval x = Ok (rt_all d m F bar x)) -> returns_vectors d (d * length (EE d m) + length (TT d m)) eval.
Proof. intros EV x. eexists. split; [apply EV|]. split; [apply rt_all_len|]. unfold rt_all. apply Forall_app. split; [apply vrows_rows|apply rt_rows_len]. Qed.
