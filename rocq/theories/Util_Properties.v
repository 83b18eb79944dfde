(** C40 polygon store, C42/C54 identifiers, C45 powers, C49 stabilisation coefficients. *)
From Coq Require Import List Arith NArith ZArith Bool Lia.
From Verif Require Import Common Mesh_Model Mesh_Spec Mesh_Proofs Elem_Model Elem_Proofs Mesh_Properties
  Util_Model Util_Spec Util_Proofs.
Import ListNotations.

(** C40: adding any polygons (empty ones included) and iterating yields them, in order; the loop
    makes one step per polygon. *)
Theorem C40_store_round_trip : forall (ps : list (list nat)) fuel, length ps <= fuel ->
  let s := fold_left (fun s p => add_polygon p s) ps store_empty in
  iterate fuel s (store_begin s) = Some (Ok ps).
Proof.
  intros ps fuel H s. unfold s. rewrite add_all_flat. exact (iterate_flat ps [] fuel H).
Qed.
Print Assumptions C40_store_round_trip.
Example C40_case : iterate 3 (add_polygon [4;5] (add_polygon [] (add_polygon [1;2;3] store_empty)))
  (store_begin (add_polygon [4;5] (add_polygon [] (add_polygon [1;2;3] store_empty)))) = Some (Ok [[1;2;3]; []; [4;5]]).
Proof. reflexivity. Qed.

(** C42, identifiers over size_t (the ones in use). *)
Theorem C42_round_trip : forall v, ident_get (ident_of v) = Ok v.
Proof. reflexivity. Qed.
Theorem C42_invalid_throws : forall d, ident_get (ident_invalid d) = Throw LogicError.
Proof. reflexivity. Qed.
Theorem C42_order_of_valid : forall v w,
  (ident_ltb (ident_of v) (ident_of w) = true <-> (v < w)%N) /\
  (ident_eqb (ident_of v) (ident_of w) = true <-> v = w) /\
  ident_neqb (ident_of v) (ident_of w) = negb (ident_eqb (ident_of v) (ident_of w)).
Proof.
  intros. split; [apply N.ltb_lt|]. split; [apply N.eqb_eq|]. reflexivity.
Qed.

(** C42, the packed 32-bit specialisation: the same for raw values below 2^31; larger values lose
    their top bit. *)
Theorem C42_packed : forall v w, (v < 2^31)%N -> (w < 2^31)%N ->
  pident_get (pident_of v) = Ok v /\
  (pident_ltb (pident_of v) (pident_of w) = true <-> (v < w)%N) /\
  (pident_eqb (pident_of v) (pident_of w) = true <-> v = w).
Proof.
  intros v w Hv Hw. split; [rewrite pident_get_of, N.mod_small by exact Hv; reflexivity|].
  split; [unfold pident_ltb; rewrite !pident_of_mask, !N.mod_small by assumption; apply N.ltb_lt|].
  unfold pident_eqb. rewrite N.eqb_eq. split; [|congruence]. intros E.
  pose proof (pident_of_mask v) as A. rewrite E, pident_of_mask, !N.mod_small in A by assumption. congruence.
Qed.
Theorem C42_packed_truncates : forall v, pident_get (pident_of v) = Ok (v mod 2^31)%N.
Proof. exact pident_get_of. Qed.
Theorem C42_packed_invalid_throws : forall d, pident_get (pident_invalid d) = Throw LogicError.
Proof. exact pident_get_invalid. Qed.
Print Assumptions C42_round_trip.
Print Assumptions C42_order_of_valid.
Print Assumptions C42_packed.
Print Assumptions C42_packed_truncates.
Print Assumptions C42_packed_invalid_throws.

(** C54: an invalid identifier never equals a valid one: true of the packed ones, false of the
    others. *)
Theorem C54_packed_partial : forall d v, pident_eqb (pident_invalid d) (pident_of v) = false.
Proof.
  intros d v. unfold pident_eqb. apply N.eqb_neq. intros E. pose proof (pident_get_invalid d) as A.
  rewrite E, pident_get_of in A. discriminate.
Qed.
Theorem C54_invalid_equals_valid_refuted : exists v d,
  ident_eqb (ident_invalid d) (ident_of v) = true /\ ident_get (ident_of v) = Ok v /\ ident_get (ident_invalid d) = Throw LogicError.
Proof. exists 0%N, 0%N. repeat split. Qed.
Print Assumptions C54_packed_partial.
Print Assumptions C54_invalid_equals_valid_refuted.

(** C45: the recursion of iexp_pow ends (after at most n calls) and returns x^n in every monoid
    (in particular integers and exact reals); ipow returns b^e modulo 2^64. *)
Theorem C45_iexp_pow : forall T (mul : T -> T -> T) one, monoid mul one ->
  forall x n fuel, n < fuel -> iexp_pow_fuel mul one fuel x n = Some (power mul one x n).
Proof. intros T mul one M x n fuel. exact (iexp_pow_spec mul one M fuel x n). Qed.
Theorem C45_ipow : forall b e, ipow b e = ((b ^ N.of_nat e) mod 2^64)%N.
Proof.
  intros b e. unfold ipow. change 1%N with (wrap64 1). rewrite ipow_loop_spec, N.mul_1_l. reflexivity.
Qed.
Print Assumptions C45_iexp_pow.
Print Assumptions C45_ipow.
Example C45_case : monoid Z.mul 1%Z /\ iexp_pow_fuel Z.mul 1%Z 14 (-3)%Z 13 = Some (-1594323)%Z /\ ipow 2 10 = 1024%N.
Proof. split; [split; [exact Z.mul_assoc|split; [exact Z.mul_1_l|exact Z.mul_1_r]]|]. split; reflexivity. Qed.

(** C49: for a history [pre; update(); post] with no update in [post], getValue(c) is the last
    value given to setValue(c) in post, else the last one given to setValueNext(c) before the
    update, else the initial value. *)
Theorem C49_two_phases : forall C F T (cltb : C -> C -> bool) same (m : mesh C F) (v0 : T) pre post c,
  strict_total_order cltb -> (forall a b, same a b = true <-> a = b) -> sorted_unique cltb (m_cells m) ->
  Forall (about (m_cells m)) (pre ++ Update :: post) -> ~ In Update post -> In c (m_cells m) ->
  exists s, stab_run cltb m (pre ++ Update :: post) (stab_make m v0) = Ok s /\
    getValue cltb m c s = Ok (last_set same c post (last_next same c pre v0)).
Proof.
  intros C F T cltb same m v0 pre post c O Hsame Hs A N Hc.
  destruct (stab_run_spec cltb O m Hs same Hsame _ _ (sized_make m v0) A) as (s & E & _ & V).
  exists s. split; [exact E|]. specialize (V c (v0, v0) (view_make m v0 c Hc)). cbn zeta in V.
  rewrite fold_left_app in V. cbn [fold_left] in V. rewrite (fold_no_update _ _ _ _ N) in V. cbn [fst cell_step] in V.
  rewrite fold_next in V. apply (view_getValue cltb O m Hs) in V. exact V.
Qed.

(** C49, before the first update: only setValue is visible. *)
Theorem C49_before_update : forall C F T (cltb : C -> C -> bool) same (m : mesh C F) (v0 : T) ops c,
  strict_total_order cltb -> (forall a b, same a b = true <-> a = b) -> sorted_unique cltb (m_cells m) ->
  Forall (about (m_cells m)) ops -> ~ In Update ops -> In c (m_cells m) ->
  exists s, stab_run cltb m ops (stab_make m v0) = Ok s /\ getValue cltb m c s = Ok (last_set same c ops v0).
Proof.
  intros C F T cltb same m v0 ops c O Hsame Hs A N Hc.
  destruct (stab_run_spec cltb O m Hs same Hsame _ _ (sized_make m v0) A) as (s & E & _ & V).
  exists s. split; [exact E|]. specialize (V c (v0, v0) (view_make m v0 c Hc)). cbn zeta in V.
  rewrite (fold_no_update _ _ _ _ N) in V. apply (view_getValue cltb O m Hs) in V. exact V.
Qed.
(** C49: a cell that is not in the mesh is rejected. *)
Theorem C49_foreign_cell_rejected : forall C F T (cltb : C -> C -> bool) (m : mesh C F) (s : stab) c (v : T),
  strict_total_order cltb -> sorted_unique cltb (m_cells m) -> ~ In c (m_cells m) ->
  getValue cltb m c s = Throw InvalidArgument /\ setValue cltb m c v s = Throw InvalidArgument /\
  setValueNext cltb m c v s = Throw InvalidArgument.
Proof.
  intros. unfold getValue, setValue, setValueNext. rewrite lookup_absent; auto.
Qed.
Print Assumptions C49_two_phases.
Print Assumptions C49_before_update.
Print Assumptions C49_foreign_cell_rejected.
Example C49_case :
  let ops := [SetValueNext [0;1;2] 7; SetValue [1;2;3] 8; Update; SetValueNext [0;1;2] 9] in
  Forall (about (m_cells ex_mesh)) ops /\
  match stab_run lex_ltb ex_mesh ops (stab_make ex_mesh 5) with
  | Ok s => getValue lex_ltb ex_mesh [0;1;2] s = Ok 7 /\ getValue lex_ltb ex_mesh [1;2;3] s = Ok 5
  | _ => False end.
Proof.
  split; [|vm_compute; split; reflexivity].
  repeat (apply Forall_cons; [cbn; auto 10|]). apply Forall_nil.
Qed.

Print Assumptions C42_invalid_throws.
