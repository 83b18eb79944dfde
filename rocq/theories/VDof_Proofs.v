(** Proofs about the numbering of the virtual elements *)
From Coq Require Import List Arith Bool Lia Sorting.
From Verif Require Import Common Mesh_Model Mesh_Spec Mesh_Proofs Elem_Model Elem_Proofs Mesher_Model Single_Model Asm_Model VDof_Model VDof_Spec.
Import ListNotations.

(** ** faces *)
Lemma upd_mid {A} (pre : list A) x r y : upd (pre ++ x :: r) (length pre) y = Some (pre ++ y :: r).
Proof. induction pre as [|p pre IH]; cbn; [reflexivity|]. rewrite IH. reflexivity. Qed.
Lemma vset_mid {A} (pre : list A) x r y i : i = length pre -> vset (pre ++ x :: r) i y = Ok (pre ++ y :: r).
Proof. intros ->. unfold vset. rewrite upd_mid. reflexivity. Qed.
Lemma own_loop suf : forall n pre base, floop own_step (seq (length pre) n) (base, pre ++ repeat 0 n ++ suf) = Ok (base + n, pre ++ seq base n ++ suf).
Proof.
  induction n as [|n IH]; intros pre base; cbn [seq repeat floop]; [rewrite Nat.add_0_r; reflexivity|].
  unfold own_step at 1. cbn [app]. rewrite (vset_mid pre) by reflexivity. cbn [bind].
  specialize (IH (pre ++ [base]) (S base)). rewrite app_length in IH. cbn [length] in IH. rewrite Nat.add_1_r, <- app_assoc in IH. cbn [app] in IH.
  rewrite IH, <- app_assoc. cbn [app]. do 2 f_equal. lia.
Qed.
(** the unknowns of an edge when the numbers from [base] on are free *)
Definition fnum (k base : nat) (e : edge) : list nat := nth 0 e 0 :: seq base (k - 1) ++ [nth 1 e 0].
Lemma face_step_ok k a b base F : 1 <= k -> face_step k [a; b] (base, F) = Ok (base + (k - 1), F ++ [fnum k base [a; b]]).
Proof.
  intros Hk. destruct k as [|k]; [lia|]. unfold face_step. rewrite Nat.add_1_r. cbn [repeat vget nth_error bind]. unfold vset at 1. cbn [upd bind].
  replace (S k - 1) with k by lia. pose proof (own_loop [0] k [a] base) as L. cbn [length app] in L.
  replace (0 :: repeat 0 k) with (repeat 0 k ++ [0]) by (change (0 :: repeat 0 k) with (repeat 0 (S k)); rewrite <- repeat_cons; reflexivity).
  rewrite L. cbn [bind]. change (a :: seq base k ++ [0]) with ((a :: seq base k) ++ [0]). rewrite vset_mid by (cbn; rewrite seq_length; reflexivity).
  cbn [bind]. unfold fnum. cbn [nth]. replace (S k - 1) with k by lia. reflexivity.
Qed.
Fixpoint numbers (k base : nat) (es : list edge) : list (list nat) :=
  match es with [] => [] | e :: r => fnum k base e :: numbers k (base + (k - 1)) r end.
Lemma faces_loop k es : 1 <= k -> (forall e, In e es -> exists a b, e = [a; b]) -> forall base F,
  floop (face_step k) es (base, F) = Ok (base + length es * (k - 1), F ++ numbers k base es).
Proof.
  intros Hk. induction es as [|e es IH]; intros He base F; cbn [floop numbers length].
  - cbn. rewrite Nat.add_0_r, app_nil_r. reflexivity.
  - destruct (He e (or_introl eq_refl)) as (a & b & ->). rewrite face_step_ok by exact Hk. cbn [bind]. rewrite IH by (intros; apply He; right; assumption).
    rewrite <- app_assoc. cbn [app]. do 2 f_equal. lia.
Qed.
Lemma numbers_length k es : forall base, length (numbers k base es) = length es.
Proof. induction es; intros; cbn; [|rewrite IHes]; reflexivity. Qed.
Lemma numbers_nth k es : forall base i e, nth_error es i = Some e -> nth_error (numbers k base es) i = Some (fnum k (base + i * (k - 1)) e).
Proof.
  induction es as [|f es IH]; intros base [|i] e H; cbn in H |- *; try discriminate.
  - injection H as ->. rewrite Nat.add_0_r. reflexivity.
  - rewrite (IH _ _ _ H). do 2 f_equal. lia.
Qed.

(** ** sides *)
Lemma arr_eqb_iff : forall a b, arr_eqb a b = true <-> a = b.
Proof.
  induction a as [|x a IH]; intros [|y b]; cbn; split; intros H; try discriminate; try reflexivity.
  - apply andb_true_iff in H as [H1 H2]. apply Nat.eqb_eq in H1. apply IH in H2. congruence.
  - injection H as -> ->. rewrite Nat.eqb_refl. apply IH. reflexivity.
Qed.
Lemma position_stored es e : In e es -> stored es (position es e) e.
Proof.
  unfold stored. induction es as [|f es IH]; cbn; [intros []|]. intros H. destruct (arr_eqb f e) eqn:E.
  - apply arr_eqb_iff in E. subst. reflexivity.
  - cbn. apply IH. destruct H as [->|H]; [|exact H]. rewrite (proj2 (arr_eqb_iff e e) eq_refl) in E. discriminate.
Qed.
Lemma position_inj es e f : In e es -> In f es -> position es e = position es f -> e = f.
Proof. intros He Hf H. apply position_stored in He, Hf. unfold stored in *. rewrite H in He. congruence. Qed.
Definition oriented (s : nat * nat) : edge * bool := (edge_of s, negb (fst s <? snd s)).
Lemma removelast_app1 {A} (l : list A) y : removelast (l ++ [y]) = l.
Proof. rewrite removelast_app by discriminate. cbn. apply app_nil_r. Qed.
Definition through (npts k : nat) (es : list edge) (s : nat * nat) : list nat := side_unknowns npts k es s ++ [snd s].
Lemma directed npts k es s : fst s <> snd s ->
  (if snd (oriented s) then rev (fnum k (npts + position es (edge_of s) * (k - 1)) (edge_of s)) else fnum k (npts + position es (edge_of s) * (k - 1)) (edge_of s))
  = through npts k es s.
Proof.
  destruct s as [p q]. unfold oriented, through, side_unknowns, along, inner, fnum. cbn [fst snd]. intros H. destruct (Nat.ltb_spec p q).
  - cbn [negb]. unfold edge_of at 1 3. cbn [fst snd]. rewrite (proj2 (Nat.ltb_lt p q)) by lia. cbn [nth app]. reflexivity.
  - cbn [negb]. unfold edge_of at 1 3. cbn [fst snd]. rewrite (proj2 (Nat.ltb_ge p q)) by lia. cbn [nth app]. cbn [rev]. rewrite rev_app_distr. reflexivity.
Qed.

Section Mapper.
  Context {C : Type}.
  Variable faces_ccw : C -> outcome (list (edge * bool)).
  Variable walk : C -> list nat.
  Variable m : vmesh C.
  Variable k : nat.
  Hypothesis HW : good_mesh walk m.
  Hypothesis Hf : forall c, In c (vm_cells m) -> faces_ccw c = Ok (map oriented (sides (walk c))).
  Hypothesis Hk : 1 <= k.
  Let np := vm_points m.
  Let es := vm_faces m.

  Definition flagged (s : nat * nat) : bool :=
    match nth_error (vm_binfo m) (position (vm_faces m) (edge_of s)) with Some d => bd_is_b d && negb (bd_is_int d) | None => false end.
  Definition put (bnd : list (nat * list nat)) (s : nat * nat) : list (nat * list nat) :=
    if flagged s then map_set bnd (position (vm_faces m) (edge_of s)) (through (vm_points m) k (vm_faces m) s) else bnd.

  Variable bf : list (list nat).
  Hypothesis Hbf : forall i e, nth_error (vm_faces m) i = Some e -> nth_error bf i = Some (fnum k (vm_points m + i * (k - 1)) e).

  Lemma edge_ne s : In (edge_of s) es -> fst s <> snd s.
  Proof.
    intros H E. destruct s as [p q]; cbn in E; subst q. apply (gm_edges walk m HW) in H as (a & b & H & L & _).
    unfold edge_of in H. cbn [fst snd] in H. rewrite Nat.ltb_irrefl in H. injection H as -> ->. lia.
  Qed.
  Lemma side_ok s acc bnd : In (edge_of s) es ->
    side_step m bf (oriented s) (acc, bnd) = Ok (acc ++ side_unknowns np k es s, put bnd s).
  Proof.
    intros Hs. pose proof (edge_ne s Hs) as Hn. pose proof (position_stored es _ Hs) as HP.
    unfold side_step. pose proof (directed np k es s Hn) as D. destruct (oriented s) as [e fl] eqn:E. unfold oriented in E. injection E as <- <-. cbn [snd] in D.
    rewrite (offset_stored lex_ltb lex_ltb_sto _ _ _ (gm_faces walk m HW) HP). cbn [bind].
    rewrite (vget_ok _ _ _ (Hbf _ _ HP)). cbn [bind].
    rewrite (lookup_stored lex_ltb lex_ltb_sto _ _ _ (gm_faces walk m HW) HP). cbn [bind].
    destruct (nth_error_some (vm_binfo m) (position es (edge_of s))) as [d Hd].
    { rewrite (gm_binfo walk m HW). apply (stored_lt _ _ _ HP). }
    rewrite (vat_ok _ _ _ Hd). cbn [bind]. unfold put, flagged. fold es np. rewrite Hd, D.
    unfold through at 1. rewrite removelast_app1. reflexivity.
  Qed.
  Lemma sides_loop l : (forall s, In s l -> In (edge_of s) es) -> forall acc bnd,
    floop (side_step m bf) (map oriented l) (acc, bnd) = Ok (acc ++ flat_map (side_unknowns np k es) l, fold_left put l bnd).
  Proof.
    induction l as [|s l IH]; intros Hl acc bnd; cbn [map floop flat_map fold_left]; [rewrite app_nil_r; reflexivity|].
    rewrite side_ok by (apply Hl; left; reflexivity). cbn [bind]. rewrite IH by (intros; apply Hl; right; assumption). rewrite <- app_assoc. reflexivity.
  Qed.
  Definition cell_unknowns (c : C) : list nat := flat_map (side_unknowns (vm_points m) k (vm_faces m)) (sides (walk c)).
  Lemma cells_loop cs : incl cs (vm_cells m) -> forall acc bnd,
    floop (cell_step faces_ccw m bf) cs (acc, bnd) = Ok (acc ++ map cell_unknowns cs, fold_left put (flat_map (fun c => sides (walk c)) cs) bnd).
  Proof.
    induction cs as [|c cs IH]; intros Hc acc bnd; cbn [map floop flat_map]; [rewrite app_nil_r; reflexivity|].
    assert (In c (vm_cells m)) as Ic by (apply Hc; left; reflexivity).
    unfold cell_step at 1. rewrite (Hf c Ic). cbn [bind].
    rewrite sides_loop by (intros s Hs; exact (proj2 (proj2 (gm_cells walk m HW c Ic)) s Hs)). cbn [bind app].
    rewrite IH by (intros x Hx; apply Hc; right; exact Hx). rewrite fold_left_app, <- app_assoc. reflexivity.
  Qed.
End Mapper.

Section Whole.
  Context {C : Type}.
  Variable faces_ccw : C -> outcome (list (edge * bool)).
  Variable walk : C -> list nat.
  Variable m : vmesh C.
  Variable k : nat.
  Hypothesis HW : good_mesh walk m.
  Hypothesis Hf : forall c, In c (vm_cells m) -> faces_ccw c = Ok (map oriented (sides (walk c))).
  Hypothesis Hk : 1 <= k.
  Definition all_sides : list (nat * nat) := flat_map (fun c => sides (walk c)) (vm_cells m).
  Definition fresh : mapper :=
    mkDM (numbers k (vm_points m) (vm_faces m)) (map (cell_unknowns walk m k) (vm_cells m)) (fold_left (put m k) all_sides []).

  Lemma recompute_ok d : (forall i e, nth_error (vm_faces m) i = Some e ->
      nth_error (byface d ++ numbers k (vm_points m) (vm_faces m)) i = Some (fnum k (vm_points m + i * (k - 1)) e)) ->
    recompute faces_ccw m k d = Ok (mkDM (byface d ++ numbers k (vm_points m) (vm_faces m))
      (bycell d ++ map (cell_unknowns walk m k) (vm_cells m)) (fold_left (put m k) all_sides (bndfaces d))).
  Proof.
    intros Hb. unfold recompute. destruct (Nat.ltb_spec k 1); [lia|].
    rewrite faces_loop; [|exact Hk|intros e He; destruct (gm_edges walk m HW e He) as (a & b & E & _); eauto]. cbn [bind snd].
    rewrite (cells_loop faces_ccw walk m k HW Hf Hk _ Hb) by apply incl_refl. reflexivity.
  Qed.
  Lemma fresh_ok : dof_mapper faces_ccw m k = Ok fresh.
  Proof. unfold dof_mapper. rewrite recompute_ok; [reflexivity|]. intros i e H. apply numbers_nth. exact H. Qed.
  Lemma again_ok : recompute faces_ccw m k fresh = Ok (mkDM (byface fresh ++ byface fresh) (bycell fresh ++ bycell fresh) (fold_left (put m k) all_sides (bndfaces fresh))).
  Proof.
    rewrite recompute_ok; [reflexivity|]. intros i e H. cbn [fresh byface]. rewrite nth_error_app1; [apply numbers_nth; exact H|].
    rewrite numbers_length. apply nth_error_Some. rewrite H. discriminate.
  Qed.
End Whole.

(** ** the map of the boundary *)
Lemma map_find_set bnd a x : forall b, map_find (map_set bnd a x) b = if b =? a then Some x else map_find bnd b.
Proof.
  induction bnd as [|[c y] bnd IH]; intros b; cbn [map_set map_find].
  - rewrite Nat.eqb_sym. reflexivity.
  - destruct (Nat.eqb_spec c a) as [->|Hn]; cbn [map_find].
    + destruct (Nat.eqb_spec a b), (Nat.eqb_spec b a); try lia; reflexivity.
    + rewrite IH. destruct (Nat.eqb_spec c b), (Nat.eqb_spec b a); try lia; reflexivity.
Qed.
Section Bnd.
  Context {C : Type}.
  Variable m : vmesh C.
  Variable k : nat.
  Let pos s := position (vm_faces m) (edge_of s).
  (** the last side of [l] on face [i] decides *)
  Lemma puts_find l i : forall bnd, map_find (fold_left (put m k) l bnd) i =
    match find (fun s => (pos s =? i) && flagged m s) (rev l) with
    | Some s => Some (through (vm_points m) k (vm_faces m) s)
    | None => map_find bnd i
    end.
  Proof.
    assert (forall (p : nat * nat -> bool) u v, find p (u ++ v) = match find p u with Some x => Some x | None => find p v end) as FA.
    { intros p u v. induction u as [|x u IH]; cbn; [reflexivity|]. destruct (p x); [reflexivity|exact IH]. }
    induction l as [|s l IH]; intros bnd; cbn [fold_left rev find]; [reflexivity|].
    rewrite IH, FA. destruct (find _ (rev l)); [reflexivity|]. cbn [find]. unfold put. fold (pos s).
    destruct (flagged m s); [|rewrite andb_false_r; reflexivity]. rewrite andb_true_r, map_find_set, Nat.eqb_sym. destruct (pos s =? i); reflexivity.
  Qed.
  Lemma puts_again l i : map_find (fold_left (put m k) l (fold_left (put m k) l [])) i = map_find (fold_left (put m k) l []) i.
  Proof. rewrite !puts_find. destruct (find _ (rev l)); reflexivity. Qed.
End Bnd.

(** ** what stays from earlier numberings *)
Lemma floop_keeps {A B} (step : A -> nat * list B -> outcome (nat * list B)) :
  (forall a s r, step a s = Ok r -> exists t, snd r = snd s ++ t) -> forall l s r, floop step l s = Ok r -> exists t, snd r = snd s ++ t.
Proof.
  intros H. induction l as [|a l IH]; intros s r E; cbn in E.
  - injection E as <-. exists []. symmetry. apply app_nil_r.
  - destruct (step a s) as [s'|e|] eqn:E1; cbn in E; try discriminate. destruct (H _ _ _ E1) as [t1 T1]. destruct (IH _ _ E) as [t2 T2].
    exists (t1 ++ t2). rewrite T2, T1, app_assoc. reflexivity.
Qed.
Lemma floop_keeps1 {A B D} (step : A -> list B * D -> outcome (list B * D)) :
  (forall a s r, step a s = Ok r -> exists t, fst r = fst s ++ t) -> forall l s r, floop step l s = Ok r -> exists t, fst r = fst s ++ t.
Proof.
  intros H. induction l as [|a l IH]; intros s r E; cbn in E.
  - injection E as <-. exists []. symmetry. apply app_nil_r.
  - destruct (step a s) as [s'|e|] eqn:E1; cbn in E; try discriminate. destruct (H _ _ _ E1) as [t1 T1]. destruct (IH _ _ E) as [t2 T2].
    exists (t1 ++ t2). rewrite T2, T1, app_assoc. reflexivity.
Qed.
Lemma recompute_keeps {C} (faces_ccw : C -> outcome (list (edge * bool))) m k d d' : recompute faces_ccw m k d = Ok d' ->
  exists f c, byface d' = byface d ++ f /\ bycell d' = bycell d ++ c.
Proof.
  unfold recompute. destruct (k <? 1); [discriminate|].
  destruct (floop (face_step k) _ _) as [r|e|] eqn:E1; cbn [bind]; try discriminate.
  destruct (floop (cell_step faces_ccw m (snd r)) _ _) as [s|e|] eqn:E2; cbn [bind]; try discriminate. intros [= <-].
  apply floop_keeps in E1 as [f F].
  - apply floop_keeps1 in E2 as [c G].
    + exists f, c. cbn. split; assumption.
    + intros cl [cells bnd] q H. unfold cell_step in H. destruct (faces_ccw cl); cbn [bind] in H; try discriminate.
      destruct (floop (side_step m (snd r)) _ _) as [[x y]|e|]; cbn [bind] in H; try discriminate. injection H as <-. exists [x]. reflexivity.
  - intros fc [base F] q H. unfold face_step in H. destruct (vget fc 0); cbn [bind] in H; try discriminate.
    destruct (vset _ _ _); cbn [bind] in H; try discriminate. destruct (floop own_step _ _) as [[x y]|e|]; cbn [bind] in H; try discriminate.
    destruct (vget fc 1); cbn [bind] in H; try discriminate. destruct (vset _ _ _) as [z|e|]; cbn [bind] in H; try discriminate. injection H as <-. exists [z]. reflexivity.
Qed.

(** ** faces_ccw *)
Lemma tri_ccw t : tri_ok t -> tri_faces_ccw t = Ok (map oriented (sides (tri_walk t))).
Proof.
  intros (a & b & c & -> & H1 & H2). unfold tri_faces_ccw, tri_walk, sides, oriented, edge_of. cbn -[Nat.ltb].
  repeat match goal with |- context [?x <? ?y] => destruct (Nat.ltb_spec x y); try lia end. reflexivity.
Qed.
Lemma quad_ccw t : quad_ok t -> quad_faces_ccw t = Ok (map oriented (sides (quad_walk t))).
Proof.
  intros (a & b & c & d & -> & H1 & H2 & H3 & H4). unfold quad_faces_ccw, quad_walk, sides, oriented, edge_of. cbn -[Nat.ltb].
  repeat match goal with |- context [?x <? ?y] => destruct (Nat.ltb_spec x y); try lia end. reflexivity.
Qed.

Lemma sides_length w : length (sides w) = length w.
Proof.
  unfold sides. rewrite combine_length. assert (length (tl w ++ firstn 1 w) = length w) as -> by (rewrite app_length; destruct w as [|x w]; cbn; lia). apply Nat.min_id.
Qed.
Lemma sides_nth w i p q : nth_error w i = Some p -> nth_error w ((i + 1) mod length w) = Some q -> nth_error (sides w) i = Some (p, q).
Proof.
  intros Hp Hq. assert (i < length w) as Hi by (apply nth_error_Some; rewrite Hp; discriminate).
  assert (nth_error (tl w ++ firstn 1 w) i = Some q) as Ht.
  { destruct w as [|x w]; [cbn in Hi; lia|]. cbn [tl firstn]. cbn [length] in *. destruct (Nat.eq_dec (i + 1) (S (length w))) as [E|E].
    - rewrite E, Nat.mod_same in Hq by lia. rewrite nth_error_app2 by lia. replace (i - length w) with 0 by lia. exact Hq.
    - rewrite Nat.mod_small in Hq by lia. rewrite Nat.add_1_r in Hq. cbn in Hq. rewrite nth_error_app1 by lia. exact Hq. }
  clear Hq. unfold sides. revert Hp Ht. generalize (tl w ++ firstn 1 w). clear Hi. revert i. induction w as [|x w IH]; intros [|i] l Hp Ht; cbn in Hp; try discriminate.
  - destruct l; cbn in *; congruence.
  - destruct l; cbn in *; [discriminate|]. apply IH; assumption.
Qed.
Lemma sides_next w i s : nth_error (sides w) i = Some s -> nth_error w i = Some (fst s) /\ nth_error w ((i + 1) mod length w) = Some (snd s).
Proof.
  intros H. assert (i < length w) as Hi by (rewrite <- sides_length; apply nth_error_Some; rewrite H; discriminate).
  destruct (nth_error_some w i Hi) as [p Hp]. destruct (nth_error_some w ((i + 1) mod length w)) as [q Hq]; [apply Nat.mod_upper_bound; lia|].
  pose proof (sides_nth _ _ _ _ Hp Hq) as E. rewrite H in E. injection E as ->. split; assumption.
Qed.
Lemma NoDup_nth_inj {A} (l : list A) i j x : NoDup l -> nth_error l i = Some x -> nth_error l j = Some x -> i = j.
Proof. intros N Hi Hj. apply (proj1 (NoDup_nth_error l) N); [apply nth_error_Some; rewrite Hi; discriminate|congruence]. Qed.
Lemma sides_ne w s : NoDup w -> 2 <= length w -> In s (sides w) -> fst s <> snd s.
Proof.
  intros N L H. apply In_nth_error in H as [i H]. pose proof (sides_next _ _ _ H) as [Hp Hq]. intros E. rewrite E in Hp.
  pose proof (NoDup_nth_inj _ _ _ _ N Hp Hq) as E'. assert (i < length w) by (apply nth_error_Some; rewrite Hp; discriminate).
  destruct (Nat.eq_dec (i + 1) (length w)) as [F|F]; [rewrite F, Nat.mod_same in E' by lia|rewrite Nat.mod_small in E' by lia]; lia.
Qed.

Lemma faces_by_id_ok {F} (fs : list F) ids : (forall i, In i ids -> i < length fs) ->
  exists l, faces_by_id fs ids = Ok l /\ length l = length ids /\ forall j i, nth_error ids j = Some i -> nth_error l j = nth_error fs i.
Proof.
  induction ids as [|i ids IH]; intros H; cbn [faces_by_id].
  - exists []. repeat split. intros [|j] i E; discriminate.
  - destruct (nth_error_some fs i) as [f Hf]; [apply H; left; reflexivity|]. rewrite (vget_ok _ _ _ Hf). cbn [bind].
    destruct IH as (l & E & L & N); [intros; apply H; right; assumption|]. rewrite E. cbn [bind]. exists (f :: l). split; [reflexivity|]. split; [cbn; lia|].
    intros [|j] i0 E0; cbn in E0 |- *; [injection E0 as <-; symmetry; exact Hf|apply N; exact E0].
Qed.
Definition is_edge (a b : nat) (e : edge) : bool := (nth 0 e 0 =? a) && (nth 1 e 0 =? b).
Lemma match_loop a b fl fcs : (forall e, In e fcs -> exists p q, e = [p; q]) -> forall acc,
  floop (match_face a b fl) fcs acc = Ok (acc ++ map (fun e => (e, fl)) (filter (is_edge a b) fcs)).
Proof.
  induction fcs as [|e fcs IH]; intros He acc; cbn [floop filter]; [cbn; rewrite app_nil_r; reflexivity|].
  destruct (He e (or_introl eq_refl)) as (p & q & ->). unfold match_face at 1. cbn [vget nth_error bind]. unfold is_edge at 1. cbn [nth].
  rewrite IH by (intros; apply He; right; assumption). destruct ((p =? a) && (q =? b)); cbn [map]; [rewrite <- app_assoc|]; reflexivity.
Qed.
Lemma filter_one {A} (p : A -> bool) l x : NoDup l -> In x l -> (forall y, In y l -> p y = true <-> y = x) -> filter p l = [x].
Proof.
  intros N I H. assert (forall l', ~ In x l' -> incl l' l -> filter p l' = []) as Z.
  { induction l' as [|y l' IH]; intros Hn Hi; cbn; [reflexivity|]. destruct (p y) eqn:E.
    - apply H in E; [|apply Hi; left; reflexivity]. subst. destruct Hn. left. reflexivity.
    - apply IH; [intros ?; apply Hn; right; assumption|intros z Hz; apply Hi; right; exact Hz]. }
  apply in_split in I as (u & v & ->). rewrite filter_app. cbn [filter]. rewrite (proj2 (H x (in_elt _ _ _)) eq_refl).
  rewrite (Z u), (Z v); [reflexivity| | | |].
  - intros F. apply NoDup_remove_2 in N. apply N, in_or_app. right. exact F.
  - intros z Hz. apply in_or_app. right. right. exact Hz.
  - intros F. apply NoDup_remove_2 in N. apply N, in_or_app. left. exact F.
  - intros z Hz. apply in_or_app. left. exact Hz.
Qed.
Lemma edge_of_eq s : edge_of s = if fst s <? snd s then [fst s; snd s] else [snd s; fst s].
Proof. reflexivity. Qed.
Lemma sorted_nodup es : sorted_unique lex_ltb es -> NoDup es.
Proof.
  induction 1 as [|e es S IH F]; [constructor|]. constructor; [|exact IH]. intros I. rewrite Forall_forall in F. apply F in I.
  rewrite (sto_irrefl _ lex_ltb_sto) in I. discriminate.
Qed.
Lemma poly_ccw es c : sorted_unique lex_ltb es -> (forall e, In e es -> exists a b, e = [a; b] /\ a < b) -> poly_ok es c -> NoDup (gc_pts c) -> 3 <= length (gc_pts c) ->
  poly_faces_ccw es c = Ok (map oriented (sides (poly_walk c))).
Proof.
  intros HS He (N & HI & HC) NP L. unfold poly_faces_ccw, poly_walk. destruct (faces_by_id_ok es (gc_faces c) HI) as (fcs & -> & LF & NF). cbn [bind].
  assert (forall e, In e fcs -> exists i, In i (gc_faces c) /\ nth_error es i = Some e) as FI.
  { intros e Ie. apply In_nth_error in Ie as [j Hj]. destruct (nth_error_some (gc_faces c) j) as [i Hi]; [rewrite <- LF; apply nth_error_Some; rewrite Hj; discriminate|].
    exists i. split; [eapply nth_error_In; exact Hi|]. rewrite <- (NF _ _ Hi). exact Hj. }
  assert (NoDup fcs) as ND.
  { apply NoDup_nth_error. intros j1 j2 H1 E. destruct (nth_error fcs j1) as [e|] eqn:E1; [|apply nth_error_None in E1; lia]. symmetry in E.
    assert (j2 < length fcs) as H2 by (apply nth_error_Some; rewrite E; discriminate).
    destruct (nth_error_some (gc_faces c) j1) as [i1 Hi1]; [lia|]. destruct (nth_error_some (gc_faces c) j2) as [i2 Hi2]; [lia|].
    rewrite (NF _ _ Hi1) in E1. rewrite (NF _ _ Hi2) in E. pose proof (NoDup_nth_inj _ _ _ _ (sorted_nodup _ HS) E1 E) as ->.
    exact (NoDup_nth_inj _ _ _ _ N Hi1 Hi2). }
  assert (forall n i, i + n = length (gc_pts c) -> floop (poly_step fcs (gc_pts c)) (seq i n) (map oriented (firstn i (sides (gc_pts c)))) = Ok (map oriented (sides (gc_pts c)))) as G.
  { induction n as [|n IH]; intros i Hi; cbn [seq floop].
    - rewrite firstn_all2 by (rewrite sides_length; lia). reflexivity.
    - destruct (nth_error_some (sides (gc_pts c)) i) as [[p q] Hs]; [rewrite sides_length; lia|].
      pose proof (sides_next _ _ _ Hs) as [Hp Hq]. cbn [fst snd] in Hp, Hq. pose proof (nth_error_In _ _ Hs) as Is.
      pose proof (sides_ne _ _ NP ltac:(lia) Is) as Hn. cbn [fst snd] in Hn.
      unfold poly_step at 1. rewrite (vget_ok _ _ _ Hp), (vget_ok _ _ _ Hq). cbn [bind].
      assert (forall a b, edge_of (p, q) = [a; b] -> filter (is_edge a b) fcs = [edge_of (p, q)]) as F1.
      { intros a b Eab. apply filter_one; [exact ND| |].
        - destruct (HC _ Is) as (i0 & I0 & N0). apply In_nth_error in I0 as [j Hj]. apply (nth_error_In _ j). rewrite (NF _ _ Hj). exact N0.
        - intros y Iy. destruct (FI _ Iy) as (i0 & _ & N0). apply nth_error_In in N0. destruct (He _ N0) as (u & w & -> & _). rewrite Eab.
          unfold is_edge. cbn [nth]. rewrite andb_true_iff, !Nat.eqb_eq. split; [intros [-> ->]; reflexivity|intros [= -> ->]; split; reflexivity]. }
      assert (forall e, In e fcs -> exists a b, e = [a; b]) as HE2.
      { intros e Ie. destruct (FI _ Ie) as (i0 & _ & N0). apply nth_error_In in N0. destruct (He _ N0) as (u & w & -> & _). eauto. }
      assert (firstn (S i) (sides (gc_pts c)) = firstn i (sides (gc_pts c)) ++ [(p, q)]) as FS.
      { clear -Hs. revert i Hs. induction (sides (gc_pts c)) as [|x l IHl]; intros [|i] Hs; cbn in Hs; try discriminate; [injection Hs as ->; reflexivity|].
        change (x :: firstn (S i) l = x :: firstn i l ++ [(p, q)]). rewrite (IHl _ Hs). reflexivity. }
      specialize (IH (S i) ltac:(lia)). rewrite FS, map_app in IH. cbn [map] in IH. unfold oriented at 2 in IH. cbn [fst snd] in IH.
      destruct (Nat.ltb_spec q p).
      + rewrite match_loop by exact HE2. rewrite (F1 q p) by (rewrite edge_of_eq; cbn [fst snd]; rewrite (proj2 (Nat.ltb_ge p q)) by lia; reflexivity).
        cbn [bind map]. rewrite (proj2 (Nat.ltb_ge p q)) in IH by lia. exact IH.
      + rewrite match_loop by exact HE2. rewrite (F1 p q) by (rewrite edge_of_eq; cbn [fst snd]; rewrite (proj2 (Nat.ltb_lt p q)) by lia; reflexivity).
        cbn [bind map]. rewrite (proj2 (Nat.ltb_lt p q)) in IH by lia. exact IH. }
  apply (G (length (gc_pts c)) 0). reflexivity.
Qed.

(** ** the numbers of a cell *)
Lemma inner_in npts k i x : In x (inner npts k i) <-> npts + i * (k - 1) <= x < npts + i * (k - 1) + (k - 1).
Proof. unfold inner. rewrite in_seq. reflexivity. Qed.
Lemma inner_disjoint npts k i j x : In x (inner npts k i) -> In x (inner npts k j) -> i = j.
Proof. rewrite !inner_in. intros H1 H2. nia. Qed.
Lemma along_in s l x : In x (along s l) <-> In x l.
Proof. unfold along. destruct (_ <? _); [reflexivity|]. symmetry. apply in_rev. Qed.
Lemma along_length s l : length (along s l) = length l.
Proof. unfold along. destruct (_ <? _); [reflexivity|]. apply rev_length. Qed.
Lemma side_length npts k es s : 1 <= k -> length (side_unknowns npts k es s) = k.
Proof. intros H. cbn. rewrite along_length. unfold inner. rewrite seq_length. lia. Qed.
Lemma along_nodup s l : NoDup l -> NoDup (along s l).
Proof. unfold along. destruct (_ <? _); [tauto|]. apply NoDup_rev. Qed.
Lemma cell_length npts k es l : 1 <= k -> length (flat_map (side_unknowns npts k es) l) = length l * k.
Proof. intros H. induction l as [|s l IH]; cbn [flat_map length]; [reflexivity|]. rewrite app_length, side_length, IH by exact H. lia. Qed.
Lemma fst_sides w : map fst (sides w) = w.
Proof.
  unfold sides. assert (length (tl w ++ firstn 1 w) = length w) as L by (rewrite app_length; destruct w; cbn; lia).
  revert L. generalize (tl w ++ firstn 1 w). induction w as [|x w IH]; intros [|y l] L; cbn in *; try lia; [reflexivity|]. f_equal. apply IH. lia.
Qed.
(** two sides of one walk on the same edge are the same side *)
Lemma edge_of_inj s t : edge_of s = edge_of t -> s = t \/ (fst s = snd t /\ snd s = fst t).
Proof.
  destruct s as [a b], t as [c d]. unfold edge_of. cbn [fst snd]. destruct (Nat.ltb_spec a b), (Nat.ltb_spec c d); intros [= -> ->]; auto.
Qed.
Lemma sides_edge_inj w s t : NoDup w -> 3 <= length w -> In s (sides w) -> In t (sides w) -> edge_of s = edge_of t -> s = t.
Proof.
  intros N L Hs Ht E. apply edge_of_inj in E as [E|[E1 E2]]; [exact E|exfalso].
  apply In_nth_error in Hs as [i Hi]. apply In_nth_error in Ht as [j Hj].
  pose proof (sides_next _ _ _ Hi) as [A1 A2]. pose proof (sides_next _ _ _ Hj) as [B1 B2]. rewrite E1 in A1. rewrite E2 in A2.
  pose proof (NoDup_nth_inj _ _ _ _ N A1 B2) as I1. pose proof (NoDup_nth_inj _ _ _ _ N A2 B1) as I2.
  assert (i < length w) by (apply nth_error_Some; rewrite A1; discriminate). assert (j < length w) by (apply nth_error_Some; rewrite B1; discriminate).
  destruct (Nat.eq_dec (i + 1) (length w)) as [F|F]; [rewrite F, Nat.mod_same in I2 by lia|rewrite (Nat.mod_small (i + 1)) in I2 by lia];
  (destruct (Nat.eq_dec (j + 1) (length w)) as [F'|F']; [rewrite F', Nat.mod_same in I1 by lia|rewrite (Nat.mod_small (j + 1)) in I1 by lia]); lia.
Qed.
Lemma unknowns_nodup npts k es l : (forall s, In s l -> In (edge_of s) es) -> (forall s, In s l -> fst s < npts) -> NoDup (map fst l) ->
  (forall s t, In s l -> In t l -> edge_of s = edge_of t -> s = t) -> NoDup (flat_map (side_unknowns npts k es) l).
Proof.
  induction l as [|s l IH]; intros HE HP N HI; cbn [flat_map]; [constructor|].
  assert (~ In s l) as Hs. { intros I. cbn in N. inversion N as [|? ? X _]; subst. apply X. apply in_map. exact I. }
  inversion N as [|? ? X N']; subst.
  cbn [side_unknowns app]. unfold side_unknowns at 1. cbn [app]. constructor.
  - rewrite in_app_iff. intros [I|I].
    + apply along_in, inner_in in I. pose proof (HP s (or_introl eq_refl)). nia.
    + apply in_flat_map in I as (t & It & Ix). cbn in Ix. destruct Ix as [E|Ix]; [apply X; rewrite <- E; apply in_map; exact It|].
      apply along_in, inner_in in Ix. pose proof (HP s (or_introl eq_refl)). nia.
  - assert (NoDup (along s (inner npts k (position es (edge_of s))))) as N1 by (apply along_nodup, seq_NoDup).
    assert (NoDup (flat_map (side_unknowns npts k es) l)) as N2.
    { apply IH; [intros; apply HE; right; assumption|intros; apply HP; right; assumption|exact N'|intros; apply HI; try right; assumption]. }
    assert (forall x, In x (along s (inner npts k (position es (edge_of s)))) -> ~ In x (flat_map (side_unknowns npts k es) l)) as D.
    { intros x Ix Iy. apply along_in in Ix. apply in_flat_map in Iy as (t & It & Iy). cbn in Iy. destruct Iy as [E|Iy].
      - apply inner_in in Ix. pose proof (HP t (or_intror It)). nia.
      - apply along_in in Iy. pose proof (inner_disjoint _ _ _ _ _ Ix Iy) as E. apply position_inj in E; [|apply HE; left; reflexivity|apply HE; right; exact It].
        apply HI in E; [|left; reflexivity|right; exact It]. subst t. exact (Hs It). }
    revert N1 D. generalize (along s (inner npts k (position es (edge_of s)))). intros u N1 D. induction u as [|x u IHu]; cbn; [exact N2|].
    inversion N1; subst. constructor; [rewrite in_app_iff; intros [I|I]; [contradiction|apply (D x); [left; reflexivity|exact I]]|].
    apply IHu; [assumption|]. intros y Iy. apply D. right. exact Iy.
Qed.
