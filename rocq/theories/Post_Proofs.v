(** Proofs for C196-C197. *)
From Coq Require Import Reals List Arith Lra Lia Permutation.
From Verif Require Import Common Poly_Spec Quad_Spec Geo_Spec Geo_Model Geo_Proofs Geo2_Proofs Shape_Spec Mesh_Model Elem_Model Elem_Proofs Mesher_Model
  Polyh_Spec Fill_Proofs Post_Model Post_Spec.
From Verif Require Import Poly_Spec.
Import ListNotations.
Local Open Scope nat_scope.

Lemma vget_nth {A} (l : list A) i d : i < length l -> vget l i = Ok (nth i l d).
Proof. intros H. unfold vget. now rewrite (nth_error_nth' l d H). Qed.
Lemma points_of_ok P ids : (forall i, In i ids -> i < length P) -> points_of P ids = Ok (coords P ids).
Proof.
  induction ids as [|i r IH]; intros H; [reflexivity|]. cbn [points_of]. rewrite (vget_nth P i (fun _ => 0%R)) by (apply H; now left). cbn [bind].
  rewrite IH by (intros j J; apply H; now right). reflexivity.
Qed.
Lemma bary_ok P ids : ids <> [] -> (forall i, In i ids -> i < length P) -> exists b, barycenter (coords P ids) = Ok b /\ is_mean (coords P ids) b.
Proof. intros N _. apply barycenter_mean. destruct ids; [contradiction|discriminate]. Qed.
Lemma coord_app P Q i : i < length P -> coord (P ++ Q) i = coord P i.
Proof. intros H. unfold coord. now apply app_nth1. Qed.
Lemma coord_new P b Q : coord (P ++ b :: Q) (length P) = b.
Proof. unfold coord. rewrite app_nth2 by lia. now rewrite Nat.sub_diag. Qed.
Lemma coords_len P ids : length (coords P ids) = length ids. Proof. apply map_length. Qed.
Lemma coords_app P Q ids : (forall i, In i ids -> i < length P) -> coords (P ++ Q) ids = coords P ids.
Proof. intros H. apply map_ext_in. intros i I. apply coord_app. now apply H. Qed.

Lemma each_app {A St} (f : A -> St -> outcome St) l l' s : each f (l ++ l') s = (do s' <- each f l s; each f l' s').
Proof. revert s; induction l as [|a l IH]; intros s; [reflexivity|]. cbn [each app]. destruct (f a s); cbn [bind]; [apply IH|reflexivity|reflexivity]. Qed.

(** ** the copies *)
Lemma copy_points m : forall n, n <= length (i_points m) -> forall k,
  each (copy_point m) (seq 0 n) (mkPost [] 0 [] [] k [] []) = Ok (mkPost (firstn n (i_points m)) n [] [] k [] []).
Proof.
  induction n as [|n IH]; intros H k; [reflexivity|]. rewrite seq_S, each_app, IH by lia. rewrite Nat.add_0_l. cbn [bind each]. unfold copy_point. cbn [o_points o_nodes o_edges o_vols num_points face_list cell_list].
  rewrite (vget_nth (i_points m) n (fun _ => 0%R)) by lia. cbn [bind]. do 2 f_equal.
  assert (E : firstn (S n) (i_points m) = firstn n (i_points m) ++ [nth n (i_points m) (fun _ => 0%R)]).
  { clear IH. revert n H. induction (i_points m) as [|p l IHl]; intros n H; [cbn in H; lia|]. destruct n as [|n]; [reflexivity|]. cbn [firstn nth app]. rewrite <- IHl by (cbn in H; lia). reflexivity. }
  now rewrite E.
Qed.
Lemma copy_edges : forall l P n E V k F C, (forall e, In e l -> length e = 2) ->
  each copy_edge l (mkPost P n E V k F C) = Ok (mkPost P n (E ++ map sord l) V k F C).
Proof.
  induction l as [|e l IH]; intros P n E V k F C H; [cbn; now rewrite app_nil_r|]. pose proof (H e (or_introl eq_refl)) as L. destruct e as [|a [|b [|c e]]]; try discriminate.
  cbn [each]. unfold copy_edge at 1. cbn [vget nth_error bind o_points o_nodes o_edges o_vols num_points face_list cell_list]. rewrite IH by (intros e I; apply H; now right). rewrite <- app_assoc. reflexivity.
Qed.

(** ** the faces *)
Section Mesh.
Variable m : mesh3.
Let P0 := i_points m.
Definition face_rec (Q : list pt) (f lf : list nat) : Prop :=
  (length f = 3 /\ lf = f) \/ (3 < length f /\ exists k, lf = f ++ [k] /\ k < length Q /\ is_mean (coords P0 f) (coord Q k)).
Lemma face_rec_mono Q X f lf : face_rec Q f lf -> face_rec (Q ++ X) f lf.
Proof. intros [H|(H & k & E & K & M)]; [now left|]. right. split; [exact H|]. exists k. split; [exact E|]. split; [rewrite app_length; lia|]. now rewrite coord_app. Qed.
Definition big (f : list nat) : bool := 3 <? length f.
Lemma faces_each : forall l P n E V C F, (forall f, In f l -> 3 <= length f /\ forall i, In i f -> i < length P0) -> exists B L,
  each (split_face m) l (mkPost P n E V (length P) F C) = Ok (mkPost (P ++ B) (n + length B) E V (length (P ++ B)) (F ++ L) C) /\
  Forall2 is_mean (map (coords P0) (filter big l)) B /\ Forall2 (face_rec (P ++ B)) l L.
Proof.
  induction l as [|f l IH]; intros P n E V C F H.
  - exists [], []. rewrite !app_nil_r, Nat.add_0_r. split; [reflexivity|]. split; constructor.
  - destruct (H f (or_introl eq_refl)) as (L3 & Hf). assert (H' : forall f, In f l -> 3 <= length f /\ forall i, In i f -> i < length P0) by (intros g I; apply H; now right).
    cbn [each]. unfold split_face at 1. cbn [filter]. unfold big at 1. destruct (Nat.ltb_spec 3 (length f)) as [L|L].
    + fold P0. rewrite (points_of_ok P0 f Hf). cbn [bind]. destruct (bary_ok P0 f) as (b & Eb & M); [destruct f; [cbn in L; lia|discriminate]|exact Hf|].
      rewrite Eb. cbn [bind]. unfold add_point. cbn [o_points o_nodes o_edges o_vols num_points face_list cell_list].
      destruct (IH (P ++ [b]) (S n) E V C (F ++ [f ++ [length P]]) H') as (B & Lf & Ee & F1 & F2).
      replace (S (length P)) with (length (P ++ [b])) by (rewrite app_length; cbn; lia). rewrite Ee. exists (b :: B), ((f ++ [length P]) :: Lf).
      rewrite <- !app_assoc in *. cbn [app] in *. split; [|split].
      * cbn [length]. do 2 f_equal. lia.
      * cbn [map]. constructor; assumption.
      * constructor; [|exact F2]. right. split; [exact L|]. exists (length P). split; [reflexivity|]. rewrite coord_new, app_length. cbn [length]. split; [lia|exact M].
    + cbn [bind o_points o_nodes o_edges o_vols num_points face_list cell_list]. destruct (IH P n E V C (F ++ [f]) H') as (B & Lf & Ee & F1 & F2). exists B, (f :: Lf). rewrite Ee, <- app_assoc.
      split; [reflexivity|]. split; [exact F1|]. constructor; [left; split; [lia|reflexivity]|exact F2].
Qed.

(** ** the triangles of a face *)
Definition tri_of (lf : list nat) : list (nat * nat * nat) :=
  if length lf =? 3 then [(nth 0 lf 0, nth 1 lf 0, nth 2 lf 0)]
  else map (fun i => (nth i lf 0, nth ((i + 1) mod (length lf - 1)) lf 0, nth (length lf - 1) lf 0)) (seq 0 (length lf - 1)).
Lemma each_collect {A B} (g : A -> B) (F : A -> list B -> outcome (list B)) : forall l acc, (forall a r, In a l -> F a r = Ok (r ++ [g a])) -> each F l acc = Ok (acc ++ map g l).
Proof.
  induction l as [|a l IH]; intros acc H; [cbn; now rewrite app_nil_r|]. cbn [each map]. rewrite H by now left. cbn [bind]. rewrite IH by (intros; apply H; now right). now rewrite <- app_assoc.
Qed.
Lemma triangles_ok s f lf : nth_error (face_list s) f = Some lf -> 3 <= length lf -> face_triangles s f = Ok (tri_of lf).
Proof.
  intros E L. unfold face_triangles, tri_of. unfold vget at 1. rewrite E. cbn [bind]. destruct (Nat.eqb_spec (length lf) 3) as [L3|L3].
  - rewrite !(vget_nth lf _ 0) by lia. reflexivity.
  - rewrite (vget_nth lf _ 0) by lia. cbn [bind].
    rewrite (each_collect (fun i => (nth i lf 0, nth ((i + 1) mod (length lf - 1)) lf 0, nth (length lf - 1) lf 0))); [reflexivity|].
    intros i r I. apply in_seq in I. rewrite (vget_nth lf i 0) by lia. cbn [bind]. rewrite (vget_nth lf _ 0); [reflexivity|]. pose proof (Nat.mod_upper_bound (i + 1) (length lf - 1)). lia.
Qed.
Lemma face_rec_len Q f lf : face_rec Q f lf -> 3 <= length lf.
Proof. intros [(L & ->)|(L & k & -> & _)]; [lia|rewrite app_length; cbn; lia]. Qed.

(** the triangles, as triangles of space *)
Definition turned (Q : list pt) (t : nat * nat * nat) (u : pt * pt * pt) : Prop :=
  let '(a, b, c) := t in u = (coord Q a, coord Q b, coord Q c) \/ u = (coord Q c, coord Q a, coord Q b).
Lemma tri_cuts Q f lf : (forall i, In i f -> i < length P0) -> face_rec (P0 ++ Q) f lf -> exists l, cuts (coords P0 f) l /\ Forall2 (turned (P0 ++ Q)) (tri_of lf) l.
Proof.
  intros Hf [(L & ->)|(L & k & -> & K & M)].
  - destruct f as [|a [|b [|c [|]]]]; try discriminate. exists [(coord P0 a, coord P0 b, coord P0 c)]. split.
    + left. exists (coord P0 a), (coord P0 b), (coord P0 c). split; reflexivity.
    + constructor; [|constructor]. cbn. left. rewrite !coord_app by (apply Hf; cbn; tauto). reflexivity.
  - exists (map (fun e => (coord (P0 ++ Q) k, fst e, snd e)) (edges (coords P0 f))). split; [right; right; exists (coord (P0 ++ Q) k); split; [exact M|reflexivity]|].
    rewrite <- edges_seq, map_map. unfold tri_of. rewrite app_length. cbn [length]. replace (length f + 1 =? 3) with false by (symmetry; apply Nat.eqb_neq; lia).
    replace (length f + 1 - 1) with (length f) by lia. rewrite coords_len. rewrite (app_nth2 f [k]) by lia. rewrite Nat.sub_diag. cbn [nth].
    assert (G : forall l, (forall i, In i l -> i < length f) -> Forall2 (turned (P0 ++ Q)) (map (fun i => (nth i (f ++ [k]) 0, nth ((i + 1) mod length f) (f ++ [k]) 0, k)) l)
      (map (fun x => (coord (P0 ++ Q) k, fst (nth x (coords P0 f) (fun _ => 0%R), cyc (coords P0 f) (x + 1)), snd (nth x (coords P0 f) (fun _ => 0%R), cyc (coords P0 f) (x + 1)))) l)).
    { induction l as [|i l IH]; intros H; [constructor|]. cbn [map]. constructor; [|apply IH; intros j J; apply H; now right]. right. cbn [fst snd].
      assert (Hi : i < length f) by (apply H; now left). pose proof (Nat.mod_upper_bound (i + 1) (length f)) as Hm.
      assert (X : forall j, j < length f -> nth j (coords P0 f) (fun _ => 0%R) = coord (P0 ++ Q) (nth j (f ++ [k]) 0)).
      { intros j Hj. rewrite app_nth1 by exact Hj. rewrite coord_app by (apply Hf; now apply nth_In). unfold coords. rewrite (nth_indep _ _ (coord P0 0)) by (rewrite map_length; exact Hj). apply map_nth. }
      unfold cyc. rewrite coords_len. rewrite !X by lia. reflexivity. }
    apply G. intros i I. apply in_seq in I. lia.
Qed.

(** ** the cells *)
Section Cells.
Variable FL : list (list nat).
Definition T (f : nat) : list (nat * nat * nat) := tri_of (nth f FL []).
Definition vols_of (k : nat) (ts : list (nat * nat * nat)) : list (list nat) := map (fun t => sord [fst (fst t); snd (fst t); snd t; k]) ts.
Definition third (f : nat) : list nat := if 1 <? length (T f) then [snd (nth 1 (T f) (0, 0, 0))] else [].
Lemma push_all k : forall ts P n E V np F C, fold_left (fun s t => push_volume [fst (fst t); snd (fst t); snd t; k] s) ts (mkPost P n E V np F C) = mkPost P n E (V ++ vols_of k ts) np F C.
Proof. induction ts as [|t ts IH]; intros; [cbn; now rewrite app_nil_r|]. cbn [fold_left]. unfold push_volume at 2. cbn [o_points o_nodes o_edges o_vols num_points face_list cell_list]. rewrite IH, <- app_assoc. reflexivity. Qed.
Lemma cell_faces_each k : forall fcs P n E V np C pts, (forall f, In f fcs -> f < length FL /\ 3 <= length (nth f FL [])) ->
  each (cell_face k) fcs (mkPost P n E V np FL C, pts) = Ok (mkPost P n E (V ++ vols_of k (flat_map T fcs)) np FL C, pts ++ flat_map third fcs).
Proof.
  induction fcs as [|f fcs IH]; intros P n E V np C pts H; [cbn; now rewrite !app_nil_r|]. cbn [each]. unfold cell_face at 1.
  destruct (H f (or_introl eq_refl)) as (Hf & L). rewrite (triangles_ok _ f (nth f FL [])); [|cbn [face_list]; now apply nth_error_nth'|exact L]. cbn [bind]. fold (T f). cbn [flat_map]. unfold third at 1. destruct (Nat.ltb_spec 1 (length (T f))) as [L1|L1].
  - rewrite (vget_nth _ 1 (0, 0, 0)) by exact L1. cbn [bind]. rewrite push_all, IH by (intros g I; apply H; now right). unfold vols_of. rewrite map_app, <- !app_assoc. reflexivity.
  - cbn [bind]. rewrite push_all, IH by (intros g I; apply H; now right). unfold vols_of. rewrite map_app, <- !app_assoc. reflexivity.
Qed.
Definition tetc (c : list nat * list nat) : bool := length (fst c) =? 4.
Definition cell_rec (Q : list pt) (c : list nat * list nat) (part : list (list nat)) (nl : list nat) : Prop :=
  (length (fst c) = 4 /\ part = [sord (fst c)] /\ nl = fst c) \/
  (length (fst c) <> 4 /\ exists k, k < length Q /\ is_mean (coords P0 (fst c)) (coord Q k) /\ part = vols_of k (flat_map T (snd c)) /\ nl = fst c ++ k :: flat_map third (snd c)).
Lemma cell_rec_mono Q X c part nl : cell_rec Q c part nl -> cell_rec (Q ++ X) c part nl.
Proof. intros [H|(H & k & K & M & E)]; [now left|]. right. split; [exact H|]. exists k. split; [rewrite app_length; lia|]. now rewrite coord_app. Qed.
Inductive cells_rec (Q : list pt) : list (list nat * list nat) -> list (list (list nat)) -> list (list nat) -> Prop :=
| cr_nil : cells_rec Q [] [] []
| cr_cons c part nl cs parts ns : cell_rec Q c part nl -> cells_rec Q cs parts ns -> cells_rec Q (c :: cs) (part :: parts) (nl :: ns).
Lemma cells_each : forall l P n E V C, (forall c, In c l -> fst c <> [] /\ (forall i, In i (fst c) -> i < length P0) /\ forall f, In f (snd c) -> f < length FL /\ 3 <= length (nth f FL [])) ->
  exists B parts ns,
  each (split_cell m) l (mkPost P n E V (length P) FL C) = Ok (mkPost (P ++ B) (n + length B) E (V ++ concat parts) (length (P ++ B)) FL (C ++ ns)) /\
  Forall2 is_mean (map (fun c => coords P0 (fst c)) (filter (fun c => negb (tetc c)) l)) B /\ cells_rec (P ++ B) l parts ns.
Proof.
  induction l as [|[ids fcs] l IH]; intros P n E V C H.
  - exists [], [], []. cbn [concat each]. rewrite !app_nil_r, Nat.add_0_r. split; [reflexivity|]. split; constructor.
  - destruct (H _ (or_introl eq_refl)) as (N & Hi & Hf). cbn [fst snd] in *. assert (H' := fun c I => H c (or_intror I)). cbn [each]. unfold split_cell at 1. cbn [filter]. unfold tetc at 1. cbn [fst]. destruct (Nat.eqb_spec (length ids) 4) as [L|L].
    + cbn [negb]. destruct ids as [|a [|b [|c [|d [|]]]]]; try discriminate. cbn [vget nth_error bind]. unfold push_volume. cbn [o_points o_nodes o_edges o_vols num_points face_list cell_list].
      destruct (IH P n E (V ++ [sord [a; b; c; d]]) (C ++ [[a; b; c; d]]) H') as (B & parts & ns & Ee & F1 & F2). rewrite Ee.
      exists B, ([sord [a; b; c; d]] :: parts), ([a; b; c; d] :: ns). rewrite <- !app_assoc. split; [reflexivity|]. split; [exact F1|]. constructor; [left; repeat split|exact F2].
    + cbn [negb]. fold P0. rewrite (points_of_ok P0 ids Hi). cbn [bind]. destruct (bary_ok P0 ids N Hi) as (b & Eb & M). rewrite Eb. cbn [bind]. unfold add_point. cbn [o_points o_nodes o_edges o_vols num_points face_list cell_list].
      rewrite (cell_faces_each (length P) fcs) by exact Hf. cbn [bind o_points o_nodes o_edges o_vols num_points face_list cell_list].
      destruct (IH (P ++ [b]) (S n) E (V ++ vols_of (length P) (flat_map T fcs)) (C ++ [(ids ++ [length P]) ++ flat_map third fcs]) H') as (B & parts & ns & Ee & F1 & F2).
      replace (S (length P)) with (length (P ++ [b])) by (rewrite app_length; cbn; lia). rewrite Ee.
      exists (b :: B), (vols_of (length P) (flat_map T fcs) :: parts), ((ids ++ length P :: flat_map third fcs) :: ns).
      rewrite <- !app_assoc in *. cbn [app] in *. split; [|split].
      * cbn [length concat]. do 2 f_equal. lia.
      * cbn [map fst]. constructor; assumption.
      * constructor; [|exact F2]. right. cbn [fst snd]. split; [exact L|]. exists (length P). rewrite coord_new, app_length. cbn [length]. split; [lia|]. split; [exact M|]. split; reflexivity.
Qed.
End Cells.
End Mesh.

(** ** the whole mesh *)
Definition post_of (m : mesh3) (Bf Bc : list pt) (FL : list (list nat)) (parts : list (list (list nat))) (ns : list (list nat)) : post :=
  mkPost ((i_points m ++ Bf) ++ Bc) (length ((i_points m ++ Bf) ++ Bc)) (map sord (i_edges m)) (concat parts) (length ((i_points m ++ Bf) ++ Bc)) FL ns.
Lemma forall2_nth {A B} (R : A -> B -> Prop) l l' d d' i : Forall2 R l l' -> i < length l -> R (nth i l d) (nth i l' d').
Proof. intros F. revert i. induction F as [|a b l l' H F IH]; intros i Hi; [cbn in Hi; lia|]. destruct i; [exact H|apply IH; cbn in Hi; lia]. Qed.
Lemma forall2_len {A B} (R : A -> B -> Prop) l l' : Forall2 R l l' -> length l = length l'.
Proof. intros F; induction F; cbn; congruence. Qed.
Lemma post_shape m : valid_mesh m -> exists Bf Bc FL parts ns, post_mesh3 m = Ok (post_of m Bf Bc FL parts ns) /\
  Forall2 is_mean (map (coords (i_points m)) (filter big (i_faces m))) Bf /\
  Forall2 is_mean (map (fun c => coords (i_points m) (fst c)) (filter (fun c => negb (tetc c)) (i_cells m))) Bc /\
  Forall2 (face_rec m (i_points m ++ Bf)) (i_faces m) FL /\ cells_rec m FL ((i_points m ++ Bf) ++ Bc) (i_cells m) parts ns.
Proof.
  intros (Hn & He & Hf & Hc). unfold post_mesh3. rewrite Hn, copy_points, firstn_all by lia. cbn [bind]. rewrite copy_edges by exact He. cbn [bind app].
  destruct (faces_each m (i_faces m) (i_points m) (length (i_points m)) (map sord (i_edges m)) [] [] [] Hf) as (Bf & FL & E & F1 & F2). rewrite E. cbn [bind app].
  destruct (cells_each m FL (i_cells m) (i_points m ++ Bf) (length (i_points m) + length Bf) (map sord (i_edges m)) [] []) as (Bc & parts & ns & E2 & F3 & F4).
  { intros c I. destruct (Hc c I) as (N & Hi & Hg). split; [exact N|]. split; [exact Hi|]. intros f J. specialize (Hg f J). rewrite <- (forall2_len _ _ _ F2). split; [exact Hg|].
    exact (face_rec_len m _ _ _ (forall2_nth _ _ _ [] [] f F2 Hg)). }
  rewrite E2. exists Bf, Bc, FL, parts, ns. split; [|repeat split; assumption]. unfold post_of. cbn [app]. do 2 f_equal. rewrite !app_length. reflexivity.
Qed.

Lemma sord_perm l : Permutation (sord l) l. Proof. apply std_sort_perm. Qed.
Lemma tri_in lf a b c : 3 <= length lf -> In (a, b, c) (tri_of lf) -> In a lf /\ In b lf /\ In c lf.
Proof.
  intros L. unfold tri_of. destruct (Nat.eqb_spec (length lf) 3) as [E|E].
  - intros [[= <- <- <-]|[]]. repeat split; apply nth_In; lia.
  - intros I. apply in_map_iff in I as (i & [= <- <- <-] & I). apply in_seq in I. pose proof (Nat.mod_upper_bound (i + 1) (length lf - 1)). repeat split; apply nth_In; lia.
Qed.
Lemma rec_range m Q f lf i : (forall i, In i f -> i < length (i_points m)) -> (length (i_points m) <= length Q) -> face_rec m Q f lf -> In i lf -> i < length Q.
Proof. intros H HQ [(_ & ->)|(_ & k & -> & K & _)] I; [specialize (H i I); lia|]. apply in_app_or in I as [I|[<-|[]]]; [specialize (H i I); lia|exact K]. Qed.
Lemma vols_range m FL Q c part nl v : (forall i, In i (fst c) -> i < length (i_points m)) -> length (i_points m) <= length Q ->
  (forall f i, In f (snd c) -> In i (nth f FL []) -> i < length Q) -> (forall f, In f (snd c) -> 3 <= length (nth f FL [])) ->
  cell_rec m FL Q c part nl -> In v part -> length v = 4 /\ forall i, In i v -> i < length Q.
Proof.
  intros Hi HQ Hf H3 [(L & -> & _)|(L & k & K & _ & -> & _)] I.
  - destruct I as [<-|[]]. split; [rewrite (Permutation_length (sord_perm _)); exact L|]. intros i J. apply (Permutation_in _ (sord_perm _)) in J. specialize (Hi i J). lia.
  - apply in_map_iff in I as ([[a b] d] & <- & I). apply in_flat_map in I as (f & If & I). destruct (tri_in _ a b d (H3 f If) I) as (Ia & Ib & Id). cbn [fst snd].
    split; [now rewrite (Permutation_length (sord_perm _))|]. intros i J. apply (Permutation_in _ (sord_perm _)) in J. destruct J as [<-|[<-|[<-|[<-|[]]]]]; [exact (Hf f _ If Ia)|exact (Hf f _ If Ib)|exact (Hf f _ If Id)|exact K].
Qed.

Lemma cells_rec_in m FL Q cs parts ns : cells_rec m FL Q cs parts ns -> forall v, In v (concat parts) -> exists c part nl, In c cs /\ In v part /\ cell_rec m FL Q c part nl.
Proof. intros H. induction H as [|c part nl cs parts ns Hc H IH]; intros v I; [destruct I|]. cbn in I. apply in_app_or in I as [I|I]; [exists c, part, nl; cbn; tauto|]. destruct (IH v I) as (c' & p & l & A & B). exists c', p, l. cbn; tauto. Qed.

(** the points inside the tetrahedra *)
Lemma tetra_rot a b c d x : in_tetra a b c d x -> in_tetra b c d a x.
Proof. intros (la & lb & lc & ld & Ha & Hb & Hc & Hd & S & H). exists lb, lc, ld, la. repeat split; try assumption; [lra|]. intros i Hi. rewrite (H i Hi). ring. Qed.
Lemma tetra_swap a b c d x : in_tetra a b c d x -> in_tetra b a c d x.
Proof. intros (la & lb & lc & ld & Ha & Hb & Hc & Hd & S & H). exists lb, la, lc, ld. repeat split; try assumption; [lra|]. intros i Hi. rewrite (H i Hi). ring. Qed.
Lemma tetra_swap2 a b c d x : in_tetra a b c d x -> in_tetra a c b d x.
Proof. intros H. do 3 apply tetra_rot. apply tetra_swap. now apply tetra_rot. Qed.
Lemma tetra_swap3 a b c d x : in_tetra a b c d x -> in_tetra a b d c x.
Proof. intros H. do 3 apply tetra_rot. apply tetra_swap2. now apply tetra_rot. Qed.
Lemma tetra_rot3 a b c d x : in_tetra a b c d x -> in_tetra a c d b x.
Proof. intros H. now apply tetra_swap3, tetra_swap2. Qed.
(** membership does not depend on the order *)
Definition weights (l : list pt) (x : pt) : Prop := exists w : list (R * pt), map snd w = l /\ (forall e, In e w -> (0 <= fst e)%R) /\ sumR (map fst w) = 1%R /\ forall i, i < 3 -> x i = sumR (map (fun e => (fst e * snd e i)%R) w).
Lemma weights_tetra a b c d x : weights [a; b; c; d] x <-> in_tetra a b c d x.
Proof.
  split.
  - intros (w & E & H & S & X). destruct w as [|[la a'] [|[lb b'] [|[lc c'] [|[ld d'] [|]]]]]; try discriminate. cbn in E. injection E as -> -> -> ->. exists la, lb, lc, ld.
    assert (G := fun e I => H e I). pose proof (G (la, a) (or_introl eq_refl)). pose proof (G (lb, b) (or_intror (or_introl eq_refl))). pose proof (G (lc, c) (or_intror (or_intror (or_introl eq_refl)))). pose proof (G (ld, d) (or_intror (or_intror (or_intror (or_introl eq_refl))))).
    cbn in *. repeat split; try assumption; [lra|]. intros i Hi. rewrite (X i Hi). cbn. ring.
  - intros (la & lb & lc & ld & Ha & Hb & Hc & Hd & S & H). exists [(la, a); (lb, b); (lc, c); (ld, d)]. split; [reflexivity|]. split; [intros e [<-|[<-|[<-|[<-|[]]]]]; assumption|].
    cbn. split; [lra|]. intros i Hi. rewrite (H i Hi). ring.
Qed.
Lemma sumR_perm l l' : Permutation l l' -> sumR l = sumR l'.
Proof. intros P. induction P; cbn; lra. Qed.
Lemma weights_perm l l' x : Permutation l l' -> weights l x -> weights l' x.
Proof.
  intros P (w & E & H & S & X). subst l. destruct (Permutation_map_inv _ _ (Permutation_sym P)) as (w' & E' & P'). exists w'. split; [now symmetry|]. split; [intros e I; apply H; eapply Permutation_in; [apply Permutation_sym; exact P'|exact I]|].
  split; [rewrite <- S; symmetry; apply sumR_perm, Permutation_map, P'|]. intros i Hi. rewrite (X i Hi). apply sumR_perm, Permutation_map, P'.
Qed.
Lemma numbered_iff Q v a b c d x : Permutation v [a; b; c; d] -> (in_numbered Q v x <-> in_tetra (coord Q a) (coord Q b) (coord Q c) (coord Q d) x).
Proof.
  intros P. split.
  - intros (a' & b' & c' & d' & P' & H). apply weights_tetra. apply weights_tetra in H. apply (weights_perm [coord Q a'; coord Q b'; coord Q c'; coord Q d']); [|exact H].
    change (Permutation (map (coord Q) [a'; b'; c'; d']) (map (coord Q) [a; b; c; d])). apply Permutation_map. eapply Permutation_trans; [apply Permutation_sym; exact P'|exact P].
  - intros H. exists a, b, c, d. split; assumption.
Qed.
Lemma turned_tetra Q t u bar x : turned Q t u -> (in_tetra (coord Q (fst (fst t))) (coord Q (snd (fst t))) (coord Q (snd t)) bar x <-> in_tetra bar (fst (fst u)) (snd (fst u)) (snd u) x).
Proof.
  destruct t as [[a b] c]. intros [->| ->]; cbn [fst snd]; split; intros H.
  - now do 3 apply tetra_rot.
  - now apply tetra_rot.
  - do 2 apply tetra_rot3. now do 3 apply tetra_rot.
  - apply tetra_rot. now apply tetra_rot3.
Qed.
Lemma turned_triangle Q t u y : turned Q t u -> (in_numbered_triangle Q t y <-> in_triangle3 (fst (fst u)) (snd (fst u)) (snd u) y).
Proof.
  destruct t as [[a b] c]. intros [->| ->]; unfold in_numbered_triangle; cbn [fst snd]; [reflexivity|]. split; intros (la & lb & lc & Ha & Hb & Hc & S & H).
  - exists lc, la, lb. repeat split; try assumption; [lra|]. intros i Hi. rewrite (H i Hi). ring.
  - exists lb, lc, la. repeat split; try assumption; [lra|]. intros i Hi. rewrite (H i Hi). ring.
Qed.
