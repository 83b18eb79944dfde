(** The mesh on which solutions are written: every cell is cut into tetrahedra that cover it (C196), and neighbours cut their common face alike (C197). *)
From Coq Require Import Reals List Arith Lra Lia Permutation.
From Verif Require Import Common Poly_Spec Quad_Model Quad_Spec Geo_Spec Geo_Model Geo_Proofs Geo2_Proofs Shape_Spec Mesher_Model
  Polyh_Model Polyh_Spec Polyh_Proofs Polyh_Properties Fill_Proofs Fill_Properties Post_Model Post_Spec Post_Proofs.
From Verif Require Import Poly_Spec.
Import ListNotations.
Local Open Scope R_scope.

Lemma valid_tri m Bf FL : valid_mesh m -> Forall2 (face_rec m (i_points m ++ Bf)) (i_faces m) FL -> forall Bc c f, In c (i_cells m) -> In f (snd c) ->
  face_rec m ((i_points m ++ Bf) ++ Bc) (nth f (i_faces m) []) (nth f FL []) /\ (3 <= length (nth f (i_faces m) []))%nat /\ forall i, In i (nth f (i_faces m) []) -> (i < length (i_points m))%nat.
Proof.
  intros (_ & _ & Hf & Hc) F Bc c f Ic If. destruct (Hc c Ic) as (_ & _ & H). specialize (H f If). split; [apply face_rec_mono; exact (forall2_nth _ _ _ [] [] f F H)|]. apply Hf. now apply nth_In.
Qed.

(** ** C196 *)
(** the points, nodes and edges are kept under their numbers; the new points are
    the means of the faces with more than three points, then of the cells with
    more than four; every volume has four points of the mesh *)
Theorem C196_points : forall m, valid_mesh m -> exists r Bf Bc, post_mesh3 m = Ok r /\ o_points r = i_points m ++ Bf ++ Bc /\
  Forall2 is_mean (map (coords (i_points m)) (filter (fun f => Nat.ltb 3 (length f)) (i_faces m))) Bf /\
  Forall2 is_mean (map (fun c => coords (i_points m) (fst c)) (filter (fun c => negb (Nat.eqb (length (fst c)) 4)) (i_cells m))) Bc /\
  o_nodes r = length (o_points r) /\ Forall2 (@Permutation nat) (i_edges m) (o_edges r) /\
  forall v, In v (o_vols r) -> length v = 4%nat /\ forall i, In i v -> (i < length (o_points r))%nat.
Proof.
  intros m W. destruct (post_shape m W) as (Bf & Bc & FL & parts & ns & E & F1 & F2 & F3 & F4). exists (post_of m Bf Bc FL parts ns), Bf, Bc. split; [exact E|]. unfold post_of. cbn [o_points o_nodes o_edges o_vols].
  split; [symmetry; apply app_assoc|]. split; [exact F1|]. split; [exact F2|]. split; [reflexivity|]. split.
  - induction (i_edges m) as [|e l IH]; constructor; [apply Permutation_sym, sord_perm|exact IH].
  - intros v I. destruct (cells_rec_in _ _ _ _ _ _ F4 v I) as (c & part & nl & Ic & Iv & R). destruct W as (W1 & W2 & W3 & W4). destruct (W4 c Ic) as (_ & Wi & _).
    apply (vols_range m FL _ c part nl v Wi); [rewrite !app_length; lia| | |exact R|exact Iv].
    + intros f i If Ii. destruct (valid_tri m Bf FL (conj W1 (conj W2 (conj W3 W4))) F3 Bc c f Ic If) as (G & _ & G2). apply (rec_range m _ (nth f (i_faces m) []) (nth f FL []) i G2); [rewrite !app_length; lia|exact G|exact Ii].
    + intros f If. exact (face_rec_len _ _ _ _ (proj1 (valid_tri m Bf FL (conj W1 (conj W2 (conj W3 W4))) F3 Bc c f Ic If))).
Qed.

Lemma cell_iff m Q FL cs parts ns (P : list nat * list nat -> list (list nat) -> Prop) : cells_rec m FL Q cs parts ns -> (forall c part nl, In c cs -> cell_rec m FL Q c part nl -> P c part) -> Forall2 P cs parts.
Proof. intros H. induction H as [|c part nl cs parts ns Hc H IH]; intros K; constructor; [apply (K c part nl); [now left|exact Hc]|]. apply IH. intros c' p n I. apply K. now right. Qed.
Lemma turned_all m Bf Bc FL fcs : (forall f, In f fcs -> face_rec m ((i_points m ++ Bf) ++ Bc) (nth f (i_faces m) []) (nth f FL []) /\ (3 <= length (nth f (i_faces m) []))%nat /\ forall i, In i (nth f (i_faces m) []) -> (i < length (i_points m))%nat) ->
  exists ls, Forall2 cuts (map (fun f => coords (i_points m) (nth f (i_faces m) [])) fcs) ls /\ Forall2 (turned ((i_points m ++ Bf) ++ Bc)) (flat_map (T FL) fcs) (concat ls).
Proof.
  induction fcs as [|f fcs IH]; intros H; [exists []; split; constructor|]. destruct IH as (ls & A & B); [intros g I; apply H; now right|].
  destruct (H f (or_introl eq_refl)) as (R & _ & V). rewrite <- app_assoc in R. destruct (tri_cuts m (Bf ++ Bc) _ _ V R) as (l & C & D). rewrite app_assoc in D. exists (l :: ls). split; [constructor; assumption|]. cbn [flat_map concat]. apply Forall2_app; assumption.
Qed.
(** the tetrahedra of a strictly convex cell are the cell; a cell with four points stays *)
Theorem C196_cover : forall m, valid_mesh m -> exists r parts, post_mesh3 m = Ok r /\ o_vols r = concat parts /\
  Forall2 (fun c part =>
    (length (fst c) = 4%nat -> exists t, part = [t] /\ Permutation t (fst c)) /\
    (length (fst c) <> 4%nat -> forall flags, length flags = length (snd c) -> strictly_convex (coords (i_points m) (fst c)) (cell_faces m flags c) ->
       forall x, in_cell (cell_faces m flags c) x <-> exists t, In t part /\ in_numbered (o_points r) t x)) (i_cells m) parts.
Proof.
  intros m W. destruct (post_shape m W) as (Bf & Bc & FL & parts & ns & E & F1 & F2 & F3 & F4). exists (post_of m Bf Bc FL parts ns), parts. split; [exact E|]. split; [reflexivity|]. unfold post_of. cbn [o_points].
  apply (cell_iff _ _ _ _ _ _ _ F4). intros c part nl Ic [(L & -> & _)|(L & k & K & M & -> & _)].
  - split; [intros _; exists (sord (fst c)); split; [reflexivity|apply sord_perm]|]. intros C. contradiction.
  - split; [intros C; contradiction|]. intros _ flags Lf SC x.
    destruct (turned_all m Bf Bc FL (snd c) (fun f => valid_tri m Bf FL W F3 Bc c f Ic)) as (ls & A & B).
    assert (S : map snd (cell_faces m flags c) = map (fun f => coords (i_points m) (nth f (i_faces m) [])) (snd c)).
    { unfold cell_faces. clear -Lf. revert flags Lf. induction (snd c) as [|f l IH]; intros [|b flags] Lf; try discriminate; [reflexivity|]. cbn [map combine]. cbn [snd]. f_equal. apply IH. now injection Lf. }
    rewrite <- S in A. pose proof SC as ((N & _) & _).
    assert (Eb : barycenter (coords (i_points m) (fst c)) = Ok (coord ((i_points m ++ Bf) ++ Bc) k)).
    { destruct (barycenter_mean _ N) as (b & Eb & Mb). rewrite Eb. f_equal. apply FunctionalExtensionality.functional_extensionality. intros i. rewrite (Mb i). symmetry. apply (M i). }
    rewrite (in_cell_gap _ _ x SC). split.
    + intros X. destruct (cell_fill _ _ x _ ls SC Eb A X) as (a & b & d & I & H). destruct (forall2_in_r _ _ _ _ B I) as (t & It & Tt).
      exists (sord [fst (fst t); snd (fst t); snd t; k]). split; [unfold vols_of; apply in_map_iff; exists t; split; [reflexivity|exact It]|].
      apply (numbered_iff _ _ _ _ _ _ x (sord_perm _)). apply (turned_tetra _ t (a, b, d)); [exact Tt|exact H].
    + intros (v & Iv & H). apply in_map_iff in Iv as (t & <- & It). apply (numbered_iff _ _ _ _ _ _ x (sord_perm _)) in H. destruct (forall2_in _ _ _ _ B It) as ([[a b] d] & I & Tt).
      apply (turned_tetra _ t (a, b, d) _ x Tt) in H. exact (cell_only _ _ x _ ls a b d SC Eb A I H).
Qed.

(** ** C197 *)
(** nodes_cell: the points of the cell, then, when the cell is cut, its mean and the
    means of its faces with more than three points *)
Lemma third_ok m FL Q : forall fcs, (forall f, In f fcs -> face_rec m Q (nth f (i_faces m) []) (nth f FL [])) ->
  Forall2 is_mean (map (fun f => coords (i_points m) (nth f (i_faces m) [])) (filter (big_face m) fcs)) (coords Q (flat_map (third FL) fcs)).
Proof.
  induction fcs as [|f fcs IH]; intros H; [constructor|]. assert (IH' := IH (fun g I => H g (or_intror I))). cbn [filter flat_map]. unfold big_face at 1, third at 1, T. destruct (H f (or_introl eq_refl)) as [(L & E)|(L & k & E & K & M)]; rewrite E.
  - replace (Nat.ltb 3 (length (nth f (i_faces m) []))) with false by (symmetry; apply Nat.ltb_ge; lia). unfold tri_of. rewrite L. cbn [Nat.eqb length Nat.ltb Nat.leb app]. exact IH'.
  - replace (Nat.ltb 3 (length (nth f (i_faces m) []))) with true by (symmetry; now apply Nat.ltb_lt). unfold tri_of. rewrite app_length. cbn [length]. replace (Nat.eqb (length (nth f (i_faces m) []) + 1) 3) with false by (symmetry; apply Nat.eqb_neq; lia).
    replace (length (nth f (i_faces m) []) + 1 - 1)%nat with (length (nth f (i_faces m) [])) by lia. rewrite map_length, seq_length. replace (Nat.ltb 1 (length (nth f (i_faces m) []))) with true by (symmetry; apply Nat.ltb_lt; lia).
    cbn [map app coords]. unfold coords at 2. cbn [map app]. constructor; [|exact IH'].
    destruct (nth f (i_faces m) []) as [|a [|b l]] eqn:Ef; [cbn in L; lia|cbn in L; lia|]. cbn [length seq map nth snd]. rewrite app_nth2 by (cbn; lia). cbn [length]. rewrite Nat.sub_diag. cbn [nth]. exact M.
Qed.
Theorem C197_nodes : forall m, valid_mesh m -> exists r, post_mesh3 m = Ok r /\
  (forall i c, nth_error (i_cells m) i = Some c -> exists l, nodes_cell r i = Ok l /\
    (length (fst c) = 4%nat -> l = fst c) /\
    (length (fst c) <> 4%nat -> exists k ks, l = fst c ++ k :: ks /\ is_mean (coords (i_points m) (fst c)) (coord (o_points r) k) /\
       Forall2 is_mean (map (fun f => coords (i_points m) (nth f (i_faces m) [])) (filter (big_face m) (snd c))) (coords (o_points r) ks))) /\
  forall i, (length (i_cells m) <= i)%nat -> nodes_cell r i = Throw OutOfRange.
Proof.
  intros m W. destruct (post_shape m W) as (Bf & Bc & FL & parts & ns & E & F1 & F2 & F3 & F4). exists (post_of m Bf Bc FL parts ns). split; [exact E|]. unfold nodes_cell, vat, post_of. cbn [o_points cell_list].
  assert (V : forall c f, In c (i_cells m) -> In f (snd c) -> face_rec m ((i_points m ++ Bf) ++ Bc) (nth f (i_faces m) []) (nth f FL [])) by (intros c f Ic If; exact (proj1 (valid_tri m Bf FL W F3 Bc c f Ic If))).
  clear -F4 V. revert V. induction F4 as [|c part nl cs parts ns Hc H IH]; intros V.
  - split; [intros [|i] c C; discriminate|]. intros [|i] _; reflexivity.
  - destruct IH as (IH1 & IH2); [intros c' f I; apply V; now right|]. split.
    + intros [|i] c' C; [|exact (IH1 i c' C)]. injection C as <-. exists nl. split; [reflexivity|]. destruct Hc as [(L & _ & ->)|(L & k & K & M & _ & ->)]; (split; [intros L'; first [reflexivity|contradiction]|]); intros L'; [contradiction|].
      exists k, (flat_map (third FL) (snd c)). split; [reflexivity|]. split; [exact M|]. apply third_ok. intros f If. apply (V c f); [now left|exact If].
    + intros [|i] L; [cbn in L; lia|]. apply IH2. cbn in L. lia.
Qed.

Lemma flat_map_ext' {A B} (f g : A -> list B) l : (forall a, In a l -> f a = g a) -> flat_map f l = flat_map g l.
Proof. induction l as [|a l IH]; intros H; [reflexivity|]. cbn [flat_map]. rewrite H by now left. rewrite IH by (intros b I; apply H; now right). reflexivity. Qed.
(** every face has one list of triangles, which fill it when it is a plane convex
    polygon; all the cells that are cut are the cones over the triangles of their faces *)
Theorem C197_conforming : forall m, valid_mesh m -> exists r parts tris, post_mesh3 m = Ok r /\ o_vols r = concat parts /\ length tris = length (i_faces m) /\
  (forall f n, (f < length (i_faces m))%nat -> convex_face n (coords (i_points m) (nth f (i_faces m) [])) -> proper_polygon (coords (i_points m) (nth f (i_faces m) [])) ->
     forall y, in_polygon (coords (i_points m) (nth f (i_faces m) [])) y <-> exists t, In t (nth f tris []) /\ in_numbered_triangle (o_points r) t y) /\
  Forall2 (fun c part => length (fst c) <> 4%nat -> exists k, is_mean (coords (i_points m) (fst c)) (coord (o_points r) k) /\
     Forall2 (fun t v => Permutation v [fst (fst t); snd (fst t); snd t; k]) (flat_map (fun f => nth f tris []) (snd c)) part) (i_cells m) parts.
Proof.
  intros m W. destruct (post_shape m W) as (Bf & Bc & FL & parts & ns & E & F1 & F2 & F3 & F4). exists (post_of m Bf Bc FL parts ns), parts, (map tri_of FL).
  split; [exact E|]. split; [reflexivity|]. split; [rewrite map_length; symmetry; exact (forall2_len _ _ _ F3)|]. unfold post_of. cbn [o_points]. pose proof (forall2_len _ _ _ F3) as LF. split.
  - intros f n Hf C Pr y. destruct W as (W1 & W2 & W3 & W4). destruct (W3 _ (nth_In _ [] Hf)) as (_ & V).
    pose proof (face_rec_mono _ _ Bc _ _ (forall2_nth _ _ _ [] [] f F3 Hf)) as R. rewrite <- app_assoc in R. destruct (tri_cuts m (Bf ++ Bc) _ _ V R) as (l & Cu & D). rewrite app_assoc in D.
    rewrite (nth_indep _ [] (tri_of [])) by (rewrite map_length; lia). rewrite map_nth. rewrite (polygon_kap n _ y C Pr). pose proof (plane_from n _ C Pr) as Pl. split.
    + intros (H1 & H2). destruct (face_fill n _ l y C Pr Pl Cu H1 H2) as (a & b & d & I & H). destruct (forall2_in_r _ _ _ _ D I) as (t & It & Tt). exists t. split; [exact It|]. exact (proj2 (turned_triangle _ t (a, b, d) y Tt) H).
    + intros (t & It & H). destruct (forall2_in _ _ _ _ D It) as ([[a b] d] & I & Tt). apply (turned_triangle _ t (a, b, d) y Tt) in H. exact (face_only n _ l y a b d C Pl Cu I H).
  - apply (cell_iff _ _ _ _ _ _ _ F4). intros c part nl Ic [(L & _)|(L & k & K & M & -> & _)] L'; [contradiction|]. exists k. split; [exact M|].
    rewrite (flat_map_ext' (fun f => nth f (map tri_of FL) []) (T FL)).
    + unfold vols_of. induction (flat_map (T FL) (snd c)) as [|t l IH]; constructor; [apply sord_perm|exact IH].
    + intros f If. destruct W as (_ & _ & _ & W4). destruct (W4 c Ic) as (_ & _ & W5). specialize (W5 f If). unfold T. rewrite (nth_indep _ [] (tri_of [])) by (rewrite map_length; lia). apply map_nth.
Qed.

(** ** a concrete case: a prism and a tetrahedron below it *)
Definition two_cells : mesh3 := mkM3 (prism ++ [fun i => match i with 2%nat => -2 | _ => 0 end]) 7 [[1; 0]; [2; 6]]%nat
  [[0; 1; 2]; [3; 4; 5]; [0; 1; 4; 3]; [2; 1; 4; 5]; [2; 0; 3; 5]; [0; 1; 6]; [1; 2; 6]; [0; 2; 6]]%nat
  [([0; 1; 2; 3; 4; 5], [0; 1; 2; 3; 4]); ([0; 1; 2; 6], [0; 5; 6; 7])]%nat.
Example C196_two_cells : valid_mesh two_cells /\
  (exists c, In c (i_cells two_cells) /\ length (fst c) <> 4%nat /\ strictly_convex (coords (i_points two_cells) (fst c)) (cell_faces two_cells [false; true; true; false; true] c)) /\
  match post_mesh3 two_cells with
  | Ok r => length (o_points r) = 11%nat /\ length (o_vols r) = 15%nat /\ nth 2 (o_vols r) [] = [0; 1; 7; 10]%nat /\ nth 14 (o_vols r) [] = [0; 1; 2; 6]%nat /\
      cell_list r = [[0; 1; 2; 3; 4; 5; 10; 7; 8; 9]; [0; 1; 2; 6]]%nat /\ o_edges r = [[0; 1]; [2; 6]]%nat
  | _ => False
  end.
Proof.
  split; [|split].
  - split; [reflexivity|]. split; [|split].
    + intros e I. cbn in I. repeat (destruct I as [<-|I]; [reflexivity|]). destruct I.
    + intros f I. cbn in I. repeat (destruct I as [<-|I]; [split; [cbn; lia|]; intros i J; cbn in J |- *; lia|]). destruct I.
    + intros c I. cbn in I. destruct I as [<-|[<-|[]]]; (split; [discriminate|]); split; intros i J; cbn in J |- *; lia.
  - exists ([0; 1; 2; 3; 4; 5], [0; 1; 2; 3; 4])%nat. split; [now left|]. split; [discriminate|]. exact (proj1 C192_prism).
  - vm_compute. repeat split.
Qed.

Print Assumptions C196_points.
Print Assumptions C196_cover.
Print Assumptions C197_nodes.
Print Assumptions C197_conforming.
