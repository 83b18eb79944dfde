(** C03-C06 and C50: element lookup, boundary iteration, neighbour connectivity, bounding box,
    internal faces (mesh/mesh.hpp). *)
From Coq Require Import List Arith Bool Sorted QArith Lia.
From Verif Require Import Common Mesh_Model Mesh_Spec Mesh_Proofs Mesh2_Proofs Elem_Model Elem_Proofs.
Import ListNotations.
Local Open Scope nat_scope.

(** ** Concrete mesh used to show that hypotheses are met: two triangles sharing edge {1,2},
    bottom and left edges on the boundary with ids 0 and 3. *)
Definition ex_cells := [[0;1;2]; [1;2;3]].
Definition ex_faces := [[0;1]; [0;2]; [1;2]; [1;3]; [2;3]].
Definition ex_binfo := [bd_make 0 true; bd_make 3 true; bd_default; bd_make 1 true; bd_make 2 true].
Definition ex_mesh : mesh (list nat) (list nat) := mkMesh ex_cells ex_faces ex_binfo.
Lemma ex_wf : wf_mesh lex_ltb lex_ltb tri_faces ex_mesh.
Proof.
  split; cbn.
  - repeat constructor.
  - repeat constructor.
  - reflexivity.
  - intros c [<-|[<-|[]]] f; cbn; tauto.
  - intros c [<-|[<-|[]]]; cbn; repeat constructor; cbn; intuition congruence.
Qed.

(** ** C03 *)

(** lookup returns [i] exactly when the [i]-th stored element is the one asked for, and throws for
    every element that is not stored: it never fails in another way. *)
Theorem C03_lookup_iff_stored :
  forall (E : Type) (ltb : E -> E -> bool) (l : list E) (e : E) (i : nat),
  strict_total_order ltb -> sorted_unique ltb l ->
  (lookup E ltb l e = Ok i <-> stored l i e) /\
  (lookup E ltb l e = Throw InvalidArgument <-> ~ In e l).
Proof.
  intros E ltb l e i HO HS. split; [apply lookup_iff; assumption|]. split; intros H.
  - intros HI. destruct (in_stored _ _ HI) as [j Hj]. rewrite (lookup_stored ltb HO _ _ _ HS Hj) in H. discriminate.
  - apply lookup_absent; assumption.
Qed.
Print Assumptions C03_lookup_iff_stored.

Theorem C03_offset_of_stored :
  forall (E : Type) (ltb : E -> E -> bool) (l : list E) (e : E) (i : nat),
  strict_total_order ltb -> sorted_unique ltb l -> stored l i e -> offset E ltb l e = Ok i.
Proof. intros. apply offset_stored; assumption. Qed.
Print Assumptions C03_offset_of_stored.

(** C52: queries that go through lookup reject a face that is not stored. *)
Theorem C52_lookup_queries_reject_partial :
  forall (C F : Type) cltb fltb faces_of (m : mesh C F) f, strict_total_order fltb ->
  wf_mesh cltb fltb faces_of m -> ~ In f (m_faces m) ->
  is_boundary C F fltb m f = Throw InvalidArgument /\ boundary_id_face C F fltb m f = Throw InvalidArgument.
Proof.
  intros C F cltb fltb faces_of m f HO W Hf. unfold is_boundary, boundary_id_face.
  rewrite (lookup_absent fltb HO _ _ (wf_faces _ _ _ _ W) Hf). split; reflexivity.
Qed.
Print Assumptions C52_lookup_queries_reject_partial.

(** C52: offset() throws exactly when every stored element is smaller than the one asked for;
    otherwise it answers the position of the first element that is not smaller. *)
Theorem C52_offset_answers_partial :
  forall (E : Type) (ltb : E -> E -> bool) (l : list E) (e : E),
  strict_total_order ltb -> sorted_unique ltb l ->
  match offset E ltb l e with
  | Ok i => exists x, stored l i x /\ ltb x e = false /\ forall j y, j < i -> stored l j y -> ltb y e = true
  | Throw x => x = LogicError /\ forall y, In y l -> ltb y e = true
  | UB => False
  end.
Proof.
  intros E ltb l e HO HS. destruct (sorted_partition ltb HO l e HS) as (p & P). unfold offset. rewrite (lower_bound_correct ltb _ _ _ P). cbn [bind].
  destruct P as (P0 & P1 & P2). destruct (Nat.eqb_spec p (length l)) as [->|N].
  - split; [reflexivity|]. intros y Hy. apply In_nth_error in Hy. destruct Hy as [j Hj]. apply (P1 j y); auto. apply nth_error_Some; congruence.
  - destruct (nth_error l p) as [x|] eqn:X; [|apply nth_error_None in X; lia]. exists x. split; [exact X|]. split; [apply (P2 p x); auto|]. intros j y Hj Hy. apply (P1 j y); auto.
Qed.
Print Assumptions C52_offset_answers_partial.

(** C52: offset() of an element that is not stored: it does not throw but returns the position of
    another element (here edge {0,3} is reported at the position of {1,2}). *)
Theorem C52_offset_absent_refuted :
  exists (l : list (list nat)) e i x, sorted_unique lex_ltb l /\ ~ In e l /\
    offset (list nat) lex_ltb l e = Ok i /\ stored l i x /\ x <> e.
Proof.
  exists ex_faces, [0;3], 2, [1;2]. split; [exact (wf_faces _ _ _ _ ex_wf)|].
  split; [cbn; intuition congruence|]. split; [vm_compute; reflexivity|]. split; [reflexivity|congruence].
Qed.
Print Assumptions C52_offset_absent_refuted.

Example C03_hypotheses_met : strict_total_order lex_ltb /\ sorted_unique lex_ltb ex_faces /\
  lookup _ lex_ltb ex_faces [1;3] = Ok 3 /\ lookup _ lex_ltb ex_faces [0;3] = Throw InvalidArgument.
Proof. split; [exact lex_ltb_sto|]. split; [exact (wf_faces _ _ _ _ ex_wf)|]. split; vm_compute; reflexivity. Qed.

(** ** C04 *)

(** The three loops visit, in storage order and once each, exactly the faces whose descriptor
    says boundary / boundary with this id / not boundary. *)
Theorem C04_loops_visit_exactly :
  forall (C F : Type) cltb fltb faces_of (m : mesh C F), strict_total_order fltb ->
  wf_mesh cltb fltb faces_of m ->
  boundary_faces C F fltb m = Ok (select bd_is_b (m_faces m) (m_binfo m)) /\
  internal_faces C F fltb m = Ok (select (fun d => negb (bd_is_b d)) (m_faces m) (m_binfo m)) /\
  forall id, boundary_faces_with_id C F fltb m id =
             Ok (select (fun d => bd_is_b d && (bd_id d =? id)) (m_faces m) (m_binfo m)).
Proof.
  intros C F cltb fltb faces_of m HO W. destruct W as [W1 W2 W3 W4 W5].
  split; [apply boundary_faces_correct; auto|]. split; [apply internal_faces_correct; auto|].
  intros id. apply boundary_faces_with_id_correct; auto.
Qed.
Print Assumptions C04_loops_visit_exactly.

(** The announced sizes are the lengths of these loops and add up to the number of faces. *)
Theorem C04_sizes :
  forall (C F : Type) cltb fltb faces_of (m : mesh C F), strict_total_order fltb ->
  wf_mesh cltb fltb faces_of m ->
  exists b i, boundary_faces C F fltb m = Ok b /\ internal_faces C F fltb m = Ok i /\
    boundary_faces_size C F m = length b /\ internal_faces_size C F m = length i /\
    length b + length i = length (m_faces m) /\
    forall id, exists bi, boundary_faces_with_id C F fltb m id = Ok bi /\
                          boundary_faces_size_id C F m id = length bi.
Proof.
  intros C F cltb fltb faces_of m HO W.
  destruct (C04_loops_visit_exactly C F cltb fltb faces_of m HO W) as (A & B & D).
  pose proof (wf_binfo _ _ _ _ W) as L.
  eexists. eexists. split; [exact A|]. split; [exact B|].
  rewrite !select_length by exact L. split; [reflexivity|]. split; [reflexivity|].
  split; [rewrite filter_split_length; exact L|].
  intros id. eexists. split; [apply D|]. rewrite select_length by exact L. reflexivity.
Qed.
Print Assumptions C04_sizes.

(** A face is visited by the boundary loop iff is_boundary(face); the id loop visits it iff
    moreover boundary_id(face) is that id. *)
Theorem C04_loops_agree_with_queries :
  forall (C F : Type) cltb fltb faces_of (m : mesh C F) b i f id bi, strict_total_order fltb ->
  wf_mesh cltb fltb faces_of m -> In f (m_faces m) ->
  boundary_faces C F fltb m = Ok b -> internal_faces C F fltb m = Ok i ->
  boundary_faces_with_id C F fltb m id = Ok bi ->
  (In f b <-> is_boundary C F fltb m f = Ok true) /\
  (In f i <-> is_boundary C F fltb m f = Ok false) /\
  (In f bi <-> boundary_id_face C F fltb m f = Ok id) /\
  (boundary_id_face C F fltb m f = Throw InvalidArgument <-> In f i).
Proof.
  intros C F cltb fltb faces_of m b i f id bi HO W Hf Eb Ei Ebi.
  destruct (C04_loops_visit_exactly C F cltb fltb faces_of m HO W) as (A & B & D).
  rewrite A in Eb; injection Eb as <-. rewrite B in Ei; injection Ei as <-. rewrite D in Ebi; injection Ebi as <-.
  destruct W as [W1 W2 W3 W4 W5].
  destruct (in_stored _ _ Hf) as [k Hk].
  destruct (binfo_nth m W3 k) as [d Hd]; [eapply stored_lt; eauto|].
  assert (S : forall keep, In f (select keep (m_faces m) (m_binfo m)) <-> keep d = true).
  { intros keep. unfold select. split.
    - intros H. apply in_map_iff in H. destruct H as ([f' d'] & E & H). cbn in E; subst f'.
      apply filter_In in H. destruct H as [H H']. cbn in H'.
      apply In_nth_error in H. destruct H as [j Hj].
      assert (nth_error (m_faces m) j = Some f /\ nth_error (m_binfo m) j = Some d') as [J1 J2].
      { clear - Hj. revert j Hj. generalize (m_binfo m). induction (m_faces m) as [|x l IH]; intros [|y l'] [|j] Hj; cbn in *; try discriminate; auto.
        injection Hj as -> ->. auto. }
      assert (j = k) by (eapply (stored_unique fltb HO); eauto). subst j. congruence.
    - intros H. apply in_map_iff. exists (f, d). split; [reflexivity|]. apply filter_In. split; [|exact H].
      apply nth_error_In with k. clear - Hk Hd. unfold stored in Hk. revert k Hk Hd. generalize (m_binfo m).
      induction (m_faces m) as [|x l IH]; intros [|y l'] [|k] Hk Hd; cbn in *; try discriminate; auto. congruence. }
  rewrite !S. rewrite (is_boundary_stored fltb HO m W1 k f d Hk Hd), (boundary_id_stored fltb HO m W1 k f d Hk Hd).
  destruct (bd_is_b d); cbn [negb andb].
  - rewrite Nat.eqb_eq. repeat split; try congruence; try discriminate.
  - repeat split; try congruence; try discriminate; auto.
Qed.
Print Assumptions C04_loops_agree_with_queries.

(** boundary_id_list: the strictly increasing list of the ids of the boundary faces. *)
Theorem C04_boundary_id_list :
  forall (C F : Type) (m : mesh C F),
  StronglySorted lt (boundary_id_list C F m) /\
  forall id, In id (boundary_id_list C F m) <-> exists d, In d (m_binfo m) /\ bd_is_b d = true /\ bd_id d = id.
Proof. intros. apply boundary_id_list_correct. Qed.
Print Assumptions C04_boundary_id_list.

Example C04_hypotheses_met : strict_total_order lex_ltb /\ wf_mesh lex_ltb lex_ltb tri_faces ex_mesh /\
  boundary_faces _ _ lex_ltb ex_mesh = Ok [[0;1]; [0;2]; [1;3]; [2;3]] /\
  internal_faces _ _ lex_ltb ex_mesh = Ok [[1;2]] /\ boundary_id_list _ _ ex_mesh = [0;1;2;3].
Proof. split; [exact lex_ltb_sto|]. split; [exact ex_wf|]. repeat split; vm_compute; reflexivity. Qed.

(** ** C05 *)

(** The connectivity table is built when no face has more than two incidences, and only then:
    otherwise the constructor throws. *)
Theorem C05_connectivity_built_iff :
  forall (C F : Type) cltb fltb faces_of feq (m : mesh C F), strict_total_order fltb ->
  wf_mesh cltb fltb faces_of m ->
  ((exists tbl, connectivity C F fltb faces_of m = Ok tbl) <->
     forall f, In f (m_faces m) -> incidences feq faces_of (m_cells m) f <= 2) /\
  (connectivity C F fltb faces_of m = Throw LogicError <->
     exists f, In f (m_faces m) /\ 2 < incidences feq faces_of (m_cells m) f).
Proof.
  intros C F cltb fltb faces_of feq m HO W. destruct W as [W1 W2 W3 W4 W5].
  assert (DEC : (forall f, In f (m_faces m) -> incidences feq faces_of (m_cells m) f <= 2) \/
                exists f, In f (m_faces m) /\ 2 < incidences feq faces_of (m_cells m) f).
  { generalize (m_faces m). induction l as [|g l [IH|(f & H & H')]].
    - left. intros f [].
    - destruct (le_lt_dec (incidences feq faces_of (m_cells m) g) 2) as [H|H].
      + left. intros f [<-|Hf]; auto.
      + right. exists g. cbn; auto.
    - right. exists f. cbn; auto. }
  split; split.
  - intros [tbl Ht]. destruct DEC as [D|(f & Hf & H)]; [exact D|].
    rewrite (connectivity_throws fltb faces_of feq HO m W1 W4 f Hf H) in Ht. discriminate.
  - intros D. destruct (connectivity_ok fltb faces_of feq HO m W1 W4 D) as (t & E & _). eauto.
  - intros E. destruct DEC as [D|D]; [|exact D].
    destruct (connectivity_ok fltb faces_of feq HO m W1 W4 D) as (t & E' & _). congruence.
  - intros (f & Hf & H). eapply connectivity_throws; eauto.
Qed.
Print Assumptions C05_connectivity_built_iff.

(** For a cell [c] and one of its faces: the answer is the other cell owning the face if there is
    one, and "none" exactly when [c] is the only owner. *)
Theorem C05_neighbour_is_other_owner :
  forall (C F : Type) cltb fltb faces_of (feq : forall a b : F, {a = b} + {a <> b}) (m : mesh C F) tbl c cl f,
  strict_total_order fltb -> strict_total_order cltb -> wf_mesh cltb fltb faces_of m ->
  connectivity C F fltb faces_of m = Ok tbl ->
  nth_error (m_cells m) c = Some cl -> In f (faces_of cl) ->
  (exists d dl, d <> c /\ owns faces_of (m_cells m) d f /\ nth_error (m_cells m) d = Some dl /\
      (forall e, owns faces_of (m_cells m) e f -> e = c \/ e = d) /\
      neighbour_via C F cltb fltb m tbl cl f = Ok (Some dl)) \/
  ((forall d, owns faces_of (m_cells m) d f -> d = c) /\
      neighbour_via C F cltb fltb m tbl cl f = Ok None).
Proof.
  intros C F cltb fltb faces_of feq m tbl c cl f HO HC W Ht Hc Hf.
  pose proof (proj1 (proj1 (C05_connectivity_built_iff C F cltb fltb faces_of feq m HO W)) (ex_intro _ tbl Ht)) as Hinc.
  destruct W as [W1 W2 W3 W4 W5].
  destruct (neighbour_via_spec cltb fltb faces_of feq HO HC m W1 W4 W5 W2 tbl c cl f Hinc Ht Hc Hf)
    as [(d & dl & N & Od & Hd & E)|H]; [left|right; exact H].
  exists d, dl. split; [exact N|]. split; [exact Od|]. split; [exact Hd|]. split; [|exact E].
  intros e He. eapply (owner_at_most_two faces_of feq m W5); eauto.
  - apply (W4 cl); [eapply nth_error_In; eauto|exact Hf].
  - exists cl. auto.
Qed.
Print Assumptions C05_neighbour_is_other_owner.

Theorem C05_neighbour_symmetric :
  forall (C F : Type) cltb fltb faces_of (feq : forall a b : F, {a = b} + {a <> b}) (m : mesh C F) tbl cl f dl,
  strict_total_order fltb -> strict_total_order cltb -> wf_mesh cltb fltb faces_of m ->
  connectivity C F fltb faces_of m = Ok tbl ->
  In cl (m_cells m) -> In f (faces_of cl) ->
  neighbour_via C F cltb fltb m tbl cl f = Ok (Some dl) ->
  In f (faces_of dl) /\ dl <> cl /\ neighbour_via C F cltb fltb m tbl dl f = Ok (Some cl).
Proof.
  intros C F cltb fltb faces_of feq m tbl cl f dl HO HC W Ht Hc Hf E.
  pose proof (proj1 (proj1 (C05_connectivity_built_iff C F cltb fltb faces_of feq m HO W)) (ex_intro _ tbl Ht)) as Hinc.
  destruct W as [W1 W2 W3 W4 W5]. destruct (in_stored _ _ Hc) as [c Hc'].
  eapply (neighbour_symmetric cltb fltb faces_of feq HO HC m W1 W4 W5 W2); eauto.
Qed.
Print Assumptions C05_neighbour_symmetric.

(** C52: asked about a face that does not belong to the cell, a release build (the [assert] at
    mesh.hpp:757 is compiled out) does not fail: it returns an owner of the face as "neighbour". *)
Theorem C52_foreign_face_refuted :
  exists (m : mesh (list nat) (list nat)) tbl cl f dl,
    wf_mesh lex_ltb lex_ltb tri_faces m /\ connectivity _ _ lex_ltb tri_faces m = Ok tbl /\
    In cl (m_cells m) /\ In f (m_faces m) /\ ~ In f (tri_faces cl) /\
    neighbour_via _ _ lex_ltb lex_ltb m tbl cl f = Ok (Some dl).
Proof.
  exists ex_mesh, [(Some 0, None); (Some 0, None); (Some 0, Some 1); (Some 1, None); (Some 1, None)],
    [0;1;2], [1;3], [1;2;3].
  split; [exact ex_wf|]. split; [vm_compute; reflexivity|]. split; [cbn; auto|]. split; [cbn; auto|].
  split; [cbn; intuition congruence|]. vm_compute; reflexivity.
Qed.
Print Assumptions C52_foreign_face_refuted.

Example C05_hypotheses_met :
  wf_mesh lex_ltb lex_ltb tri_faces ex_mesh /\
  (exists tbl, connectivity _ _ lex_ltb tri_faces ex_mesh = Ok tbl /\
     neighbour_via _ _ lex_ltb lex_ltb ex_mesh tbl [0;1;2] [1;2] = Ok (Some [1;2;3]) /\
     neighbour_via _ _ lex_ltb lex_ltb ex_mesh tbl [1;2;3] [1;3] = Ok None).
Proof.
  split; [exact ex_wf|].
  exists [(Some 0, None); (Some 0, None); (Some 0, Some 1); (Some 1, None); (Some 1, None)].
  repeat split; vm_compute; reflexivity.
Qed.

(** ** C50: mark_internal_faces *)

(** Ids, tags and boundary flags are untouched; the internal flag is raised exactly on boundary
    faces with two incidences. *)
Theorem C50_mark_internal_faces :
  forall (C F : Type) cltb fltb faces_of (feq : forall a b : F, {a = b} + {a <> b}) (m : mesh C F),
  strict_total_order fltb -> wf_mesh cltb fltb faces_of m ->
  exists m', mark_internal_faces C F fltb faces_of m = Ok m' /\
    m_cells m' = m_cells m /\ m_faces m' = m_faces m /\ length (m_binfo m') = length (m_binfo m) /\
    forall i f d, stored (m_faces m) i f -> nth_error (m_binfo m) i = Some d ->
      exists d', nth_error (m_binfo m') i = Some d' /\
        bd_id d' = bd_id d /\ bd_tag d' = bd_tag d /\ bd_is_b d' = bd_is_b d /\
        (bd_is_int d' = true <->
          bd_is_int d = true \/ (bd_is_b d = true /\ incidences feq faces_of (m_cells m) f = 2)).
Proof.
  intros C F cltb fltb faces_of feq m HO [W1 W2 W3 W4 W5].
  destruct (mark_internal_spec fltb faces_of feq HO m W1 W4 W3) as (m' & E & E1 & E2 & E3 & H).
  exists m'. repeat (split; [assumption|]). intros i f d Hf Hd. rewrite (H i f d Hf Hd).
  eexists. split; [reflexivity|]. cbn. repeat (split; [reflexivity|]).
  rewrite orb_true_iff, andb_true_iff, Nat.eqb_eq. reflexivity.
Qed.
Print Assumptions C50_mark_internal_faces.

Definition ex_mesh_int : mesh (list nat) (list nat) :=
  mkMesh ex_cells ex_faces [bd_make 0 true; bd_make 3 true; bd_make 7 true; bd_make 1 true; bd_make 2 true].
Example C50_hypotheses_met :
  wf_mesh lex_ltb lex_ltb tri_faces ex_mesh_int /\
  match mark_internal_faces _ _ lex_ltb tri_faces ex_mesh_int with
  | Ok m' => map bd_is_int (m_binfo m') = [false; false; true; false; false]
  | _ => False end.
Proof. split; [destruct ex_wf; split; auto|]. vm_compute; reflexivity. Qed.

(** ** C06 *)
Local Open Scope Q_scope.

(** Both corners returned are points of the mesh, whatever the points. *)
Theorem C06_corners_are_points_partial :
  forall pts mn mx, bounding_box pts = Ok (mn, mx) -> In mn pts /\ In mx pts.
Proof.
  intros [|p r] mn mx E; [discriminate|]. cbn [bounding_box] in E. injection E as E.
  destruct (bb_in r p p mn mx E) as [[->|A] [->|B]]; cbn; auto.
Qed.
Print Assumptions C06_corners_are_points_partial.

(** The box is right when the points are pairwise comparable componentwise; this is every set of
    points on a line.  (Missing: general point sets in 2D and 3D, for which the claim is false.) *)
Theorem C06_comparable_points_partial :
  forall pts mn mx d, bounding_box pts = Ok (mn, mx) ->
  (forall p, In p pts -> length p = d) ->
  (forall p q, In p pts -> In q pts -> ple p q \/ ple q p) ->
  forall p, In p pts -> ple mn p /\ ple p mx.
Proof.
  intros [|p0 r] mn mx d E HD HC p Hp; [discriminate|]. cbn [bounding_box] in E. injection E as E.
  destruct (bb_chain d r p0 p0 mn mx) as (A & B & D); auto.
  - intros q [<-|[<-|Hq]]; apply HD; cbn; auto.
  - intros x y Hx Hy. apply HC; [destruct Hx as [<-|[<-|Hx]]|destruct Hy as [<-|[<-|Hy]]]; cbn; auto.
  - destruct Hp as [<-|Hp]; [auto|apply D; exact Hp].
Qed.
Print Assumptions C06_comparable_points_partial.

Theorem C06_one_dimensional :
  forall pts mn mx, bounding_box pts = Ok (mn, mx) -> (forall p, In p pts -> length p = 1%nat) ->
  forall p, In p pts -> ple mn p /\ ple p mx.
Proof.
  intros pts mn mx E HD. apply (C06_comparable_points_partial pts mn mx 1 E HD).
  intros p q Hp Hq. apply HD in Hp, Hq.
  destruct p as [|x [|]], q as [|y [|]]; try discriminate. unfold ple.
  destruct (Qlt_le_dec x y); [left|right]; repeat constructor; auto. apply Qlt_le_weak; assumption.
Qed.
Print Assumptions C06_one_dimensional.

(** In 2D the claim is false: for the points (0,1) and (1,0) the "minimum" is (1,0). *)
Theorem C06_bounding_box_refuted :
  exists pts mn mx p, bounding_box pts = Ok (mn, mx) /\ (forall p, In p pts -> length p = 2%nat) /\
    In p pts /\ ~ ple mn p.
Proof.
  exists [[0;1]; [1;0]], [1;0], [1;0], [0;1].
  split; [vm_compute; reflexivity|]. split; [intros p [<-|[<-|[]]]; reflexivity|]. split; [cbn; auto|].
  intros H. inversion H as [|? ? ? ? H1 H2]; subst. apply H1. reflexivity.
Qed.
Print Assumptions C06_bounding_box_refuted.

Example C06_hypotheses_met :
  bounding_box [[1;1]; [0;0]; [2;3]] = Ok ([0;0], [2;3]) /\ bounding_box [[2]; [-1]; [5]; [3]] = Ok ([-1], [5]).
Proof. split; vm_compute; reflexivity. Qed.
