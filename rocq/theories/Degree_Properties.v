(** C16, C17: polynomial degrees. *)
From Coq Require Import List Arith Bool Lia.
From Verif Require Import Common Mesh_Model Mesh_Spec Mesh_Proofs Elem_Model Elem_Proofs Degree_Model Degree_Spec
  Degree_Proofs Mesh_Properties.
Import ListNotations.

(** C16: default, equal-order and (cell, face) constructors give admissible degrees for all
    arguments; the (cell, face) one keeps the face degree, keeps an admissible cell degree and
    replaces any other by the face degree. *)
Theorem C16_degrees_admissible :
  admissible hdi_default /\ (forall k, admissible (hdi_equal k)) /\
  forall cd fd, admissible (hdi_mixed cd fd) /\ face_deg (hdi_mixed cd fd) = fd /\
    (cell_face_ok cd fd -> cell_deg (hdi_mixed cd fd) = cd) /\
    (~ cell_face_ok cd fd -> cell_deg (hdi_mixed cd fd) = fd).
Proof.
  split; [unfold admissible, cell_face_ok; cbn; lia|]. split; [intros k; unfold admissible, cell_face_ok; cbn; lia|].
  exact hdi_mixed_spec.
Qed.
Print Assumptions C16_degrees_admissible.

(** C16, (cell, face, gradient) constructor: the result is admissible exactly when both
    requirements hold, or both fail. *)
Theorem C16_three_degrees_partial :
  forall cd fd gd, admissible (hdi_mixed_grad cd fd gd) <->
     (cell_face_ok cd fd /\ fd <= gd) \/ (~ cell_face_ok cd fd /\ gd < fd).
Proof. exact hdi_mixed_grad_spec. Qed.
Print Assumptions C16_three_degrees_partial.

(** C16 is false for the three-degree constructor: cell degree 7 with face degree 1 is accepted,
    and so is a gradient degree below the face degree. *)
Theorem C16_three_degrees_refuted :
  ~ admissible (hdi_mixed_grad 7 1 1) /\ ~ admissible (hdi_mixed_grad 2 2 0).
Proof. unfold admissible, cell_face_ok. cbn. lia. Qed.
Print Assumptions C16_three_degrees_refuted.

Example C16_cases : hdi_mixed 3 2 = mkHD 3 2 2 3 /\ hdi_mixed 9 2 = mkHD 2 2 2 3 /\ hdi_mixed_grad 1 2 3 = mkHD 1 2 3 3.
Proof. repeat split. Qed.

(** C17: after any history of setter calls on stored elements (starting from a store built for the
    mesh with initial cell and face data [d1], [d2]), each query returns the last value set for
    that very element, or the initial one. *)
Theorem C17_store_returns_last_set :
  forall (C F : Type) cltb fltb faces_of ceq feq (m : mesh C F) d1 d2 g r ops,
  strict_total_order cltb -> strict_total_order fltb -> wf_mesh cltb fltb faces_of m ->
  Forall (about (m_cells m) (m_faces m)) ops ->
  exists s, deg_run C F cltb fltb m ops
              (mkMD (repeat d1 (length (m_cells m))) (repeat d2 (length (m_faces m))) g r) = Ok s /\
    (forall c, In c (m_cells m) -> get_cell C F cltb m c s = Ok (last_cell ceq c ops d1)) /\
    (forall f, In f (m_faces m) -> get_face C F fltb m f s = Ok (last_face feq f ops d2)) /\
    (forall c i dr dg, stored (m_cells m) i c -> nth_error r i = Some dr -> nth_error g i = Some dg ->
       cell_info C F cltb fltb faces_of m c s =
       Ok (mkCDI (last_cell ceq c ops d1) dr dg (map (fun f => last_face feq f ops d2) (faces_of c)))).
Proof.
  intros C F cltb fltb faces_of ceq feq m d1 d2 g r ops OC OF W A.
  destruct (deg_run_spec cltb fltb faces_of ceq feq OC OF m W ops _ _ _ (holds_make m d1 d2 g r) A)
    as (s & E & G & R & H). cbn in G, R.
  exists s. split; [exact E|]. split; [|split].
  - intros c Hc. exact (get_cell_spec cltb fltb faces_of OC m W s _ _ c H Hc).
  - intros f Hf. exact (get_face_spec cltb fltb faces_of OF m W s _ _ f H Hf).
  - intros c i dr dg Hi Hr Hg. rewrite <- R in Hr. rewrite <- G in Hg.
    exact (cell_info_spec cltb fltb faces_of OC OF m W s _ _ c i dr dg H Hi Hr Hg).
Qed.
Print Assumptions C17_store_returns_last_set.

(** C17: a setter call about an element that is not in the mesh throws. *)
Theorem C17_foreign_element_rejected :
  forall (C F : Type) cltb fltb faces_of (m : mesh C F) s op,
  strict_total_order cltb -> strict_total_order fltb -> wf_mesh cltb fltb faces_of m ->
  ~ about (m_cells m) (m_faces m) op -> deg_step C F cltb fltb m op s = Throw InvalidArgument.
Proof.
  intros C F cltb fltb faces_of m s op OC OF W A. destruct W as [W1 W2 W3 W4 W5].
  destruct op; cbn [about deg_step] in *; unfold set_cell, set_face;
    first [rewrite (lookup_absent cltb OC _ _ W2 A)|rewrite (lookup_absent fltb OF _ _ W1 A)]; reflexivity.
Qed.
Print Assumptions C17_foreign_element_rejected.

(** C17: a freshly built mesh store agrees, cell by cell, with the stand-alone CellDegreeInfo
    constructors called with the same degrees. *)
Theorem C17_constructors_agree :
  forall (C F : Type) cltb fltb faces_of (ceq : forall a b : C, {a = b} + {a <> b})
    (feq : forall a b : F, {a = b} + {a <> b}) (m : mesh C F) c k cd fd gd,
  strict_total_order cltb -> strict_total_order fltb -> wf_mesh cltb fltb faces_of m -> In c (m_cells m) ->
  let nf := (length (faces_of c)) in
  cell_info C F cltb fltb faces_of m c (md_make1 C F m k) = Ok (cdi_make1 nf k) /\
  cell_info C F cltb fltb faces_of m c (md_make2 C F m cd fd) = Ok (cdi_make2 nf cd fd) /\
  cell_info C F cltb fltb faces_of m c (md_make3 C F m cd fd gd) = Ok (cdi_make3 nf cd fd gd).
Proof.
  intros C F cltb fltb faces_of ceq feq m c k cd fd gd OC OF W Hc nf.
  destruct (in_stored _ _ Hc) as [i Hi]. pose proof (stored_lt _ _ _ Hi) as L.
  assert (M : forall (d : degree_info) (l : list F), map (fun _ => d) l = repeat d (length l)).
  { intros d l. induction l as [|x l IH]; cbn; [reflexivity|]. rewrite IH. reflexivity. }
  assert (G : forall d1 d2 d3 d4, cell_info C F cltb fltb faces_of m c
     (mkMD (repeat d1 (length (m_cells m))) (repeat d2 (length (m_faces m))) (repeat d3 (length (m_cells m)))
        (repeat d4 (length (m_cells m)))) = Ok (mkCDI d1 d4 d3 (repeat d2 (length (faces_of c))))).
  { intros d1 d2 d3 d4. rewrite <- (M d2 (faces_of c)).
    refine (cell_info_spec cltb fltb faces_of OC OF m W _ _ _ c i d4 d3 (holds_make m d1 d2 _ _) Hi _ _);
      cbn; apply nth_error_repeat; exact L. }
  repeat split; apply G.
Qed.
Print Assumptions C17_constructors_agree.

Example C17_hypotheses_met :
  let ops := [SetCellDegree [0;1;2] 4; SetFaceUnknowns [1;2] false; SetFaceDegree [1;2] 3; SetCellDegree [0;1;2] 2] in
  wf_mesh lex_ltb lex_ltb tri_faces ex_mesh /\ Forall (about (m_cells ex_mesh) (m_faces ex_mesh)) ops /\
  match deg_run _ _ lex_ltb lex_ltb ex_mesh ops (md_make1 _ _ ex_mesh 1) with
  | Ok s => get_cell _ _ lex_ltb ex_mesh [0;1;2] s = Ok (mkDI true 2) /\
            get_face _ _ lex_ltb ex_mesh [1;2] s = Ok (mkDI false 3) /\
            cell_info _ _ lex_ltb lex_ltb tri_faces ex_mesh [1;2;3] s =
              Ok (mkCDI (mkDI true 1) (mkDI true 2) (mkDI true 1) [mkDI false 3; mkDI true 1; mkDI true 1])
  | _ => False end.
Proof.
  split; [exact ex_wf|]. split; [|vm_compute; repeat split].
  repeat (apply Forall_cons; [cbn; auto 10|]). apply Forall_nil.
Qed.
