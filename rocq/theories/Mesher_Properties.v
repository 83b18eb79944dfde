(** Properties of the structured meshers of the unit square (C07, C08, C09, C88). *)
From Coq Require Import List Arith Bool Sorted Permutation Lia Reals Lra.
From Verif Require Import Common Mesh_Model Mesh_Spec Mesh_Proofs Elem_Model Elem_Spec Elem_Proofs
  Elem_Properties Refine_Proofs Mesher_Model Mesher_Spec Mesher_Proofs Mesher2_Proofs Mesher3_Proofs Mesher4_Proofs.
Import ListNotations.
Local Open Scope nat_scope.

(** The mesh made of the stored cells (surfaces) and faces (edges). *)
Definition surf_mesh (s : store) : mesh (list nat) (list nat) := mkMesh (s_surfs s) (s_edges s) (s_binfo s).

Lemma conf_wf q FL cf n F B C : conf q FL cf n F B C -> (forall c, In c C -> NoDup (cf c)) ->
  wf_mesh lex_ltb lex_ltb cf (mkMesh C F B).
Proof.
  intros K HN. constructor; cbn.
  - apply (cf_Fs _ _ _ _ _ _ _ K).
  - apply (cf_Cs _ _ _ _ _ _ _ K).
  - apply (cf_len _ _ _ _ _ _ _ K).
  - apply (cf_in _ _ _ _ _ _ _ K).
  - exact HN.
Qed.

Lemma conf_lookup q FL cf n F B C : conf q FL cf n F B C ->
  forall c f, In c C -> In f (cf c) -> exists i, lookup _ lex_ltb F f = Ok i /\ stored F i f.
Proof.
  intros K c f Hc Hf. destruct (in_stored F f (cf_in _ _ _ _ _ _ _ K c Hc f Hf)) as [i Hi].
  exists i. split; [apply lookup_stored; [apply lex_ltb_sto|apply (cf_Fs _ _ _ _ _ _ _ K)|exact Hi]|exact Hi].
Qed.

Lemma conf_owners q FL cf n F B C : conf q FL cf n F B C -> owners_match feq cf C F B.
Proof. intros K. split; [apply (cf_len _ _ _ _ _ _ _ K)|apply (cf_own _ _ _ _ _ _ _ K)]. Qed.

(** boundary queries in terms of the stored descriptors *)
Lemma side_queries (s : store) (good : nat -> list nat -> Prop) : sorted_unique lex_ltb (s_edges s) -> length (s_binfo s) = length (s_edges s) ->
  (forall i e d k, nth_error (s_edges s) i = Some e -> nth_error (s_binfo s) i = Some d -> (good k e <-> bd_is_b d = true /\ bd_id d = k)) ->
  forall e, In e (s_edges s) ->
  (forall k, good k e <-> boundary_id_face _ _ lex_ltb (surf_mesh s) e = Ok k) /\
  exists b, is_boundary _ _ lex_ltb (surf_mesh s) e = Ok b /\ (b = true <-> exists k, good k e).
Proof.
  intros HS L HG e He. destruct (in_stored _ _ He) as [i Hi].
  assert (Lt : i < length (s_binfo s)). { rewrite L. apply nth_error_Some. unfold stored in Hi. congruence. }
  destruct (nth_error (s_binfo s) i) as [d|] eqn:Ed; [|apply nth_error_None in Ed; lia].
  unfold boundary_id_face, boundary_id, is_boundary, is_boundary_id, surf_mesh. cbn [m_faces m_binfo].
  rewrite (lookup_stored lex_ltb lex_ltb_sto _ _ _ HS Hi). cbn [bind]. unfold vat. rewrite Ed. cbn [bind].
  split.
  - intros k. rewrite (HG i e d k Hi Ed). destruct (bd_is_b d); split; [intros [_ <-]; reflexivity|intros X; injection X; auto|intros []; discriminate|discriminate].
  - exists (bd_is_b d). split; [reflexivity|]. split.
    + intros Hb. exists (bd_id d). apply (HG i e d _ Hi Ed). auto.
    + intros (k & Hk). apply (HG i e d k Hi Ed) in Hk as [Hb _]. exact Hb.
Qed.

Lemma rsum_const {A} (g : A -> R) v l : (forall c, In c l -> g c = v) -> rsum (map g l) = (INR (length l) * v)%R.
Proof.
  induction l as [|c l IH]; intros Hc; [cbn; ring|]. cbn [map rsum fold_right length]. fold (rsum (map g l)).
  rewrite IH by (intros; apply Hc; right; assumption). rewrite (Hc c (or_introl eq_refl)), S_INR. ring.
Qed.
Lemma INR_pow4 k : INR (4 ^ k) = (4 ^ k)%R.
Proof. rewrite pow_INR. f_equal. cbn. ring. Qed.

Lemma tri_faces_nodup s c : tri_ok s -> In c (s_surfs s) -> NoDup (tri_faces c) /\ length (tri_faces c) = 3.
Proof.
  intros H Hc. destruct (tri_cell s H c Hc) as (x & y & z & Ec & Hxy & Hyz & Hz).
  rewrite (cf_faces _ _ _ _ _ _ _ (to_conf s H) c Hc). subst c. split; [|reflexivity].
  unfold triFL, lab. cbn [map nth]. repeat constructor; cbn; intuition; match goal with X : [_; _] = [_; _] |- _ => injection X; lia end.
Qed.
Lemma quad_faces_nodup s c : cart_ok s -> In c (s_surfs s) -> NoDup (quad_faces c) /\ length (quad_faces c) = 4.
Proof.
  intros H Hc. destruct (co_cell s H c Hc) as (x & y & z & w & -> & Hb). split; [|reflexivity].
  cbn [quad_faces]. repeat constructor; cbn; intuition; match goal with X : [_; _] = [_; _] |- _ => injection X; lia end.
Qed.

(** C07.  After any number of refinements of the triangular mesher: the containers are sorted and
    duplicate free, every face of every triangle is found by lookup at the position where it is stored, each
    edge has one owner if it is boundary and two otherwise, and the numbers of triangles, edges and
    boundary edges are the expected ones. *)
Theorem C07_tri_mesh_conforming : forall n, exists s, tri_mesh n = Ok s /\
  wf_mesh lex_ltb lex_ltb tri_faces (surf_mesh s) /\
  (forall t, In t (s_surfs s) -> exists a b c, t = [a; b; c] /\ a < b /\ b < c /\ c < length (s_points s)) /\
  (forall t e, In t (s_surfs s) -> In e (tri_faces t) -> exists i, lookup _ lex_ltb (s_edges s) e = Ok i /\ stored (s_edges s) i e) /\
  owners_match feq tri_faces (s_surfs s) (s_edges s) (s_binfo s) /\
  length (s_surfs s) = 4 ^ (n + 1) /\
  length (filter bd_is_b (s_binfo s)) = 4 * 2 ^ n /\
  2 * length (s_edges s) = 3 * 4 ^ (n + 1) + 4 * 2 ^ n.
Proof.
  intros n. destruct (tri_mesh_all n) as (s & E & H & G & L & B). exists s. split; [exact E|].
  split; [eapply conf_wf; [apply (to_conf s H)|intros c Hc; apply (tri_faces_nodup s c H Hc)]|].
  split; [intros t Ht; destruct (tri_cell s H t Ht) as (x & y & z & Ec & Hxy & Hyz & Hz); exists x, y, z; rewrite (to_len s H); auto|].
  split; [apply (conf_lookup _ _ _ _ _ _ _ (to_conf s H))|].
  split; [apply (conf_owners _ _ _ _ _ _ _ (to_conf s H))|].
  split; [exact L|]. split; [exact B|].
  rewrite (conf_count _ _ _ _ _ _ _ (to_conf s H)) by (intros c Hc; apply (tri_faces_nodup s c H Hc)). rewrite L, B. reflexivity.
Qed.
Print Assumptions C07_tri_mesh_conforming.

(** C08.  An edge is boundary exactly when it lies on a side of the square, and then boundary_id returns the
    number of the side (0 bottom, 1 right, 2 top, 3 left); the triangles have equal positive areas, which
    sum to 1, and cover the square. *)
Theorem C08_tri_mesh_sides_and_area : forall n, exists s, tri_mesh n = Ok s /\
  (forall e, In e (s_edges s) ->
     (forall k, (forall v, In v e -> on_side k (vertex s v)) <-> boundary_id_face _ _ lex_ltb (surf_mesh s) e = Ok k) /\
     exists b, is_boundary _ _ lex_ltb (surf_mesh s) e = Ok b /\
       (b = true <-> exists k, forall v, In v e -> on_side k (vertex s v))) /\
  (forall t, In t (s_surfs s) -> area_of s t = / 4 ^ (n + 1))%R /\
  rsum (map (area_of s) (s_surfs s)) = 1%R /\
  (forall v, v < length (s_points s) -> in_square (vertex s v)) /\
  (forall p, in_square p -> exists t, In t (s_surfs s) /\ in_hull s t p 2).
Proof.
  intros n. destruct (tri_mesh_all n) as (s & E & H & G & L & B). exists s. split; [exact E|].
  split; [apply (side_queries s (fun k e => forall v, In v e -> on_side k (vertex s v)));
    [apply (cf_Fs _ _ _ _ _ _ _ (to_conf s H))|apply (cf_len _ _ _ _ _ _ _ (to_conf s H))|intros i e d k; apply (tg_side n s G i e d k)]|].
  split; [apply (tg_area n s G)|].
  split; [|split; [intros v Hv; apply (tg_in n s G); rewrite <- (to_len s H); exact Hv|apply (tg_cover n s G)]].
  rewrite (rsum_const _ (/ 4 ^ (n + 1))) by (apply (tg_area n s G)). rewrite L, INR_pow4. apply Rinv_r, pow_nonzero. lra.
Qed.
Print Assumptions C08_tri_mesh_sides_and_area.

(** C09.  The same for the cartesian mesher: the four edges that faces() derives for a quadrangle are
    stored, each quadrangle lists a corner, its two neighbours and the opposite corner of an axis-aligned
    square of side 2^-(n+1), and there are 4^(n+1) of them ([n] refinements of a 2 by 2 grid). *)
Theorem C09_cart_mesh_conforming : forall n, exists s, cart_mesh n = Ok s /\
  wf_mesh lex_ltb lex_ltb quad_faces (surf_mesh s) /\
  (forall t, In t (s_surfs s) -> length t = 4 /\ NoDup t /\ forall v, In v t -> v < length (s_points s)) /\
  (forall t e, In t (s_surfs s) -> In e (quad_faces t) -> exists i, lookup _ lex_ltb (s_edges s) e = Ok i /\ stored (s_edges s) i e) /\
  owners_match feq quad_faces (s_surfs s) (s_edges s) (s_binfo s) /\
  length (s_surfs s) = 4 ^ (n + 1) /\
  length (filter bd_is_b (s_binfo s)) = 8 * 2 ^ n /\
  2 * length (s_edges s) = 4 * 4 ^ (n + 1) + 8 * 2 ^ n.
Proof.
  intros n. destruct (cart_mesh_all n) as (s & E & H & G & L & B). exists s. split; [exact E|].
  split; [eapply conf_wf; [apply (co_conf s H)|intros c Hc; apply (quad_faces_nodup s c H Hc)]|].
  split; [intros t Ht; rewrite (co_len s H); apply (cf_C _ _ _ _ _ _ _ (co_conf s H) t Ht)|].
  split; [apply (conf_lookup _ _ _ _ _ _ _ (co_conf s H))|].
  split; [apply (conf_owners _ _ _ _ _ _ _ (co_conf s H))|].
  split; [exact L|]. split; [exact B|].
  rewrite (conf_count _ _ _ _ _ _ _ (co_conf s H)) by (intros c Hc; apply (quad_faces_nodup s c H Hc)). rewrite L, B. reflexivity.
Qed.
Print Assumptions C09_cart_mesh_conforming.

Theorem C09_cart_mesh_squares : forall n, exists s, cart_mesh n = Ok s /\
  (forall t, In t (s_surfs s) -> is_square_cell s (/ 2 ^ (n + 1))%R t) /\
  (forall e, In e (s_edges s) ->
     (forall k, (forall v, In v e -> on_side k (vertex s v)) <-> boundary_id_face _ _ lex_ltb (surf_mesh s) e = Ok k) /\
     exists b, is_boundary _ _ lex_ltb (surf_mesh s) e = Ok b /\
       (b = true <-> exists k, forall v, In v e -> on_side k (vertex s v))) /\
  rsum (map (quad_area_of s) (s_surfs s)) = 1%R /\
  (forall v, v < length (s_points s) -> in_square (vertex s v)) /\
  (forall p, in_square p -> exists t, In t (s_surfs s) /\ in_hull s t p 2).
Proof.
  intros n. destruct (cart_mesh_all n) as (s & E & H & G & L & B). exists s. split; [exact E|].
  split; [apply (cg_sq n s G)|].
  split; [apply (side_queries s (fun k e => forall v, In v e -> on_side k (vertex s v)));
    [apply (cf_Fs _ _ _ _ _ _ _ (co_conf s H))|apply (cf_len _ _ _ _ _ _ _ (co_conf s H))|intros i e d k; apply (cg_side n s G i e d k)]|].
  split; [|split; [intros v Hv; apply (cg_in n s G); rewrite <- (co_len s H); exact Hv|]].
  - rewrite (rsum_const _ (/ 4 ^ (n + 1))).
    + rewrite L, INR_pow4. apply Rinv_r, pow_nonzero. lra.
    + intros c Hc. destruct (co_cell s H c Hc) as (x & y & z & w & -> & _).
      pose proof (cg_sq n s G _ Hc) as Q. cbn [is_square_cell quad_area_of] in *.
      destruct Q as (i & j & Hij & H1 & H2 & H3 & H4 & _).
      assert (P : (/ 4 ^ (n + 1) = / 2 ^ (n + 1) * / 2 ^ (n + 1))%R).
      { rewrite <- Rinv_mult, <- Rpow_mult_distr. do 2 f_equal; ring. }
      rewrite P, <- H1 at 1. rewrite <- H3, <- Rabs_mult. unfold tri_det.
      destruct Hij as [[-> ->]|[-> ->]].
      * f_equal. rewrite H2, H4. ring.
      * rewrite H2, H4, <- Rabs_Ropp. f_equal. ring.
  - intros p Hp. destruct (cg_cover n s G p Hp) as (x & y & z & w & Hc & Hh). exists [x; y; z; w]. split; [exact Hc|].
    eapply in_cell4_hull; [|exact Hh]. apply (cg_sq n s G _ Hc).
Qed.
Print Assumptions C09_cart_mesh_squares.

(** C88.  The numbering south-west, south-east, north-west, north-east holds on the initial grid ... *)
Theorem C88_initial_numbering_partial : forall s t, cart_mesh 0 = Ok s -> In t (s_surfs s) -> sw_se_nw_ne s t.
Proof.
  intros s t E Ht. injection E as <-. cbn in Ht.
  destruct Ht as [<-|[<-|[<-|[<-|[]]]]]; unfold sw_se_nw_ne, vertex; cbn; repeat split; lra.
Qed.
Print Assumptions C88_initial_numbering_partial.

(** ... but is lost at the first refinement: the children are rotated. *)
Theorem C88_numbering_after_refinement_refuted : exists s t, cart_mesh 1 = Ok s /\ In t (s_surfs s) /\ ~ sw_se_nw_ne s t.
Proof.
  assert (E1 : cart_mesh 1 = Ok (cart_next cart_init)).
  { unfold cart_mesh. cbn [refine_n]. rewrite (cart_refine_eq _ cart_init_ok). reflexivity. }
  exists (cart_next cart_init), [1; 12; 9; 21].
  split; [exact E1|]. split; [cbn; tauto|].
  unfold sw_se_nw_ne, vertex. cbn. intros (U & _). unfold edge_mid, mid2 in U. cbn in U. lra.
Qed.
Print Assumptions C88_numbering_after_refinement_refuted.

(** The statements are about meshes with content: one refinement of each mesher. *)
Example tri_mesh_1 : exists s, tri_mesh 1 = Ok s /\ length (s_points s) = 13 /\ length (s_edges s) = 28 /\ length (s_surfs s) = 16 /\
  nth 0 (s_surfs s) [] = [0; 5; 7].
Proof.
  exists (tri_next tri_init). split; [unfold tri_mesh; cbn [refine_n]; rewrite (tri_refine_eq _ tri_init_ok); reflexivity|].
  cbn. repeat (split; [reflexivity|]). reflexivity.
Qed.
Example cart_mesh_1 : exists s, cart_mesh 1 = Ok s /\ length (s_points s) = 25 /\ length (s_edges s) = 40 /\ length (s_surfs s) = 16 /\
  nth 0 (s_surfs s) [] = [0; 9; 10; 21].
Proof.
  exists (cart_next cart_init). split; [unfold cart_mesh; cbn [refine_n]; rewrite (cart_refine_eq _ cart_init_ok); reflexivity|].
  cbn. repeat (split; [reflexivity|]). reflexivity.
Qed.
