(** Geometry of the tetrahedral mesher. *)
From Coq Require Import List Arith Bool Sorted Permutation Lia Reals Lra.
From Verif Require Import Common Mesh_Model Mesh_Spec Mesh_Proofs Elem_Model Elem_Spec Elem_Proofs
  Elem_Properties Refine_Proofs Mesher_Model Mesher_Spec Mesher_Proofs Mesher2_Proofs Mesher3_Proofs Mesher4_Proofs Mesher5_Proofs.
Import ListNotations.
Local Open Scope R_scope.

Lemma tet_vol_abs a b c d a' b' c' d' : tet_det a b c d = - tet_det a' b' c' d' -> tet_vol a b c d = tet_vol a' b' c' d'.
Proof. intros E. unfold tet_vol. rewrite E, Rabs_Ropp. reflexivity. Qed.

Lemma volume_of_perm s l l' : Permutation l l' -> length l = 4%nat -> volume_of s l = volume_of s l'.
Proof.
  apply (Permutation_ind_transp (fun l l' => length l = 4%nat -> volume_of s l = volume_of s l')).
  - reflexivity.
  - intros x y l1 l2 L. destruct l1 as [|a [|b [|c l1]]]; cbn [app length] in L |- *.
    + destruct l2 as [|u [|v [|]]]; cbn in L; try lia. cbn [volume_of]. apply tet_vol_abs. unfold tet_det. ring.
    + destruct l2 as [|u [|]]; cbn in L; try lia. cbn [volume_of]. apply tet_vol_abs. unfold tet_det. ring.
    + destruct l2 as [|]; cbn in L; try lia. cbn [volume_of]. apply tet_vol_abs. unfold tet_det. ring.
    + rewrite app_length in L. cbn in L. lia.
  - intros l1 l2 l3 P1 E1 P2 E2 L. rewrite E1 by exact L. apply E2. rewrite <- (Permutation_length P1). exact L.
Qed.

Lemma in_hull4 s x y z w p dim : in_hull s [x; y; z; w] p dim <-> exists a b c d, 0 <= a /\ 0 <= b /\ 0 <= c /\ 0 <= d /\ a + b + c + d = 1 /\
  forall i, (i < dim)%nat -> p i = a * vertex s x i + b * vertex s y i + c * vertex s z i + d * vertex s w i.
Proof.
  split.
  - intros (wt & Lw & W0 & W1 & Wp). destruct wt as [|a [|b [|c [|d [|]]]]]; try discriminate. exists a, b, c, d.
    cbn in W1. repeat split; try (apply W0; cbn; tauto); [lra|]. intros i Hi. rewrite (Wp i Hi). cbn. ring.
  - intros (a & b & c & d & Ha & Hb & Hc & Hd & E & Hp). exists [a; b; c; d]. split; [reflexivity|]. split; [|split].
    + intros v [<-|[<-|[<-|[<-|[]]]]]; assumption.
    + cbn. lra.
    + intros i Hi. rewrite (Hp i Hi). cbn. ring.
Qed.

Section TetGeoStep.
  Variable s : store.
  Hypothesis H : tet_ok s.
  Let n := length (s_nodes s).
  Let E := s_edges s.
  Let id := lid n E.
  Let F := s_surfs s.
  Let C := s_vols s.
  Variable ed : list (list nat).
  Let s' := tet_next s ed.

  Lemma qp_old v : (v < n)%nat -> vertex s' (id [v]) = vertex s v.
  Proof. intros Hv. cbn [id lid]. apply (vertex_old s s' (map (edge_mid (s_points s)) E)); [reflexivity|]. rewrite (te_len s H). exact Hv. Qed.
  Lemma qp_mid a b : In [a; b] E -> vertex s' (id [a; b]) = mid2 (vertex s a) (vertex s b).
  Proof.
    intros He. unfold id, lid. rewrite <- edge_mid_vertex. apply (vertex_mid s s' []); auto.
    - rewrite app_nil_r. reflexivity.
    - apply (te_len s H).
  Qed.

  Lemma tet_cell_edges x y z w : In [x; y; z; w] C -> In [x; y] E /\ In [x; z] E /\ In [x; w] E /\ In [y; z] E /\ In [y; w] E /\ In [z; w] E.
  Proof.
    intros Hc. pose proof (te_Ein s H _ [0;1]%nat Hc ltac:(cbn; tauto)). pose proof (te_Ein s H _ [0;2]%nat Hc ltac:(cbn; tauto)).
    pose proof (te_Ein s H _ [0;3]%nat Hc ltac:(cbn; tauto)). pose proof (te_Ein s H _ [1;2]%nat Hc ltac:(cbn; tauto)).
    pose proof (te_Ein s H _ [1;3]%nat Hc ltac:(cbn; tauto)). pose proof (te_Ein s H _ [2;3]%nat Hc ltac:(cbn; tauto)).
    cbn in *. tauto.
  Qed.

  Lemma tet_next_cells c' : In c' (s_vols s') <-> exists c P, In c C /\ In P tetCH /\ c' = child id sord c P.
  Proof.
    cbn [s' tet_next s_vols]. split.
    - intros Hc. apply (Permutation_in _ (std_sort_perm lex_ltb _)) in Hc. unfold children in Hc.
      apply in_flat_map in Hc as (c & Hc & Hk). apply in_map_iff in Hk as (P & <- & HP). exists c, P. auto.
    - intros (c & P & Hc & HP & ->). apply (Permutation_in _ (Permutation_sym (std_sort_perm lex_ltb _))).
      unfold children. apply in_flat_map. exists c. split; [exact Hc|]. apply (in_map (child id sord c)). exact HP.
  Qed.

  Let CP : forall c P, Permutation (gids id c P) (child id sord c P).
  Proof. intros; apply Permutation_sym, std_sort_perm. Qed.

  (** the eight children: volume, inclusion, covering *)
  Lemma tet_child_vol c P : In c C -> In P tetCH -> volume_of s' (child id sord c P) = volume_of s c / 8.
  Proof.
    intros Hc HP. destruct (tet_cell s H c Hc) as (x & y & z & w & -> & Hxy & Hyz & Hzw & Hw). fold n in Hw.
    destruct (tet_cell_edges x y z w Hc) as (E1 & E2 & E3 & E4 & E5 & E6).
    rewrite <- (volume_of_perm s' _ _ (CP _ _)) by (unfold gids; rewrite map_length; cbn in HP; repeat (destruct HP as [<-|HP]; [reflexivity|]); destruct HP).
    assert (G : forall u v, u = v / 8 \/ u = - (v / 8) -> Rabs u / 6 = Rabs v / 6 / 8).
    { intros u v [->| ->]; [|rewrite Rabs_Ropp]; unfold Rdiv; rewrite Rabs_mult, (Rabs_right (/ 8)) by lra; lra. }
    cbn in HP. repeat (destruct HP as [<-|HP]; [unfold gids, lab; cbn [map nth volume_of];
      rewrite ?qp_old by lia; rewrite !qp_mid by assumption; unfold tet_vol; apply G; unfold tet_det, mid2; first [left; field|right; field]|]). destruct HP.
  Qed.

  Ltac use_vertices := rewrite ?qp_old by lia; rewrite ?qp_mid by assumption; unfold mid2.

  Lemma tet_child_sub c P p : In c C -> In P tetCH -> in_hull s' (child id sord c P) p 3 -> in_hull s c p 3.
  Proof.
    intros Hc HP Hh. destruct (tet_cell s H c Hc) as (x & y & z & w & -> & Hxy & Hyz & Hzw & Hw). fold n in Hw.
    destruct (tet_cell_edges x y z w Hc) as (E1 & E2 & E3 & E4 & E5 & E6).
    apply (in_hull_perm _ _ _ _ _ (Permutation_sym (CP _ _))) in Hh.
    cbn in HP. repeat (destruct HP as [<-|HP]; [unfold gids, lab in Hh; cbn [map nth] in Hh; apply in_hull4 in Hh as (a & b & c & d & Ha & Hb & Hcc & Hd & Es & Hi);
      rewrite ?qp_old in Hi by lia; rewrite ?qp_mid in Hi by assumption; unfold mid2 in Hi; apply in_hull4;
      first [ exists (a + b/2 + c/2 + d/2), (b/2), (c/2), (d/2); repeat split; try lra; intros i Hi'; rewrite (Hi i Hi'); field
            | exists (a/2), (a/2 + b + c/2 + d/2), (c/2), (d/2); repeat split; try lra; intros i Hi'; rewrite (Hi i Hi'); field
            | exists (a/2), (b/2), (a/2 + b/2 + c + d/2), (d/2); repeat split; try lra; intros i Hi'; rewrite (Hi i Hi'); field
            | exists (a/2), (b/2), (c/2), (a/2 + b/2 + c/2 + d); repeat split; try lra; intros i Hi'; rewrite (Hi i Hi'); field
            | exists ((a+b+c)/2), ((a+d)/2), (b/2), ((c+d)/2); repeat split; try lra; intros i Hi'; rewrite (Hi i Hi'); field
            | exists ((a+d)/2), ((a+b+c)/2), ((c+d)/2), (b/2); repeat split; try lra; intros i Hi'; rewrite (Hi i Hi'); field
            | exists ((a+b)/2), (c/2), ((a+d)/2), ((b+c+d)/2); repeat split; try lra; intros i Hi'; rewrite (Hi i Hi'); field
            | exists (a/2), ((c+d)/2), ((a+b+d)/2), ((b+c)/2); repeat split; try lra; intros i Hi'; rewrite (Hi i Hi'); field ]|]). destruct HP.
  Qed.

  Lemma tet_child_cover c p : In c C -> in_hull s c p 3 -> exists P, In P tetCH /\ in_hull s' (child id sord c P) p 3.
  Proof.
    intros Hc Hh. destruct (tet_cell s H c Hc) as (x & y & z & w & -> & Hxy & Hyz & Hzw & Hw). fold n in Hw.
    destruct (tet_cell_edges x y z w Hc) as (E1 & E2 & E3 & E4 & E5 & E6).
    apply in_hull4 in Hh as (a & b & c & d & Ha & Hb & Hcc & Hd & Es & Hi).
    assert (Fin : forall P, In P tetCH -> in_hull s' (gids id [x; y; z; w] P) p 3 -> exists P, In P tetCH /\ in_hull s' (child id sord [x; y; z; w] P) p 3).
    { intros P HP Hh. exists P. split; [exact HP|]. eapply in_hull_perm; [apply CP|exact Hh]. }
    assert (Ed : d = 1 - a - b - c) by lra.
    destruct (Rle_dec (1/2) a) as [Ca|Ca]; [|destruct (Rle_dec (1/2) b) as [Cb|Cb]; [|destruct (Rle_dec (1/2) c) as [Cc|Cc]; [|destruct (Rle_dec (1/2) d) as [Cd|Cd]]]].
    - apply (Fin [[0]; [0;1]; [0;2]; [0;3]]%nat); [cbn; tauto|]. unfold gids, lab; cbn [map nth]. apply in_hull4.
      exists (2*a-1), (2*b), (2*c), (2*d). repeat split; try lra. intros i Hi'. rewrite (Hi i Hi'). use_vertices. rewrite Ed. field.
    - apply (Fin [[0;1]; [1]; [1;2]; [1;3]]%nat); [cbn; tauto|]. unfold gids, lab; cbn [map nth]. apply in_hull4.
      exists (2*a), (2*b-1), (2*c), (2*d). repeat split; try lra. intros i Hi'. rewrite (Hi i Hi'). use_vertices. rewrite Ed. field.
    - apply (Fin [[0;2]; [1;2]; [2]; [2;3]]%nat); [cbn; tauto|]. unfold gids, lab; cbn [map nth]. apply in_hull4.
      exists (2*a), (2*b), (2*c-1), (2*d). repeat split; try lra. intros i Hi'. rewrite (Hi i Hi'). use_vertices. rewrite Ed. field.
    - apply (Fin [[0;3]; [1;3]; [2;3]; [3]]%nat); [cbn; tauto|]. unfold gids, lab; cbn [map nth]. apply in_hull4.
      exists (2*a), (2*b), (2*c), (2*d-1). repeat split; try lra. intros i Hi'. rewrite (Hi i Hi'). use_vertices. rewrite Ed. field.
    - destruct (Rle_dec (1/2) (a + b)) as [C1|C1], (Rle_dec (1/2) (a + d)) as [C2|C2].
      + apply (Fin [[0;1]; [0;2]; [0;3]; [1;3]]%nat); [cbn; tauto|]. unfold gids, lab; cbn [map nth]. apply in_hull4.
        exists (2*a+2*b-1), (2*c), (2*a+2*d-1), (1-2*a). repeat split; try lra. intros i Hi'. rewrite (Hi i Hi'). use_vertices. rewrite Ed. field.
      + apply (Fin [[0;1]; [1;3]; [1;2]; [0;2]]%nat); [cbn; tauto|]. unfold gids, lab; cbn [map nth]. apply in_hull4.
        exists (2*a+2*b-1), (2*d), (2*b+2*c-1), (1-2*b). repeat split; try lra. intros i Hi'. rewrite (Hi i Hi'). use_vertices. rewrite Ed. field.
      + apply (Fin [[0;2]; [0;3]; [1;3]; [2;3]]%nat); [cbn; tauto|]. unfold gids, lab; cbn [map nth]. apply in_hull4.
        exists (1-2*d), (2*a+2*d-1), (2*b), (2*c+2*d-1). repeat split; try lra. intros i Hi'. rewrite (Hi i Hi'). use_vertices. rewrite Ed. field.
      + apply (Fin [[0;2]; [2;3]; [1;3]; [1;2]]%nat); [cbn; tauto|]. unfold gids, lab; cbn [map nth]. apply in_hull4.
        exists (2*a), (2*c+2*d-1), (1-2*c), (2*b+2*c-1). repeat split; try lra. intros i Hi'. rewrite (Hi i Hi'). use_vertices. rewrite Ed. field.
  Qed.
End TetGeoStep.

Lemma cube_mid k p q : in_cube p -> in_cube q -> (on_cube_side k (mid2 p q) <-> on_cube_side k p /\ on_cube_side k q).
Proof.
  unfold in_cube, on_cube_side, mid2. intros H1 H2. destruct k as [|[|[|[|[|[|k]]]]]]; [split; [intros; split|intros []]; lra..|]; tauto.
Qed.

Record tet_geo (L : nat) (s : store) : Prop := {
  qg_in : forall v, (v < length (s_nodes s))%nat -> in_cube (vertex s v);
  qg_vol : forall c, In c (s_vols s) -> volume_of s c = / (6 * 8 ^ L);
  qg_side : forall i f d k, nth_error (s_surfs s) i = Some f -> nth_error (s_binfo s) i = Some d ->
     ((forall v, In v f -> on_cube_side k (vertex s v)) <-> (bd_is_b d = true /\ bd_id d = k));
  qg_cover : forall p, in_cube p -> exists c, In c (s_vols s) /\ in_hull s c p 3
}.

Section TetGeoNext.
  Variable s : store.
  Hypothesis H : tet_ok s.
  Let n := length (s_nodes s).
  Let E := s_edges s.
  Let id := lid n E.
  Let F := s_surfs s.
  Let C := s_vols s.
  Variable ed : list (list nat).
  Let s' := tet_next s ed.

  Let qo v : (v < n)%nat -> vertex s' (id [v]) = vertex s v.
  Proof. exact (qp_old s H ed v). Qed.
  Let qm a b : In [a; b] E -> vertex s' (id [a; b]) = mid2 (vertex s a) (vertex s b).
  Proof. exact (qp_mid s H ed a b). Qed.
  Lemma tet_geo_next L : tet_geo L s -> tet_geo (S L) s'.
  Proof.
    intros G. destruct (pattern_check _ _ _ _ _ tet_pattern) as (PO & _ & _).
    (* a labelled point is on a side iff all the vertices of the label are *)
    assert (LS : forall k l, Lab2 n E l -> (on_cube_side k (vertex s' (id l)) <-> forall v, In v l -> on_cube_side k (vertex s v))).
    { intros k l [(v & -> & Hv)|(Hl & a & b & ->)].
      - rewrite (qo v Hv). cbn [In]. split; [intros X u [<-|[]]; exact X|intros X; apply X; auto].
      - destruct (te_edge s H _ Hl) as (a' & b' & Eq & Hab & Hb). injection Eq as <- <-.
        rewrite (qm a b Hl). rewrite cube_mid by (apply (qg_in L s G); lia). cbn [In].
        split; [intros [X Y] u [<-|[<-|[]]]; assumption|intros X; split; apply X; auto]. }
    assert (GS : forall k c LF, (forall loc, In loc LF -> Lab2 n E (lab c loc)) ->
       ((forall v, In v (gk id c LF) -> on_cube_side k (vertex s' v)) <-> forall v, In v (concat (map (lab c) LF)) -> on_cube_side k (vertex s v))).
    { intros k c LF HL. split.
      - intros X v Hv. apply in_concat in Hv as (l & Hl & Hv). apply in_map_iff in Hl as (loc & <- & Hloc).
        apply (proj1 (LS k (lab c loc) (HL loc Hloc))); [|exact Hv]. apply X. unfold gk.
        apply (Permutation_in _ (Permutation_sym (std_sort_perm Nat.ltb _))). unfold gids. apply (in_map (fun loc => id (lab c loc))). exact Hloc.
      - intros X v Hv. unfold gk in Hv. apply (Permutation_in _ (std_sort_perm Nat.ltb _)) in Hv. unfold gids in Hv.
        apply in_map_iff in Hv as (loc & <- & Hloc). apply LS; [apply HL; exact Hloc|]. intros v Hv. apply X. apply in_concat.
        exists (lab c loc). split; [apply in_map; exact Hloc|exact Hv]. }
    constructor.
    - intros v Hv. cbn [s' tet_next s_nodes] in Hv. rewrite app_length, seq_length in Hv. fold n E in Hv.
      destruct (lt_dec v n) as [Lt|Ge].
      + change v with (id [v]). rewrite (qo v Lt). apply (qg_in L s G). exact Lt.
      + destruct (nth_error E (v - n)) as [e|] eqn:Ee; [|apply nth_error_None in Ee; lia].
        assert (He : In e E) by (eapply nth_error_In; eauto). destruct (te_edge s H e He) as (a & b & -> & Hab & Hb).
        replace v with (id [a; b]).
        * rewrite (qm a b He). pose proof (qg_in L s G a ltac:(lia)) as Ia. pose proof (qg_in L s G b ltac:(lia)) as Ib.
          unfold in_cube, mid2 in *. lra.
        * unfold id, lid. rewrite (index_of_eq E (v - n) [a; b]); [lia| |exact Ee]. apply lex_nodup, (te_Es s H).
    - intros c' Hc'. apply tet_next_cells in Hc' as (c & P & Hc & HP & ->). unfold s'. rewrite (tet_child_vol s H ed c P Hc HP).
      rewrite (qg_vol L s G c Hc). cbn [pow]. field. apply pow_nonzero. lra.
    - intros i f d k Hf Hd. destruct (tet_next_face s H ed i f d Hf Hd) as [(e & SP & He & HS & -> & Hb)|(c & I & Hc & HI & -> & ->)].
      + rewrite <- (qg_side L s G (index_of e F) e d k (index_of_nth e F He) Hb).
        destruct (tet_own s H e He) as (c & Hc & Hec). rewrite (cf_faces _ _ _ _ _ _ _ (te_conf s H) c Hc) in Hec.
        apply in_map_iff in Hec as (phi & <- & Hphi).
        fold n E id. etransitivity.
        * unfold s', id, n, E. rewrite (gk_face 4 tetFL tetCH triSUB tetINN PO _ c phi SP Hphi HS). apply GS.
          intros loc Hloc. apply tet_lab; auto. cbn in Hphi, HS.
          destruct Hphi as [<-|[<-|[<-|[<-|[]]]]], HS as [<-|[<-|[<-|[<-|[]]]]]; cbn in Hloc |- *; intuition (subst; tauto).
        * split; intros X v Hv; apply X; cbn in Hphi, HS;
            destruct Hphi as [<-|[<-|[<-|[<-|[]]]]], HS as [<-|[<-|[<-|[<-|[]]]]]; cbn in Hv |- *; tauto.
      + split; [|intros [X _]; discriminate X]. intros Hs. exfalso.
        assert (HL : forall loc, In loc I -> Lab2 n E (lab c loc)).
        { intros loc Hloc. apply tet_lab; auto. cbn in HI.
          repeat (destruct HI as [<-|HI]; [cbn in Hloc |- *; intuition (subst; tauto)|]); destruct HI. }
        pose proof (proj1 (GS k c I HL) Hs) as Hs2.
        destruct (tet_cell s H c Hc) as (x & y & z & w & -> & Hxy & Hyz & Hzw & Hw).
        pose proof (qg_vol L s G _ Hc) as A. cbn [volume_of] in A.
        assert (All : forall v, In v [x; y; z; w] -> on_cube_side k (vertex s v)).
        { intros v Hv. apply Hs2. cbn in HI. repeat (destruct HI as [<-|HI]; [cbn in Hv |- *; tauto|]). destruct HI. }
        assert (Z : tet_det (vertex s x) (vertex s y) (vertex s z) (vertex s w) = 0).
        { pose proof (All x ltac:(cbn; tauto)) as A1. pose proof (All y ltac:(cbn; tauto)) as A2.
          pose proof (All z ltac:(cbn; tauto)) as A3. pose proof (All w ltac:(cbn; tauto)) as A4.
          unfold tet_det, on_cube_side in *.
          destruct k as [|[|[|[|[|[|k]]]]]]; [rewrite A1, A2, A3, A4; ring..|contradiction]. }
        unfold tet_vol in A. rewrite Z, Rabs_R0 in A.
        assert (0 < / (6 * 8 ^ L)) by (apply Rinv_0_lt_compat; apply Rmult_lt_0_compat; [lra|apply pow_lt; lra]). lra.
    - intros p Hp. destruct (qg_cover L s G p Hp) as (c & Hc & Hh).
      destruct (tet_child_cover s H ed c p Hc Hh) as (P & HP & Hh'). eexists. split; [|exact Hh'].
      apply tet_next_cells. eauto.
  Qed.
End TetGeoNext.

(** ** The initial mesh *)
Definition tet_t0 : tstate :=
  let bn := bd_make 0 false in let b i := bd_make i true in
  make_tetra 1 5 6 7 (b 5%nat) bn bn (b 3%nat)
          (make_tetra 1 4 5 7 (b 1%nat) bn bn (b 3%nat)
          (make_tetra 1 2 6 7 (b 5%nat) bn bn (b 4%nat)
          (make_tetra 1 2 3 7 (b 0%nat) bn bn (b 4%nat)
          (make_tetra 0 1 4 7 (b 1%nat) bn (b 2%nat) bn
          (make_tetra 0 1 3 7 (b 0%nat) bn (b 2%nat) bn (mkT [] [] [])))))).
Definition tet_e0 : list (list nat) := Eval vm_compute in match sort_uniq lex_ltb (fun a b => Ok (arr_eqb a b)) (t_edges tet_t0) with Ok l => l | _ => [] end.
Definition tet_f0 : list nes := Eval vm_compute in match sort_uniq nes_ltb nes_eqb (t_surf tet_t0) with Ok l => l | _ => [] end.
Definition tet_v0 : list (list nat) := Eval vm_compute in t_vol tet_t0.
Definition tet_s0 : store :=
  mkS [pt3 0 0 0; pt3 1 0 0; pt3 1 1 0; pt3 0 1 0; pt3 0 0 1; pt3 1 0 1; pt3 1 1 1; pt3 0 1 1]
      [0; 1; 2; 3; 4; 5; 6; 7]%nat tet_e0 (map fst tet_f0) tet_v0 (map snd tet_f0) (length tet_v0).
Lemma tet_init_eq : tet_init = Ok tet_s0.
Proof.
  change tet_init with (bind (sort_uniq nes_ltb nes_eqb (t_surf tet_t0)) (fun ns =>
    bind (sort_uniq lex_ltb (fun a b => Ok (arr_eqb a b)) (t_edges tet_t0)) (fun ed =>
    Ok (mkS [pt3 0 0 0; pt3 1 0 0; pt3 1 1 0; pt3 0 1 0; pt3 0 0 1; pt3 1 0 1; pt3 1 1 1; pt3 0 1 1]
      [0; 1; 2; 3; 4; 5; 6; 7]%nat ed (map fst ns) (t_vol tet_t0) (map snd ns) (length (t_vol tet_t0)))))).
  replace (sort_uniq nes_ltb nes_eqb (t_surf tet_t0)) with (Ok tet_f0) by (vm_compute; reflexivity).
  replace (sort_uniq lex_ltb (fun a b => Ok (arr_eqb a b)) (t_edges tet_t0)) with (Ok tet_e0) by (vm_compute; reflexivity).
  replace (t_vol tet_t0) with tet_v0 by (vm_compute; reflexivity). reflexivity.
Qed.

Lemma tet_s0_ok : tet_ok tet_s0.
Proof.
  constructor; try reflexivity.
  - intros e He. cbn in He. repeat (destruct He as [<-|He]; [eexists _, _; split; [reflexivity|cbn; lia]|]). destruct He.
  - apply chainb_ok; [apply lex_ltb_sto|]. vm_compute. reflexivity.
  - intros c ab Hc Hab.
    assert (T : forallb (fun c => forallb (fun ab => inlb (lab c ab) tet_e0) mkEd) tet_v0 = true) by (vm_compute; reflexivity).
    rewrite forallb_forall in T. specialize (T c Hc). rewrite forallb_forall in T. specialize (T ab Hab). exact (dec_true _ T).
  - intros c Hc. apply chainb_ok; [apply nat_ltb_sto|]. cbn in Hc. repeat (destruct Hc as [<-|Hc]; [reflexivity|]). destruct Hc.
  - apply conf_check. vm_compute. reflexivity.
Qed.

Lemma tet_s0_geo : tet_geo 0 tet_s0.
Proof.
  constructor.
  - intros v Hv. cbn in Hv. unfold vertex, in_cube. cbn [tet_s0 s_points].
    do 8 (destruct v as [|v]; [cbn; lra|]). lia.
  - intros c Hc. cbn in Hc. cbn [pow].
    repeat (destruct Hc as [<-|Hc]; [cbn [volume_of]; unfold tet_vol, vertex; cbn [s_points tet_s0 nth];
      unfold tet_det; cbn [pt3]; unfold Rabs; destruct (Rcase_abs _); lra|]). destruct Hc.
  - intros i f d k Hf Hd.
    assert (V : forall a b c, f = [a; b; c] -> ((forall v, In v f -> on_cube_side k (vertex tet_s0 v)) <->
        on_cube_side k (vertex tet_s0 a) /\ on_cube_side k (vertex tet_s0 b) /\ on_cube_side k (vertex tet_s0 c))).
    { intros a b c ->. cbn [In]. split; [intros U; repeat split; apply U; auto|]. intros (U1 & U2 & U3) v [<-|[<-|[<-|[]]]]; assumption. }
    cbn in Hf, Hd.
    do 18 (destruct i as [|i]; [cbn in Hf, Hd; injection Hf as <-; injection Hd as <-;
      (rewrite (V _ _ _ eq_refl)); unfold on_cube_side, vertex; cbn [s_points tet_s0 nth bd_is_b bd_id];
      (destruct k as [|[|[|[|[|[|k]]]]]]; cbn [pt3]; (split; [intros (U1 & U2 & U3)|intros [U1 U2]]); try discriminate; try lra; try (split; (reflexivity || lra)); try contradiction; try (repeat split; lra))|]).
    destruct i; discriminate Hf.
  - intros p Hp. unfold in_cube in Hp. set (x := p 0%nat) in *. set (y := p 1%nat) in *. set (z := p 2%nat) in *.
    assert (I3 : forall (Q : nat -> Prop), Q 0%nat -> Q 1%nat -> Q 2%nat -> forall i, (i < 3)%nat -> Q i).
    { intros Q Q0 Q1 Q2 [|[|[|i]]] Hi; auto; lia. }
    (* diagonal 1 - 7: from (1,0,0) to (0,1,1) *)
    set (u := 1 - x) in *. assert (Hu : 0 <= u <= 1) by (unfold u; lra).
    destruct (Rle_dec u y) as [C1|C1], (Rle_dec y z) as [C2|C2], (Rle_dec u z) as [C3|C3]; try (exfalso; lra).
    all: try (exists [0;1;3;7]%nat; split; [cbn; tauto|]; apply in_hull4;
         exists (u - y), (1 - u), (y - z), z; repeat split; try lra; apply I3; unfold vertex; cbn; fold x y z; unfold u; lra).
    all: try (exists [0;1;4;7]%nat; split; [cbn; tauto|]; apply in_hull4;
         exists (u - z), (1 - u), (z - y), y; repeat split; try lra; apply I3; unfold vertex; cbn; fold x y z; unfold u; lra).
    all: try (exists [1;2;3;7]%nat; split; [cbn; tauto|]; apply in_hull4;
         exists (1 - y), (y - u), (u - z), z; repeat split; try lra; apply I3; unfold vertex; cbn; fold x y z; unfold u; lra).
    all: try (exists [1;2;6;7]%nat; split; [cbn; tauto|]; apply in_hull4;
         exists (1 - y), (y - z), (z - u), u; repeat split; try lra; apply I3; unfold vertex; cbn; fold x y z; unfold u; lra).
    all: try (exists [1;4;5;7]%nat; split; [cbn; tauto|]; apply in_hull4;
         exists (1 - z), (u - y), (z - u), y; repeat split; try lra; apply I3; unfold vertex; cbn; fold x y z; unfold u; lra).
    all: try (exists [1;5;6;7]%nat; split; [cbn; tauto|]; apply in_hull4;
         exists (1 - z), (z - y), (y - u), u; repeat split; try lra; apply I3; unfold vertex; cbn; fold x y z; unfold u; lra).
Qed.

Lemma tet_next_length s ed : length (s_vols (tet_next s ed)) = (8 * length (s_vols s))%nat.
Proof.
  cbn [tet_next s_vols]. rewrite (Permutation_length (std_sort_perm lex_ltb _)).
  rewrite children_length. cbn [tetCH length]. lia.
Qed.

Lemma tet_next_nbd s ed : tet_ok s -> nbd (s_binfo (tet_next s ed)) = (4 * nbd (s_binfo s))%nat.
Proof.
  intros H. cbn [tet_next s_binfo].
  rewrite (nbd_perm _ (map snd (tet_pairs s))) by (apply Permutation_map, std_sort_perm).
  unfold tet_pairs. rewrite map_app, nbd_app, !map_flat_map.
  pose proof (cf_len _ _ _ _ _ _ _ (te_conf s H)) as L. pose proof (lex_nodup _ (cf_Fs _ _ _ _ _ _ _ (te_conf s H))) as ND.
  pose proof (nbd_inherit (s_surfs s) (s_binfo s) triSUB L ND) as I. cbn [triSUB length] in I. rewrite <- I. clear I.
  match goal with |- (_ + nbd (flat_map _ ?l) = _)%nat =>
    pose proof (nbd_default_flat (fun c => map (gk (lid (length (s_nodes s)) (s_edges s)) c) tetINN) l) as Z end.
  assert (forall a b c : nat, b = 0%nat -> a = c -> (a + b = c)%nat) as T by (intros; lia). apply T; clear T.
  - rewrite <- Z. f_equal.
  - reflexivity.
Qed.

Lemma tet_mesh_all n : exists s, tet_mesh n = Ok s /\ tet_ok s /\ tet_geo n s /\
  length (s_vols s) = (6 * 8 ^ n)%nat /\ nbd (s_binfo s) = (12 * 4 ^ n)%nat.
Proof.
  assert (G : forall k L s, tet_ok s -> tet_geo L s -> exists s', refine_n tet_refine k s = Ok s' /\ tet_ok s' /\ tet_geo (L + k) s' /\
     length (s_vols s') = (8 ^ k * length (s_vols s))%nat /\ nbd (s_binfo s') = (4 ^ k * nbd (s_binfo s))%nat).
  { induction k as [|k IH]; intros L s H1 H2.
    - exists s. rewrite Nat.add_0_r. cbn [refine_n Nat.pow]. split; [reflexivity|]. split; [exact H1|]. split; [exact H2|]. split; ring.
    - cbn [refine_n]. destruct (tet_refine_eq s H1) as (ed & R1 & R2 & R3). rewrite R1. cbn [bind].
      destruct (IH (S L) (tet_next s ed) (tet_next_ok s H1 ed R2 R3) (tet_geo_next s H1 ed L H2)) as (s' & E1 & E2 & E3 & E4 & E5).
      exists s'. split; [exact E1|]. split; [exact E2|]. split; [replace (L + S k)%nat with (S L + k)%nat by lia; exact E3|].
      rewrite E4, E5, tet_next_length, (tet_next_nbd s ed H1). cbn [Nat.pow]. split; ring. }
  destruct (G n 0%nat tet_s0 tet_s0_ok tet_s0_geo) as (s & E1 & E2 & E3 & E4 & E5). exists s.
  split; [unfold tet_mesh; rewrite tet_init_eq; exact E1|]. split; [exact E2|]. split; [exact E3|]. rewrite E4, E5. cbn. lia.
Qed.
