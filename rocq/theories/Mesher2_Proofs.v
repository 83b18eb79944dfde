From Coq Require Import List Arith Bool Sorted Permutation Lia Reals Lra.
From Verif Require Import Common Mesh_Model Mesh_Spec Mesh_Proofs Elem_Model Elem_Spec Elem_Proofs
  Elem_Properties Refine_Proofs Mesher_Model Mesher_Spec Mesher_Proofs.
Import ListNotations.
Local Open Scope nat_scope.

Lemma tri_init_ok : tri_ok tri_init.
Proof.
  constructor; try reflexivity.
  - intros e He. cbn in He. repeat (destruct He as [<-|He]; [eexists _, _; split; [reflexivity|cbn; lia]|]). destruct He.
  - intros c Hc. apply chainb_ok; [apply nat_ltb_sto|]. cbn in Hc. repeat (destruct Hc as [<-|Hc]; [reflexivity|]). destruct Hc.
  - apply conf_check. vm_compute. reflexivity.
Qed.

Lemma tri_mesh_ok n : forall s, tri_ok s -> exists s', refine_n tri_refine n s = Ok s' /\ tri_ok s'.
Proof.
  induction n as [|n IH]; intros s H; [exists s; auto|]. cbn [refine_n]. rewrite (tri_refine_eq s H). cbn [bind].
  apply IH. apply tri_next_ok. exact H.
Qed.

(** ** Points of the refined mesh *)
Lemma vertex_old s s' ex v : s_points s' = s_points s ++ ex -> v < length (s_points s) -> vertex s' v = vertex s v.
Proof. intros E H. unfold vertex. rewrite E. apply app_nth1. exact H. Qed.

Lemma vertex_mid s s' ex e : s_points s' = s_points s ++ map (edge_mid (s_points s)) (s_edges s) ++ ex ->
  In e (s_edges s) -> length (s_points s) = length (s_nodes s) ->
  vertex s' (index_of e (s_edges s) + length (s_nodes s)) = edge_mid (s_points s) e.
Proof.
  intros E He L. unfold vertex. rewrite E. rewrite app_nth2 by lia.
  replace (index_of e (s_edges s) + length (s_nodes s) - length (s_points s)) with (index_of e (s_edges s)) by lia.
  pose proof (index_of_lt _ _ He). rewrite app_nth1 by (rewrite map_length; exact H).
  rewrite (nth_indep _ _ (edge_mid (s_points s) [])) by (rewrite map_length; exact H). rewrite map_nth.
  f_equal. apply nth_error_nth. apply index_of_nth. exact He.
Qed.

Lemma edge_mid_vertex s a b : edge_mid (s_points s) [a; b] = mid2 (vertex s a) (vertex s b).
Proof. reflexivity. Qed.

Local Open Scope R_scope.
Lemma tri_area_swap12 a b c : tri_area a b c = tri_area b a c.
Proof.
  unfold tri_area. replace (tri_det b a c) with (- tri_det a b c) by (unfold tri_det; ring). rewrite Rabs_Ropp. reflexivity.
Qed.
Lemma tri_area_swap23 a b c : tri_area a b c = tri_area a c b.
Proof.
  unfold tri_area. replace (tri_det a c b) with (- tri_det a b c) by (unfold tri_det; ring). rewrite Rabs_Ropp. reflexivity.
Qed.

Lemma perm_3 (P : nat -> nat -> nat -> Prop) x y z l : (P x y z -> P y x z) -> (forall a b c, P a b c -> P b a c) ->
  (forall a b c, P a b c -> P a c b) -> P x y z -> Permutation [x; y; z] l ->
  exists a b c, l = [a; b; c] /\ P a b c.
Proof.
  intros _ S1 S2 H Pm.
  assert (K : exists a b c, l = [a; b; c]).
  { apply Permutation_length in Pm. destruct l as [|a [|b [|c [|]]]]; try discriminate. eauto. }
  destruct K as (a & b & c & ->). exists a, b, c. split; [reflexivity|].
  assert (Ha : In a [x; y; z]) by (apply (Permutation_in _ (Permutation_sym Pm)); left; reflexivity).
  destruct Ha as [<-|[<-|[<-|[]]]].
  - apply Permutation_cons_inv in Pm. destruct (Permutation_length_2_inv Pm) as [E|E]; injection E as -> ->; auto.
  - assert (Pm2 : Permutation [y; x; z] [y; b; c]) by (rewrite <- Pm; apply perm_swap).
    apply Permutation_cons_inv in Pm2. destruct (Permutation_length_2_inv Pm2) as [E|E]; injection E as -> ->; auto.
  - assert (Pm2 : Permutation [z; x; y] [z; b; c]).
    { rewrite <- Pm. apply perm_trans with [x; z; y]; [apply perm_swap|]. apply perm_skip, perm_swap. }
    apply Permutation_cons_inv in Pm2. destruct (Permutation_length_2_inv Pm2) as [E|E]; injection E as -> ->; auto.
Qed.

Lemma area_of_perm s x y z l : Permutation [x; y; z] l -> area_of s l = tri_area (vertex s x) (vertex s y) (vertex s z).
Proof.
  intros Pm.
  destruct (perm_3 (fun a b c => tri_area (vertex s a) (vertex s b) (vertex s c) = tri_area (vertex s x) (vertex s y) (vertex s z)) x y z l)
    as (a & b & c & -> & E).
  - rewrite tri_area_swap12. auto.
  - intros a b c <-. symmetry. apply tri_area_swap12.
  - intros a b c <-. symmetry. apply tri_area_swap23.
  - reflexivity.
  - exact Pm.
  - exact E.
Qed.

Lemma tri_area_quarter a b c :
  tri_area a (mid2 a b) (mid2 a c) = tri_area a b c / 4 /\
  tri_area b (mid2 a b) (mid2 b c) = tri_area a b c / 4 /\
  tri_area c (mid2 a c) (mid2 b c) = tri_area a b c / 4 /\
  tri_area (mid2 a b) (mid2 a c) (mid2 b c) = tri_area a b c / 4.
Proof.
  assert (G : forall x y, x = y / 4 \/ x = - (y / 4) -> Rabs x / 2 = Rabs y / 2 / 4).
  { intros x y [->| ->]; [|rewrite Rabs_Ropp]; unfold Rdiv; rewrite Rabs_mult, (Rabs_right (/ 4)) by lra; lra. }
  unfold tri_area. repeat split; apply G; unfold tri_det, mid2.
  - left. field.
  - right. field.
  - left. field.
  - right. field.
Qed.

(** ** Geometric facts kept by refinement *)
Record tri_geo (L : nat) (s : store) : Prop := {
  tg_in : forall v, (v < length (s_nodes s))%nat -> in_square (vertex s v);
  tg_area : forall c, In c (s_surfs s) -> area_of s c = / 4 ^ (L + 1);
  tg_side : forall i e d k, nth_error (s_edges s) i = Some e -> nth_error (s_binfo s) i = Some d ->
     ((forall v, In v e -> on_side k (vertex s v)) <-> (bd_is_b d = true /\ bd_id d = k));
  tg_cover : forall p, in_square p -> exists c, In c (s_surfs s) /\ in_hull s c p 2
}.

Lemma mid_on_side k p q : in_square p -> in_square q -> (on_side k (mid2 p q) <-> on_side k p /\ on_side k q).
Proof.
  unfold in_square, on_side, mid2. intros H1 H2. destruct k as [|[|[|[|k]]]]; [split; [intros; split|intros []]; lra..|]; tauto.
Qed.

Lemma in_hull_perm s c c' p dim : Permutation c c' -> in_hull s c p dim -> in_hull s c' p dim.
Proof.
  intros Pm (w & Lw & W0 & W1 & Wp).
  assert (exists w', Permutation (combine w c) (combine w' c') /\ length w' = length c').
  { clear W0 W1 Wp. revert w Lw. induction Pm as [|x l l' P IH|x y l|l l' l'' P1 IH1 P2 IH2]; intros w Lw.
    - destruct w; [|discriminate]. exists []. split; [reflexivity|reflexivity].
    - destruct w as [|a w]; [discriminate|]. destruct (IH w) as (w' & H1 & H2); [cbn in Lw; lia|].
      exists (a :: w'). split; [cbn; apply perm_skip; exact H1|cbn; lia].
    - destruct w as [|a [|b w]]; try discriminate. exists (b :: a :: w). split; [cbn; apply perm_swap|cbn in *; lia].
    - destruct (IH1 w Lw) as (w1 & H1 & H2). destruct (IH2 w1 H2) as (w2 & H3 & H4). exists w2. split; [etransitivity; eauto|exact H4]. }
  destruct H as (w' & Pc & Lw'). exists w'. split; [exact Lw'|].
  assert (Fst : forall (a : list R) (b : list nat), length a = length b -> map fst (combine a b) = a).
  { induction a as [|x a IH]; intros [|y b] L; try discriminate; [reflexivity|]. cbn. rewrite IH; [reflexivity|cbn in L; lia]. }
  assert (Pw : Permutation w w').
  { rewrite <- (Fst w c Lw), <- (Fst w' c' Lw'). apply Permutation_map. exact Pc. }
  assert (Rs : forall a b, Permutation a b -> rsum a = rsum b).
  { intros a b Q. induction Q as [|u l l' Q IH|u v l|l l' l'' Q1 IH1 Q2 IH2]; unfold rsum in *; cbn; lra. }
  split; [|split].
  - intros x Hx. apply W0. apply (Permutation_in _ (Permutation_sym Pw)). exact Hx.
  - rewrite <- (Rs _ _ Pw). exact W1.
  - intros i Hi. rewrite (Wp i Hi). apply Rs. apply Permutation_map. exact Pc.
Qed.

Lemma in_hull3 s x y z p : in_hull s [x; y; z] p 2 <-> exists a b c, 0 <= a /\ 0 <= b /\ 0 <= c /\ a + b + c = 1 /\
  forall i, (i < 2)%nat -> p i = a * vertex s x i + b * vertex s y i + c * vertex s z i.
Proof.
  split.
  - intros (w & Lw & W0 & W1 & Wp). destruct w as [|a [|b [|c [|]]]]; try discriminate. exists a, b, c.
    cbn in W1. repeat split; try (apply W0; cbn; tauto); [lra|]. intros i Hi. rewrite (Wp i Hi). cbn. ring.
  - intros (a & b & c & Ha & Hb & Hc & E & Hp). exists [a; b; c]. split; [reflexivity|]. split; [|split].
    + intros v [<-|[<-|[<-|[]]]]; assumption.
    + cbn. lra.
    + intros i Hi. rewrite (Hp i Hi). cbn. ring.
Qed.

Section TriGeoStep.
  Variable s : store.
  Hypothesis H : tri_ok s.
  Let n := length (s_nodes s).
  Let E := s_edges s.
  Let id := lid n E.
  Let s' := tri_next s.

  Lemma tp_old v : (v < n)%nat -> vertex s' (id [v]) = vertex s v.
  Proof. intros Hv. cbn [id lid]. apply (vertex_old s s' (map (edge_mid (s_points s)) E)); [reflexivity|]. rewrite (to_len s H). exact Hv. Qed.
  Lemma tp_mid a b : In [a; b] E -> vertex s' (id [a; b]) = mid2 (vertex s a) (vertex s b).
  Proof.
    intros He. unfold id, lid. rewrite <- edge_mid_vertex. apply (vertex_mid s s' []); auto.
    - rewrite app_nil_r. reflexivity.
    - apply (to_len s H).
  Qed.

  Lemma tri_cell_edges c x y z : In c (s_surfs s) -> c = [x; y; z] -> In [x; y] E /\ In [y; z] E /\ In [x; z] E.
  Proof.
    intros Hc Ec. pose proof (cf_in _ _ _ _ _ _ _ (to_conf s H) c Hc) as Hi.
    rewrite (cf_faces _ _ _ _ _ _ _ (to_conf s H) c Hc) in Hi. subst c.
    repeat split; apply Hi; cbn; tauto.
  Qed.

  (** the children of a triangle and their vertices *)
  Lemma tri_next_cells c' : In c' (s_surfs s') <-> exists c P, In c (s_surfs s) /\ In P triCH /\ c' = child id sord c P.
  Proof.
    cbn [s' tri_next s_surfs]. split.
    - intros Hc. apply (Permutation_in _ (std_sort_perm lex_ltb _)) in Hc. unfold children in Hc.
      apply in_flat_map in Hc as (c & Hc & Hk). apply in_map_iff in Hk as (P & <- & HP). exists c, P. auto.
    - intros (c & P & Hc & HP & ->). apply (Permutation_in _ (Permutation_sym (std_sort_perm lex_ltb _))).
      unfold children. apply in_flat_map. exists c. split; [exact Hc|]. apply (in_map (child id sord c)). exact HP.
  Qed.

  Lemma tri_geo_next L : tri_geo L s -> tri_geo (S L) s'.
  Proof.
    intros G.
    assert (CP : forall c P, Permutation (gids id c P) (child id sord c P)) by (intros; apply Permutation_sym, std_sort_perm).
    constructor.
    - intros v Hv. cbn [s' tri_next s_nodes] in Hv. rewrite app_length, seq_length in Hv. fold n E in Hv.
      destruct (lt_dec v n) as [Lt|Ge].
      + change v with (id [v]). rewrite tp_old by exact Lt. apply (tg_in L s G). exact Lt.
      + destruct (nth_error E (v - n)) as [e|] eqn:Ee; [|apply nth_error_None in Ee; lia].
        assert (He : In e E) by (eapply nth_error_In; eauto). destruct (to_edge s H e He) as (a & b & -> & Hab & Hb).
        replace v with (id [a; b]).
        * rewrite tp_mid by exact He. pose proof (tg_in L s G a ltac:(lia)) as Ia. pose proof (tg_in L s G b ltac:(lia)) as Ib.
          unfold in_square, mid2 in *. lra.
        * unfold id, lid. rewrite (index_of_eq E (v - n) [a; b]); [lia| |exact Ee]. apply lex_nodup, (cf_Fs _ _ _ _ _ _ _ (to_conf s H)).
    - intros c' Hc'. apply tri_next_cells in Hc' as (c & P & Hc & HP & ->).
      destruct (tri_cell s H c Hc) as (x & y & z & Ec & Hxy & Hyz & Hz).
      destruct (tri_cell_edges c x y z Hc Ec) as (E1 & E2 & E3).
      pose proof (tg_area L s G c Hc) as A. subst c. cbn [area_of] in A.
      destruct (tri_area_quarter (vertex s x) (vertex s y) (vertex s z)) as (Q1 & Q2 & Q3 & Q4).
      assert (Pw : / 4 ^ (S L + 1) = / 4 ^ (L + 1) / 4).
      { cbn [plus pow]. field. apply pow_nonzero. lra. }
      rewrite Pw, <- A.
      cbn in HP. destruct HP as [<-|[<-|[<-|[<-|[]]]]];
        match goal with |- area_of s' (child id sord ?c ?P) = _ =>
          let Q := fresh in pose proof (CP c P) as Q; unfold gids, lab in Q; cbn [map nth] in Q; rewrite (area_of_perm s' _ _ _ _ Q) end;
        rewrite ?tp_old by (unfold n; lia); rewrite !tp_mid by assumption; assumption.
    - intros i f d k Hf Hd. destruct (tri_next_edge s H i f d Hf Hd) as [(e & SP & He & HS & -> & Hb)|(c & I & Hc & HI & -> & ->)].
      + rewrite <- (tg_side L s G (index_of e E) e d k (index_of_nth e E He) Hb).
        destruct (to_edge s H e He) as (a & b & -> & Hab & Hb').
        pose proof (tg_in L s G a ltac:(lia)) as Ia. pose proof (tg_in L s G b ltac:(lia)) as Ib.
        pose proof (mid_on_side k _ _ Ia Ib) as M.
        assert (Q : forall v, (v < n)%nat -> (forall u, In u (sord [id [v]; id [a; b]]) -> on_side k (vertex s' u)) <->
           (on_side k (vertex s v) /\ on_side k (mid2 (vertex s a) (vertex s b)))).
        { intros v Hv. rewrite <- (tp_old v Hv), <- (tp_mid a b He). split.
          - intros Hu. split; apply Hu; apply (Permutation_in _ (Permutation_sym (std_sort_perm Nat.ltb _))); cbn; auto.
          - intros [U1 U2] u Hu. apply (Permutation_in _ (std_sort_perm Nat.ltb _)) in Hu.
            destruct Hu as [<-|[<-|[]]]; assumption. }
        cbn in HS. destruct HS as [<-|[<-|[]]]; unfold gk, gids, lab; cbn [map nth].
        * etransitivity; [apply (Q a); unfold n; lia|]. rewrite M. cbn [In].
          split; [intros (U & V & W) v [<-|[<-|[]]]; assumption|intros U; repeat split; apply U; auto].
        * etransitivity; [apply (Q b); unfold n; lia|]. rewrite M. cbn [In].
          split; [intros (U & V & W) v [<-|[<-|[]]]; assumption|intros U; repeat split; apply U; auto].
      + split; [|intros [X _]; discriminate X]. intros Hs. exfalso.
        destruct (tri_cell s H c Hc) as (x & y & z & Ec & Hxy & Hyz & Hz).
        destruct (tri_cell_edges c x y z Hc Ec) as (E1 & E2 & E3).
        pose proof (tg_area L s G c Hc) as A. subst c. cbn [area_of] in A.
        pose proof (tg_in L s G x ltac:(unfold n in *; lia)) as Ix. pose proof (tg_in L s G y ltac:(unfold n in *; lia)) as Iy.
        pose proof (tg_in L s G z ltac:(unfold n in *; lia)) as Iz.
        assert (Q : forall a b a' b', In [a; b] E -> In [a'; b'] E ->
           (forall v, In v (sord [id [a; b]; id [a'; b']]) -> on_side k (vertex s' v)) ->
           on_side k (mid2 (vertex s a) (vertex s b)) /\ on_side k (mid2 (vertex s a') (vertex s b'))).
        { intros a b a' b' H1 H2 Hu. rewrite <- (tp_mid a b H1), <- (tp_mid a' b' H2).
          split; apply Hu; apply (Permutation_in _ (Permutation_sym (std_sort_perm Nat.ltb _))); cbn; auto. }
        assert (All : on_side k (vertex s x) /\ on_side k (vertex s y) /\ on_side k (vertex s z)).
        { cbn in HI. destruct HI as [<-|[<-|[<-|[]]]]; unfold gk, gids, lab in Hs; cbn [map nth] in Hs;
            (apply Q in Hs; [|assumption|assumption]); rewrite !mid_on_side in Hs by assumption; tauto. }
        assert (Z : tri_det (vertex s x) (vertex s y) (vertex s z) = 0).
        { destruct All as (A1 & A2 & A3). unfold tri_det, on_side in *.
          destruct k as [|[|[|[|k]]]]; [rewrite A1, A2, A3; ring..|contradiction]. }
        unfold tri_area in A. rewrite Z, Rabs_R0 in A.
        assert (0 < / 4 ^ (L + 1)) by (apply Rinv_0_lt_compat, pow_lt; lra). lra.
    - intros p Hp. destruct (tg_cover L s G p Hp) as (c & Hc & Hh).
      destruct (tri_cell s H c Hc) as (x & y & z & Ec & Hxy & Hyz & Hz).
      destruct (tri_cell_edges c x y z Hc Ec) as (E1 & E2 & E3). subst c.
      apply in_hull3 in Hh as (a & b & d & Ha & Hb & Hd & Es & Hi).
      assert (Fin : forall P, In P triCH -> in_hull s' (gids id [x; y; z] P) p 2 -> exists c, In c (s_surfs s') /\ in_hull s' c p 2).
      { intros P HP Hh. exists (child id sord [x; y; z] P). split; [apply tri_next_cells; eauto|].
        eapply in_hull_perm; [apply CP|exact Hh]. }
      pose proof (tp_mid x y E1) as M1. pose proof (tp_mid y z E2) as M2. pose proof (tp_mid x z E3) as M3.
      pose proof (tp_old x ltac:(lia)) as O1. pose proof (tp_old y ltac:(lia)) as O2. pose proof (tp_old z ltac:(lia)) as O3.
      destruct (Rle_dec (1/2) a) as [Ca|Ca]; [|destruct (Rle_dec (1/2) b) as [Cb|Cb]; [|destruct (Rle_dec (1/2) d) as [Cd|Cd]]].
      + apply (Fin [[0]; [0;1]; [0;2]]%nat); [cbn; tauto|]. unfold gids, lab; cbn [map nth]. apply in_hull3.
        exists (2 * a - 1), (2 * b), (2 * d). repeat split; try lra. intros i Hi'. rewrite (Hi i Hi'), O1, M1, M3. unfold mid2. nra.
      + apply (Fin [[1]; [0;1]; [1;2]]%nat); [cbn; tauto|]. unfold gids, lab; cbn [map nth]. apply in_hull3.
        exists (2 * b - 1), (2 * a), (2 * d). repeat split; try lra. intros i Hi'. rewrite (Hi i Hi'), O2, M1, M2. unfold mid2. nra.
      + apply (Fin [[2]; [0;2]; [1;2]]%nat); [cbn; tauto|]. unfold gids, lab; cbn [map nth]. apply in_hull3.
        exists (2 * d - 1), (2 * a), (2 * b). repeat split; try lra. intros i Hi'. rewrite (Hi i Hi'), O3, M3, M2. unfold mid2. nra.
      + apply (Fin [[0;1]; [0;2]; [1;2]]%nat); [cbn; tauto|]. unfold gids, lab; cbn [map nth]. apply in_hull3.
        exists (1 - 2 * d), (1 - 2 * b), (1 - 2 * a). repeat split; try lra. intros i Hi'. rewrite (Hi i Hi'), M1, M3, M2. unfold mid2.
        replace d with (1 - a - b) by lra. field.
  Qed.
End TriGeoStep.

Lemma tri_init_geo : tri_geo 0 tri_init.
Proof.
  constructor.
  - intros v Hv. cbn in Hv. unfold vertex, in_square. cbn.
    destruct v as [|[|[|[|[|v]]]]]; cbn; try lra. lia.
  - intros c Hc. cbn in Hc. cbn [plus pow].
    destruct Hc as [<-|[<-|[<-|[<-|[]]]]]; cbn [area_of]; unfold tri_area, vertex; cbn [s_points tri_init nth];
      unfold tri_det; cbn [pt2]; unfold Rabs; destruct (Rcase_abs _); lra.
  - intros i e d k He Hd. cbn in He, Hd.
    assert (T : forall (P : Prop), (forall v, In v e -> on_side k (vertex tri_init v)) <-> P \/ False ->
      (forall v, In v e -> on_side k (vertex tri_init v)) <-> P) by (intros; tauto). clear T.
    assert (V : forall a b, e = [a; b] -> ((forall v, In v e -> on_side k (vertex tri_init v)) <->
        on_side k (vertex tri_init a) /\ on_side k (vertex tri_init b))).
    { intros a b ->. cbn [In]. split; [intros U; split; apply U; auto|]. intros [U1 U2] v [<-|[<-|[]]]; assumption. }
    destruct i as [|[|[|[|[|[|[|[|i]]]]]]]]; cbn in He, Hd; [injection He as <-; injection Hd as <-..|destruct i; discriminate He];
      (rewrite (V _ _ eq_refl)); unfold on_side, vertex; cbn [s_points tri_init nth bd_make bd_is_b bd_id bd_default];
      (destruct k as [|[|[|[|k]]]]; cbn [pt2]; (split; [intros [U1 U2]|intros [U1 U2]]); try discriminate; try lra; try (split; (reflexivity || lra)); try contradiction).
  - intros p Hp. unfold in_square in Hp. set (x := p 0%nat) in *. set (y := p 1%nat) in *.
    assert (I2 : forall (Q : nat -> Prop), Q 0%nat -> Q 1%nat -> forall i, (i < 2)%nat -> Q i).
    { intros Q Q0 Q1 [|[|i]] Hi; auto; lia. }
    destruct (Rle_dec y x) as [C1|C1], (Rle_dec (x + y) 1) as [C2|C2].
    + exists [0;1;4]%nat. split; [cbn; tauto|]. apply in_hull3. exists (1 - x - y), (x - y), (2 * y). repeat split; try lra.
      apply I2; unfold vertex; cbn; fold x y; lra.
    + exists [1;2;4]%nat. split; [cbn; tauto|]. apply in_hull3. exists (x - y), (x + y - 1), (2 * (1 - x)). repeat split; try lra.
      apply I2; unfold vertex; cbn; fold x y; lra.
    + exists [0;3;4]%nat. split; [cbn; tauto|]. apply in_hull3. exists (1 - x - y), (y - x), (2 * x). repeat split; try lra.
      apply I2; unfold vertex; cbn; fold x y; lra.
    + exists [2;3;4]%nat. split; [cbn; tauto|]. apply in_hull3. exists (x + y - 1), (y - x), (2 * (1 - y)). repeat split; try lra.
      apply I2; unfold vertex; cbn; fold x y; lra.
Qed.

Lemma tri_next_length s : length (s_surfs (tri_next s)) = (4 * length (s_surfs s))%nat.
Proof.
  cbn [tri_next s_surfs]. rewrite (Permutation_length (std_sort_perm lex_ltb _)).
  unfold children. induction (s_surfs s) as [|c l IH]; [reflexivity|]. cbn [flat_map]. rewrite app_length, IH. cbn. lia.
Qed.

Lemma tri_next_nbd s : tri_ok s -> nbd (s_binfo (tri_next s)) = (2 * nbd (s_binfo s))%nat.
Proof.
  intros H. cbn [tri_next s_binfo]. unfold nbd.
  assert (PL : forall a b : list bdesc, Permutation a b -> length (filter bd_is_b a) = length (filter bd_is_b b)).
  { intros a b Q. induction Q; cbn; [reflexivity| | |lia].
    - destruct (bd_is_b x); cbn; lia.
    - destruct (bd_is_b x), (bd_is_b y); reflexivity. }
  rewrite (PL _ (map snd (tri_pairs s))) by (apply Permutation_map, std_sort_perm).
  unfold tri_pairs. rewrite map_app, filter_app, app_length, !map_flat_map.
  assert (Z : forall l, length (filter bd_is_b (flat_map (fun x => map snd (map (fun I => (gk (lid (length (s_nodes s)) (s_edges s)) x I, bd_default)) triINN)) l)) = 0%nat).
  { induction l as [|c l IH]; [reflexivity|]. cbn [flat_map]. rewrite filter_app, app_length, IH. reflexivity. }
  rewrite Z, Nat.add_0_r.
  pose proof (cf_len _ _ _ _ _ _ _ (to_conf s H)) as L. pose proof (lex_nodup _ (cf_Fs _ _ _ _ _ _ _ (to_conf s H))) as ND.
  assert (G : forall rest B done Bd, s_edges s = done ++ rest -> s_binfo s = Bd ++ B -> length Bd = length done ->
     length (filter bd_is_b (flat_map (fun x => map snd (map (fun SP => (gk (lid (length (s_nodes s)) (s_edges s)) x SP,
       nth (index_of x (s_edges s)) (s_binfo s) bd_default)) edgSUB)) rest)) = (2 * length (filter bd_is_b B))%nat).
  { induction rest as [|e rest IH]; intros B done Bd He Hb Ld.
    - assert (B = []). { destruct B; [reflexivity|]. rewrite He, Hb, !app_length in L. cbn in L. lia. } subst B. reflexivity.
    - destruct B as [|d B]. { rewrite He, Hb, !app_length in L. cbn in L. lia. }
      cbn [flat_map]. rewrite filter_app, app_length.
      rewrite (IH B (done ++ [e]) (Bd ++ [d])); [|rewrite <- app_assoc; exact He|rewrite <- app_assoc; exact Hb|rewrite !app_length; cbn; lia].
      assert (Ix : index_of e (s_edges s) = length done).
      { apply index_of_eq; [exact ND|]. rewrite He. rewrite nth_error_app2 by lia. rewrite Nat.sub_diag. reflexivity. }
      rewrite Ix, Hb. rewrite app_nth2 by lia. replace (length done - length Bd)%nat with 0%nat by lia.
      cbn. destruct (bd_is_b d); cbn; lia. }
  apply (G (s_edges s) (s_binfo s) [] []); reflexivity.
Qed.

(** all the facts for the mesh after [n] refinements *)
Lemma tri_mesh_all n : exists s, tri_mesh n = Ok s /\ tri_ok s /\ tri_geo n s /\
  length (s_surfs s) = (4 ^ (n + 1))%nat /\ nbd (s_binfo s) = (4 * 2 ^ n)%nat.
Proof.
  assert (G : forall k L s, tri_ok s -> tri_geo L s -> exists s', refine_n tri_refine k s = Ok s' /\ tri_ok s' /\ tri_geo (L + k) s' /\
     length (s_surfs s') = (4 ^ k * length (s_surfs s))%nat /\ nbd (s_binfo s') = (2 ^ k * nbd (s_binfo s))%nat).
  { induction k as [|k IH]; intros L s H1 H2.
    - exists s. rewrite Nat.add_0_r. cbn [refine_n Nat.pow]. split; [reflexivity|]. split; [exact H1|]. split; [exact H2|]. split; ring.
    - cbn [refine_n]. rewrite (tri_refine_eq s H1). cbn [bind].
      destruct (IH (S L) (tri_next s) (tri_next_ok s H1) (tri_geo_next s H1 L H2)) as (s' & E1 & E2 & E3 & E4 & E5).
      exists s'. split; [exact E1|]. split; [exact E2|]. split; [replace (L + S k)%nat with (S L + k)%nat by lia; exact E3|].
      rewrite E4, E5, tri_next_length, (tri_next_nbd s H1). cbn [Nat.pow]. split; ring. }
  destruct (G n 0%nat tri_init tri_init_ok tri_init_geo) as (s & E1 & E2 & E3 & E4 & E5). exists s.
  split; [exact E1|]. split; [exact E2|]. split; [exact E3|]. rewrite E4, E5. cbn [tri_init s_surfs s_binfo length nbd filter].
  rewrite Nat.pow_add_r. cbn. lia.
Qed.
