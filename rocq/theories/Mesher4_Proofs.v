(** Geometry of the cartesian mesher. *)
From Coq Require Import List Arith Bool Sorted Permutation Lia Reals Lra.
From Verif Require Import Common Mesh_Model Mesh_Spec Mesh_Proofs Elem_Model Elem_Spec Elem_Proofs
  Elem_Properties Refine_Proofs Mesher_Model Mesher_Spec Mesher_Proofs Mesher2_Proofs Mesher3_Proofs.
Import ListNotations.
Local Open Scope R_scope.

Lemma square_flat h a b c d : square_cell h a b c d -> forall i, (i < 2)%nat -> d i = b i + c i - a i.
Proof.
  intros (i & j & Hij & H1 & H2 & H3 & H4 & H5 & H6) k Hk.
  destruct Hij as [[-> ->]|[-> ->]]; (destruct k as [|[|k]]; [| |lia]); lra.
Qed.

Lemma Rabs_half x y h : Rabs y = h -> x = y / 2 \/ x = - (y / 2) -> Rabs x = h / 2.
Proof. intros <- [->| ->]; [|rewrite Rabs_Ropp]; unfold Rdiv; rewrite Rabs_mult, (Rabs_right (/ 2)) by lra; reflexivity. Qed.

Lemma square_children h a b c d : square_cell h a b c d ->
  square_cell (h / 2) a (mid2 a b) (mid2 a c) (mid4 a b c d) /\
  square_cell (h / 2) b (mid2 b d) (mid2 a b) (mid4 a b c d) /\
  square_cell (h / 2) c (mid2 a c) (mid2 c d) (mid4 a b c d) /\
  square_cell (h / 2) d (mid2 c d) (mid2 b d) (mid4 a b c d).
Proof.
  intros (i & j & Hij & H1 & H2 & H3 & H4 & H5 & H6). unfold mid2, mid4. repeat split.
  - exists i, j. split; [exact Hij|]. split; [apply (Rabs_half _ _ _ H1); left; lra|]. split; [lra|].
    split; [apply (Rabs_half _ _ _ H3); left; lra|]. repeat split; lra.
  - exists j, i. split; [tauto|]. split; [apply (Rabs_half _ _ _ H3); left; lra|]. split; [lra|].
    split; [apply (Rabs_half _ _ _ H1); right; lra|]. repeat split; lra.
  - exists j, i. split; [tauto|]. split; [apply (Rabs_half _ _ _ H3); right; lra|]. split; [lra|].
    split; [apply (Rabs_half _ _ _ H1); left; lra|]. repeat split; lra.
  - exists i, j. split; [exact Hij|]. split; [apply (Rabs_half _ _ _ H1); right; lra|]. split; [lra|].
    split; [apply (Rabs_half _ _ _ H3); right; lra|]. repeat split; lra.
Qed.

(** a square cell does not have its four corners on one side *)
Lemma square_not_flat h a b c d k : 0 < h -> square_cell h a b c d ->
  on_side k a -> on_side k b -> on_side k c -> False.
Proof.
  intros Hh (i & j & Hij & H1 & H2 & H3 & H4 & H5 & H6) A B C.
  assert (b i <> a i) by (intros E; rewrite E, Rminus_diag_eq, Rabs_R0 in H1 by reflexivity; lra).
  assert (c j <> a j) by (intros E; rewrite E, Rminus_diag_eq, Rabs_R0 in H3 by reflexivity; lra).
  unfold on_side in *. destruct Hij as [[-> ->]|[-> ->]]; destruct k as [|[|[|[|k]]]]; try contradiction; lra.
Qed.

Definition in_cell4 (a b c p : pt) : Prop :=
  exists u v, 0 <= u <= 1 /\ 0 <= v <= 1 /\ forall i, (i < 2)%nat -> p i = a i + u * (b i - a i) + v * (c i - a i).

Record cart_geo (L : nat) (s : store) : Prop := {
  cg_in : forall v, (v < length (s_nodes s))%nat -> in_square (vertex s v);
  cg_sq : forall c, In c (s_surfs s) -> is_square_cell s (/ 2 ^ (L + 1)) c;
  cg_side : forall i e d k, nth_error (s_edges s) i = Some e -> nth_error (s_binfo s) i = Some d ->
     ((forall v, In v e -> on_side k (vertex s v)) <-> (bd_is_b d = true /\ bd_id d = k));
  cg_cover : forall p, in_square p -> exists x y z w, In [x; y; z; w] (s_surfs s) /\ in_cell4 (vertex s x) (vertex s y) (vertex s z) p
}.

Lemma in_cell4_hull s h x y z w p : square_cell h (vertex s x) (vertex s y) (vertex s z) (vertex s w) ->
  in_cell4 (vertex s x) (vertex s y) (vertex s z) p -> in_hull s [x; y; z; w] p 2.
Proof.
  intros Q (u & v & Hu & Hv & Hp). exists [(1 - u) * (1 - v); u * (1 - v); (1 - u) * v; u * v].
  split; [reflexivity|]. split; [|split].
  - intros t [<-|[<-|[<-|[<-|[]]]]]; nra.
  - cbn. ring.
  - intros i Hi. rewrite (Hp i Hi). cbn. rewrite (square_flat _ _ _ _ _ Q i Hi). ring.
Qed.

Section CartGeoStep.
  Variable s : store.
  Hypothesis H : cart_ok s.
  Let n := length (s_nodes s).
  Let E := s_edges s.
  Let C := s_surfs s.
  Let id := cid n E C.
  Let mk := fun l : list nat => l.
  Let s' := cart_next s.

  Lemma cp_old v : (v < n)%nat -> vertex s' (id [v]) = vertex s v.
  Proof.
    intros Hv. cbn [id cid]. apply (vertex_old s s' (map (edge_mid (s_points s)) E ++ map (quad_mid (s_points s)) C)); [reflexivity|].
    rewrite (co_len s H). exact Hv.
  Qed.
  Lemma cp_mid a b : In [a; b] E -> vertex s' (id [a; b]) = mid2 (vertex s a) (vertex s b).
  Proof.
    intros He. unfold id, cid. rewrite <- edge_mid_vertex. apply (vertex_mid s s' (map (quad_mid (s_points s)) C)); auto.
    apply (co_len s H).
  Qed.
  Lemma cp_ctr x y z w : In [x; y; z; w] C -> vertex s' (id [x; y; z; w]) = mid4 (vertex s x) (vertex s y) (vertex s z) (vertex s w).
  Proof.
    intros Hc. unfold id, cid, vertex, s'. cbn [cart_next s_points]. fold E C.
    pose proof (index_of_lt _ _ Hc) as Lt. rewrite app_assoc. rewrite app_nth2; rewrite app_length, map_length, (co_len s H); fold n; [|lia].
    replace (index_of [x; y; z; w] C + (n + length E) - (n + length E))%nat with (index_of [x; y; z; w] C) by lia.
    rewrite (nth_indep _ _ (quad_mid (s_points s) [])) by (rewrite map_length; exact Lt). rewrite map_nth.
    rewrite (nth_error_nth _ _ _ (index_of_nth _ _ Hc)). reflexivity.
  Qed.

  Lemma cart_cell_edges x y z w : In [x; y; z; w] C -> In [x; y] E /\ In [x; z] E /\ In [y; w] E /\ In [z; w] E.
  Proof.
    intros Hc. pose proof (cf_in _ _ _ _ _ _ _ (co_conf s H) _ Hc) as Hi.
    rewrite (cf_faces _ _ _ _ _ _ _ (co_conf s H) _ Hc) in Hi.
    repeat split; apply Hi; cbn; tauto.
  Qed.

  Lemma cart_next_cells c' : In c' (s_surfs s') <-> exists c P, In c C /\ In P quadCH /\ c' = child id mk c P.
  Proof.
    cbn [s' cart_next s_surfs]. split.
    - intros Hc. apply (Permutation_in _ (std_sort_perm lex_ltb _)) in Hc. unfold children in Hc.
      apply in_flat_map in Hc as (c & Hc & Hk). apply in_map_iff in Hk as (P & <- & HP). exists c, P. auto.
    - intros (c & P & Hc & HP & ->). apply (Permutation_in _ (Permutation_sym (std_sort_perm lex_ltb _))).
      unfold children. apply in_flat_map. exists c. split; [exact Hc|]. apply (in_map (child id mk c)). exact HP.
  Qed.

  Lemma cart_geo_next L : cart_geo L s -> cart_geo (S L) s'.
  Proof.
    intros G.
    assert (Hpos : 0 < / 2 ^ (L + 1)) by (apply Rinv_0_lt_compat, pow_lt; lra).
    constructor.
    - intros v Hv. cbn [s' cart_next s_nodes] in Hv. rewrite app_length, seq_length in Hv. fold n E C in Hv.
      destruct (lt_dec v n) as [Lt|Ge]; [|destruct (lt_dec v (n + length E)) as [Lt|Ge2]].
      + change v with (id [v]). rewrite cp_old by exact Lt. apply (cg_in L s G). exact Lt.
      + destruct (nth_error E (v - n)) as [e|] eqn:Ee; [|apply nth_error_None in Ee; lia].
        assert (He : In e E) by (eapply nth_error_In; eauto). destruct (co_edge s H e He) as (a & b & -> & Hab & Hb).
        replace v with (id [a; b]).
        * rewrite cp_mid by exact He. pose proof (cg_in L s G a ltac:(lia)) as Ia. pose proof (cg_in L s G b ltac:(lia)) as Ib.
          unfold in_square, mid2 in *. lra.
        * unfold id, cid. rewrite (index_of_eq E (v - n) [a; b]); [lia| |exact Ee]. apply lex_nodup, (cf_Fs _ _ _ _ _ _ _ (co_conf s H)).
      + destruct (nth_error C (v - (n + length E))) as [c|] eqn:Ee; [|apply nth_error_None in Ee; lia].
        assert (Hc : In c C) by (eapply nth_error_In; eauto). destruct (co_cell s H c Hc) as (x & y & z & w & -> & Hb).
        replace v with (id [x; y; z; w]).
        * rewrite cp_ctr by exact Hc. pose proof (cg_in L s G x ltac:(lia)) as I1. pose proof (cg_in L s G y ltac:(lia)) as I2.
          pose proof (cg_in L s G z ltac:(lia)) as I3. pose proof (cg_in L s G w ltac:(lia)) as I4.
          unfold in_square, mid4 in *. lra.
        * unfold id, cid. rewrite (index_of_eq C (v - (n + length E)) [x; y; z; w]); [lia| |exact Ee].
          apply lex_nodup, (cf_Cs _ _ _ _ _ _ _ (co_conf s H)).
    - intros c' Hc'. apply cart_next_cells in Hc' as (c & P & Hc & HP & ->).
      destruct (co_cell s H c Hc) as (x & y & z & w & -> & Hb). fold n in Hb.
      destruct (cart_cell_edges x y z w Hc) as (E1 & E2 & E3 & E4).
      pose proof (cg_sq L s G _ Hc) as A. cbn [is_square_cell] in A.
      destruct (square_children _ _ _ _ _ A) as (Q1 & Q2 & Q3 & Q4).
      assert (Pw : / 2 ^ (S L + 1) = / 2 ^ (L + 1) / 2).
      { cbn [plus pow]. field. apply pow_nonzero. lra. }
      rewrite Pw.
      cbn in HP. destruct HP as [<-|[<-|[<-|[<-|[]]]]]; unfold child, mk, gids, lab; cbn [map nth is_square_cell];
        rewrite ?cp_old by lia; rewrite !cp_mid by assumption; rewrite cp_ctr by assumption; assumption.
    - intros i f d k Hf Hd. destruct (cart_next_edge s H i f d Hf Hd) as [(e & SP & He & HS & -> & Hb)|(c & I & Hc & HI & -> & ->)].
      + rewrite <- (cg_side L s G (index_of e E) e d k (index_of_nth e E He) Hb).
        destruct (co_edge s H e He) as (a & b & -> & Hab & Hb').
        pose proof (cg_in L s G a ltac:(lia)) as Ia. pose proof (cg_in L s G b ltac:(lia)) as Ib.
        pose proof (mid_on_side k _ _ Ia Ib) as M.
        assert (Q : forall v, (v < n)%nat -> (forall u, In u (sord [id [v]; id [a; b]]) -> on_side k (vertex s' u)) <->
           (on_side k (vertex s v) /\ on_side k (mid2 (vertex s a) (vertex s b)))).
        { intros v Hv. rewrite <- (cp_old v Hv), <- (cp_mid a b He). split.
          - intros Hu. split; apply Hu; apply (Permutation_in _ (Permutation_sym (std_sort_perm Nat.ltb _))); cbn; auto.
          - intros [U1 U2] u Hu. apply (Permutation_in _ (std_sort_perm Nat.ltb _)) in Hu.
            destruct Hu as [<-|[<-|[]]]; assumption. }
        cbn in HS. destruct HS as [<-|[<-|[]]]; unfold gk, gids, lab; cbn [map nth].
        * etransitivity; [apply (Q a); unfold n; lia|]. rewrite M. cbn [In].
          split; [intros (U & V & W) v [<-|[<-|[]]]; assumption|intros U; repeat split; apply U; auto].
        * etransitivity; [apply (Q b); unfold n; lia|]. rewrite M. cbn [In].
          split; [intros (U & V & W) v [<-|[<-|[]]]; assumption|intros U; repeat split; apply U; auto].
      + split; [|intros [X _]; discriminate X]. intros Hs. exfalso.
        destruct (co_cell s H c Hc) as (x & y & z & w & -> & Hb).
        pose proof (cg_sq L s G _ Hc) as A. cbn [is_square_cell] in A.
        pose proof (cg_in L s G x ltac:(lia)) as I1. pose proof (cg_in L s G y ltac:(lia)) as I2.
        pose proof (cg_in L s G z ltac:(lia)) as I3. pose proof (cg_in L s G w ltac:(lia)) as I4.
        assert (M4 : on_side k (mid4 (vertex s x) (vertex s y) (vertex s z) (vertex s w)) ->
           on_side k (vertex s x) /\ on_side k (vertex s y) /\ on_side k (vertex s z)).
        { unfold on_side, in_square, mid4 in *. destruct k as [|[|[|[|k]]]]; intros U; try contradiction; repeat split; lra. }
        assert (Ct : on_side k (vertex s' (id [x; y; z; w]))).
        { cbn in HI. destruct HI as [<-|[<-|[<-|[<-|[]]]]]; apply Hs; unfold gk;
            apply (Permutation_in _ (Permutation_sym (std_sort_perm Nat.ltb _))); cbn [gids map]; right; left; reflexivity. }
        rewrite cp_ctr in Ct by exact Hc. apply M4 in Ct as (A1 & A2 & A3). exact (square_not_flat _ _ _ _ _ k Hpos A A1 A2 A3).
    - intros p Hp. destruct (cg_cover L s G p Hp) as (x & y & z & w & Hc & u & v & Hu & Hv & Hi).
      destruct (co_cell s H _ Hc) as (x' & y' & z' & w' & Eq & Hb). injection Eq as <- <- <- <-. fold n in Hb.
      destruct (cart_cell_edges x y z w Hc) as (E1 & E2 & E3 & E4).
      pose proof (cg_sq L s G _ Hc) as A. cbn [is_square_cell] in A. pose proof (square_flat _ _ _ _ _ A) as Fl.
      assert (Fin : forall P a b c d, In P quadCH -> child id mk [x; y; z; w] P = [a; b; c; d] ->
         in_cell4 (vertex s' a) (vertex s' b) (vertex s' c) p ->
         exists a b c d, In [a; b; c; d] (s_surfs s') /\ in_cell4 (vertex s' a) (vertex s' b) (vertex s' c) p).
      { intros P a b c d HP Ech Hh. exists a, b, c, d. split; [|exact Hh]. rewrite <- Ech. apply cart_next_cells. eauto. }
      destruct (Rle_dec u (1/2)) as [Cu|Cu], (Rle_dec v (1/2)) as [Cv|Cv].
      + apply (Fin [[0]; [0;1]; [0;2]; [0;1;2;3]]%nat (id [x]) (id [x; y]) (id [x; z]) (id [x; y; z; w])); [cbn; tauto|reflexivity|].
        cbn [map nth]. rewrite cp_old by lia. rewrite !cp_mid by assumption.
        exists (2 * u), (2 * v). split; [lra|]. split; [lra|]. intros i Hi'. rewrite (Hi i Hi'). unfold mid2. field.
      + apply (Fin [[2]; [0;2]; [2;3]; [0;1;2;3]]%nat (id [z]) (id [x; z]) (id [z; w]) (id [x; y; z; w])); [cbn; tauto|reflexivity|].
        cbn [map nth]. rewrite cp_old by lia. rewrite !cp_mid by assumption.
        exists (2 * (1 - v)), (2 * u). split; [lra|]. split; [lra|]. intros i Hi'. rewrite (Hi i Hi'). unfold mid2. rewrite (Fl i Hi'). field.
      + apply (Fin [[1]; [1;3]; [0;1]; [0;1;2;3]]%nat (id [y]) (id [y; w]) (id [x; y]) (id [x; y; z; w])); [cbn; tauto|reflexivity|].
        cbn [map nth]. rewrite cp_old by lia. rewrite !cp_mid by assumption.
        exists (2 * v), (2 * (1 - u)). split; [lra|]. split; [lra|]. intros i Hi'. rewrite (Hi i Hi'). unfold mid2. rewrite (Fl i Hi'). field.
      + apply (Fin [[3]; [2;3]; [1;3]; [0;1;2;3]]%nat (id [w]) (id [z; w]) (id [y; w]) (id [x; y; z; w])); [cbn; tauto|reflexivity|].
        cbn [map nth]. rewrite cp_old by lia. rewrite !cp_mid by assumption.
        exists (2 * (1 - u)), (2 * (1 - v)). split; [lra|]. split; [lra|]. intros i Hi'. rewrite (Hi i Hi'). unfold mid2. rewrite (Fl i Hi'). field.
  Qed.
End CartGeoStep.

Lemma cart_init_geo : cart_geo 0 cart_init.
Proof.
  assert (AB : forall x h, 0 <= h -> x = h \/ x = - h -> Rabs x = h).
  { intros x h Hh [->| ->]; [|rewrite Rabs_Ropp]; apply Rabs_right; lra. }
  constructor.
  - intros v Hv. cbn in Hv. unfold vertex, in_square. cbn.
    do 9 (destruct v as [|v]; [cbn; lra|]). lia.
  - intros c Hc. cbn in Hc. cbn [plus pow].
    destruct Hc as [<-|[<-|[<-|[<-|[]]]]]; cbn [is_square_cell]; unfold vertex; cbn [s_points cart_init nth];
      exists 0%nat, 1%nat; (split; [tauto|]); cbn [pt2]; (split; [apply AB; lra|]); (split; [lra|]); (split; [apply AB; lra|]); repeat split; lra.
  - intros i e d k He Hd. cbn in He, Hd.
    assert (V : forall a b, e = [a; b] -> ((forall v, In v e -> on_side k (vertex cart_init v)) <->
        on_side k (vertex cart_init a) /\ on_side k (vertex cart_init b))).
    { intros a b ->. cbn [In]. split; [intros U; split; apply U; auto|]. intros [U1 U2] v [<-|[<-|[]]]; assumption. }
    do 12 (destruct i as [|i]; [cbn in He, Hd; injection He as <-; injection Hd as <-;
      (rewrite (V _ _ eq_refl)); unfold on_side, vertex; cbn [s_points cart_init nth bd_make bd_is_b bd_id bd_default];
      (destruct k as [|[|[|[|k]]]]; cbn [pt2]; (split; [intros [U1 U2]|intros [U1 U2]]); try discriminate; try lra; try (split; (reflexivity || lra)); try contradiction)|]).
    destruct i; discriminate He.
  - intros p Hp. unfold in_square in Hp. set (x := p 0%nat) in *. set (y := p 1%nat) in *.
    assert (I2 : forall (Q : nat -> Prop), Q 0%nat -> Q 1%nat -> forall i, (i < 2)%nat -> Q i).
    { intros Q Q0 Q1 [|[|i]] Hi; auto; lia. }
    destruct (Rle_dec x (1/2)) as [C1|C1], (Rle_dec y (1/2)) as [C2|C2].
    + exists 0%nat, 1%nat, 3%nat, 4%nat. split; [cbn; tauto|]. exists (2 * x), (2 * y). split; [lra|]. split; [lra|].
      apply I2; unfold vertex; cbn; fold x y; lra.
    + exists 3%nat, 4%nat, 6%nat, 7%nat. split; [cbn; tauto|]. exists (2 * x), (2 * y - 1). split; [lra|]. split; [lra|].
      apply I2; unfold vertex; cbn; fold x y; lra.
    + exists 1%nat, 2%nat, 4%nat, 5%nat. split; [cbn; tauto|]. exists (2 * x - 1), (2 * y). split; [lra|]. split; [lra|].
      apply I2; unfold vertex; cbn; fold x y; lra.
    + exists 4%nat, 5%nat, 7%nat, 8%nat. split; [cbn; tauto|]. exists (2 * x - 1), (2 * y - 1). split; [lra|]. split; [lra|].
      apply I2; unfold vertex; cbn; fold x y; lra.
Qed.

Lemma cart_next_length s : length (s_surfs (cart_next s)) = (4 * length (s_surfs s))%nat.
Proof.
  cbn [cart_next s_surfs]. rewrite (Permutation_length (std_sort_perm lex_ltb _)).
  unfold children. generalize (cid (length (s_nodes s)) (s_edges s) (s_surfs s)). intros id.
  induction (s_surfs s) as [|c l IH]; [reflexivity|]. cbn [flat_map]. rewrite app_length, IH. cbn. lia.
Qed.

Lemma nbd_perm a b : Permutation a b -> nbd a = nbd b.
Proof.
  unfold nbd. intros Q. induction Q; cbn; [reflexivity| | |lia].
  - destruct (bd_is_b x); cbn; lia.
  - destruct (bd_is_b x), (bd_is_b y); reflexivity.
Qed.
Lemma nbd_app a b : nbd (a ++ b) = (nbd a + nbd b)%nat.
Proof. unfold nbd. rewrite filter_app, app_length. reflexivity. Qed.
Lemma nbd_default_flat {A B} (g : A -> list B) l : nbd (flat_map (fun x => map snd (map (fun I => (I, bd_default)) (g x))) l) = 0%nat.
Proof.
  induction l as [|c l IH]; [reflexivity|]. cbn [flat_map]. rewrite nbd_app, IH, Nat.add_0_r. rewrite map_map.
  induction (g c); [reflexivity|]. cbn. exact IHl0.
Qed.
(** the faces of a face inherit its descriptor *)
Lemma nbd_inherit {A} (E : list (list nat)) (B : list bdesc) (SUB : list A) : length B = length E -> NoDup E ->
  nbd (flat_map (fun x => map (fun _ => nth (index_of x E) B bd_default) SUB) E) = (length SUB * nbd B)%nat.
Proof.
  intros L ND.
  assert (G : forall rest B' done Bd, E = done ++ rest -> B = Bd ++ B' -> length Bd = length done ->
     nbd (flat_map (fun x => map (fun _ => nth (index_of x E) B bd_default) SUB) rest) = (length SUB * nbd B')%nat).
  { induction rest as [|e rest IH]; intros B' done Bd He Hb Ld.
    - assert (B' = []). { destruct B'; [reflexivity|]. rewrite He, Hb, !app_length in L. cbn in L. lia. } subst B'. cbn. lia.
    - destruct B' as [|d B']. { rewrite He, Hb, !app_length in L. cbn in L. lia. }
      cbn [flat_map]. rewrite nbd_app.
      rewrite (IH B' (done ++ [e]) (Bd ++ [d])); [|rewrite <- app_assoc; exact He|rewrite <- app_assoc; exact Hb|rewrite !app_length; cbn; lia].
      assert (Ix : index_of e E = length done).
      { apply index_of_eq; [exact ND|]. rewrite He. rewrite nth_error_app2 by lia. rewrite Nat.sub_diag. reflexivity. }
      rewrite Ix, Hb. rewrite app_nth2 by lia. replace (length done - length Bd)%nat with 0%nat by lia. cbn [nth].
      change (d :: B') with ([d] ++ B'). rewrite nbd_app.
      assert (nbd (map (fun _ : A => d) SUB) = (length SUB * nbd [d])%nat).
      { clear. induction SUB as [|a l IH]; [reflexivity|]. cbn [map]. change (d :: map (fun _ => d) l) with ([d] ++ map (fun _ : A => d) l).
        rewrite nbd_app, IH. cbn [length]. lia. }
      rewrite H. ring. }
  apply (G E B [] []); reflexivity.
Qed.

Lemma cart_next_nbd s : cart_ok s -> nbd (s_binfo (cart_next s)) = (2 * nbd (s_binfo s))%nat.
Proof.
  intros H. cbn [cart_next s_binfo].
  rewrite (nbd_perm _ (map snd (cart_pairs s))) by (apply Permutation_map, std_sort_perm).
  unfold cart_pairs. rewrite map_app, nbd_app, !map_flat_map.
  pose proof (cf_len _ _ _ _ _ _ _ (co_conf s H)) as L. pose proof (lex_nodup _ (cf_Fs _ _ _ _ _ _ _ (co_conf s H))) as ND.
  pose proof (nbd_inherit (s_edges s) (s_binfo s) edgSUB L ND) as I. cbn [edgSUB length] in I. rewrite <- I. clear I.
  match goal with |- (_ + nbd (flat_map _ ?l) = _)%nat =>
    pose proof (nbd_default_flat (fun c => map (gk (cid (length (s_nodes s)) (s_edges s) (s_surfs s)) c) quadINN) l) as Z end.
  assert (forall a b c : nat, b = 0%nat -> a = c -> (a + b = c)%nat) as T by (intros; lia). apply T; clear T.
  - rewrite <- Z. f_equal.
  - reflexivity.
Qed.

Lemma cart_mesh_all n : exists s, cart_mesh n = Ok s /\ cart_ok s /\ cart_geo n s /\
  length (s_surfs s) = (4 ^ (n + 1))%nat /\ nbd (s_binfo s) = (8 * 2 ^ n)%nat.
Proof.
  assert (G : forall k L s, cart_ok s -> cart_geo L s -> exists s', refine_n cart_refine k s = Ok s' /\ cart_ok s' /\ cart_geo (L + k) s' /\
     length (s_surfs s') = (4 ^ k * length (s_surfs s))%nat /\ nbd (s_binfo s') = (2 ^ k * nbd (s_binfo s))%nat).
  { induction k as [|k IH]; intros L s H1 H2.
    - exists s. rewrite Nat.add_0_r. cbn [refine_n Nat.pow]. split; [reflexivity|]. split; [exact H1|]. split; [exact H2|]. split; ring.
    - cbn [refine_n]. rewrite (cart_refine_eq s H1). cbn [bind].
      destruct (IH (S L) (cart_next s) (cart_next_ok s H1) (cart_geo_next s H1 L H2)) as (s' & E1 & E2 & E3 & E4 & E5).
      exists s'. split; [exact E1|]. split; [exact E2|]. split; [replace (L + S k)%nat with (S L + k)%nat by lia; exact E3|].
      rewrite E4, E5, cart_next_length, (cart_next_nbd s H1). cbn [Nat.pow]. split; ring. }
  destruct (G n 0%nat cart_init cart_init_ok cart_init_geo) as (s & E1 & E2 & E3 & E4 & E5). exists s.
  split; [exact E1|]. split; [exact E2|]. split; [exact E3|]. rewrite E4, E5. cbn [cart_init s_surfs s_binfo length nbd filter bd_is_b bd_make bd_default].
  rewrite Nat.pow_add_r. cbn. lia.
Qed.
