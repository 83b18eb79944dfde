From Coq Require Import List Arith Bool Sorted QArith Lqa Lia.
From Verif Require Import Common Mesh_Model Mesh_Spec Mesh_Proofs.
Import ListNotations.
Local Open Scope nat_scope.

Section Conn.
  Context {C F : Type} (cltb : C -> C -> bool) (fltb : F -> F -> bool) (faces_of : C -> list F).
  Variable feq : forall a b : F, {a = b} + {a <> b}.
  Hypothesis OF : strict_total_order fltb.
  Hypothesis OC : strict_total_order cltb.
  Variable m : mesh C F.
  Hypothesis Hs : sorted_unique fltb (m_faces m).

  Definition encode (l : list nat) : owners :=
    match l with
    | [] => (None, None)
    | [a] => (Some a, None)
    | a :: b :: _ => (Some a, Some b)
    end.

  (** cell numbers in which [f] occurs, one per occurrence *)
  Fixpoint occs (base : nat) (cls : list C) (f : F) : list nat :=
    match cls with
    | [] => []
    | c :: r => repeat base (count_occ feq (faces_of c) f) ++ occs (S base) r f
    end.

  Definition inv (tbl : list owners) (L : F -> list nat) : Prop :=
    length tbl = length (m_faces m) /\
    forall i f, stored (m_faces m) i f -> nth_error tbl i = Some (encode (L f)) /\ length (L f) <= 2.

  Definition add1 (L : F -> list nat) (g : F) (ci : nat) : F -> list nat :=
    fun f => if feq g f then L f ++ [ci] else L f.

  Lemma add_owner_spec ci tbl L f : inv tbl L -> In f (m_faces m) ->
    (length (L f) < 2 /\ exists tbl', add_owner C F fltb m ci tbl f = Ok tbl' /\ inv tbl' (add1 L f ci)) \/
    (length (L f) = 2 /\ add_owner C F fltb m ci tbl f = Throw LogicError).
  Proof.
    intros [HL HI] Hin. destruct (in_stored _ _ Hin) as [i Hi].
    destruct (HI _ _ Hi) as [Hn Hle].
    unfold add_owner. rewrite (find_stored fltb OF _ _ _ Hs Hi). cbn [bind].
    rewrite (offset_stored fltb OF _ _ _ Hs Hi). cbn [bind]. rewrite (vat_ok _ _ _ Hn). cbn [bind].
    assert (Hi' : i < length tbl) by (rewrite HL; eapply stored_lt; eauto).
    assert (G : forall o, o = encode (L f ++ [ci]) -> length (L f) < 2 ->
              exists tbl', vset_at tbl i o = Ok tbl' /\ inv tbl' (add1 L f ci)).
    { intros o Ho Hlt. destruct (upd_some tbl i o Hi') as [t' Ht]. exists t'. unfold vset_at. rewrite Ht.
      split; [reflexivity|]. split; [rewrite (upd_length _ _ _ _ Ht); exact HL|].
      intros j g Hg. unfold add1. destruct (feq f g) as [<-|N].
      - assert (i = j) by (eapply (stored_unique fltb OF); eauto). subst j.
        rewrite (upd_nth_same _ _ _ _ Ht), Ho. split; [reflexivity|]. rewrite app_length. cbn. lia.
      - assert (i <> j) by (intros <-; unfold stored in *; congruence).
        rewrite (upd_nth_other _ _ _ _ _ Ht H). apply HI. exact Hg. }
    destruct (L f) as [|a [|b [|]]] eqn:EL; cbn [encode length] in *; try lia.
    - left. split; [lia|]. apply G; [reflexivity|lia].
    - left. split; [lia|]. apply G; [reflexivity|lia].
    - right. auto.
  Qed.

  Lemma add_faces_spec ci fcs : forall tbl L, inv tbl L -> incl fcs (m_faces m) ->
    (exists tbl', add_faces C F fltb m ci fcs tbl = Ok tbl' /\
        inv tbl' (fun f => L f ++ repeat ci (count_occ feq fcs f))) \/
    (add_faces C F fltb m ci fcs tbl = Throw LogicError /\
        exists f, In f (m_faces m) /\ 2 < length (L f ++ repeat ci (count_occ feq fcs f))).
  Proof.
    induction fcs as [|g fcs IH]; intros tbl L HI Hincl; cbn [add_faces].
    - left. exists tbl. split; [reflexivity|]. destruct HI as [H1 H2]. split; [exact H1|].
      intros i f Hf. cbn. rewrite app_nil_r. apply H2. exact Hf.
    - assert (Hg : In g (m_faces m)) by (apply Hincl; left; reflexivity).
      assert (Hincl' : incl fcs (m_faces m)) by (intros x Hx; apply Hincl; right; exact Hx).
      assert (EQ : forall f, add1 L g ci f ++ repeat ci (count_occ feq fcs f) =
                             L f ++ repeat ci (count_occ feq (g :: fcs) f)).
      { intros f. unfold add1. cbn [count_occ]. destruct (feq g f); [|reflexivity].
        rewrite <- app_assoc. reflexivity. }
      destruct (add_owner_spec ci tbl L g HI Hg) as [[Hlt (t' & E & HI')]|[H2 E]]; rewrite E; cbn [bind].
      + destruct (IH t' _ HI' Hincl') as [(t2 & E2 & I2)|[E2 (f & Hf & Hl)]].
        * left. exists t2. split; [exact E2|]. destruct I2 as [A1 A2]. split; [exact A1|].
          intros i f Hf. rewrite <- EQ. apply A2. exact Hf.
        * right. split; [exact E2|]. exists f. split; [exact Hf|]. rewrite <- EQ. exact Hl.
      + right. split; [reflexivity|]. exists g. split; [exact Hg|].
        cbn [count_occ]. destruct (feq g g); [|contradiction]. cbn [repeat]. rewrite app_length. cbn [length]. lia.
  Qed.

  Lemma add_cells_spec cls : forall ci tbl L, inv tbl L -> (forall c, In c cls -> incl (faces_of c) (m_faces m)) ->
    (exists tbl', add_cells C F fltb faces_of m ci cls tbl = Ok tbl' /\
        inv tbl' (fun f => L f ++ occs ci cls f)) \/
    (add_cells C F fltb faces_of m ci cls tbl = Throw LogicError /\
        exists f, In f (m_faces m) /\ 2 < length (L f ++ occs ci cls f)).
  Proof.
    induction cls as [|c cls IH]; intros ci tbl L HI Hincl; cbn [add_cells].
    - left. exists tbl. split; [reflexivity|]. destruct HI as [H1 H2]. split; [exact H1|].
      intros i f Hf. cbn. rewrite app_nil_r. apply H2. exact Hf.
    - destruct (add_faces_spec ci (faces_of c) tbl L HI) as [(t' & E & HI')|[E (f & Hf & Hl)]];
        [apply Hincl; left; reflexivity| |]; rewrite E; cbn [bind].
      + destruct (IH (S ci) t' _ HI') as [(t2 & E2 & A1 & A2)|[E2 (f & Hf & Hl)]];
          [intros x Hx; apply Hincl; right; exact Hx| |].
        * left. exists t2. split; [exact E2|]. split; [exact A1|].
          intros i f Hf. cbn [occs]. rewrite app_assoc. apply A2. exact Hf.
        * right. split; [exact E2|]. exists f. split; [exact Hf|]. cbn [occs]. rewrite app_assoc. exact Hl.
      + right. split; [reflexivity|]. exists f. split; [exact Hf|]. cbn [occs]. rewrite app_assoc, app_length. lia.
  Qed.

  Lemma occs_length base cls f : length (occs base cls f) = incidences feq faces_of cls f.
  Proof.
    unfold incidences. revert base; induction cls as [|c cls IH]; intros base; cbn [occs map list_sum fold_right]; [reflexivity|].
    rewrite app_length, repeat_length, IH. reflexivity.
  Qed.

  Lemma inv_init : inv (repeat (None, None) (length (m_faces m))) (fun _ => []).
  Proof.
    split; [apply repeat_length|]. intros i f Hf. split; [|cbn; lia].
    cbn [encode]. pose proof (stored_lt _ _ _ Hf) as L.
    revert i L Hf. generalize (m_faces m) as l. intros l i L _. revert i L.
    induction l as [|a l IH]; intros [|i] L; cbn in *; try lia; auto. apply IH. lia.
  Qed.

  Hypothesis Hfaces : forall c, In c (m_cells m) -> incl (faces_of c) (m_faces m).

  Lemma connectivity_ok : (forall f, In f (m_faces m) -> incidences feq faces_of (m_cells m) f <= 2) ->
    exists tbl, connectivity C F fltb faces_of m = Ok tbl /\ inv tbl (occs 0 (m_cells m)).
  Proof.
    intros H. unfold connectivity.
    destruct (add_cells_spec (m_cells m) 0 _ _ inv_init Hfaces) as [(t & E & I)|[E (f & Hf & Hl)]].
    - exists t. split; [exact E|exact I].
    - cbn [app] in Hl. rewrite occs_length in Hl. specialize (H f Hf). lia.
  Qed.

  Lemma connectivity_throws f : In f (m_faces m) -> 2 < incidences feq faces_of (m_cells m) f ->
    connectivity C F fltb faces_of m = Throw LogicError.
  Proof.
    intros Hf H. unfold connectivity.
    destruct (add_cells_spec (m_cells m) 0 _ _ inv_init Hfaces) as [(t & E & I)|[E _]]; [|exact E].
    destruct (in_stored _ _ Hf) as [i Hi]. destruct I as [_ I]. destruct (I _ _ Hi) as [_ I'].
    cbn [app] in I'. rewrite occs_length in I'. lia.
  Qed.

  Hypothesis Hnodup : forall c, In c (m_cells m) -> NoDup (faces_of c).
  Hypothesis Hcs : sorted_unique cltb (m_cells m).

  Lemma occs_in base cls f x : (forall c, In c cls -> NoDup (faces_of c)) ->
    (In x (occs base cls f) <-> base <= x /\ owns faces_of cls (x - base) f).
  Proof.
    revert base; induction cls as [|c cls IH]; intros base Hnd; cbn [occs].
    - split; [intros []|]. intros (_ & cl & H & _). destruct (x - base); discriminate.
    - rewrite in_app_iff, IH by (intros; apply Hnd; right; assumption). split.
      + intros [H|(H1 & cl & H2 & H3)].
        * pose proof H as H0. apply repeat_spec in H. subst x. split; [lia|]. rewrite Nat.sub_diag. exists c. split; [reflexivity|].
          destruct (count_occ feq (faces_of c) f) eqn:Ec; [destruct H0|].
          apply (count_occ_In feq). lia.
        * split; [lia|]. exists cl. replace (x - base) with (S (x - S base)) by lia. auto.
      + intros (H1 & cl & H2 & H3). destruct (Nat.eq_dec x base) as [->|N].
        * left. rewrite Nat.sub_diag in H2. injection H2 as <-.
          apply (count_occ_In feq) in H3. destruct (count_occ feq (faces_of c) f); [lia|]. left; reflexivity.
        * right. split; [lia|]. exists cl. replace (x - base) with (S (x - S base)) in H2 by lia. auto.
  Qed.

  Lemma occs_nodup base cls f : (forall c, In c cls -> NoDup (faces_of c)) -> NoDup (occs base cls f).
  Proof.
    revert base; induction cls as [|c cls IH]; intros base Hnd; cbn [occs]; [constructor|].
    assert (K : count_occ feq (faces_of c) f <= 1).
    { apply (NoDup_count_occ feq). apply Hnd. left; reflexivity. }
    specialize (IH (S base) ltac:(intros; apply Hnd; right; assumption)).
    destruct (count_occ feq (faces_of c) f) as [|[|]]; cbn [repeat app]; try lia; auto.
    constructor; [|exact IH]. intros H. apply occs_in in H; [|intros; apply Hnd; right; assumption]. lia.
  Qed.

  (** The complete description of [neighbour_via]. *)
  Lemma neighbour_via_spec tbl c cl f :
    (forall f, In f (m_faces m) -> incidences feq faces_of (m_cells m) f <= 2) ->
    connectivity C F fltb faces_of m = Ok tbl ->
    nth_error (m_cells m) c = Some cl -> In f (faces_of cl) ->
    (exists d dl, d <> c /\ owns faces_of (m_cells m) d f /\ nth_error (m_cells m) d = Some dl /\
        neighbour_via C F cltb fltb m tbl cl f = Ok (Some dl)) \/
    ((forall d, owns faces_of (m_cells m) d f -> d = c) /\
        neighbour_via C F cltb fltb m tbl cl f = Ok None).
  Proof.
    intros Hinc Ht Hc Hf.
    destruct (connectivity_ok Hinc) as (t & E & HL & HI). rewrite Ht in E. injection E as <-.
    assert (Hfm : In f (m_faces m)) by (apply (Hfaces cl); [eapply nth_error_In; eauto|exact Hf]).
    destruct (in_stored _ _ Hfm) as [i Hi]. destruct (HI _ _ Hi) as [Hn Hle].
    unfold neighbour_via. rewrite HL, Nat.eqb_refl. cbn [negb].
    rewrite (offset_stored cltb OC _ _ _ Hcs Hc), (offset_stored fltb OF _ _ _ Hs Hi). cbn [bind].
    rewrite (vat_ok _ _ _ Hn). cbn [bind].
    pose proof (occs_nodup 0 _ f Hnodup) as ND.
    assert (IN : forall x, In x (occs 0 (m_cells m) f) <-> owns faces_of (m_cells m) x f).
    { intros x. rewrite (occs_in 0 _ f x Hnodup). rewrite Nat.sub_0_r. intuition lia. }
    assert (Oc : owns faces_of (m_cells m) c f) by (exists cl; auto).
    destruct (occs 0 (m_cells m) f) as [|a [|b [|]]] eqn:EO; cbn [length] in Hle; try lia; cbn [encode].
    - apply IN in Oc. destruct Oc.
    - right. apply IN in Oc. destruct Oc as [->|[]]. rewrite Nat.eqb_refl. cbn [snd]. split; [|reflexivity].
      intros d Hd. apply IN in Hd. destruct Hd as [->|[]]. reflexivity.
    - left. inversion ND as [|? ? Hab _]; subst.
      assert (Ha : owns faces_of (m_cells m) a f) by (apply IN; left; reflexivity).
      assert (Hb : owns faces_of (m_cells m) b f) by (apply IN; right; left; reflexivity).
      apply IN in Oc. destruct Oc as [<-|[<-|[]]].
      + rewrite Nat.eqb_refl. cbn [snd]. destruct Hb as (bl & B1 & B2). exists b, bl.
        split; [intros ->; apply Hab; left; reflexivity|]. split; [exists bl; auto|]. split; [exact B1|].
        rewrite (vget_ok _ _ _ B1). reflexivity.
      + destruct (Nat.eqb_spec a b) as [->|N]; [exfalso; apply Hab; left; reflexivity|]. cbn [snd].
        destruct Ha as (al & A1 & A2). exists a, al. split; [exact N|]. split; [exists al; auto|]. split; [exact A1|].
        rewrite (vget_ok _ _ _ A1). reflexivity.
  Qed.

  Lemma owner_at_most_two f c d e :
    (forall f, In f (m_faces m) -> incidences feq faces_of (m_cells m) f <= 2) -> In f (m_faces m) ->
    owns faces_of (m_cells m) c f -> owns faces_of (m_cells m) d f -> owns faces_of (m_cells m) e f ->
    c <> d -> e = c \/ e = d.
  Proof.
    intros Hinc Hf Hc Hd He N. specialize (Hinc f Hf). rewrite <- (occs_length 0) in Hinc.
    assert (IN : forall x, In x (occs 0 (m_cells m) f) <-> owns faces_of (m_cells m) x f).
    { intros x. rewrite (occs_in 0 _ f x Hnodup). rewrite Nat.sub_0_r. intuition lia. }
    apply IN in Hc, Hd, He. destruct (occs 0 (m_cells m) f) as [|a [|b [|]]]; cbn [In length] in *; try tauto; try lia.
    all: destruct Hc as [<-|[<-|[]]], Hd as [<-|[<-|[]]], He as [<-|[<-|[]]]; try congruence; auto.
  Qed.

  Lemma neighbour_symmetric tbl c cl f dl :
    (forall f, In f (m_faces m) -> incidences feq faces_of (m_cells m) f <= 2) ->
    connectivity C F fltb faces_of m = Ok tbl ->
    nth_error (m_cells m) c = Some cl -> In f (faces_of cl) ->
    neighbour_via C F cltb fltb m tbl cl f = Ok (Some dl) ->
    In f (faces_of dl) /\ dl <> cl /\ neighbour_via C F cltb fltb m tbl dl f = Ok (Some cl).
  Proof.
    intros Hinc Ht Hc Hf E.
    destruct (neighbour_via_spec tbl c cl f Hinc Ht Hc Hf) as [(d & dl' & N & Od & Hd & E')|[_ E']];
      rewrite E in E'; [injection E' as <-|discriminate].
    assert (Fd : In f (faces_of dl)) by (destruct Od as (x & X1 & X2); rewrite Hd in X1; injection X1 as <-; exact X2).
    split; [exact Fd|].
    assert (Hcd : dl <> cl).
    { intros ->. apply N. eapply (stored_unique cltb OC); eauto. }
    split; [exact Hcd|].
    assert (Hfm : In f (m_faces m)) by (apply (Hfaces cl); [eapply nth_error_In; eauto|exact Hf]).
    destruct (neighbour_via_spec tbl d dl f Hinc Ht Hd Fd) as [(e & el & N' & Oe & He & E2)|[U E2]].
    - rewrite E2. f_equal. f_equal.
      assert (Oc : owns faces_of (m_cells m) c f) by (exists cl; auto).
      destruct (owner_at_most_two f c d e Hinc Hfm Oc Od Oe ltac:(congruence)) as [Heq|Heq]; subst; congruence.
    - exfalso. apply N. symmetry. apply U. exists cl. auto.
  Qed.

  (** ** mark_internal_faces *)
  Lemma count_faces_spec fcs : forall cnt (K : F -> nat), incl fcs (m_faces m) ->
    length cnt = length (m_faces m) ->
    (forall i f, stored (m_faces m) i f -> nth_error cnt i = Some (K f)) ->
    exists cnt', count_faces C F fltb m fcs cnt = Ok cnt' /\ length cnt' = length (m_faces m) /\
      (forall i f, stored (m_faces m) i f -> nth_error cnt' i = Some (K f + count_occ feq fcs f)).
  Proof.
    induction fcs as [|g fcs IH]; intros cnt K Hin Hl HK; cbn [count_faces].
    - exists cnt. split; [reflexivity|]. split; [exact Hl|]. intros i f Hf. rewrite (HK _ _ Hf). f_equal. cbn. lia.
    - assert (Hg : In g (m_faces m)) by (apply Hin; left; reflexivity).
      destruct (in_stored _ _ Hg) as [i Hi]. rewrite (offset_stored fltb OF _ _ _ Hs Hi). cbn [bind].
      rewrite (vget_ok _ _ _ (HK _ _ Hi)). cbn [bind].
      assert (Li : i < length cnt) by (rewrite Hl; eapply stored_lt; eauto).
      destruct (upd_some cnt i (S (K g)) Li) as [c' Hc]. unfold vset. rewrite Hc. cbn [bind].
      destruct (IH c' (fun f => K f + (if feq g f then 1 else 0))) as (c2 & E2 & L2 & H2).
      + intros x Hx. apply Hin. right; exact Hx.
      + rewrite (upd_length _ _ _ _ Hc). exact Hl.
      + intros j f Hf. destruct (feq g f) as [<-|N].
        * assert (i = j) by (eapply (stored_unique fltb OF); eauto). subst j.
          rewrite (upd_nth_same _ _ _ _ Hc). f_equal. lia.
        * assert (i <> j) by (intros <-; unfold stored in *; congruence).
          rewrite (upd_nth_other _ _ _ _ _ Hc H), (HK _ _ Hf). f_equal. lia.
      + exists c2. split; [exact E2|]. split; [exact L2|]. intros j f Hf. rewrite (H2 _ _ Hf). f_equal.
        cbn [count_occ]. destruct (feq g f); lia.
  Qed.

  Lemma count_cells_spec cls : forall cnt (K : F -> nat), (forall c, In c cls -> incl (faces_of c) (m_faces m)) ->
    length cnt = length (m_faces m) ->
    (forall i f, stored (m_faces m) i f -> nth_error cnt i = Some (K f)) ->
    exists cnt', count_cells C F fltb faces_of m cls cnt = Ok cnt' /\ length cnt' = length (m_faces m) /\
      (forall i f, stored (m_faces m) i f -> nth_error cnt' i = Some (K f + incidences feq faces_of cls f)).
  Proof.
    unfold incidences.
    induction cls as [|c cls IH]; intros cnt K Hin Hl HK; cbn [count_cells].
    - exists cnt. split; [reflexivity|]. split; [exact Hl|]. intros i f Hf. rewrite (HK _ _ Hf). f_equal. cbn. lia.
    - destruct (count_faces_spec (faces_of c) cnt K) as (c1 & E1 & L1 & H1); auto.
      { apply Hin. left; reflexivity. }
      rewrite E1. cbn [bind].
      destruct (IH c1 (fun f => K f + count_occ feq (faces_of c) f)) as (c2 & E2 & L2 & H2); auto.
      { intros x Hx. apply Hin. right; exact Hx. }
      exists c2. split; [exact E2|]. split; [exact L2|]. intros i f Hf. rewrite (H2 _ _ Hf). f_equal.
      cbn [map list_sum fold_right]. unfold list_sum. lia.
  Qed.

  Definition mark1 (d : bdesc) (n : nat) : bdesc := if bd_is_b d && (n =? 2) then bd_set_internal true d else d.

  Lemma mark_loop_spec cnt : forall k i bi, i + k <= length cnt -> i + k <= length bi ->
    exists bi', mark_loop cnt i k bi = Ok bi' /\ length bi' = length bi /\
      forall j d n, nth_error bi j = Some d -> nth_error cnt j = Some n ->
        nth_error bi' j = Some (if (i <=? j) && (j <? i + k) then mark1 d n else d).
  Proof.
    induction k as [|k IH]; intros i bi Hc Hb; cbn [mark_loop].
    - exists bi. split; [reflexivity|]. split; [reflexivity|]. intros j d n Hd Hn. rewrite Hd. f_equal.
      destruct (Nat.leb_spec i j), (Nat.ltb_spec j (i + 0)); cbn; try reflexivity; lia.
    - destruct (nth_error_some cnt i) as [n Hn]; [lia|]. rewrite (vget_ok _ _ _ Hn). cbn [bind].
      destruct (nth_error_some bi i) as [d Hd]; [lia|]. rewrite (vat_ok _ _ _ Hd). cbn [bind].
      fold (mark1 d n).
      destruct (upd_some bi i (mark1 d n)) as [b1 H1]; [lia|]. unfold vset_at. rewrite H1. cbn [bind].
      destruct (IH (S i) b1) as (b2 & E2 & L2 & H2); [lia|rewrite (upd_length _ _ _ _ H1); lia|].
      exists b2. split; [exact E2|]. split; [rewrite L2; apply (upd_length _ _ _ _ H1)|].
      intros j d' n' Hd' Hn'. destruct (Nat.eq_dec i j) as [<-|N].
      + rewrite Hd in Hd'; injection Hd' as <-. rewrite Hn in Hn'; injection Hn' as <-.
        rewrite (H2 i _ n (upd_nth_same _ _ _ _ H1) Hn).
        destruct (Nat.leb_spec (S i) i); [lia|]. cbn [andb].
        destruct (Nat.leb_spec i i); [|lia]. destruct (Nat.ltb_spec i (i + S k)); [|lia]. reflexivity.
      + rewrite (H2 j d' n'); [|rewrite (upd_nth_other _ _ _ _ _ H1 N); exact Hd'|exact Hn'].
        f_equal. destruct (Nat.leb_spec (S i) j), (Nat.leb_spec i j), (Nat.ltb_spec j (S i + k)), (Nat.ltb_spec j (i + S k));
          cbn [andb]; try reflexivity; lia.
  Qed.

  Lemma mark_internal_spec : length (m_binfo m) = length (m_faces m) ->
    exists m', mark_internal_faces C F fltb faces_of m = Ok m' /\
      m_cells m' = m_cells m /\ m_faces m' = m_faces m /\ length (m_binfo m') = length (m_binfo m) /\
      forall i f d, stored (m_faces m) i f -> nth_error (m_binfo m) i = Some d ->
        nth_error (m_binfo m') i =
          Some (mkB (bd_id d) (bd_tag d) (bd_is_b d)
                 (bd_is_int d || (bd_is_b d && (incidences feq faces_of (m_cells m) f =? 2)))).
  Proof.
    intros Hb. unfold mark_internal_faces.
    destruct (count_cells_spec (m_cells m) (repeat 0 (length (m_faces m))) (fun _ => 0) Hfaces) as (cnt & E & L & H).
    - apply repeat_length.
    - intros i f Hf. apply nth_error_repeat. eapply stored_lt; eauto.
    - rewrite E. cbn [bind].
      destruct (mark_loop_spec cnt (length (m_faces m)) 0 (m_binfo m)) as (bi & E2 & L2 & H2); try lia.
      rewrite E2. cbn [bind]. eexists. split; [reflexivity|]. cbn [m_cells m_faces m_binfo].
      split; [reflexivity|]. split; [reflexivity|]. split; [exact L2|].
      intros i f d Hf Hd. rewrite (H2 i d _ Hd (H _ _ Hf)). cbn [Nat.add Nat.leb andb].
      pose proof (stored_lt _ _ _ Hf). destruct (Nat.ltb_spec i (length (m_faces m))); [|lia].
      f_equal. unfold mark1. destruct d as [a b [|] [|]]; cbn [bd_is_b bd_is_int bd_id bd_tag andb orb]; try reflexivity;
        cbn [Nat.add]; destruct (incidences feq faces_of (m_cells m) f =? 2); reflexivity.
  Qed.
End Conn.

(** ** Bounding box *)
Local Open Scope Q_scope.

Lemma qltb_iff x y : qltb x y = true <-> x < y.
Proof.
  unfold qltb. rewrite negb_true_iff. split.
  - intros H. apply Qnot_le_lt. intros C. apply Qle_bool_iff in C. congruence.
  - intros H. destruct (Qle_bool y x) eqn:E; [|reflexivity]. apply Qle_bool_iff in E. lra.
Qed.

Lemma any_lt_false p q : length p = length q -> any_lt p q = false -> ple q p.
Proof.
  unfold any_lt, ple. revert q; induction p as [|x p IH]; intros [|y q] H E; try discriminate; [constructor|].
  cbn in E. apply orb_false_iff in E. destruct E as [E1 E2]. constructor; [|apply IH; [injection H; auto|exact E2]].
  apply Qnot_lt_le. intros C. apply qltb_iff in C. congruence.
Qed.

Lemma any_lt_true p q : any_lt p q = true -> ~ ple q p.
Proof.
  unfold any_lt, ple. revert q; induction p as [|x p IH]; intros [|y q] E H; try discriminate.
  inversion H; subst. cbn in E. apply orb_true_iff in E. destruct E as [E|E].
  - apply qltb_iff in E. lra.
  - eapply IH; eauto.
Qed.

Lemma ple_refl p : ple p p.
Proof. unfold ple. induction p; constructor; auto. apply Qle_refl. Qed.

Lemma ple_trans p q r : ple p q -> ple q r -> ple p r.
Proof.
  unfold ple. intros H. revert r. induction H; intros r H'; inversion H'; subst; constructor; auto.
  eapply Qle_trans; eauto.
Qed.

(** Whatever the points, both corners are points of the set. *)
Lemma bb_in r : forall p0 q0 mn mx, fold_left bb_step r (p0, q0) = (mn, mx) ->
  (mn = p0 \/ In mn r) /\ (mx = q0 \/ In mx r).
Proof.
  induction r as [|p r IH]; intros p0 q0 mn mx E; cbn [fold_left] in E.
  - injection E as <- <-. auto.
  - unfold bb_step in E at 2. cbn [fst snd] in E. apply IH in E. destruct E as [E1 E2].
    cbn [In]. split.
    + destruct (any_lt p p0); destruct E1 as [->|E1]; auto.
    + destruct (any_lt q0 p); destruct E2 as [->|E2]; auto.
Qed.

(** Pairwise comparable points (e.g. any 1D set): the box is right. *)
Lemma bb_chain d r : forall p0 q0 mn mx,
  (forall p, In p (p0 :: q0 :: r) -> length p = d) ->
  (forall p q, In p (p0 :: q0 :: r) -> In q (p0 :: q0 :: r) -> ple p q \/ ple q p) ->
  fold_left bb_step r (p0, q0) = (mn, mx) ->
  ple mn p0 /\ ple q0 mx /\ forall p, In p r -> ple mn p /\ ple p mx.
Proof.
  induction r as [|p r IH]; intros p0 q0 mn mx HD HC E; cbn [fold_left] in E.
  - injection E as <- <-. split; [apply ple_refl|]. split; [apply ple_refl|]. intros p [].
  - unfold bb_step in E at 2. cbn [fst snd] in E.
    set (p1 := if any_lt p p0 then p else p0) in *. set (q1 := if any_lt q0 p then p else q0) in *.
    assert (P1 : p1 = p \/ p1 = p0) by (unfold p1; destruct (any_lt p p0); auto).
    assert (Q1 : q1 = p \/ q1 = q0) by (unfold q1; destruct (any_lt q0 p); auto).
    assert (IN : forall x, In x (p1 :: q1 :: r) -> In x (p0 :: q0 :: p :: r)).
    { intros x [<-|[<-|H]]; cbn [In]; [destruct P1 as [->| ->]|destruct Q1 as [->| ->]|]; auto. }
    destruct (IH p1 q1 mn mx) as (I1 & I2 & I3); auto.
    assert (A : ple p1 p0 /\ ple p1 p).
    { unfold p1. destruct (any_lt p p0) eqn:L.
      - split; [|apply ple_refl]. destruct (HC p p0) as [H|H]; cbn; auto. destruct (any_lt_true _ _ L H).
      - split; [apply ple_refl|]. apply any_lt_false; [|exact L].
        rewrite (HD p), (HD p0); cbn; auto. }
    assert (B : ple q0 q1 /\ ple p q1).
    { unfold q1. destruct (any_lt q0 p) eqn:L.
      - split; [|apply ple_refl]. destruct (HC q0 p) as [H|H]; cbn; auto. destruct (any_lt_true _ _ L H).
      - split; [apply ple_refl|]. apply any_lt_false; [|exact L].
        rewrite (HD p), (HD q0); cbn; auto. }
    destruct A as [A1 A2], B as [B1 B2].
    split; [eapply ple_trans; eauto|]. split; [eapply ple_trans; eauto|].
    intros x [<-|Hx]; [split; eapply ple_trans; eauto|]. apply I3. exact Hx.
Qed.
