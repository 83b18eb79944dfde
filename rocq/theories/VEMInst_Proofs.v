(** Cells and solvers that meet the hypotheses of the virtual element theorems *)
From Coq Require Import List Arith Reals Lia Lra Bool.
From Verif Require Import Poly_Spec Poly_Proofs HHO_Spec HHO_Model HHO_Setting HHO_Proofs HHO2_Proofs HHO9_Proofs HHOInst_Proofs HHOInst2_Proofs
  VEM_Spec VEM_Model VEM_Setting VEM_Proofs VEM2_Proofs VEM3_Proofs.
Import ListNotations.
Open Scope R_scope.

(** * a solver of regular systems: elimination on the normal equations *)
Fixpoint comb (cs : list R) (vs : list (nat -> R)) (i : nat) : R :=
  match cs, vs with c :: cs, v :: vs => c * v i + comb cs vs i | _, _ => 0 end.
Lemma comb_app cs ds vs ws i : length cs = length vs -> comb (cs ++ ds) (vs ++ ws) i = comb cs vs i + comb ds ws i.
Proof. revert vs. induction cs as [|c cs IH]; intros [|v vs] L; try discriminate; cbn [app comb]; [ring|]. rewrite IH by (injection L; trivial). ring. Qed.
Lemma comb_map cs vs (p : nat -> R) (f : (nat -> R) -> R) i : comb cs (map (fun v i => v i - f v * p i) vs) i = comb cs vs i - comb cs (map (fun v _ => f v) vs) i * p i.
Proof. revert vs. induction cs as [|c cs IH]; intros [|v vs]; cbn [map comb]; try ring. rewrite IH. ring. Qed.
Lemma dependent n : forall vs : list (nat -> R), length vs = S n ->
  exists cs, length cs = S n /\ (exists c, In c cs /\ c <> 0) /\ forall i, (i < n)%nat -> comb cs vs i = 0.
Proof.
  induction n as [|n IH]; intros vs L.
  - exists [1]. split; [reflexivity|]. split; [exists 1; split; [left; reflexivity|lra]|]. intros; lia.
  - assert (DC : (exists l1 p l2, vs = l1 ++ p :: l2 /\ p n <> 0) \/ forall v, In v vs -> v n = 0).
    { clear L. induction vs as [|v vs IHv]; [right; contradiction|]. destruct (Req_dec (v n) 0) as [E|E].
      - destruct IHv as [(l1 & p & l2 & -> & Hp)|H]; [left; exists (v :: l1), p, l2; split; [reflexivity|exact Hp]|right; intros w [<-|Hw]; [exact E|apply H, Hw]].
      - left. exists [], v, vs. split; [reflexivity|exact E]. }
    destruct DC as [(l1 & p & l2 & -> & Hp)|H].
    + set (f := fun v : nat -> R => v n / p n). set (g := fun (v : nat -> R) i => v i - f v * p i).
      destruct (IH (map g (l1 ++ l2))) as (cs & Lc & (c & Hc & Nc) & E). { rewrite map_length, app_length. rewrite app_length in L. cbn in L. lia. }
      rewrite app_length in L. cbn [length] in L.
      set (cs1 := firstn (length l1) cs). set (cs2 := skipn (length l1) cs).
      assert (Ecs : cs = cs1 ++ cs2) by (symmetry; apply firstn_skipn).
      assert (L1 : length cs1 = length l1) by (unfold cs1; rewrite firstn_length; lia).
      assert (L2 : length cs2 = length l2) by (unfold cs2; rewrite skipn_length; lia).
      set (t := - (comb cs1 (map (fun v _ => f v) l1) n + comb cs2 (map (fun v _ => f v) l2) n)).
      exists (cs1 ++ t :: cs2). split; [rewrite app_length; cbn; lia|]. split.
      * exists c. split; [|exact Nc]. rewrite Ecs in Hc. apply in_app_iff in Hc. apply in_app_iff. destruct Hc; [left; assumption|right; right; assumption].
      * intros i Hi. rewrite comb_app by exact L1. cbn [comb].
        assert (EQ : comb cs1 l1 i + comb cs2 l2 i = - t * p i).
        { destruct (Nat.eq_dec i n) as [->|Ni].
          - assert (A : forall cs vs, comb cs (map (fun v _ => f v) vs) n * p n = comb cs vs n).
            { clear -Hp. induction cs as [|c cs IH]; intros [|v vs]; cbn [map comb]; try ring. rewrite Rmult_plus_distr_r, IH. unfold f. field. exact Hp. }
            unfold t. rewrite Ropp_involutive, Rmult_plus_distr_r, !A. reflexivity.
          - specialize (E i ltac:(lia)). rewrite Ecs, map_app, comb_app in E by (rewrite map_length; exact L1). unfold g in E. rewrite !comb_map in E.
            assert (CI : forall cs vs, comb cs (map (fun v _ => f v) vs) i = comb cs (map (fun v _ => f v) vs) n).
            { clear. induction cs as [|c cs IH]; intros [|v vs]; cbn [map comb]; try reflexivity. rewrite IH. reflexivity. }
            rewrite !CI in E. unfold t. rewrite Ropp_involutive. lra. }
        lra.
    + destruct vs as [|v vs]; [discriminate|]. injection L as L. destruct (IH vs L) as (cs & Lc & (c & Hc & Nc) & E).
      exists (0 :: cs). split; [cbn; lia|]. split; [exists c; split; [right; exact Hc|exact Nc]|]. intros i Hi. cbn [comb]. destruct (Nat.eq_dec i n) as [->|Ni]; [|rewrite E by lia; ring].
      assert (Z : forall cs vs, (forall w, In w vs -> w n = 0) -> comb cs vs n = 0).
      { clear. induction cs as [|c cs IH]; intros [|v vs] H; cbn [comb]; try ring. rewrite IH by (intros; apply H; right; assumption). rewrite (H v (or_introl eq_refl)). ring. }
      rewrite Z by (intros w Hw; apply H; right; exact Hw). ring.
Qed.
Lemma comb_sg n : forall cs (A : nat -> nat -> R) i, length cs = n -> comb cs (map (fun j i => A i j) (seq 0 n)) i = sg n (fun j => A i j * nth j cs 0).
Proof.
  induction n as [|n IH]; intros cs A i L; [destruct cs; [reflexivity|discriminate]|]. destruct (exists_last (l := cs)) as (cs' & c & ->); [destruct cs; [discriminate|discriminate]|].
  rewrite app_length in L. cbn in L. rewrite seq_S, map_app, comb_app by (rewrite map_length, seq_length; lia). cbn [map comb sg Nat.add]. rewrite IH by lia.
  rewrite (app_nth2 cs') by lia. replace (n - length cs')%nat with 0%nat by lia. cbn [nth].
  rewrite (sg_ext n (fun j => A i j * nth j cs' 0) (fun j => A i j * nth j (cs' ++ [c]) 0)); [ring|]. intros j Hj. rewrite app_nth1 by lia. reflexivity.
Qed.
Definition normal_solve (n : nat) (A : mtx) (b : nat -> R) : nat -> R := elim_solve n (mprod n (mtrans A) A) (mv n (mtrans A) b).
Lemma normal_solves : solves_regular normal_solve.
Proof.
  intros n A b Reg.
  assert (Q : forall x y, quadf n (mprod n (mtrans A) A) x y = sg n (fun i => mv n A x i * mv n A y i)).
  { intros x y. unfold quadf. rewrite <- (quadf_trans n n A A x y) by trivial. reflexivity. }
  assert (SPD : spd n (mprod n (mtrans A) A)).
  { split; [intros i j _ _; unfold mprod, mtrans; apply sg_ext; intros; ring|]. intros x. rewrite Q. split; [apply sg_le; intros; apply Rle_0_sqr|].
    intros Z. apply Reg. intros i Hi. exact (sg_sq_zero n (mv n A x) Z i Hi). }
  set (x := normal_solve n A b). set (r := fun i => b i - mv n A x i).
  assert (T : forall j, (j < n)%nat -> mv n (mtrans A) r j = 0).
  { intros j Hj. unfold r, mv at 1. rewrite (sg_ext n _ (fun i => mtrans A j i * b i + - (mtrans A j i * mv n A x i))) by (intros; ring). rewrite sg_plus, sg_opp.
    fold (mv n (mtrans A) b j). fold (mv n (mtrans A) (mv n A x) j). rewrite <- mv_mprod. unfold x, normal_solve.
    pose proof (elim_solves n (mprod n (mtrans A) A) (mv n (mtrans A) b) SPD j Hj) as E. fold (mv n (mprod n (mtrans A) A) (elim_solve n (mprod n (mtrans A) A) (mv n (mtrans A) b)) j) in E. rewrite E. ring. }
  intros i Hi. fold (mv n A x i). enough (Z : r i = 0) by (unfold r in Z; lra). clearbody x.
  destruct (dependent n (map (fun j i => A i j) (seq 0 n) ++ [r])) as (cs & Lc & (c & Hc & Nc) & E); [rewrite app_length, map_length, seq_length; cbn; lia|].
  destruct (exists_last (l := cs)) as (cs' & t & ->); [destruct cs; discriminate|]. rewrite app_length in Lc. cbn in Lc. assert (Lc' : length cs' = n) by lia.
  assert (E' : forall i, (i < n)%nat -> mv n A (fun j => nth j cs' 0) i + t * r i = 0).
  { intros l Hl. specialize (E l Hl). rewrite comb_app in E by (rewrite map_length, seq_length; exact Lc'). cbn [comb] in E. rewrite comb_sg in E by exact Lc'. unfold mv. lra. }
  destruct (Req_dec t 0) as [->|Nt].
  - exfalso. assert (Z : forall j, (j < n)%nat -> nth j cs' 0 = 0) by (apply Reg; intros l Hl; specialize (E' l Hl); unfold mv in E'; lra).
    apply in_app_iff in Hc as [Hc|[Hc|[]]]; [|congruence]. apply Nc. destruct (In_nth _ _ 0 Hc) as (j & Hj & <-). apply Z. lia.
  - assert (S0 : sg n (fun i => r i * r i) = 0).
    { assert (X : t * sg n (fun i => r i * r i) = 0).
      { rewrite <- sg_scal. rewrite (sg_ext n _ (fun i => - (r i * mv n A (fun j => nth j cs' 0) i))).
        - rewrite sg_opp. rewrite (sg_ext n _ (fun i => sg n (fun j => r i * (A i j * nth j cs' 0)))) by (intros; rewrite sg_scal; reflexivity).
          rewrite sg_swap. rewrite sg_zero; [ring|]. intros j Hj. specialize (T j Hj). rewrite (sg_ext n _ (fun i => nth j cs' 0 * (mtrans A j i * r i))) by (intros; unfold mtrans; ring).
          rewrite sg_scal. unfold mv in T. rewrite T. ring.
        - intros l Hl. specialize (E' l Hl). replace (t * (r l * r l)) with (r l * (t * r l)) by ring. replace (t * r l) with (- mv n A (fun j => nth j cs' 0) l) by lra. ring. }
      apply Rmult_integral in X as [X|X]; [contradiction|exact X]. }
    exact (sg_sq_zero n r S0 i Hi).
Qed.

(** * nodes on a segment: the trapezoidal rule and Simpson's rule *)
Definition gl12 (deg : nat) (a b : pt) : list (pt * R) :=
  let l := sqrt ((b 0%nat - a 0%nat) ^ 2 + (b 1%nat - a 1%nat) ^ 2) in
  if (deg <=? 1)%nat then [(a, l / 2); (b, l / 2)]
  else [(a, l / 6); (pt2 ((a 0%nat + b 0%nat) / 2) ((a 1%nat + b 1%nat) / 2), 4 * l / 6); (b, l / 6)].
Definition cst (t : R) : pt := fun _ => t.
Lemma trapezoid q : pvars 1 q -> (pdeg q <= 1)%nat -> Isimp 1 q = (peval q (cst 0) + peval q (cst 1)) / 2.
Proof.
  intros V D. rewrite <- !(monos_eval 1 q _ V). unfold Isimp. pose proof (monos_ok 1 q) as OK. unfold mok in OK. revert OK. generalize (monos 1 q). intros m OK.
  induction OK as [|[c a] m [L N] OK IH]; cbn [fold_right meval fst snd]; [lra|]. rewrite IH. destruct a as [|e [|z a]]; try discriminate L. cbn in N.
  destruct e as [|[|e]]; [| |lia]; unfold smoment, cst; cbn; lra.
Qed.
Lemma simpson q : pvars 1 q -> (pdeg q <= 3)%nat -> Isimp 1 q = (peval q (cst 0) + 4 * peval q (cst (1 / 2)) + peval q (cst 1)) / 6.
Proof.
  intros V D. rewrite <- !(monos_eval 1 q _ V). unfold Isimp. pose proof (monos_ok 1 q) as OK. unfold mok in OK. revert OK. generalize (monos 1 q). intros m OK.
  induction OK as [|[c a] m [L N] OK IH]; cbn [fold_right meval fst snd]; [lra|]. rewrite IH. destruct a as [|e [|z a]]; try discriminate L. cbn in N.
  destruct e as [|[|[|[|e]]]]; [| | | |lia]; unfold smoment, cst; cbn; field.
Qed.
Lemma gl12_lobatto k ax ay bx by' o : (k = 1 \/ k = 2)%nat -> lobatto k (seg_facet ax ay bx by' o) (gl12 (2 * k - 1) (pt2 ax ay) (pt2 bx by')) /\
  lobatto k (seg_facet ax ay bx by' o) (gl12 (2 * k - 1) (pt2 bx by') (pt2 ax ay)).
Proof.
  intros Hk. set (l := seg_len ax ay bx by').
  assert (A : forall p, (pdeg p <= 2 * k - 1)%nat -> qsum (gl12 (2 * k - 1) (pt2 ax ay) (pt2 bx by')) (peval p) = el_int 1 (seg_sb ax ay bx by') l p).
  { intros p D. unfold el_int. pose proof (psub_deg (seg_sb ax ay bx by') p (seg_deg ax ay bx by')) as D'.
    assert (V : pvars 1 (psub (seg_sb ax ay bx by') p)) by (apply psub_vars; intros; apply seg_vars).
    assert (E : forall t u, t = pt2 (ax + (bx - ax) * u) (ay + (by' - ay) * u) -> peval p t = peval (psub (seg_sb ax ay bx by') p) (cst u)).
    { intros t u ->. rewrite psub_eval. apply peval_ext. intros [|[|i]]; reflexivity. }
    assert (F0 : pt2 ax ay = pt2 (ax + (bx - ax) * 0) (ay + (by' - ay) * 0)) by (f_equal; ring).
    assert (F1 : pt2 bx by' = pt2 (ax + (bx - ax) * 1) (ay + (by' - ay) * 1)) by (f_equal; ring).
    assert (F2 : pt2 ((pt2 ax ay 0%nat + pt2 bx by' 0%nat) / 2) ((pt2 ax ay 1%nat + pt2 bx by' 1%nat) / 2) = pt2 (ax + (bx - ax) * (1 / 2)) (ay + (by' - ay) * (1 / 2))) by (cbn [pt2]; f_equal; field).
    destruct Hk as [-> | ->]; unfold gl12; cbn [Nat.leb Nat.mul Nat.sub Nat.add].
    - rewrite trapezoid by (try exact V; lia). cbn [qsum]. rewrite (E _ 0 F0), (E _ 1 F1). change (sqrt _) with l. field.
    - rewrite simpson by (try exact V; lia). cbn [qsum]. rewrite (E _ 0 F0), (E _ 1 F1), (E _ (1 / 2) F2). change (sqrt _) with l. field. }
  split; (split; [destruct Hk as [-> | ->]; reflexivity|]); intros p D; cbn [seg_facet fa_int]; fold l; rewrite <- (A p D); [reflexivity|].
  assert (Sq : sqrt ((pt2 ax ay 0%nat - pt2 bx by' 0%nat) ^ 2 + (pt2 ax ay 1%nat - pt2 bx by' 1%nat) ^ 2) = sqrt ((pt2 bx by' 0%nat - pt2 ax ay 0%nat) ^ 2 + (pt2 bx by' 1%nat - pt2 ax ay 1%nat) ^ 2)) by (f_equal; ring).
  assert (Mid : pt2 ((pt2 bx by' 0%nat + pt2 ax ay 0%nat) / 2) ((pt2 bx by' 1%nat + pt2 ax ay 1%nat) / 2) = pt2 ((pt2 ax ay 0%nat + pt2 bx by' 0%nat) / 2) ((pt2 ax ay 1%nat + pt2 bx by' 1%nat) / 2)) by (f_equal; f_equal; ring).
  unfold gl12. rewrite Sq, Mid. destruct Hk as [-> | ->]; cbn [Nat.leb Nat.mul Nat.sub Nat.add qsum]; ring.
Qed.

(** * a triangle *)
Definition tri_v (ax ay bx by' cx cy h fx fy : R) : vcell :=
  let o := sgnJ ((bx - ax) * (cy - ay) - (by' - ay) * (cx - ax)) in
  mkVC (fun d => el_quad (tri_elem ax ay bx by' cx cy h) (Nat.max 1 d)) (pt2 ((ax + bx + cx) / 3) ((ay + by' + cy) / 3)) fx fy
    (tri_int ax ay bx by' cx cy (PC 1))
    [mkVF (pt2 ax ay) (pt2 bx by') false (seg_normal ax ay bx by' o); mkVF (pt2 bx by') (pt2 cx cy) false (seg_normal bx by' cx cy o);
     mkVF (pt2 ax ay) (pt2 cx cy) true (seg_normal ax ay cx cy (- o))].
Section Tri.
  Context (ax ay bx by' cx cy h fx fy : R) (Hh : 0 < h) (Hf : fx <> 0 /\ fy <> 0).
  Let J := (bx - ax) * (cy - ay) - (by' - ay) * (cx - ax).
  Context (HJ : J <> 0).
  Lemma tri_fat : fat (tri_on ax ay bx by' cx cy).
  Proof.
    exists ax, ay, bx, by', cx, cy. split; [exact HJ|]. intros s t x Hs Ht Hst E0 E1 E. exists (pt2 s t). split; [split; [intros [|[|i]] Hi; cbn; lra|cbn; lra]|].
    intros [|[|i]]; [rewrite E0; cbn; ring|rewrite E1; cbn; ring|apply E; lia].
  Qed.
  Lemma tri_quad d p : (pdeg p <= Nat.max 1 d)%nat -> qsum (el_quad (tri_elem ax ay bx by' cx cy h) (Nat.max 1 d)) (peval p) = tri_int ax ay bx by' cx cy p.
  Proof. apply (fit_quad _ _ _ (cf_elem _ _ _ (tri_cell_fits ax ay bx by' cx cy h Hh HJ))). Qed.
  Lemma gl12_ends k a b : (k = 1 \/ k = 2)%nat -> fst (hd node0 (gl12 (2 * k - 1) a b)) = a /\ fst (last (gl12 (2 * k - 1) a b) node0) = b.
  Proof. intros [-> | ->]; split; reflexivity. Qed.
  Lemma tri_v_fits k : (k = 1 \/ k = 2)%nat -> vem_fits gl12 k (tri_poly ax ay bx by' cx cy h) (tri_v ax ay bx by' cx cy h fx fy).
  Proof.
    intros Hk. constructor.
    - apply tri_is_polytope; assumption.
    - exact tri_fat.
    - intros d p D. apply tri_quad. lia.
    - intros p D. apply (tri_quad 0). exact D.
    - reflexivity.
    - exact Hf.
    - cbn [tri_poly po_facets tri_v vc_faces]. 
      repeat (apply Forall2_cons; [split; [reflexivity|]; first [exact (proj1 (gl12_lobatto k _ _ _ _ _ Hk))|exact (proj2 (gl12_lobatto k _ _ _ _ _ Hk))]|]). apply Forall2_nil.
    - split; [discriminate|]. cbn [nodes_of tri_v vc_faces map length face_nodes vf_flip vf_p0 vf_p1]. intros e He i.
      destruct e as [|[|[|e]]]; [| | |lia]; cbn [nth Nat.add Nat.modulo Nat.divmod Nat.sub fst snd]; cbn [Nat.modulo Nat.divmod fst snd Nat.sub nth];
        rewrite (proj1 (gl12_ends k _ _ Hk)), (proj2 (gl12_ends k _ _ Hk)); reflexivity.
  Qed.
End Tri.

(** * a triangle with a hanging node *)
Definition hang_poly : polytope :=
  let o := sgnJ ((2 - 0) * (1 - 0) - (0 - 0) * (0 - 0)) in
  mkPoly (tri_on 0 0 2 0 0 1) 3 (tri_int 0 0 2 0 0 1) [seg_facet 0 0 1 0 o; seg_facet 1 0 2 0 o; seg_facet 2 0 0 1 o; seg_facet 0 0 0 1 (- o)].
Definition hang_v (fx fy : R) : vcell :=
  let o := sgnJ ((2 - 0) * (1 - 0) - (0 - 0) * (0 - 0)) in
  mkVC (fun d => el_quad (tri_elem 0 0 2 0 0 1 3) (Nat.max 1 d)) (pt2 (2 / 3) (1 / 3)) fx fy (tri_int 0 0 2 0 0 1 (PC 1))
    [mkVF (pt2 0 0) (pt2 1 0) false (seg_normal 0 0 1 0 o); mkVF (pt2 1 0) (pt2 2 0) false (seg_normal 1 0 2 0 o);
     mkVF (pt2 2 0) (pt2 0 1) false (seg_normal 2 0 0 1 o); mkVF (pt2 0 0) (pt2 0 1) true (seg_normal 0 0 0 1 (- o))].
Lemma hangJ : (2 - 0) * (1 - 0) - (0 - 0) * (0 - 0) <> 0.
Proof. lra. Qed.
Lemma len_seg a b : a <= b -> seg_len a 0 b 0 = b - a.
Proof. intros H. unfold seg_len. replace ((b - a) ^ 2 + (0 - 0) ^ 2) with ((b - a) ^ 2) by ring. rewrite <- Rsqr_pow2. apply sqrt_Rsqr. lra. Qed.
Lemma dl_lin F f a b x : (forall x, derivable_pt_lim F x (f x)) -> b <> 0 -> derivable_pt_lim (fun t => F (a + b * t) / b) x (f (a + b * x)).
Proof.
  intros H Hb. assert (D : derivable_pt_lim (fun t => a + b * t) x b).
  { pose proof (derivable_pt_lim_plus (fun _ => a) (mult_real_fct b id) x 0 (b * 1) (derivable_pt_lim_const a x) (derivable_pt_lim_scal id b x 1 (derivable_pt_lim_id x))) as D.
    replace (0 + b * 1) with b in D by ring. exact D. }
  replace (f (a + b * x)) with (/ b * (f (a + b * x) * b)) by (field; exact Hb).
  eapply dl_ext; [|apply (derivable_pt_lim_scal (comp F (fun t => a + b * t)) (/ b) x (f (a + b * x) * b)); apply derivable_pt_lim_comp; [exact D|apply H]].
  intros y. unfold mult_real_fct, comp. field. exact Hb.
Qed.
Lemma hang_split p : el_int 1 (seg_sb 0 0 2 0) (seg_len 0 0 2 0) p =
  el_int 1 (seg_sb 0 0 1 0) (seg_len 0 0 1 0) p + el_int 1 (seg_sb 1 0 2 0) (seg_len 1 0 2 0) p.
Proof.
  set (q := psub (fun i => match i with O => PX 0 | _ => PC 0 end) p).
  assert (V : pvars 1 q) by (apply psub_vars; intros [|i]; cbn; lia).
  destruct (Isimp_int 1 q V) as (g & Hg & (F & HF & _)).
  set (f := fun s => peval p (pt2 s 0)).
  assert (DF : forall x, derivable_pt_lim F x (f x)).
  { intros x. replace (f x) with (g x); [apply HF|]. specialize (Hg x). cbn in Hg. unfold f, q in *. rewrite psub_eval in Hg. first [rewrite <- Hg|rewrite Hg]. apply peval_ext. intros [|[|i]]; reflexivity. }
  assert (SV : forall a b, a < b -> el_int 1 (seg_sb a 0 b 0) (seg_len a 0 b 0) p = F b - F a).
  { intros a b H. rewrite (seg_value a 0 b 0 p ((F b - F a) / (b - a))); [rewrite len_seg by lra; field; lra|].
    exists (fun t => F (a + (b - a) * t) / (b - a)). split; [intros x; pose proof (dl_lin F f a (b - a) x DF ltac:(lra)) as D; replace (peval p (pt2 (a + (b - a) * x) (0 + (0 - 0) * x))) with (f (a + (b - a) * x)); [exact D|]|].
    - unfold f. f_equal. f_equal. ring.
    - replace (a + (b - a) * 1) with b by ring. replace (a + (b - a) * 0) with a by ring. field. lra. }
  rewrite !SV by lra. ring.
Qed.
Lemma hang_is_polytope : is_polytope 2 hang_poly.
Proof.
  pose proof (tri_is_polytope 0 0 2 0 0 1 3 ltac:(lra) hangJ) as [P1 P2 [P3 P4] P5 P6 P7]. constructor; try assumption.
  - split; [exact P3|]. intros f Hf. cbn [hang_poly po_facets] in Hf. destruct Hf as [<-|[<-|[<-|[<-|[]]]]]; cbn [seg_facet fa_diam]; apply seg_pos; lra.
  - assert (Incl : forall a b x, 0 <= a -> a < b -> b <= 2 -> el_on 1 (seg_sb a 0 b 0) x -> tri_on 0 0 2 0 0 1 x).
    { intros a b x Ha Hab Hb (z & (Z1 & Z2) & Ez). cbn [sg] in Z2. specialize (Z1 0%nat ltac:(lia)). exists (pt2 ((a + (b - a) * z 0%nat) / 2) 0). split.
      - pose proof (Rmult_le_pos (b - a) (z 0%nat) ltac:(lra) Z1). pose proof (Rmult_le_compat_l (b - a) (z 0%nat) 1 ltac:(lra) ltac:(lra)). split; [intros [|[|i]] Hi; cbn; lra|cbn; lra].
      - intros i. rewrite Ez. destruct i as [|[|i]]; cbn; field. }
    intros f Hf. cbn [hang_poly po_facets] in Hf. destruct Hf as [<-|[<-|Hf]]; [cbn [seg_facet fa_on fa_int]; (split; [apply seg_integral; lra|])..|].
    + intros x. apply Incl; lra.
    + intros x. apply Incl; lra.
    + apply P5. cbn [tri_poly po_facets]. right. exact Hf.
  - intros c p Hc. cbn [hang_poly po_int]. specialize (P6 c p Hc). cbn [tri_poly po_int] in P6. rewrite P6. cbn [tri_poly hang_poly po_facets fsum seg_facet fa_normal fa_int]. rewrite hang_split.
    set (o := sgnJ _).
    assert (N : seg_normal 0 0 2 0 o c = seg_normal 0 0 1 0 o c /\ seg_normal 0 0 2 0 o c = seg_normal 1 0 2 0 o c).
    { destruct c as [|[|c]]; [| |lia]; unfold seg_normal; rewrite !len_seg by lra; cbn [pt2]; split; field. }
    destruct N as [<- N2]. rewrite <- N2. ring.
Qed.
Lemma hang_v_fits fx fy : fx <> 0 /\ fy <> 0 -> vem_fits gl12 1 hang_poly (hang_v fx fy).
Proof.
  intros Hf. constructor.
  - exact hang_is_polytope.
  - exact (tri_fat 0 0 2 0 0 1 hangJ).
  - intros d p D. apply (tri_quad 0 0 2 0 0 1 3 ltac:(lra) hangJ). lia.
  - intros p D. apply (tri_quad 0 0 2 0 0 1 3 ltac:(lra) hangJ 0). exact D.
  - reflexivity.
  - exact Hf.
  - cbn [hang_poly po_facets hang_v vc_faces]. 
    repeat (apply Forall2_cons; [split; [reflexivity|]; first [exact (proj1 (gl12_lobatto 1 _ _ _ _ _ (or_introl eq_refl)))|exact (proj2 (gl12_lobatto 1 _ _ _ _ _ (or_introl eq_refl)))]|]). apply Forall2_nil.
  - split; [discriminate|]. cbn [nodes_of hang_v vc_faces map length face_nodes vf_flip vf_p0 vf_p1]. intros e He i.
    destruct e as [|[|[|[|e]]]]; [| | | |lia]; reflexivity.
Qed.
(** integrals over triangles *)
Lemma tri_mean_x : cell_mean hang_poly (PX 0) = 2 / 3.
Proof.
  unfold cell_mean. cbn [hang_poly po_int]. unfold tri_int, el_int, Isimp, smoment. set (s := Rabs _). assert (0 < s) by (apply Rabs_pos_lt; lra). cbn. field. lra.
Qed.
Lemma tri_third : tri_int (-1) (-1) 2 (-1) (-1) 2 (PMul (PX 0) (PMul (PX 0) (PX 0))) <> 0.
Proof.
  unfold tri_int, el_int, Isimp, smoment. set (s := Rabs _). assert (0 < s) by (apply Rabs_pos_lt; lra). cbn. intros Z. apply Rmult_integral in Z as [Z|Z]; lra.
Qed.
