(** The matrices of the virtual element in closed form; B D = G *)
From Coq Require Import List Arith Reals Lia Lra Bool.
From Verif Require Import Poly_Spec Poly_Proofs HHO_Spec HHO_Model HHO_Setting HHO_Proofs HHO2_Proofs VEM_Spec VEM_Model VEM_Setting VEM_Proofs.
Import ListNotations.
Open Scope R_scope.

Lemma delta_spd : spd 2 delta.
Proof.
  split; [intros i j _ _; unfold delta; rewrite Nat.eqb_sym; reflexivity|]. intros x. unfold quadf, delta. cbn.
  pose proof (Rle_0_sqr (x 0%nat)). pose proof (Rle_0_sqr (x 1%nat)). unfold Rsqr in *. split; [lra|]. intros E [|[|i]] Hi; [| |lia]; apply Rsqr_0_uniq; unfold Rsqr; lra.
Qed.
Lemma kgrad_delta p c x : (c < 2)%nat -> peval (kgrad 2 delta p c) x = peval (pdiff c p) x.
Proof. intros H. destruct c as [|[|c]]; try lia; cbn; unfold delta; cbn; ring. Qed.
Lemma last_nth_len (l : list (pt * R)) : forall k, length l = S k -> last l node0 = nth k l node0.
Proof.
  induction l as [|x l IH]; intros k Hl; [discriminate|]. destruct l as [|y l]; [injection Hl as <-; reflexivity|].
  destruct k as [|k]; [discriminate|]. change (last (x :: y :: l) node0) with (last (y :: l) node0). cbn [nth]. apply IH. injection Hl as Hl. exact (f_equal S Hl).
Qed.
Section Fits.
  Context (gl : nat -> pt -> pt -> list (pt * R)) (k : nat) (Hk : (1 <= k)%nat) (P : polytope) (v : vcell) (F : vem_fits gl k P v).
  Let HP := vfit_poly _ _ _ _ F.
  Let HI := poly_int _ _ HP.
  Let n := basis_size k.
  Let m := vm v k.
  Let en := en 2 P delta.
  Let vol := po_int P (PC 1).
  Lemma energy_en p q : energy P p q = en p q.
  Proof.
    apply (I_ext _ _ HI). intros x. unfold graddot. rewrite !peval_psum. apply sg_ext. intros c Hc. cbn [peval]. rewrite kgrad_delta by exact Hc. reflexivity.
  Qed.
  Lemma vol_pos : 0 < vol.
  Proof.
    assert (A : 0 <= vol) by (apply (int_pos _ _ HI); intros; cbn; lra). destruct (Req_dec vol 0) as [E|E]; [|lra].
    destruct (poly_point _ _ HP) as (x & Hx). pose proof (int_def _ _ HI (PC 1) ltac:(intros; cbn; lra) E x Hx) as Z. cbn in Z. lra.
  Qed.
  (** ** G *)
  Lemma stiff_entry i j : (i < n)%nat -> (j < n)%nat -> make_stiffness_matrix 2 (velem v) (vbasis v k) i j = en (m i) (m j).
  Proof.
    intros Hi Hj. unfold make_stiffness_matrix. cbn [vbasis b_deg].
    replace (0 <? k)%nat with true by (symmetry; apply Nat.ltb_lt; lia).
    assert (G : forall q M, fold_left (fun M qp => let '(x, w) := qp in fun i j => M i j + sg 2 (fun c => w * dphi (vbasis v k) x i c * dphi (vbasis v k) x j c)) q M i j =
        M i j + qsum q (peval (graddot 2 (m i) (kgrad 2 delta (m j))))).
    { induction q as [|[x w] q IH]; intros M; cbn [fold_left qsum]; [lra|]. rewrite IH. unfold graddot. rewrite peval_psum, <- sg_scal.
      rewrite (sg_ext 2 (fun c => w * dphi (vbasis v k) x i c * dphi (vbasis v k) x j c)
        (fun c => w * peval (PMul (pdiff c (m i)) (kgrad 2 delta (m j) c)) x)); [ring|].
      intros c Hc. unfold dphi. cbn [peval]. rewrite kgrad_delta by exact Hc. unfold m, vm. ring. }
    change {| b_deg := k; b_size := basis_size k; b_poly := b_poly (vbasis v k) |} with (vbasis v k).
    rewrite G. unfold zeroM. rewrite Rplus_0_l. cbn [velem el_quad].
    apply (exact_int _ _ HI _ (vfit_quad _ _ _ _ F)). apply (deg_le_mono _ (k - 1 + (k - 1))); [lia|]. apply deg_graddot; [apply vm_deg, Hi|].
    intros c. apply deg_kgrad. apply vm_deg, Hj.
  Qed.
  Lemma en_m0 q : en (m 0%nat) q = 0.
  Proof. unfold en. rewrite (en_sym 2 P HP delta delta_spd). apply en_const_r; [exact HP|]. apply vm_one. Qed.
  Lemma int_m_quad j : (j < n)%nat -> qsum (vc_quad v (2 * (k - 1))) (peval (m j)) = po_int P (m j).
  Proof.
    intros Hj. destruct (Nat.eq_dec k 1) as [E|E].
    - replace (2 * (k - 1))%nat with 0%nat by lia. apply (vfit_quad0 _ _ _ _ F). pose proof (vm_pdeg v k j Hj). fold m in H. lia.
    - apply (exact_int _ _ HI _ (vfit_quad _ _ _ _ F)). apply (deg_le_mono _ k); [lia|]. apply vm_deg, Hj.
  Qed.
  Lemma G_entry i j : (i < n)%nat -> (j < n)%nat -> matrix_G v k i j = if (i =? 0)%nat then po_int P (m j) / vol else en (m i) (m j).
  Proof.
    intros Hi Hj. unfold matrix_G. cbv zeta.
    assert (A : forall q M, fold_left (fun M qp => let '(x, w) := qp in upd_row 0 (fun r j => r j + w * phi (vbasis v k) x j) M) q M i j =
      if (i =? 0)%nat then M i j + qsum q (peval (m j)) else M i j).
    { induction q as [|[x w] q IH]; intros M; cbn [fold_left qsum]; [destruct (i =? 0)%nat; lra|]. rewrite IH. unfold upd_row.
      destruct (i =? 0)%nat; [|reflexivity]. rewrite phi_vm. fold m. ring. }
    unfold upd_row at 1. destruct (Nat.eqb_spec i 0) as [->|Ni]; rewrite A.
    - rewrite stiff_entry by assumption. rewrite en_m0, int_m_quad by exact Hj. rewrite (vfit_meas _ _ _ _ F). cbn [Nat.eqb]. unfold vol. f_equal. ring.
    - apply stiff_entry; assumption.
  Qed.
  Lemma n_pos : (0 < n)%nat.
  Proof. apply basis_size_pos. Qed.
  Lemma int_m0 : po_int P (m 0%nat) = vol.
  Proof. apply (I_ext _ _ HI). intros x. unfold m. rewrite vm_one. reflexivity. Qed.
  (** the rows of G *)
  Lemma G_row0 c : mv n (matrix_G v k) c 0 = po_int P (lincomb n c m) / vol.
  Proof.
    rewrite (I_lincomb _ _ HI). unfold Rdiv. rewrite (Rmult_comm (sg _ _)), <- sg_scal. apply sg_ext. intros j Hj. rewrite G_entry by (exact Hj || apply n_pos). cbn [Nat.eqb]. unfold Rdiv. ring.
  Qed.
  Lemma G_row i c : (0 < i)%nat -> (i < n)%nat -> mv n (matrix_G v k) c i = en (m i) (lincomb n c m).
  Proof.
    intros H0 Hi. unfold en. rewrite (en_lincomb_r 2 P HP delta). apply sg_ext. intros j Hj. rewrite G_entry by assumption.
    rewrite (proj2 (Nat.eqb_neq i 0)) by lia. unfold en. ring.
  Qed.
  Lemma G_regular x : (forall i, (i < n)%nat -> mv n (matrix_G v k) x i = 0) -> forall i, (i < n)%nat -> x i = 0.
  Proof.
    intros H. set (p := lincomb n x m).
    assert (E : en p p = 0).
    { unfold p at 1, en. rewrite (en_lincomb_l 2 P HP delta). apply sg_zero. intros i Hi. destruct (Nat.eq_dec i 0) as [->|N].
      - fold en. rewrite en_m0. ring.
      - fold en. unfold p. rewrite <- G_row by lia. rewrite H by exact Hi. ring. }
    destruct (en_def 2 P HP delta delta_spd p E) as (c & Hc).
    assert (V0 : c = 0).
    { pose proof (H 0%nat n_pos) as Z. rewrite G_row0 in Z. fold p in Z. rewrite (int_ext _ _ HI p (pscal c (PC 1))) in Z by (intros y Hy; rewrite Hc by exact Hy; cbn; ring).
      rewrite (int_scal _ _ HI) in Z. fold vol in Z. pose proof vol_pos. replace (c * vol / vol) with c in Z by (field; lra). exact Z. }
    apply (vm_indep v (vfit_scal _ _ _ _ F) (po_on P) k x (vfit_fat _ _ _ _ F)). intros y Hy. fold n m p. rewrite Hc by exact Hy. exact V0.
  Qed.

  (** ** D *)
  Let nodes := nodes_of gl k v.
  Let nf := nfaces v.
  Let nb := (nf * k)%nat.
  Let lbs := inner_size k.
  Let N := vdofs v k.
  Lemma nodes_length : length nodes = nf.
  Proof. unfold nodes, nodes_of. apply map_length. Qed.
  Lemma nf_pos : (0 < nf)%nat.
  Proof. destruct (vfit_chain _ _ _ _ F) as [H _]. fold nodes in H. rewrite <- nodes_length. destruct nodes; [contradiction|cbn; lia]. Qed.
  Lemma node_lengths f : In f (vc_faces v) -> length (face_nodes gl k f) = S k.
  Proof.
    pose proof (vfit_faces _ _ _ _ F) as H. revert H. generalize (po_facets P) (vc_faces v). intros fs vs H. induction H as [|a b l l' (A & B) H IH]; intros I; [contradiction|].
    destruct I as [<-|I]; [apply B|apply IH, I].
  Qed.
  Lemma nth_nodes e : (e < nf)%nat -> length (nth e nodes []) = S k.
  Proof.
    intros He. assert (I : In (nth e nodes []) nodes) by (apply nth_In; rewrite nodes_length; exact He).
    unfold nodes, nodes_of in I. apply in_map_iff in I as (f & E & I). unfold nodes, nodes_of. rewrite <- E. apply node_lengths, I.
  Qed.
  Lemma d_fold l : forall c M i j, snd (fold_left (d_node (vbasis v k)) l (c, M)) i j =
    if ((c <=? i) && (i <? c + length l))%nat then peval (m j) (fst (nth (i - c) l node0)) else M i j.
  Proof.
    induction l as [|q l IH]; intros c M i j; cbn [fold_left length snd].
    - destruct (Nat.leb_spec c i); destruct (Nat.ltb_spec i (c + 0)); cbn; try reflexivity; lia.
    - unfold d_node at 2. rewrite IH. unfold upd_row. destruct (Nat.leb_spec c i) as [A|A]; cbn [andb].
      + destruct (Nat.eq_dec i c) as [->|Ne].
        * rewrite (proj2 (Nat.leb_gt _ _)) by lia. cbn [andb]. rewrite Nat.eqb_refl, Nat.sub_diag. cbn [nth].
          rewrite (proj2 (Nat.ltb_lt _ _)) by lia. reflexivity.
        * rewrite (proj2 (Nat.leb_le (S c) i)) by lia. cbn [andb]. replace (S c + length l)%nat with (c + S (length l))%nat by lia.
          rewrite (proj2 (Nat.eqb_neq i c) Ne). replace (i - c)%nat with (S (i - S c)) by lia. cbn [nth]. reflexivity.
      + rewrite (proj2 (Nat.leb_gt (S c) i)) by lia. cbn [andb]. rewrite (proj2 (Nat.eqb_neq i c)) by lia. reflexivity.
  Qed.
  Lemma d_count l : forall c M, fst (fold_left (d_node (vbasis v k)) l (c, M)) = (c + length l)%nat.
  Proof. induction l as [|q l IH]; intros c M; cbn [fold_left length]; [cbn; lia|]. unfold d_node at 2. rewrite IH. lia. Qed.
  Lemma d_faces l : (forall f, In f l -> length (face_nodes gl k f) = S k) -> forall e0 M i j,
    let r := fold_left (d_face gl k (vbasis v k)) l ((e0 * k)%nat, M) in
    snd r i j = (if ((e0 * k <=? i) && (i <? (e0 + length l) * k))%nat
                 then peval (m j) (fst (nth (i mod k) (nth (i / k - e0) (map (face_nodes gl k) l) []) node0)) else M i j).
  Proof.
    induction l as [|f l IH]; intros HL e0 M i j r; unfold r; cbn [fold_left length].
    - rewrite Nat.add_0_r. destruct (Nat.leb_spec (e0 * k) i); destruct (Nat.ltb_spec i (e0 * k)); cbn; try reflexivity; lia.
    - pose proof (HL f (or_introl eq_refl)) as Lf. set (r1 := d_face gl k (vbasis v k) ((e0 * k)%nat, M) f).
      assert (E : r1 = ((S e0 * k)%nat, snd r1)).
      { rewrite (surjective_pairing r1). f_equal. unfold r1, d_face. rewrite d_count, firstn_length, Lf. lia. }
      rewrite E, IH by (intros g Hg; apply HL; right; exact Hg).
      assert (S1 : forall i j, snd r1 i j = if ((e0 * k <=? i) && (i <? S e0 * k))%nat then peval (m j) (fst (nth (i - e0 * k) (face_nodes gl k f) node0)) else M i j).
      { intros i' j'. unfold r1, d_face. rewrite d_fold, firstn_length, Lf. replace (e0 * k + Nat.min (S k - 1) (S k))%nat with (S e0 * k)%nat by lia.
        destruct ((e0 * k <=? i')%nat && (i' <? S e0 * k)%nat) eqn:B; [|reflexivity]. apply andb_prop in B as [B1 B2]. apply Nat.leb_le in B1. apply Nat.ltb_lt in B2.
        assert (FN : forall (l : list (pt * R)) a b, (b < a)%nat -> nth b (firstn a l) node0 = nth b l node0).
        { clear. induction l as [|x l IH]; intros [|a] [|b] H; try lia; try reflexivity. cbn. apply IH. lia. }
        rewrite FN by lia. reflexivity. }
      assert (DM : i = (k * (i / k) + i mod k)%nat) by (apply Nat.div_mod; lia). pose proof (Nat.mod_upper_bound i k ltac:(lia)) as MB.
      replace ((S e0 + length l) * k)%nat with ((e0 + S (length l)) * k)%nat by lia.
      destruct (Nat.leb_spec (S e0 * k) i) as [C|C]; cbn [andb].
      + assert (Q : (S e0 <= i / k)%nat) by (apply Nat.div_le_lower_bound; lia).
        rewrite (proj2 (Nat.leb_le (e0 * k) i)) by lia. cbn [andb].
        destruct (Nat.ltb_spec i ((e0 + S (length l)) * k)) as [B|B].
        * cbn [map]. replace (i / k - e0)%nat with (S (i / k - S e0)) by lia. cbn [nth]. reflexivity.
        * rewrite S1. rewrite (proj2 (Nat.ltb_ge i (S e0 * k))) by lia. rewrite andb_false_r. reflexivity.
      + rewrite S1. rewrite (proj2 (Nat.ltb_lt i (S e0 * k))) by lia. rewrite andb_true_r.
        destruct (Nat.leb_spec (e0 * k) i) as [B|B]; cbn [andb]; [|reflexivity].
        rewrite (proj2 (Nat.ltb_lt i ((e0 + S (length l)) * k))) by nia.
        assert (Q : (i / k = e0)%nat) by (symmetry; apply (Nat.div_unique i k e0 (i - e0 * k)); lia).
        assert (Q2 : (i mod k = i - e0 * k)%nat) by (rewrite Q in DM; lia).
        rewrite Q, Q2, Nat.sub_diag. reflexivity.
  Qed.
  Lemma D_node d j : (d < nb)%nat -> matrix_D gl v k d j = peval (m j) (fst (nth (d mod k) (nth (d / k) nodes []) node0)).
  Proof.
    intros Hd. unfold matrix_D. cbv zeta. set (D0 := snd (fold_left (d_face gl k (vbasis v k)) (vc_faces v) (0%nat, zeroM))).
    assert (E : D0 d j = peval (m j) (fst (nth (d mod k) (nth (d / k) nodes []) node0))).
    { unfold D0. pose proof (d_faces (vc_faces v) node_lengths 0 zeroM d j) as Q. cbv zeta in Q. cbn [Nat.add Nat.mul] in Q. fold (nfaces v) nf nb in Q. rewrite Q.
      rewrite (proj2 (Nat.ltb_lt d nb) Hd). cbn [Nat.leb andb]. rewrite Nat.sub_0_r. reflexivity. }
    destruct (k =? 1)%nat; [exact E|]. rewrite <- E. fold nf nb.
    unfold map_rows at 1. rewrite (proj2 (Nat.leb_gt nb d) Hd). cbn [andb].
    generalize D0. generalize (vc_quad v (2 * k - 2)). induction l as [|[x w] l IH]; intros M; [reflexivity|]. cbn [fold_left]. rewrite IH. unfold map_rows.
    rewrite (proj2 (Nat.leb_gt nb d) Hd). reflexivity.
  Qed.
  Lemma D_moment l j : (2 <= k)%nat -> (l < lbs)%nat -> (j < n)%nat -> matrix_D gl v k (nb + l)%nat j = po_int P (PMul (vm v (k - 2) l) (m j)) / vol.
  Proof.
    intros H2 Hl Hj. unfold matrix_D. cbv zeta. rewrite (proj2 (Nat.eqb_neq k 1)) by lia. set (D0 := snd (fold_left (d_face gl k (vbasis v k)) (vc_faces v) (0%nat, zeroM))).
    fold nf nb lbs.
    assert (Z : D0 (nb + l)%nat j = 0).
    { unfold D0. pose proof (d_faces (vc_faces v) node_lengths 0 zeroM (nb + l)%nat j) as Q. cbv zeta in Q. cbn [Nat.mul] in Q. rewrite (Nat.add_0_l (length _)) in Q. fold (nfaces v) nf nb in Q. rewrite Q.
      rewrite (proj2 (Nat.ltb_ge (nb + l) nb)) by lia. rewrite andb_false_r. reflexivity. }
    assert (A : forall q M, fold_left (fun D qp => let '(x, w) := qp in map_rows nb lbs (fun l j d => d + w * phi (vbasis v (k - 2)) x l * phi (vbasis v k) x j) D) q M (nb + l)%nat j =
       M (nb + l)%nat j + qsum q (peval (PMul (vm v (k - 2) l) (m j)))).
    { induction q as [|[x w] q IH]; intros M; cbn [fold_left qsum]; [lra|]. rewrite IH. unfold map_rows.
      rewrite (proj2 (Nat.leb_le nb (nb + l))), (proj2 (Nat.ltb_lt (nb + l) (nb + lbs))) by lia. cbn [andb peval]. rewrite !phi_vm. replace (nb + l - nb)%nat with l by lia. unfold m. ring. }
    unfold map_rows at 1. rewrite (proj2 (Nat.leb_le nb (nb + l))), (proj2 (Nat.ltb_lt (nb + l) (nb + lbs))) by lia. cbn [andb].
    rewrite A, Z, Rplus_0_l, (vfit_meas _ _ _ _ F). fold vol. f_equal. apply (exact_int _ _ HI _ (vfit_quad _ _ _ _ F)).
    unfold lbs, inner_size in Hl. rewrite (proj2 (Nat.eqb_neq k 1)) in Hl by lia.
    apply (deg_le_mono _ (k - 2 + k)); [lia|]. apply deg_le_mul; apply vm_deg; [exact Hl|exact Hj].
  Qed.
  Lemma lbs1 : k = 1%nat -> lbs = 0%nat.
  Proof. intros E. unfold lbs, inner_size. rewrite E. reflexivity. Qed.
  Lemma N_eq : N = (nb + lbs)%nat.
  Proof. reflexivity. Qed.
  (** D maps the coefficients of a polynomial to its unknowns *)
  Definition unk (p : pexp) : nat -> R := unknowns k P nodes (vm v (k - 2)) p.
  Lemma D_unknowns c d : (d < N)%nat -> mv n (matrix_D gl v k) c d = unk (lincomb n c m) d.
  Proof.
    intros Hd. unfold unk, unknowns. rewrite nodes_length. fold nb. cbv zeta. destruct (Nat.ltb_spec d nb) as [A|A].
    - rewrite peval_lincomb. apply sg_ext. intros j Hj. rewrite D_node by exact A. ring.
    - rewrite N_eq in Hd. assert (K2 : (2 <= k)%nat) by (destruct (Nat.eq_dec k 1) as [E|E]; [rewrite (lbs1 E) in Hd; lia|lia]).
      unfold cell_mean. fold vol. rewrite (I_mul_lincomb_r _ _ HI). unfold Rdiv. rewrite (Rmult_comm (sg _ _)), <- sg_scal. apply sg_ext. intros j Hj.
      replace d with (nb + (d - nb))%nat at 1 by lia. rewrite D_moment by lia. unfold Rdiv. ring.
  Qed.

  (** ** B *)
  Lemma nb_pos : (0 < nb)%nat.
  Proof. unfold nb. pose proof nf_pos. nia. Qed.
  Lemma sg_add_col M c f i g : (c < nb)%nat -> sg nb (fun d => add_col1 c f M i d * g d) = sg nb (fun d => M i d * g d) + f i * g c.
  Proof.
    intros Hc. rewrite (sg_ext nb _ (fun d => M i d * g d + f i * (delta c d * g d))).
    - rewrite sg_plus, sg_scal, sg_delta by exact Hc. reflexivity.
    - intros d _. unfold add_col1, delta. rewrite (Nat.eqb_sym c d). destruct (d =? c)%nat; ring.
  Qed.
  Definition dn (no x : pt) (i : nat) : R := sg 2 (fun c => dphi (vbasis v k) x i c * no c).
  Lemma bf_nodes no i g l : forall qc M,
    sg nb (fun d => snd (fold_left (bf_node (vbasis v k) no nb) l (qc, M)) i d * g d) =
    sg nb (fun d => M i d * g d) + node_sum nb qc l (fun x => dn no x i) g.
  Proof.
    induction l as [|[x w] l IH]; intros qc M; cbn [fold_left node_sum snd]; [ring|]. unfold bf_node at 2. rewrite IH.
    rewrite sg_add_col by (apply Nat.mod_upper_bound; pose proof nb_pos; lia). unfold dn. ring.
  Qed.
  Fixpoint bf_sum (d : nat) (l : list vface) (i : nat) (g : nat -> R) : R :=
    match l with [] => 0 | f :: l => node_sum nb d (face_nodes gl k f) (fun x => dn (vf_normal f) x i) g + bf_sum (d + k)%nat l i g end.
  Lemma bf_faces i g l : forall e M,
    sg nb (fun d => snd (fold_left (bf_face gl k (vbasis v k) nb) l (e, M)) i d * g d) = sg nb (fun d => M i d * g d) + bf_sum (e * k)%nat l i g.
  Proof.
    induction l as [|f l IH]; intros e M; cbn [fold_left bf_sum snd]; [ring|]. unfold bf_face at 2. rewrite IH, bf_nodes. replace (S e * k)%nat with (e * k + k)%nat by lia. ring.
  Qed.
  Lemma dn_flux no x i : dn no x i = peval (flux 2 delta no (m i)) x.
  Proof. unfold dn, flux. rewrite peval_psum. apply sg_ext. intros c Hc. cbn [peval pscal]. rewrite kgrad_delta by exact Hc. unfold dphi, m, vm. ring. Qed.
  Lemma node_sum_ext b l : forall d g h u, (forall x, g x = h x) -> node_sum b d l g u = node_sum b d l h u.
  Proof. induction l as [|[x w] l IH]; intros d g h u H; cbn [node_sum]; [reflexivity|]. rewrite H, (IH _ _ _ _ H). reflexivity. Qed.
  Lemma bf_boundary i g : forall fs vs d, Forall2 (fun f vf => vf_normal vf = fa_normal f /\ lobatto k f (face_nodes gl k vf)) fs vs ->
    bf_sum d vs i g = boundary_sum k nb d fs (map (face_nodes gl k) vs) (m i) g.
  Proof.
    intros fs vs d H. revert d. induction H as [|f vf fs vs (A & B) H IH]; intros d; cbn [bf_sum boundary_sum map]; [reflexivity|].
    rewrite IH, A. f_equal. apply node_sum_ext. intros x. apply dn_flux.
  Qed.
  Lemma BF_row i g : sg nb (fun d => matrix_BF gl v k i d * g d) = boundary_sum k nb 0 (po_facets P) nodes (m i) g.
  Proof.
    unfold matrix_BF. fold nf nb. rewrite bf_faces. rewrite (sg_zero nb) by (intros; unfold zeroM; ring). rewrite Rplus_0_l. cbn [Nat.mul].
    apply bf_boundary, (vfit_faces _ _ _ _ F).
  Qed.
  (** the coefficients of the Laplacian *)
  Definition lapc (r l : nat) : R :=
    let '(a, b) := nth r (pows k) (0, 0)%nat in
    (if ((0 <? a * (a - 1)) && (l =? pos (a - 2) b))%nat then INR (a * (a - 1)) * (vc_fx v * vc_fx v) else 0) +
    (if ((0 <? b * (b - 1)) && (l =? pos a (b - 2)))%nat then INR (b * (b - 1)) * (vc_fy v * vc_fy v) else 0).
  Definition bt_row (ki : nat * nat) (l : nat) : R :=
    let '(kk, i) := ki in let a := (kk - i)%nat in
    - ((if ((0 <? a * (a - 1)) && (l =? pos (a - 2) i))%nat then INR (a * (a - 1)) * (vc_fx v * vc_fx v) else 0) +
       (if ((0 <? i * (i - 1)) && (l =? pos a (i - 2)))%nat then INR (i * (i - 1)) * (vc_fy v * vc_fy v) else 0)).
  Lemma bt_fold L : (forall ki, In ki L -> (2 <= fst ki)%nat /\ (snd ki <= fst ki)%nat) -> forall c M r l, (forall r l, (c < r)%nat -> M r l = 0) ->
    snd (fold_left (bt_step v) L (c, M)) r l =
    if ((c <? r) && (r <=? c + length L))%nat then bt_row (nth (r - S c) L (0, 0)%nat) l else M r l.
  Proof.
    induction L as [|[kk i] L IH]; intros HL c M r l HM; cbn [fold_left length snd].
    - destruct (Nat.ltb_spec c r); destruct (Nat.leb_spec r (c + 0)); cbn; try reflexivity; lia.
    - destruct (HL (kk, i) (or_introl eq_refl)) as [K2 Ki]. cbn [fst snd] in K2, Ki.
      assert (S1 : forall r l, snd (bt_step v (c, M) (kk, i)) r l = if (r =? S c)%nat then bt_row (kk, i) l else M r l).
      { intros r' l'. unfold bt_step, bt_row. cbv zeta. cbn [snd].
        assert (P1 : (0 <? (kk - i) * (kk - i - 1))%nat = true -> ((kk - 2 + 1) * (kk - 2) / 2 + i = pos (kk - i - 2) i)%nat).
        { intros B. apply Nat.ltb_lt in B. unfold pos. replace (kk - i - 2 + i)%nat with (kk - 2)%nat by nia. reflexivity. }
        assert (P2 : (0 <? i * (i - 1))%nat = true -> ((kk - 2 + 1) * (kk - 2) / 2 + (i - 2) = pos (kk - i) (i - 2))%nat).
        { intros B. apply Nat.ltb_lt in B. unfold pos. replace (kk - i + (i - 2))%nat with (kk - 2)%nat by nia. reflexivity. }
        destruct (Nat.eqb_spec r' (S c)) as [->|Nr].
        - destruct (0 <? (kk - i) * (kk - i - 1))%nat eqn:B1; destruct (0 <? i * (i - 1))%nat eqn:B2; unfold set_entry; rewrite ?Nat.eqb_refl; cbn [andb].
          + rewrite P1, P2 by reflexivity. destruct (Nat.eqb_spec l' (pos (kk - i) (i - 2))) as [E|E]; destruct (Nat.eqb_spec l' (pos (kk - i - 2) i)) as [E'|E']; try lra.
            * exfalso. rewrite <- P1 in E' by reflexivity. rewrite <- P2 in E by reflexivity. apply Nat.ltb_lt in B2. nia.
            * rewrite HM by lia. ring.
          + rewrite P1 by reflexivity. destruct (l' =? pos (kk - i - 2) i)%nat; [lra|]. rewrite HM by lia. ring.
          + rewrite P2 by reflexivity. destruct (l' =? pos (kk - i) (i - 2))%nat; [lra|]. rewrite HM by lia. ring.
          + rewrite HM by lia. ring.
        - destruct (0 <? (kk - i) * (kk - i - 1))%nat; destruct (0 <? i * (i - 1))%nat; unfold set_entry; rewrite ?(proj2 (Nat.eqb_neq _ _) Nr); reflexivity. }
      assert (E : bt_step v (c, M) (kk, i) = (S c, snd (bt_step v (c, M) (kk, i)))) by (unfold bt_step; cbv zeta; reflexivity).
      rewrite E, IH; [|intros ki Hki; apply HL; right; exact Hki|intros r' l' Hr; rewrite S1, (proj2 (Nat.eqb_neq r' (S c))) by lia; apply HM; lia].
      destruct (Nat.ltb_spec c r) as [A|A]; cbn [andb].
      + destruct (Nat.eq_dec r (S c)) as [->|Nr].
        * rewrite (proj2 (Nat.ltb_ge (S c) (S c))) by lia. cbn [andb]. rewrite S1, Nat.eqb_refl. rewrite (proj2 (Nat.leb_le _ _)) by lia. rewrite Nat.sub_diag. reflexivity.
        * rewrite (proj2 (Nat.ltb_lt (S c) r)) by lia. cbn [andb]. replace (S c + length L)%nat with (c + S (length L))%nat by lia.
          destruct (r <=? c + S (length L))%nat; [replace (r - S c)%nat with (S (r - S (S c))) by lia; reflexivity|].
          rewrite S1, (proj2 (Nat.eqb_neq _ _) Nr). reflexivity.
      + rewrite (proj2 (Nat.ltb_ge (S c) r)) by lia. cbn [andb]. rewrite S1, (proj2 (Nat.eqb_neq r (S c))) by lia. reflexivity.
  Qed.
  Lemma bt_loop_eq kk : (1 <= kk)%nat -> pows kk = [(0, 0); (1, 0); (0, 1)]%nat ++ map (fun ki => (fst ki - snd ki, snd ki)%nat) (bt_loop kk).
  Proof.
    intros H. induction H as [|kk H IH]; [reflexivity|]. rewrite pows_S, IH. unfold bt_loop. replace (S kk - 1)%nat with (S (kk - 1)) by lia. rewrite seq_S.
    replace (2 + (kk - 1))%nat with (S kk) by lia. rewrite flat_map_app, map_app, <- app_assoc. f_equal. f_equal. cbn [flat_map]. rewrite app_nil_r. unfold row_pows. rewrite map_map. reflexivity.
  Qed.
  Lemma BT_entry r l : (r < n)%nat -> matrix_BT v k r l = - (vol * lapc r l).
  Proof.
    intros Hr. unfold matrix_BT, mscalm. rewrite (vfit_meas _ _ _ _ F). fold vol. rewrite bt_fold.
    - assert (L : length (bt_loop k) = (n - 3)%nat).
      { pose proof (f_equal (@length _) (bt_loop_eq k Hk)) as E. rewrite pows_length, app_length, map_length in E. cbn [length] in E. unfold n. lia. }
      unfold lapc. rewrite (bt_loop_eq k Hk). destruct (Nat.ltb_spec 2 r) as [A|A]; cbn [andb].
      + rewrite (proj2 (Nat.leb_le _ _)) by lia. rewrite app_nth2 by (cbn; lia). cbn [length].
        set (f := fun ki : nat * nat => (fst ki - snd ki, snd ki)%nat). change (0, 0)%nat with (f (0, 0)%nat) at 2. rewrite map_nth.
        destruct (nth (r - 3) (bt_loop k) (0, 0)%nat) as [kk i]. unfold bt_row, f. cbn [fst snd]. ring.
      + destruct r as [|[|[|r]]]; try lia; cbn; unfold zeroM; ring.
    - intros [kk i] I. unfold bt_loop in I. apply in_flat_map in I as (q & Hq & I). apply in_map_iff in I as (i' & E & I). injection E as -> ->. apply in_seq in Hq, I. cbn. lia.
    - intros. reflexivity.
  Qed.
  (** the Laplacian of m_r on the functions of degree k - 2 *)
  Lemma lapc_lap r x : (2 <= k)%nat -> (r < n)%nat -> peval (divk 2 delta (m r)) x = peval (lincomb lbs (lapc r) (vm v (k - 2))) x.
  Proof.
    intros K2 Hr. assert (L : lbs = basis_size (k - 2)) by (unfold lbs, inner_size; rewrite (proj2 (Nat.eqb_neq k 1)) by lia; reflexivity).
    rewrite peval_lincomb. unfold m, vm at 1. cbn [vbasis b_poly].
    assert (Hin : In (nth r (pows k) (0, 0)%nat) (pows k)) by (apply nth_In; rewrite pows_length; exact Hr). apply pows_in in Hin.
    unfold lapc. destruct (nth r (pows k) (0, 0)%nat) as [a b]. cbn [fst snd] in Hin. rewrite smono_lap.
    assert (Q : forall a' b' C (cond : bool), (cond = true -> (a' + b' <= k - 2)%nat) ->
       sg lbs (fun l => (if cond && (l =? pos a' b')%nat then C else 0) * peval (vm v (k - 2) l) x) = if cond then C * peval (smono v (a', b')) x else 0).
    { intros a' b' C [] Hc; cbn [andb].
      - destruct (pows_pos a' b' (k - 2) (Hc eq_refl)) as [Q1 Q2].
        rewrite (sg_ext _ _ (fun l => delta (pos a' b') l * (C * peval (vm v (k - 2) l) x))).
        + rewrite sg_delta by (rewrite L; exact Q1). unfold vm. cbn [vbasis b_poly]. rewrite Q2. reflexivity.
        + intros l _. unfold delta. rewrite (Nat.eqb_sym (pos a' b')). destruct (l =? pos a' b')%nat; ring.
      - apply sg_zero. intros. ring. }
    rewrite (sg_ext _ _ (fun l => (if (0 <? a * (a - 1))%nat && (l =? pos (a - 2) b)%nat then INR (a * (a - 1)) * (vc_fx v * vc_fx v) else 0) * peval (vm v (k - 2) l) x +
       (if (0 <? b * (b - 1))%nat && (l =? pos a (b - 2))%nat then INR (b * (b - 1)) * (vc_fy v * vc_fy v) else 0) * peval (vm v (k - 2) l) x)) by (intros; ring).
    rewrite sg_plus, !Q by (intros B; apply Nat.ltb_lt in B; nia).
    f_equal.
    - destruct (Nat.ltb_spec 0 (a * (a - 1))) as [B|B]; [reflexivity|]. replace (a * (a - 1))%nat with 0%nat by lia. cbn. ring.
    - destruct (Nat.ltb_spec 0 (b * (b - 1))) as [B|B]; [reflexivity|]. replace (b * (b - 1))%nat with 0%nat by lia. cbn. ring.
  Qed.
  (** the rows of B: Green's formula *)
  Lemma B_row r u : (0 < r)%nat -> (r < n)%nat -> mv N (matrix_B gl v k) u r = green k P nodes lbs (m r) (lapc r) u.
  Proof.
    intros H0 Hr. unfold mv, green. rewrite nodes_length. fold nb vol. cbv zeta. rewrite <- BF_row. rewrite N_eq, sg_split. unfold Rminus. f_equal.
    - apply sg_ext. intros d Hd. f_equal. unfold matrix_B. fold nf nb. destruct (k =? 1)%nat.
      + unfold upd_row. rewrite (proj2 (Nat.eqb_neq r 0)) by lia. unfold set_cols. cbn [Nat.leb andb Nat.add]. rewrite (proj2 (Nat.ltb_lt d nb) Hd), Nat.sub_0_r. reflexivity.
      + unfold set_entry. rewrite (proj2 (Nat.eqb_neq r 0)) by lia. cbn [andb]. unfold set_cols. rewrite (proj2 (Nat.leb_gt nb d) Hd). cbn [Nat.leb andb Nat.add].
        rewrite (proj2 (Nat.ltb_lt d nb) Hd), Nat.sub_0_r. reflexivity.
    - rewrite <- sg_scal, <- sg_opp. apply sg_ext. intros l Hl. destruct (Nat.eq_dec k 1) as [E|E]; [rewrite (lbs1 E) in Hl; lia|].
      unfold matrix_B. fold nf nb lbs. rewrite (proj2 (Nat.eqb_neq k 1) E). unfold set_entry. rewrite (proj2 (Nat.eqb_neq r 0)) by lia. cbn [andb]. unfold set_cols.
      rewrite (proj2 (Nat.leb_le nb (nb + l))), (proj2 (Nat.ltb_lt (nb + l) (nb + lbs))) by lia. cbn [andb]. replace (nb + l - nb)%nat with l by lia. rewrite BT_entry by exact Hr. ring.
  Qed.
  Lemma B_row0 u : mv N (matrix_B gl v k) u 0 = if (k =? 1)%nat then sg nf u / INR nf else u nb.
  Proof.
    unfold mv. rewrite N_eq. destruct (Nat.eqb_spec k 1) as [E|E].
    - rewrite (lbs1 E), Nat.add_0_r. unfold matrix_B. fold nf nb. rewrite (proj2 (Nat.eqb_eq k 1) E). unfold upd_row. cbn [Nat.eqb].
      unfold nb. rewrite E, Nat.mul_1_r. unfold Rdiv. rewrite (Rmult_comm (sg _ _)), <- sg_scal. apply sg_ext. intros. unfold Rdiv. ring.
    - rewrite (sg_ext _ _ (fun d => delta nb d * u d)).
      + apply sg_delta. unfold lbs, inner_size. rewrite (proj2 (Nat.eqb_neq k 1) E). pose proof (basis_size_pos (k - 2)). lia.
      + intros d Hd. f_equal. unfold matrix_B. fold nf nb lbs. rewrite (proj2 (Nat.eqb_neq k 1) E). unfold set_entry. cbn [Nat.eqb andb]. unfold delta. rewrite (Nat.eqb_sym nb d).
        destruct (Nat.eqb_spec d nb) as [Ed|Ed]; [reflexivity|]. unfold set_cols.
        destruct ((nb <=? d) && (d <? nb + lbs))%nat eqn:Bd.
        * rewrite BT_entry by apply n_pos. unfold lapc. destruct (pows_pos 0 0 k ltac:(lia)) as [_ Q]. change (pos 0 0) with 0%nat in Q. rewrite Q. cbn. ring.
        * assert (Hdn : (d < nb)%nat). { apply andb_false_iff in Bd as [Bd|Bd]; [apply Nat.leb_gt in Bd; exact Bd|apply Nat.ltb_ge in Bd; lia]. }
          cbn [Nat.leb andb Nat.add]. rewrite (proj2 (Nat.ltb_lt d nb) Hdn), Nat.sub_0_r.
          pose proof (BF_row 0 (delta d)) as Q. rewrite (sg_ext nb _ (fun j => delta d j * matrix_BF gl v k 0%nat j)) in Q by (intros; ring). rewrite sg_delta in Q by exact Hdn. rewrite Q.
          assert (Z : forall fs ns q, boundary_sum k nb q fs ns (m 0%nat) (delta d) = 0).
          { induction fs as [|f fs IH]; intros [|l ns] q; cbn [boundary_sum]; try reflexivity. rewrite IH, Rplus_0_r. generalize q. induction l as [|[x w] l IHl]; intros q'; cbn [node_sum]; [reflexivity|].
            rewrite IHl. replace (peval (flux 2 delta (fa_normal f) (m 0%nat)) x) with 0; [ring|]. unfold flux. rewrite peval_psum. symmetry. apply sg_zero. intros c Hc. cbn [peval pscal].
            rewrite kgrad_delta by exact Hc. rewrite (pdiff_ext (m 0%nat) (PC 1) c) by (intros; apply vm_one). cbn. ring. }
          rewrite Z. reflexivity.
  Qed.

  (** ** Green's formula with the unknowns of a polynomial *)
  Definition node_at (d : nat) : pt := fst (nth (d mod k) (nth (d / k) nodes []) node0).
  (** the unknown number of the node iq of the face e belongs to that node *)
  Lemma node_index e iq : (e < nf)%nat -> (iq <= k)%nat -> forall i, node_at ((e * k + iq) mod nb)%nat i = fst (nth iq (nth e nodes []) node0) i.
  Proof.
    intros He Hq i. pose proof nb_pos as NB. unfold node_at. destruct (Nat.eq_dec iq k) as [->|Nq].
    - destruct (vfit_chain _ _ _ _ F) as [_ CH]. fold nodes in CH. rewrite nodes_length in CH. specialize (CH e He i).
      assert (LE : forall (l : list (pt * R)), length l = S k -> last l node0 = nth k l node0 /\ hd node0 l = nth 0 l node0).
      { intros l Hl. split; [|destruct l; reflexivity]. apply last_nth_len, Hl. }
      rewrite (proj1 (LE _ (nth_nodes e He))) in CH. rewrite (proj2 (LE _ (nth_nodes ((e + 1) mod nf)%nat (Nat.mod_upper_bound (e + 1) nf ltac:(lia))))) in CH. rewrite CH.
      replace (e * k + k)%nat with ((e + 1) * k)%nat by lia. unfold nb. rewrite Nat.mul_mod_distr_r by lia. rewrite Nat.mod_mul, Nat.div_mul by lia. reflexivity.
    - assert (Q : (e * k + iq < nb)%nat) by (unfold nb; nia). rewrite (Nat.mod_small _ _ Q).
      rewrite (Nat.add_comm (e * k)), Nat.mod_add, Nat.div_add by lia. rewrite Nat.mod_small, Nat.div_small by lia. reflexivity.
  Qed.
  Lemma node_sum_poly e g p u : (e < nf)%nat -> (forall d, (d < nb)%nat -> u d = peval p (node_at d)) ->
    node_sum nb (e * k)%nat (nth e nodes []) g u = qsum (nth e nodes []) (fun x => g x * peval p x).
  Proof.
    intros He Hu. pose proof nb_pos as NB.
    assert (A : forall l q, (q + length l = S k)%nat -> (forall j, (j < length l)%nat -> nth j l node0 = nth (q + j) (nth e nodes []) node0) ->
       node_sum nb (e * k + q)%nat l g u = qsum l (fun x => g x * peval p x)).
    { induction l as [|[x w] l IH]; intros q Hq Hl; cbn [node_sum qsum]; [reflexivity|]. cbn [length] in Hq.
      replace (S (e * k + q)) with (e * k + S q)%nat by lia. rewrite IH; [|lia|intros j Hj; pose proof (Hl (S j) ltac:(cbn [length]; lia)) as E; cbn [nth] in E; rewrite E; f_equal; lia].
      rewrite Hu by (apply Nat.mod_upper_bound; lia). rewrite (peval_ext p (node_at ((e * k + q) mod nb)%nat) x); [ring|].
      intros i. rewrite node_index by lia. pose proof (Hl 0%nat ltac:(cbn; lia)) as E. cbn [nth] in E. rewrite Nat.add_0_r in E. rewrite <- E. reflexivity. }
    rewrite <- (A (nth e nodes []) 0%nat); [f_equal; lia|rewrite nth_nodes by exact He; lia|intros; f_equal; lia].
  Qed.
  Lemma boundary_poly w p u : deg_le w k -> deg_le p k -> (forall d, (d < nb)%nat -> u d = peval p (node_at d)) ->
    boundary_sum k nb 0 (po_facets P) nodes w u = fsum (po_facets P) (fun f => fa_int f (PMul p (flux 2 delta (fa_normal f) w))).
  Proof.
    intros Dw Dp Hu.
    assert (A : forall fs vs pre, vc_faces v = pre ++ vs -> (forall f, In f fs -> In f (po_facets P)) ->
      Forall2 (fun f vf => vf_normal vf = fa_normal f /\ lobatto k f (face_nodes gl k vf)) fs vs ->
      boundary_sum k nb (length pre * k)%nat fs (map (face_nodes gl k) vs) w u = fsum fs (fun f => fa_int f (PMul p (flux 2 delta (fa_normal f) w)))).
    { intros fs vs pre Ev Hin H. revert pre Ev Hin. induction H as [|f vf fs vs (H1 & H2 & H3) H IH]; intros pre Ev Hin; cbn [boundary_sum fsum map]; [reflexivity|].
      replace (length pre * k + k)%nat with (length (pre ++ [vf]) * k)%nat by (rewrite app_length; cbn; lia).
      rewrite IH; [|rewrite Ev, <- app_assoc; reflexivity|intros g Hg; apply Hin; right; exact Hg]. f_equal.
      assert (He : (length pre < nf)%nat) by (unfold nf, nfaces; rewrite Ev, app_length; cbn; lia).
      assert (En : nth (length pre) nodes [] = face_nodes gl k vf).
      { unfold nodes, nodes_of. rewrite Ev, map_app, app_nth2 by (rewrite map_length; lia). rewrite map_length, Nat.sub_diag. reflexivity. }
      rewrite <- En. rewrite (node_sum_poly (length pre) _ p u He Hu), En.
      destruct (poly_facets _ _ HP f (Hin f (or_introl eq_refl))) as (HF & _).
      assert (DD : deg_le (PMul p (flux 2 delta (fa_normal f) w)) (2 * k - 1)).
      { apply (deg_le_mono _ (k + (k - 1))); [lia|]. apply deg_le_mul; [exact Dp|]. apply deg_flux, Dw. }
      destruct DD as (q & Dq & Eq). rewrite <- (I_ext _ _ HF q _ Eq), <- (H3 q Dq). apply qsum_ext. intros x. rewrite Eq. cbn [peval]. ring. }
    apply (A (po_facets P) (vc_faces v) [] eq_refl (fun f H => H) (vfit_faces _ _ _ _ F)).
  Qed.
  Lemma green_poly w p c : deg_le w k -> deg_le p k -> laplacian_coeffs P lbs (vm v (k - 2)) w c -> green k P nodes lbs w c (unk p) = en w p.
  Proof.
    intros Dw Dp HL. unfold green. rewrite nodes_length. fold nb vol. cbv zeta. unfold en. rewrite (en_sym 2 P HP delta delta_spd), (en_green 2 P HP delta).
    rewrite (boundary_poly w p); [|exact Dw|exact Dp|intros d Hd; unfold unk, unknowns; rewrite nodes_length; fold nb; cbv zeta; rewrite (proj2 (Nat.ltb_lt d nb) Hd); reflexivity].
    assert (E : po_int P (PMul p (divk 2 delta w)) = vol * sg lbs (fun l => c l * unk p (nb + l)%nat)).
    { rewrite (int_ext _ _ HI _ (PMul p (lincomb lbs c (vm v (k - 2))))) by (intros x Hx; cbn [peval]; rewrite (HL x Hx); reflexivity).
      rewrite (I_mul_lincomb_r _ _ HI), <- sg_scal. apply sg_ext. intros l Hl. unfold unk, unknowns. rewrite nodes_length. fold nb. cbv zeta.
      rewrite (proj2 (Nat.ltb_ge (nb + l) nb)) by lia. replace (nb + l - nb)%nat with l by lia. unfold cell_mean. fold vol. rewrite (I_comm _ _ HI p). field. pose proof vol_pos. lra. }
    rewrite E. ring.
  Qed.
  Lemma lap_m r : (r < n)%nat -> laplacian_coeffs P lbs (vm v (k - 2)) (m r) (lapc r).
  Proof.
    intros Hr x Hx. destruct (Nat.eq_dec k 1) as [E|E]; [|apply lapc_lap; [lia|exact Hr]].
    rewrite (lbs1 E). cbn [lincomb psum peval]. unfold divk. rewrite peval_psum. apply sg_zero. intros c Hc.
    assert (D : deg_le (kgrad 2 delta (m r) c) 0) by (apply (deg_le_mono _ (k - 1)); [lia|]; apply deg_kgrad, vm_deg, Hr).
    destruct D as (q & Dq & Eq). rewrite <- (pdiff_ext q _ c Eq). apply pdeg0_diff. lia.
  Qed.
  (** B D = G, up to the first row for k = 1 *)
  Lemma BD_row r c : (0 < r)%nat -> (r < n)%nat -> mv N (matrix_B gl v k) (unk (lincomb n c m)) r = mv n (matrix_G v k) c r.
  Proof.
    intros H0 Hr. rewrite B_row, G_row by assumption. apply green_poly; [apply vm_deg, Hr|apply deg_le_lincomb; intros; apply vm_deg; assumption|apply lap_m, Hr].
  Qed.
  Lemma unk_mean p : (2 <= k)%nat -> unk p nb = po_int P p / vol.
  Proof.
    intros K2. unfold unk, unknowns. rewrite nodes_length. fold nb. cbv zeta. rewrite Nat.ltb_irrefl, Nat.sub_diag. unfold cell_mean. fold vol. f_equal.
    apply (I_ext _ _ HI). intros x. cbn [peval]. rewrite vm_one. ring.
  Qed.
  Lemma BD_row0 c : (2 <= k)%nat -> mv N (matrix_B gl v k) (unk (lincomb n c m)) 0 = mv n (matrix_G v k) c 0.
  Proof. intros K2. rewrite B_row0, G_row0. rewrite (proj2 (Nat.eqb_neq k 1)) by lia. apply unk_mean, K2. Qed.
End Fits.
