(** Theorems about relax_mesh. *)
From Coq Require Import List Arith Bool Reals Lra Lia.
From Verif Require Import HHO_Spec HHO_Proofs Relax_Spec Relax_Model Relax_Proofs.
Import ListNotations.
Open Scope R_scope.

(** [x] solves the system of size [n] *)
Definition solution (n : nat) (A : mat) (b x : nat -> R) : Prop := forall r, (r < n)%nat -> sg n (fun c => A r c * x c) = b r.
(** the solver solved the system of this mesh *)
Definition solved (cg : nat -> mat -> (nat -> R) -> (nat -> R) -> nat -> R) (np : nat) (pts : nat -> p2) (bnd : list (nat * nat)) (cells : list tri) : Prop :=
  let em := expand_map np bnd in
  let s := system pts bnd (length em) cells in
  solution (2 * length em) (fst s) (snd s) (cg (2 * length em)%nat (fst s) (snd s) (start pts em)).
(** triangles with three different points, numbered below [np] *)
Definition triangles (np : nat) (cells : list tri) : Prop :=
  forall a b c, In (a, b, c) cells -> (a < b)%nat /\ (b < c)%nat /\ (c < np)%nat.
Definition on_boundary (bnd : list (nat * nat)) (i : nat) : Prop := exists e, In e bnd /\ (fst e = i \/ snd e = i).
Definition corner (v : nat) (t : tri) : Prop := let '(a, b, c) := t in v = a \/ v = b \/ v = c.

Lemma on_boundary_iff bnd i : on_boundary bnd i <-> dirichlet_nodes bnd i = true.
Proof.
  unfold on_boundary, dirichlet_nodes. rewrite existsb_exists. split; intros (e & I & H); exists e; (split; [exact I|]).
  - apply orb_true_iff. rewrite !Nat.eqb_eq. exact H.
  - apply orb_true_iff in H. rewrite !Nat.eqb_eq in H. exact H.
Qed.
Lemma relax_eq cg np pts bnd cells : let em := expand_map np bnd in let n := length em in let s := system pts bnd n cells in
  let x := cg (2 * n)%nat (fst s) (snd s) (start pts em) in
  relax_mesh cg np pts bnd cells = fold_left (fun q i => fun k => if (k =? nth i em O)%nat then (x i, x (n + i)%nat) else q k) (seq 0 n) pts.
Proof. intros em n s x. unfold relax_mesh. fold em n. unfold x, s. destruct (system pts bnd n cells). reflexivity. Qed.
Lemma relax_at cg np pts bnd cells v : (v < np)%nat -> free bnd v = true ->
  let em := expand_map np bnd in let n := length em in let s := system pts bnd n cells in
  let x := cg (2 * n)%nat (fst s) (snd s) (start pts em) in
  relax_mesh cg np pts bnd cells v = (x (compress bnd v), x (n + compress bnd v)%nat).
Proof.
  intros Hv Fv em n s x. rewrite relax_eq. fold em n. destruct (compress_nth np bnd v Hv Fv) as (E & L). fold em in E, L. fold n in L.
  rewrite <- E at 1. rewrite (move_in (fun i => (x i, x (n + i)%nat)) em (seq 0 n) (compress bnd v)); [reflexivity|apply seq_NoDup|apply in_seq; lia|].
  intros j Hj. apply in_seq in Hj. apply expand_inj; fold em n; lia.
Qed.

(** ** C206 *)
(** the points of the boundary stay where they are *)
Theorem C206_boundary : forall cg np pts bnd cells i, on_boundary bnd i -> relax_mesh cg np pts bnd cells i = pts i.
Proof.
  intros cg np pts bnd cells i H. apply on_boundary_iff in H. rewrite relax_eq.
  apply (move_out (fun j => (_ j, _ (_ + j)%nat))). intros j Hj E. apply in_seq in Hj.
  pose proof (expand_free np bnd j ltac:(lia)) as F. rewrite <- E in F. unfold free in F. rewrite H in F. discriminate.
Qed.
(** a point with neighbours on the boundary only stays as well, wherever it is: the right hand side takes the
    coordinates of the point itself and not those of its neighbour *)
Lemma dist_pos p q : p <> q -> 0 < dist p q.
Proof.
  intros N. apply sqrt_lt_R0. unfold dist2. destruct p as [a b], q as [c d]. cbn [fst snd].
  pose proof (Rle_0_sqr (a - c)) as A. pose proof (Rle_0_sqr (b - d)) as B. unfold Rsqr in *.
  destruct (Req_dec a c) as [->|Na]; [destruct (Req_dec b d) as [->|Nb]; [congruence|]|].
  - pose proof (Rsqr_pos_lt (b - d)) as P. unfold Rsqr in P. assert (b - d <> 0) by lra. specialize (P H). lra.
  - pose proof (Rsqr_pos_lt (a - c)) as P. unfold Rsqr in P. assert (a - c <> 0) by lra. specialize (P H). lra.
Qed.
Lemma cell_term pts np bnd y pr o v t : triangles np [t] -> free bnd v = true -> (forall w, corner v t -> corner w t -> w <> v -> dirichlet_nodes bnd w = true) ->
  (forall a b, corner a t -> corner b t -> a <> b -> pts a <> pts b) ->
  exists k, 0 <= k /\ (corner v t -> 0 < k) /\ lsum (term pts bnd y pr o v t) pairs = - k * (y (o + compress bnd v)%nat - pr (pts v)).
Proof.
  destruct t as [[a b] c]. intros HT Fv IS ND. destruct (HT a b c (or_introl eq_refl)) as (Hab & Hbc & _).
  assert (Dv : dirichlet_nodes bnd v = false) by (unfold free in Fv; destruct (dirichlet_nodes bnd v); [discriminate|reflexivity]).
  pose proof (dist_pos (pts a) (pts b)) as P1. pose proof (dist_pos (pts b) (pts c)) as P2. pose proof (dist_pos (pts a) (pts c)) as P3.
  unfold corner in *.
  assert (Q1 : 0 < dist (pts a) (pts b)) by (apply P1, ND; lia). assert (Q2 : 0 < dist (pts b) (pts c)) by (apply P2, ND; lia). assert (Q3 : 0 < dist (pts a) (pts c)) by (apply P3, ND; lia).
  unfold lsum, pairs, term, Kloc, sum3, side. cbn [fold_right vert G].
  destruct (Nat.eq_dec a v) as [->|Na]; [|destruct (Nat.eq_dec b v) as [->|Nb]; [|destruct (Nat.eq_dec c v) as [->|Nc]]].
  - rewrite (IS b), (IS c), Dv, Nat.eqb_refl by lia. exists (dist (pts v) (pts b) + dist (pts v) (pts c)). split; [lra|]. split; [lra|]. ring.
  - rewrite (IS a), (IS c), Dv, Nat.eqb_refl by lia. exists (dist (pts a) (pts v) + dist (pts v) (pts c)). split; [lra|]. split; [lra|]. ring.
  - rewrite (IS a), (IS b), Dv, Nat.eqb_refl by lia. exists (dist (pts b) (pts v) + dist (pts a) (pts v)). split; [lra|]. split; [lra|]. ring.
  - exists 0. split; [lra|]. split; [lia|]. apply Nat.eqb_neq in Na, Nb, Nc. rewrite Na, Nb, Nc.
    destruct (dirichlet_nodes bnd a), (dirichlet_nodes bnd b), (dirichlet_nodes bnd c); ring.
Qed.
Lemma cells_term pts np bnd y pr o v cells : triangles np cells -> free bnd v = true ->
  (forall t w, In t cells -> corner v t -> corner w t -> w <> v -> dirichlet_nodes bnd w = true) ->
  (forall t a b, In t cells -> corner a t -> corner b t -> a <> b -> pts a <> pts b) ->
  exists k, 0 <= k /\ ((exists t, In t cells /\ corner v t) -> 0 < k) /\ lsum (fun t => lsum (term pts bnd y pr o v t) pairs) cells = - k * (y (o + compress bnd v)%nat - pr (pts v)).
Proof.
  intros HT Fv. induction cells as [|t cells IH]; intros IS ND.
  - exists 0. split; [lra|]. split; [intros (t & [] & _)|]. cbn. ring.
  - destruct IH as (k & K0 & K1 & K2); [intros a b c I; apply HT; right; exact I|intros t' w I; apply IS; right; exact I|intros t' a b I; apply ND; right; exact I|].
    destruct (cell_term pts np bnd y pr o v t) as (l & L0 & L1 & L2); [intros a b c [E|[]]; apply HT; left; exact E|exact Fv|intros w; apply IS; left; reflexivity|intros a b; apply ND; left; reflexivity|].
    exists (l + k). split; [lra|]. split.
    + intros (t' & [<-|I] & C); [specialize (L1 C); lra|]. assert (0 < k) by (apply K1; exists t'; auto). lra.
    + cbn [lsum fold_right]. rewrite L2. unfold lsum in K2 |- *. rewrite K2. ring.
Qed.
Theorem C206_stuck : forall cg np pts bnd cells v, solved cg np pts bnd cells -> triangles np cells ->
  (v < np)%nat -> ~ on_boundary bnd v -> (exists t, In t cells /\ corner v t) ->
  (forall t w, In t cells -> corner v t -> corner w t -> w <> v -> on_boundary bnd w) ->
  (forall t a b, In t cells -> corner a t -> corner b t -> a <> b -> pts a <> pts b) ->
  relax_mesh cg np pts bnd cells v = pts v.
Proof.
  intros cg np pts bnd cells v SO HT Hv NB EX IS ND.
  assert (Fv : free bnd v = true). { unfold free. destruct (dirichlet_nodes bnd v) eqn:E; [|reflexivity]. exfalso. apply NB, on_boundary_iff, E. }
  rewrite relax_at by assumption. unfold solved in SO. cbv zeta in SO |- *.
  set (em := expand_map np bnd) in *. set (n := length em) in *. set (s := system pts bnd n cells) in *. set (x := cg (2 * n)%nat (fst s) (snd s) (start pts em)) in *.
  pose proof (proj2 (compress_nth np bnd v Hv Fv)) as L. fold em n in L.
  assert (Q : forall o pr, half np bnd o pr -> x (o + compress bnd v)%nat = pr (pts v)).
  { intros o pr HO. pose proof (system_row pts np bnd x o pr v cells HO) as R. unfold resid in R. fold em n s in R.
    rewrite (SO (o + compress bnd v)%nat) in R by (destruct HO as [(-> & _)|(-> & _)]; fold em n; lia).
    destruct (cells_term pts np bnd x pr o v cells HT Fv) as (k & _ & K1 & K2); [intros t w I C1 C2 N; apply on_boundary_iff; apply (IS t w); assumption|exact ND|].
    rewrite K2 in R. specialize (K1 EX). assert (Z : k * (x (o + compress bnd v)%nat - pr (pts v)) = 0).
    { rewrite Ropp_mult_distr_l_reverse in R. assert (0 = - (k * (x (o + compress bnd v)%nat - pr (pts v)))) as E; [|lra].
      rewrite <- R; [ring| |exact Hv|exact Fv]. intros [[a b] c] i I. destruct (HT a b c I) as (A & B & C). unfold vert. destruct i as [|[|i]]; lia. }
    apply Rmult_integral in Z. destruct Z; lra. }
  rewrite <- (Nat.add_0_l (compress bnd v)) at 1. rewrite (Q 0%nat fst), (Q n snd); [destruct (pts v); reflexivity|right; split; reflexivity|left; split; reflexivity].
Qed.

(** What the program minimises is the energy in which the springs to the points of the boundary hold the free points
    where they were.  Missing for the claim: that they pull them to the points of the boundary. *)
Lemma sg_lsum {A} m (f : nat -> A -> R) l : sg m (fun v => lsum (f v) l) = lsum (fun a => sg m (fun v => f v a)) l.
Proof. induction l as [|a l IH]; cbn [lsum fold_right]; [apply sg_zero; reflexivity|]. rewrite sg_plus. f_equal. exact IH. Qed.
Lemma lsum_ext {A} (f g : A -> R) l : (forall a, In a l -> f a = g a) -> lsum f l = lsum g l.
Proof. intros H. induction l as [|a l IH]; cbn [lsum fold_right]; [reflexivity|]. rewrite (H a (or_introl eq_refl)). f_equal. apply IH. intros; apply H; right; assumption. Qed.
Lemma lsum_zero {A} (f : A -> R) l : (forall a, f a = 0) -> lsum f l = 0.
Proof. intros H. induction l as [|a l IH]; cbn [lsum fold_right]; [reflexivity|]. rewrite H, Rplus_0_l. exact IH. Qed.
Lemma lsum_scal {A} k (f : A -> R) l : lsum (fun a => k * f a) l = k * lsum f l.
Proof. induction l as [|a l IH]; cbn [lsum fold_right]; [ring|]. rewrite Rmult_plus_distr_l. f_equal. exact IH. Qed.
Lemma sg_one m a (g : nat -> R) : (a < m)%nat -> sg m (fun v => if (a =? v)%nat then g v else 0) = g a.
Proof.
  intros H. induction m as [|m IH]; [lia|]. cbn [sg]. destruct (Nat.eqb_spec a m) as [->|N]; [|rewrite IH by lia; lra].
  rewrite sg_zero; [lra|]. intros i Hi. destruct (Nat.eqb_spec m i); [lia|reflexivity].
Qed.
(** one coordinate of the energy of a side *)
Definition sp1 (D : nat -> bool) (l : nat -> nat -> R) (p Q : nat -> R) (a b : nat) : R :=
  l a b * (if D a then if D b then 0 else (Q b - p b) * (Q b - p b) else if D b then (Q a - p a) * (Q a - p a) else (Q a - Q b) * (Q a - Q b)).
Definition e1 (D : nat -> bool) (l : nat -> nat -> R) (p Q : nat -> R) (cells : list tri) : R :=
  lsum (fun t => let '(a, b, c) := t in sp1 D l p Q a b + sp1 D l p Q b c + sp1 D l p Q a c) cells.
Section Min.
  Context (cg : nat -> mat -> (nat -> R) -> (nat -> R) -> nat -> R) (np : nat) (pts : nat -> p2) (bnd : list (nat * nat)) (cells : list tri)
    (SO : solved cg np pts bnd cells) (HT : triangles np cells).
  Let D := dirichlet_nodes bnd.
  Let l a b := dist (pts a) (pts b).
  Let em := expand_map np bnd.
  Let n := length em.
  Let sys := system pts bnd n cells.
  Let x := cg (2 * n)%nat (fst sys) (snd sys) (start pts em).
  Lemma vert_lt t i : In t cells -> (vert t i < np)%nat.
  Proof. destruct t as [[a b] c]. intros I. destruct (HT a b c I) as (A & B & C). unfold vert. destruct i as [|[|i]]; lia. Qed.
  Lemma min1 o pr (HO : half np bnd o pr) (X Q : nat -> R) : (forall v, (v < np)%nat -> D v = false -> X v = x (o + compress bnd v)%nat) ->
    e1 D l (fun v => pr (pts v)) X cells <= e1 D l (fun v => pr (pts v)) Q cells.
  Proof.
    intros HX. set (H := fun v => Q v - X v).
    assert (Z : sg np (fun v => lsum (fun t => lsum (fun ij => if D v then 0 else H v * term pts bnd x pr o v t ij) pairs) cells) = 0).
    { apply sg_zero. intros v Hv. destruct (D v) eqn:E.
      - apply lsum_zero. intros t. apply lsum_zero. reflexivity.
      - assert (Fv : free bnd v = true) by (unfold free; fold D; rewrite E; reflexivity).
        pose proof (system_row pts np bnd x o pr v cells HO (fun t i I => vert_lt t i I) Hv Fv) as R. fold em n sys in R. unfold resid in R. fold em n in R.
        pose proof (proj2 (compress_nth np bnd v Hv Fv)) as L. fold em n in L.
        unfold solved in SO. cbv zeta in SO. fold em n sys x in SO.
        rewrite (SO (o + compress bnd v)%nat) in R by (destruct HO as [(-> & _)|(-> & _)]; fold em n; lia). rewrite Rminus_eq_0 in R.
        transitivity (H v * lsum (fun t => lsum (term pts bnd x pr o v t) pairs) cells); [|rewrite <- R; ring].
        rewrite <- lsum_scal. apply lsum_ext. intros t _. apply lsum_scal. }
    rewrite sg_lsum in Z.
    rewrite (lsum_ext _ (fun t => lsum (fun ij => let '(i, j) := ij in if D (vert t i) then 0 else
      H (vert t i) * (Kloc pts t i j * (if D (vert t j) then pr (pts (vert t i)) else X (vert t j)))) pairs)) in Z.
    2:{ intros t It. rewrite sg_lsum. apply lsum_ext. intros [i j] _. unfold term. fold D. destruct (D (vert t i)) eqn:Ei; [apply sg_zero; intros v _; destruct (D v); ring|].
        rewrite (sg_ext np _ (fun v => if (vert t i =? v)%nat then H v * (Kloc pts t i j * (if D (vert t j) then pr (pts v) else X (vert t j))) else 0)).
        - rewrite sg_one by apply (vert_lt t i It). reflexivity.
        - intros v Hv. destruct (Nat.eqb_spec (vert t i) v) as [<-|N]; [rewrite Ei|destruct (D v); ring].
          destruct (D (vert t j)) eqn:Ej; [reflexivity|]. rewrite (HX _ (vert_lt t j It) Ej). reflexivity. }
    match type of Z with ?L = 0 => cut (0 <= e1 D l (fun v => pr (pts v)) Q cells - e1 D l (fun v => pr (pts v)) X cells + 2 * L); [rewrite Z; lra|] end.
    clear Z. unfold e1. clear -l.
    induction cells as [|[[a b] c] ts IH]; cbn [lsum fold_right]; [lra|].
    unfold lsum in IH |- *.
    match goal with |- 0 <= ?A1 + ?A2 - (?B1 + ?B2) + 2 * (?C1 + ?C2) => cut (0 <= A1 - B1 + 2 * C1); [lra|] end.
    clear IH. unfold pairs. cbn [fold_right vert]. unfold Kloc, sum3, side, sp1. cbn [G vert]. fold (l a b) (l b c) (l a c).
    assert (P1 : 0 <= l a b) by apply sqrt_pos. assert (P2 : 0 <= l b c) by apply sqrt_pos. assert (P3 : 0 <= l a c) by apply sqrt_pos.
    set (l1 := l a b) in *. set (l2 := l b c) in *. set (l3 := l a c) in *.
    assert (S1 : forall z, 0 <= l1 * (z * z)) by (intros z; apply Rmult_le_pos; [exact P1|apply Rle_0_sqr]).
    assert (S2 : forall z, 0 <= l2 * (z * z)) by (intros z; apply Rmult_le_pos; [exact P2|apply Rle_0_sqr]).
    assert (S3 : forall z, 0 <= l3 * (z * z)) by (intros z; apply Rmult_le_pos; [exact P3|apply Rle_0_sqr]).
    pose proof (S1 (H a)). pose proof (S1 (H b)). pose proof (S1 (H a - H b)).
    pose proof (S2 (H b)). pose proof (S2 (H c)). pose proof (S2 (H b - H c)).
    pose proof (S3 (H a)). pose proof (S3 (H c)). pose proof (S3 (H a - H c)).
    unfold H in *. destruct (D a), (D b), (D c); lra.
  Qed.
End Min.
Lemma energy_split bd p q cells : energy_own bd p q cells =
  e1 bd (fun a b => dist (p a) (p b)) (fun v => fst (p v)) (fun v => fst (q v)) cells + e1 bd (fun a b => dist (p a) (p b)) (fun v => snd (p v)) (fun v => snd (q v)) cells.
Proof.
  unfold energy_own, e1, lsum. induction cells as [|[[a b] c] t IH]; cbn [fold_right]; [lra|]. rewrite IH. unfold spring, sp1, dist2.
  destruct (bd a), (bd b), (bd c); ring.
Qed.
Lemma e1_bd bd D l p Q cells : (forall i, bd i = D i) -> e1 bd l p Q cells = e1 D l p Q cells.
Proof. intros H. apply lsum_ext. intros [[a b] c] _. unfold sp1. rewrite !H. reflexivity. Qed.
Theorem C206_minimum_partial : forall cg np pts bnd cells bd, solved cg np pts bnd cells -> triangles np cells ->
  (forall i, bd i = true <-> on_boundary bnd i) ->
  forall q, energy_own bd pts (relax_mesh cg np pts bnd cells) cells <= energy_own bd pts q cells.
Proof.
  intros cg np pts bnd cells bd SO HT HB q.
  assert (E : forall i, bd i = dirichlet_nodes bnd i).
  { intros i. pose proof (HB i) as A. rewrite on_boundary_iff in A. destruct (bd i), (dirichlet_nodes bnd i); try reflexivity; destruct A as (A & B); [symmetry; apply A; reflexivity|apply B; reflexivity]. }
  rewrite !energy_split, !(e1_bd _ _ _ _ _ _ E). apply Rplus_le_compat.
  - apply (min1 cg np pts bnd cells SO HT 0 fst (or_introl (conj eq_refl eq_refl))). intros v Hv Dv.
    rewrite relax_at; [reflexivity|exact Hv|unfold free; rewrite Dv; reflexivity].
  - apply (min1 cg np pts bnd cells SO HT (length (expand_map np bnd)) snd (or_intror (conj eq_refl eq_refl))). intros v Hv Dv.
    rewrite relax_at; [reflexivity|exact Hv|unfold free; rewrite Dv; reflexivity].
Qed.

(** The claim of the comment (mesh_utility.hpp:315), "Minimize the energy contained in a triangular mesh", fails: the
    unit square cut in four triangles from the point (1/4, 1/2) *)
Definition sq_pts (i : nat) : p2 := match i with 0%nat => (0, 0) | 1%nat => (1, 0) | 2%nat => (1, 1) | 3%nat => (0, 1) | _ => (1 / 4, 1 / 2) end.
Definition sq_bnd : list (nat * nat) := [(0, 1); (1, 2); (2, 3); (0, 3)]%nat.
Definition sq_cells : list tri := [(0, 1, 4); (1, 2, 4); (2, 3, 4); (0, 3, 4)]%nat.
Definition idle : nat -> mat -> (nat -> R) -> (nat -> R) -> nat -> R := fun _ _ _ x => x.
Lemma sq_nd : forall t a b, In t sq_cells -> corner a t -> corner b t -> a <> b -> sq_pts a <> sq_pts b.
Proof.
  intros t a b I Ca Cb N E. assert (Ha : (a < 5)%nat) by (destruct I as [<-|[<-|[<-|[<-|[]]]]]; cbn in Ca; lia). assert (Hb : (b < 5)%nat) by (destruct I as [<-|[<-|[<-|[<-|[]]]]]; cbn in Cb; lia).
  clear I Ca Cb. destruct a as [|[|[|[|[|a]]]]], b as [|[|[|[|[|b]]]]]; try lia; pose proof (f_equal fst E) as E1; pose proof (f_equal snd E) as E2; cbn in E1, E2; lra.
Qed.
Lemma sq_tri : triangles 5 sq_cells.
Proof. intros a b c I. repeat (destruct I as [I|I]; [injection I as <- <- <-; lia|]). destruct I. Qed.
Lemma sq_is : forall t w, In t sq_cells -> corner 4 t -> corner w t -> w <> 4%nat -> on_boundary sq_bnd w.
Proof.
  intros t w I _ Cw N. assert (Hw : (w < 4)%nat) by (destruct I as [<-|[<-|[<-|[<-|[]]]]]; cbn in Cw; lia). apply on_boundary_iff.
  destruct w as [|[|[|[|w]]]]; try lia; reflexivity.
Qed.
(** the hypotheses of C206_stuck hold there *)
Example sq_solved : solved idle 5 sq_pts sq_bnd sq_cells.
Proof.
  unfold solved. change (expand_map 5 sq_bnd) with [4%nat]. cbv zeta. cbn [length]. unfold idle.
  destruct (cells_term sq_pts 5 sq_bnd (start sq_pts [4%nat]) fst 0 4 sq_cells sq_tri eq_refl) as (k & _ & _ & K); [intros t w I C1 C2 N; apply on_boundary_iff, (sq_is t w); assumption|exact sq_nd|].
  destruct (cells_term sq_pts 5 sq_bnd (start sq_pts [4%nat]) snd 1 4 sq_cells sq_tri eq_refl) as (l & _ & _ & L); [intros t w I C1 C2 N; apply on_boundary_iff, (sq_is t w); assumption|exact sq_nd|].
  assert (HV : forall t i, In t sq_cells -> (vert t i < 5)%nat) by (intros [[a b] c] i I; destruct (sq_tri a b c I) as (A & B & C); unfold vert; destruct i as [|[|i]]; lia).
  intros r Hr. destruct r as [|[|r]]; [| |cbn in Hr; lia].
  - pose proof (system_row sq_pts 5 sq_bnd (start sq_pts [4%nat]) 0 fst 4 sq_cells (or_introl (conj eq_refl eq_refl)) HV ltac:(lia) eq_refl) as R.
    rewrite K in R. unfold resid in R. change (expand_map 5 sq_bnd) with [4%nat] in R. change (0 + compress sq_bnd 4)%nat with 0%nat in R. cbn [length] in R. change (start sq_pts [4%nat] 0) with (fst (sq_pts 4)) in R. rewrite Rminus_eq_0, Rmult_0_r in R. apply Rminus_diag_uniq. exact R.
  - pose proof (system_row sq_pts 5 sq_bnd (start sq_pts [4%nat]) 1 snd 4 sq_cells (or_intror (conj eq_refl eq_refl)) HV ltac:(lia) eq_refl) as R.
    rewrite L in R. unfold resid in R. change (expand_map 5 sq_bnd) with [4%nat] in R. change (1 + compress sq_bnd 4)%nat with 1%nat in R. cbn [length] in R. change (start sq_pts [4%nat] 1) with (snd (sq_pts 4)) in R. rewrite Rminus_eq_0, Rmult_0_r in R. apply Rminus_diag_uniq. exact R.
Qed.
Theorem C206_energy_refuted : ~ (forall cg np pts bnd cells, solved cg np pts bnd cells -> triangles np cells ->
  (forall t a b, In t cells -> corner a t -> corner b t -> a <> b -> pts a <> pts b) ->
  forall q, (forall i, on_boundary bnd i -> q i = pts i) ->
  energy pts (relax_mesh cg np pts bnd cells) cells <= energy pts q cells).
Proof.
  intros H. specialize (H idle 5%nat sq_pts sq_bnd sq_cells sq_solved sq_tri sq_nd (fun i => match i with 4%nat => (1 / 2, 1 / 2) | _ => sq_pts i end)).
  assert (B : forall i, (i < 4)%nat -> on_boundary sq_bnd i) by (intros i Hi; apply on_boundary_iff; destruct i as [|[|[|[|i]]]]; try lia; reflexivity).
  assert (E : forall i, (i < 5)%nat -> relax_mesh idle 5 sq_pts sq_bnd sq_cells i = sq_pts i).
  { intros i Hi. destruct (Nat.eq_dec i 4) as [->|N]; [|apply C206_boundary, B; lia].
    apply C206_stuck; [exact sq_solved|exact sq_tri|lia| | |exact sq_is|exact sq_nd].
    - rewrite on_boundary_iff. discriminate.
    - exists (0, 1, 4)%nat. split; [left; reflexivity|right; right; reflexivity]. }
  unfold energy in H. cbn [sq_cells fold_right] in H. rewrite !E in H by lia.
  assert (Q : forall i, on_boundary sq_bnd i -> match i with 4%nat => (1 / 2, 1 / 2) | _ => sq_pts i end = sq_pts i).
  { intros i Hi. apply on_boundary_iff in Hi. destruct i as [|[|[|[|[|i]]]]]; try reflexivity. discriminate. }
  specialize (H Q). unfold dist, dist2 in H. cbn [sq_pts fst snd] in H.
  assert (S5 : 0 < sqrt (5 / 16)) by (apply sqrt_lt_R0; lra). assert (S13 : sqrt (5 / 16) < sqrt (13 / 16)) by (apply sqrt_lt_1; lra).
  repeat match type of H with context [sqrt ?e] => lazymatch e with
    | 5 / 16 => fail | 13 / 16 => fail | 1 => fail
    | _ => first [replace e with (5 / 16) in H by lra|replace e with (13 / 16) in H by lra|replace e with 1 in H by lra] end end.
  rewrite ?sqrt_1 in H. set (u := sqrt (5 / 16)) in *. set (w := sqrt (13 / 16)) in *. lra.
Qed.
Print Assumptions C206_boundary.
Print Assumptions C206_stuck.
Print Assumptions C206_energy_refuted.
Print Assumptions C206_minimum_partial.
