(** Proofs about relax_mesh: what the rows of its system say, and where the points go. *)
From Coq Require Import List Arith Bool Reals Lra Lia.
From Verif Require Import HHO_Spec HHO_Proofs Relax_Spec Relax_Model.
Import ListNotations.
Open Scope R_scope.

(** * numbering *)
Lemma seq_split v np : (v < np)%nat -> seq 0 np = seq 0 v ++ v :: seq (S v) (np - S v).
Proof. intros H. replace np with (v + S (np - S v))%nat at 1 by lia. rewrite seq_app. reflexivity. Qed.
Lemma compress_nth np bnd v : (v < np)%nat -> free bnd v = true -> nth (compress bnd v) (expand_map np bnd) O = v /\ (compress bnd v < length (expand_map np bnd))%nat.
Proof.
  intros H F. unfold compress, expand_map. rewrite (seq_split v np H), filter_app. cbn [filter]. rewrite F, app_length. cbn [length]. split; [|lia].
  rewrite app_nth2 by lia. rewrite Nat.sub_diag. reflexivity.
Qed.
Lemma compress_inj np bnd v w : (v < np)%nat -> (w < np)%nat -> free bnd v = true -> free bnd w = true -> compress bnd v = compress bnd w -> v = w.
Proof. intros Hv Hw Fv Fw E. rewrite <- (proj1 (compress_nth np bnd v Hv Fv)), E. apply compress_nth; assumption. Qed.
Lemma expand_free np bnd i : (i < length (expand_map np bnd))%nat -> free bnd (nth i (expand_map np bnd) O) = true.
Proof. intros H. pose proof (nth_In (expand_map np bnd) O H) as I. unfold expand_map in I at 2. apply filter_In in I. apply I. Qed.
Lemma expand_inj np bnd i j : (i < length (expand_map np bnd))%nat -> (j < length (expand_map np bnd))%nat ->
  nth i (expand_map np bnd) O = nth j (expand_map np bnd) O -> i = j.
Proof. intros Hi Hj. apply NoDup_nth; try assumption. apply NoDup_filter, seq_NoDup. Qed.
(** the last loop *)
Lemma move_out (f : nat -> p2) (em : list nat) l k : forall q, (forall i, In i l -> k <> nth i em O) ->
  fold_left (fun q i => fun k => if (k =? nth i em O)%nat then f i else q k) l q k = q k.
Proof.
  induction l as [|i l IH]; intros q H; [reflexivity|]. cbn [fold_left]. rewrite IH by (intros; apply H; right; assumption).
  destruct (Nat.eqb_spec k (nth i em O)) as [E|E]; [|reflexivity]. exfalso. apply (H i); [left; reflexivity|exact E].
Qed.
Lemma move_in (f : nat -> p2) (em : list nat) l i : NoDup l -> In i l -> (forall j, In j l -> nth j em O = nth i em O -> j = i) -> forall q,
  fold_left (fun q i => fun k => if (k =? nth i em O)%nat then f i else q k) l q (nth i em O) = f i.
Proof.
  induction l as [|j l IH]; intros ND I INJ q; [destruct I|]. cbn [fold_left]. inversion ND as [|a b NI ND']; subst. destruct (Nat.eq_dec j i) as [->|N].
  - rewrite move_out; [rewrite Nat.eqb_refl; reflexivity|]. intros k Hk E. apply NI. rewrite <- (INJ k (or_intror Hk) (eq_sym E)). exact Hk.
  - apply IH; [exact ND'|destruct I; [congruence|assumption]|]. intros k Hk. apply INJ. right. exact Hk.
Qed.

(** * rows *)
Lemma sg_add_at2 n A k l x r (y : nat -> R) : (l < n)%nat -> sg n (fun c => add_at2 A k l x r c * y c) = sg n (fun c => A r c * y c) + (if (r =? k)%nat then x * y l else 0).
Proof.
  intros H. unfold add_at2. destruct (r =? k)%nat; cbn [andb]; [|lra].
  induction n as [|n IH]; [lia|]. cbn [sg]. destruct (Nat.eq_dec l n) as [->|N].
  - rewrite Nat.eqb_refl. rewrite (sg_ext n _ (fun c => A r c * y c)); [ring|]. intros c Hc. destruct (Nat.eqb_spec c n); [lia|reflexivity].
  - rewrite IH by lia. destruct (Nat.eqb_spec n l); [lia|]. ring.
Qed.
Section Row.
  Context (pts : nat -> p2) (np : nat) (bnd : list (nat * nat)) (y : nat -> R).
  Let n := length (expand_map np bnd).
  (** the two halves of the system *)
  Definition half (o : nat) (pr : p2 -> R) : Prop := (o = 0%nat /\ pr = fst) \/ (o = n /\ pr = snd).
  Definition resid (s : mat * (nat -> R)) (r : nat) : R := sg (2 * n) (fun c => fst s r c * y c) - snd s r.
  (** what a pair of points of a cell adds to the row of [v] *)
  Definition term (pr : p2 -> R) (o v : nat) (t : tri) (ij : nat * nat) : R :=
    let '(i, j) := ij in
    if dirichlet_nodes bnd (vert t i) then 0 else
    if (vert t i =? v)%nat then Kloc pts t i j * (if dirichlet_nodes bnd (vert t j) then pr (pts v) else y (o + compress bnd (vert t j))%nat) else 0.
  Lemma visit_row o pr v t ij s : half o pr -> (forall i, (vert t i < np)%nat) -> (v < np)%nat -> free bnd v = true ->
    resid (visit pts bnd n t s ij) (o + compress bnd v) = resid s (o + compress bnd v) + term pr o v t ij.
  Proof.
    intros HO HT Hv Fv. destruct s as [A b], ij as [i j]. unfold visit, term. destruct (dirichlet_nodes bnd (vert t i)) eqn:Di; [lra|].
    assert (Fi : free bnd (vert t i) = true) by (unfold free; rewrite Di; reflexivity).
    pose proof (proj2 (compress_nth np bnd v Hv Fv)) as Lv. pose proof (proj2 (compress_nth np bnd _ (HT i) Fi)) as Li. fold n in Lv, Li.
    assert (EQ : (compress bnd v =? compress bnd (vert t i))%nat = (vert t i =? v)%nat).
    { destruct (Nat.eqb_spec (vert t i) v) as [->|N]; [apply Nat.eqb_refl|]. apply Nat.eqb_neq. intros E. apply N. symmetry. apply (compress_inj np bnd); auto. }
    destruct (dirichlet_nodes bnd (vert t j)) eqn:Dj.
    - unfold resid. cbn [fst snd]. unfold add_at.
      destruct HO as [(-> & ->)|(-> & ->)].
      + rewrite Nat.add_0_l, EQ. destruct (Nat.eqb_spec (compress bnd v) (n + compress bnd (vert t i))); [lia|].
        destruct (Nat.eqb_spec (vert t i) v) as [->|]; ring.
      + replace (n + compress bnd v =? n + compress bnd (vert t i))%nat with (vert t i =? v)%nat.
        2:{ rewrite <- EQ. destruct (Nat.eqb_spec (compress bnd v) (compress bnd (vert t i))) as [E|E]; symmetry; [apply Nat.eqb_eq|apply Nat.eqb_neq]; lia. }
        destruct (Nat.eqb_spec (n + compress bnd v) (compress bnd (vert t i))); [lia|]. destruct (Nat.eqb_spec (vert t i) v) as [->|]; ring.
    - assert (Fj : free bnd (vert t j) = true) by (unfold free; rewrite Dj; reflexivity).
      pose proof (proj2 (compress_nth np bnd _ (HT j) Fj)) as Lj. fold n in Lj.
      unfold resid. cbn [fst snd]. rewrite !sg_add_at2 by lia.
      destruct HO as [(-> & ->)|(-> & ->)].
      + rewrite !Nat.add_0_l, EQ. destruct (Nat.eqb_spec (compress bnd v) (n + compress bnd (vert t i))); [lia|]. destruct (vert t i =? v)%nat; ring.
      + replace (n + compress bnd v =? n + compress bnd (vert t i))%nat with (vert t i =? v)%nat.
        2:{ rewrite <- EQ. destruct (Nat.eqb_spec (compress bnd v) (compress bnd (vert t i))) as [E|E]; symmetry; [apply Nat.eqb_eq|apply Nat.eqb_neq]; lia. }
        destruct (Nat.eqb_spec (n + compress bnd v) (compress bnd (vert t i))); [lia|]. destruct (vert t i =? v)%nat; ring.
  Qed.
  Definition lsum {A} (f : A -> R) (l : list A) : R := fold_right (fun a s => f a + s) 0 l.
  Lemma cell_row o pr v t l s : half o pr -> (forall i, (vert t i < np)%nat) -> (v < np)%nat -> free bnd v = true ->
    resid (fold_left (visit pts bnd n t) l s) (o + compress bnd v) = resid s (o + compress bnd v) + lsum (term pr o v t) l.
  Proof. intros HO HT Hv Fv. revert s. induction l as [|ij l IH]; intros s; cbn [fold_left lsum fold_right]; [lra|]. rewrite IH, (visit_row o pr) by assumption. unfold lsum. ring. Qed.
  Lemma system_row o pr v cells : half o pr -> (forall t i, In t cells -> (vert t i < np)%nat) -> (v < np)%nat -> free bnd v = true ->
    resid (system pts bnd n cells) (o + compress bnd v) = lsum (fun t => lsum (term pr o v t) pairs) cells.
  Proof.
    intros HO HT Hv Fv. unfold system.
    cut (forall s, resid (fold_left (fun s t => fold_left (visit pts bnd n t) pairs s) cells s) (o + compress bnd v) =
      resid s (o + compress bnd v) + lsum (fun t => lsum (term pr o v t) pairs) cells).
    { intros H. rewrite H. unfold resid at 1. cbn [fst snd]. rewrite sg_zero by (intros; ring). lra. }
    induction cells as [|t cells IH]; intros s; [cbn; lra|]. cbn [fold_left lsum fold_right]. rewrite IH by (intros; apply HT; right; assumption).
    rewrite (cell_row o pr) by (try assumption; intros; apply HT; left; reflexivity). unfold lsum. ring.
  Qed.
End Row.
