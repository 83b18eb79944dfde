(** Commutative rings, finite sums, and matrices with explicit sizes, shared by the linear algebra
    models.  Scalars (double, complex) are idealised as an arbitrary commutative ring. *)
From Coq Require Import List Arith Lia Ring.
From Verif Require Import Common.
Import ListNotations.

Record cring := mkRing {
  car :> Type;
  c0 : car; c1 : car;
  cadd : car -> car -> car; cmul : car -> car -> car; csub : car -> car -> car; copp : car -> car;
  cth : ring_theory c0 c1 cadd cmul csub copp eq }.
Arguments c0 {c}. Arguments c1 {c}. Arguments cadd {c}. Arguments cmul {c}. Arguments csub {c}. Arguments copp {c}.

Declare Scope k_scope.
Delimit Scope k_scope with K.
Notation "0" := c0 : k_scope.
Notation "1" := c1 : k_scope.
Infix "+" := cadd : k_scope.
Infix "*" := cmul : k_scope.
Infix "-" := csub : k_scope.
Notation "- x" := (copp x) : k_scope.

(** Σ_{i<n} f i *)
Fixpoint sumn {K : cring} (n : nat) (f : nat -> K) : K :=
  match n with O => c0 | S n => cadd (sumn n f) (f n) end.
(** sum of a list *)
Fixpoint suml {K : cring} (l : list K) : K :=
  match l with [] => c0 | x :: l => cadd x (suml l) end.

(** Dense vectors and matrices: a size and the entries (entries outside are irrelevant). *)
Record vec (K : cring) := mkVec { vsize : nat; vent : nat -> K }.
Record mat (K : cring) := mkMat { mrows : nat; mcols : nat; ment : nat -> nat -> K }.
Arguments mkVec {K}. Arguments vsize {K}. Arguments vent {K}.
Arguments mkMat {K}. Arguments mrows {K}. Arguments mcols {K}. Arguments ment {K}.

(** Σ_k A(i,k) x(k), for entries given as functions *)
Definition mv {K : cring} (n : nat) (A : nat -> nat -> K) (x : nat -> K) (i : nat) : K := sumn n (fun k => cmul (A i k) (x k)).
Definition mm {K : cring} (n : nat) (A B : nat -> nat -> K) (i j : nat) : K := sumn n (fun k => cmul (A i k) (B k j)).

Section Sums.
  Context {K : cring}.
  Add Ring Kring : (cth K).
  Local Open Scope k_scope.

  Lemma sumn_ext n (f g : nat -> K) : (forall i, i < n -> f i = g i) -> sumn n f = sumn n g.
  Proof. induction n as [|n IH]; intros H; cbn; [reflexivity|]. rewrite IH, H by auto. reflexivity. Qed.
  Lemma sumn_zero n (f : nat -> K) : (forall i, i < n -> f i = 0) -> sumn n f = 0.
  Proof. induction n as [|n IH]; intros H; cbn; [reflexivity|]. rewrite IH, H by auto. ring. Qed.
  Lemma sumn_add n (f g : nat -> K) : sumn n (fun i => f i + g i) = sumn n f + sumn n g.
  Proof. induction n as [|n IH]; cbn; [ring|]. rewrite IH. ring. Qed.
  Lemma sumn_sub n (f g : nat -> K) : sumn n (fun i => f i - g i) = sumn n f - sumn n g.
  Proof. induction n as [|n IH]; cbn; [ring|]. rewrite IH. ring. Qed.
  Lemma sumn_opp n (f : nat -> K) : sumn n (fun i => - f i) = - sumn n f.
  Proof. induction n as [|n IH]; cbn; [ring|]. rewrite IH. ring. Qed.
  Lemma sumn_mul_l n c (f : nat -> K) : sumn n (fun i => c * f i) = c * sumn n f.
  Proof. induction n as [|n IH]; cbn; [ring|]. rewrite IH. ring. Qed.
  Lemma sumn_mul_r n c (f : nat -> K) : sumn n (fun i => f i * c) = sumn n f * c.
  Proof. induction n as [|n IH]; cbn; [ring|]. rewrite IH. ring. Qed.
  Lemma sumn_app n m (f : nat -> K) : sumn (n + m) f = sumn n f + sumn m (fun i => f (n + i)%nat).
  Proof.
    induction m as [|m IH]; cbn [sumn]; [rewrite Nat.add_0_r; ring|].
    rewrite Nat.add_succ_r. cbn [sumn]. rewrite IH. ring.
  Qed.
  Lemma sumn_swap n m (f : nat -> nat -> K) :
    sumn n (fun i => sumn m (fun j => f i j)) = sumn m (fun j => sumn n (fun i => f i j)).
  Proof.
    induction n as [|n IH]; cbn [sumn]; [symmetry; apply sumn_zero; reflexivity|].
    rewrite IH, <- sumn_add. reflexivity.
  Qed.
  Lemma sumn_single n k (f : nat -> K) : (k < n)%nat -> (forall i, (i < n)%nat -> i <> k -> f i = 0) -> sumn n f = f k.
  Proof.
    induction n as [|n IH]; intros Hk H; [lia|]. cbn [sumn]. destruct (Nat.eq_dec k n) as [->|N].
    - rewrite sumn_zero; [ring|]. intros i Hi. apply H; lia.
    - rewrite IH, (H n) by (try lia; intros; apply H; lia). ring.
  Qed.
  Lemma sumn_shift n (f : nat -> K) : sumn (S n) f = f 0%nat + sumn n (fun i => f (S i)).
  Proof. change (S n) with (1 + n)%nat. rewrite sumn_app. cbn. ring. Qed.
  Lemma suml_app (a b : list K) : suml (a ++ b) = suml a + suml b.
  Proof. induction a as [|x a IH]; cbn; [ring|]. rewrite IH. ring. Qed.
  Lemma suml_map_seq n (f : nat -> K) : suml (map f (seq 0 n)) = sumn n f.
  Proof.
    induction n as [|n IH]; [reflexivity|]. rewrite seq_S, map_app, suml_app, IH. cbn. ring.
  Qed.
  Lemma suml_concat (l : list (list K)) : suml (concat l) = suml (map suml l).
  Proof. induction l as [|x l IH]; cbn; [reflexivity|]. rewrite suml_app, IH. reflexivity. Qed.

  Lemma mv_ext n A (x y : nat -> K) i : (forall k, k < n -> x k = y k) -> mv n A x i = mv n A y i.
  Proof. intros H. apply sumn_ext. intros k Hk. now rewrite H. Qed.
  Lemma mv_add n A (x y : nat -> K) i : mv n A (fun k => x k + y k) i = mv n A x i + mv n A y i.
  Proof. unfold mv. rewrite <- sumn_add. apply sumn_ext. intros. ring. Qed.
  Lemma mv_sub n A (x y : nat -> K) i : mv n A (fun k => x k - y k) i = mv n A x i - mv n A y i.
  Proof. unfold mv. rewrite <- sumn_sub. apply sumn_ext. intros. ring. Qed.
  Lemma mv_scal n A c (x : nat -> K) i : mv n A (fun k => c * x k) i = c * mv n A x i.
  Proof. unfold mv. rewrite <- sumn_mul_l. apply sumn_ext. intros. ring. Qed.
  Lemma mv_mm n m A B (x : nat -> K) i : mv m (mm n A B) x i = mv n A (mv m B x) i.
  Proof.
    unfold mv, mm. transitivity (sumn m (fun k => sumn n (fun l => A i l * B l k * x k))).
    - apply sumn_ext. intros k Hk. now rewrite <- sumn_mul_r.
    - rewrite sumn_swap. apply sumn_ext. intros l Hl. rewrite <- sumn_mul_l. apply sumn_ext. intros k Hk. ring.
  Qed.
  Lemma mv_mat_sub n A B (x : nat -> K) i : mv n (fun i k => A i k - B i k) x i = mv n A x i - mv n B x i.
  Proof. unfold mv. rewrite <- sumn_sub. apply sumn_ext. intros. ring. Qed.
End Sums.
