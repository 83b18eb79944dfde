(** The loops of the Grundmann-Moeller rule: enumeration of compositions, weights, number of points. *)
From Coq Require Import List Arith Bool Reals Lia Lra Factorial FinFun.
From Verif Require Import Common Poly_Spec GM_Model GM_Proofs.
Import ListNotations.
Local Open Scope nat_scope.

(** ** compositions of m into k parts, last part slowest *)
Fixpoint enum (k m : nat) : list (list nat) :=
  match k with
  | 0 => if m =? 0 then [[]] else []
  | S k => flat_map (fun j => map (fun l => l ++ [j]) (enum k (m - j))) (seq 0 (S m))
  end.

(** the successor of a composition: its first non-zero entry v moves one unit to the right and the rest to the front *)
Fixpoint succ_from (v : nat) (a : list nat) : option (list nat) :=     (* a = the entries after the current first one, all before are 0 *)
  match v with
  | 0 => match a with [] => None | x :: r => option_map (cons 0) (succ_from x r) end
  | S w => match a with [] => None | x :: r => Some (S w :: S x :: r) end
  end.
(** moves the value found to position 0 *)
Fixpoint firstnz (a : list nat) : option (nat * nat) :=
  match a with [] => None | 0 :: r => match firstnz r with Some (z, v) => Some (S z, v) | None => None end | S v :: _ => Some (0, S v) end.

Definition stepc (a : list nat) : outcome (list nat) :=
  match firstnz a with
  | None => UB
  | Some (z, v) =>
      do a <- vset a z 0; do a <- vset a 0 (v - 1); do x <- vget a (S z); vset a (S z) (x + 1)
  end.

Definition good (c : comp) : Prop :=
  exists z v, firstnz (c_a c) = Some (z, v) /\ (1 < c_t c -> z = 0) /\ (c_t c <= 1 -> z = c_h c).

Lemma firstnz_nth a : forall z v, firstnz a = Some (z, v) -> nth_error a z = Some v /\ 0 < v /\ forall i, i < z -> nth_error a i = Some 0.
Proof.
  induction a as [|x a IH]; intros z v H; [discriminate|]. destruct x as [|x]; cbn [firstnz] in H.
  - destruct (firstnz a) as [[z' v']|] eqn:E; [|discriminate]. injection H as <- <-. destruct (IH _ _ eq_refl) as (A & B & C).
    split; [exact A|]. split; [exact B|]. intros [|i] Hi; [reflexivity|]. apply C. lia.
  - injection H as <- <-. split; [reflexivity|]. split; [lia|]. lia.
Qed.
Lemma firstnz_intro a : forall z v, nth_error a z = Some v -> 0 < v -> (forall i, i < z -> nth_error a i = Some 0) -> firstnz a = Some (z, v).
Proof.
  induction a as [|x a IH]; intros z v H P Z; [destruct z; discriminate|]. destruct z as [|z].
  - injection H as ->. destruct v; [lia|]. reflexivity.
  - pose proof (Z 0 ltac:(lia)) as E. injection E as ->. cbn [firstnz]. rewrite (IH z v); [reflexivity|exact H|exact P|]. intros i Hi. apply (Z (S i)). lia.
Qed.
Lemma nth_upd {A} (l : list A) : forall i x l', upd l i x = Some l' -> forall j, nth_error l' j = if j =? i then Some x else nth_error l j.
Proof.
  induction l as [|h t IH]; intros i x l' H j; [destruct i; discriminate|]. destruct i as [|i]; cbn [upd] in H.
  - injection H as <-. destruct j; reflexivity.
  - destruct (upd t i x) as [t'|] eqn:E; [|discriminate]. injection H as <-. destruct j as [|j]; [reflexivity|]. cbn [nth_error Nat.eqb]. eapply IH. exact E.
Qed.

(** one call of comp_next on a state that is not the last one *)
Lemma comp_next_step n k c a' : good c -> c_more c = true -> stepc (c_a c) = Ok a' -> length (c_a c) = k -> 0 < k -> firstnz a' <> None ->
  exists c', comp_next n k c = Ok c' /\ c_a c' = a' /\ c_more c' = negb (nth (k - 1) a' 0 =? n) /\ good c'.
Proof.
  intros (z & v & E & G1 & G2) M St L K NZ. unfold comp_next. rewrite M. cbn [negb].
  assert (Hh : (if 1 <? c_t c then 0 else c_h c) = z) by (destruct (Nat.ltb_spec 1 (c_t c)); [rewrite G1; auto|rewrite G2; auto]).
  rewrite Hh. unfold stepc in St. rewrite E in St. destruct (firstnz_nth _ _ _ E) as (N & P & Z).
  replace (z + 1 - 1) with z by lia. unfold vget at 1. rewrite N. cbn [bind].
  destruct (vset (c_a c) z 0) as [a1| |] eqn:E1; cbn [bind] in St |- *; try discriminate.
  destruct (vset a1 0 (v - 1)) as [a2| |] eqn:E2; cbn [bind] in St |- *; try discriminate.
  replace (z + 1) with (S z) by lia. destruct (vget a2 (S z)) as [x| |] eqn:E3; cbn [bind] in St |- *; try discriminate. rewrite St. cbn [bind].
  assert (La : length a' = k).
  { unfold vset in *. destruct (upd (c_a c) z 0) eqn:U1; [|discriminate]. injection E1 as <-. destruct (upd l 0 (v - 1)) eqn:U2; [|discriminate]. injection E2 as <-.
    destruct (upd l0 (S z) (x + 1)) eqn:U3; [|discriminate]. injection St as <-. rewrite (upd_length _ _ _ _ U3), (upd_length _ _ _ _ U2), (upd_length _ _ _ _ U1). exact L. }
  unfold comp_end, vget. rewrite (nth_error_nth' a' 0) by lia. cbn [bind]. eexists. split; [reflexivity|]. cbn [c_a c_more]. split; [reflexivity|]. split; [reflexivity|].
  unfold good. cbn [c_a c_h c_t].
  assert (N' : forall j, nth_error a' j = if j =? S z then Some (x + 1) else if j =? 0 then Some (v - 1) else if j =? z then Some 0 else nth_error (c_a c) j).
  { unfold vset in *. destruct (upd (c_a c) z 0) eqn:U1; [|discriminate]. injection E1 as <-. destruct (upd l 0 (v - 1)) eqn:U2; [|discriminate]. injection E2 as <-.
    destruct (upd l0 (S z) (x + 1)) eqn:U3; [|discriminate]. injection St as <-. intros j.
    rewrite (nth_upd _ _ _ _ U3), (nth_upd _ _ _ _ U2), (nth_upd _ _ _ _ U1). reflexivity. }
  destruct (le_lt_dec v 1) as [V|V].
  - exists (S z), (x + 1). split; [|split; lia]. apply firstnz_intro.
    + rewrite N', Nat.eqb_refl. reflexivity.
    + lia.
    + intros i Hi. rewrite N'. destruct (Nat.eqb_spec i (S z)); [lia|]. destruct (Nat.eqb_spec i 0); [f_equal; lia|].
      destruct (Nat.eqb_spec i z); [reflexivity|]. apply Z. lia.
  - exists 0, (v - 1). split; [|split; lia]. apply firstnz_intro; [|lia|intros; lia]. rewrite N'. reflexivity.
Qed.

(** the successor inside a block, and from a block to the next *)
Lemma upd_app {A} (l : list A) : forall i x l', upd l i x = Some l' -> forall r, upd (l ++ r) i x = Some (l' ++ r).
Proof.
  induction l as [|h t IH]; intros i x l' H r; [destruct i; discriminate|]. destruct i as [|i]; cbn [upd app] in *.
  - injection H as <-. reflexivity.
  - destruct (upd t i x) as [t'|] eqn:E; [|discriminate]. injection H as <-. rewrite (IH _ _ _ E). reflexivity.
Qed.
Lemma firstnz_app a : forall r p, firstnz a = Some p -> firstnz (a ++ r) = Some p.
Proof.
  induction a as [|x a IH]; intros r p H; [discriminate|]. destruct x as [|x]; cbn [firstnz app] in *; [|exact H].
  destruct (firstnz a) as [[z v]|]; [|discriminate]. rewrite (IH r _ eq_refl). exact H.
Qed.
Lemma stepc_app a a' r : stepc a = Ok a' -> stepc (a ++ r) = Ok (a' ++ r).
Proof.
  unfold stepc. destruct (firstnz a) as [[z v]|] eqn:E; [|discriminate]. rewrite (firstnz_app _ r _ E). unfold vset, vget.
  destruct (upd a z 0) as [a1|] eqn:E1; [|discriminate]. rewrite (upd_app _ _ _ _ E1). cbn [bind].
  destruct (upd a1 0 (v - 1)) as [a2|] eqn:E2; [|discriminate]. rewrite (upd_app _ _ _ _ E2). cbn [bind].
  destruct (nth_error a2 (S z)) as [x|] eqn:E3; [|discriminate]. cbn [bind].
  rewrite nth_error_app1 by (apply nth_error_Some; rewrite E3; discriminate). rewrite E3. cbn [bind].
  destruct (upd a2 (S z) (x + 1)) as [a3|] eqn:E4; [|discriminate]. rewrite (upd_app _ _ _ _ E4). intros K. injection K as <-. reflexivity.
Qed.
Lemma firstnz_last k m j : 0 < m -> firstnz (repeat 0 k ++ [m; j]) = Some (k, m).
Proof. intros H. induction k as [|k IH]; [destruct m; [lia|reflexivity]|]. cbn [repeat app firstnz]. rewrite IH. reflexivity. Qed.
Lemma upd_at {A} (l : list A) x y r : upd (l ++ y :: r) (length l) x = Some (l ++ x :: r).
Proof. induction l as [|h t IH]; [reflexivity|]. cbn [app length upd]. rewrite IH. reflexivity. Qed.
Lemma stepc_wrap k m j : 0 < m -> stepc (repeat 0 k ++ [m; j]) = Ok (((m - 1) :: repeat 0 k) ++ [S j]).
Proof.
  intros H. unfold stepc. rewrite (firstnz_last k m j H). unfold vset.
  pose proof (upd_at (repeat 0 k) 0 m [j]) as U. rewrite repeat_length in U. rewrite U. cbn [bind].
  assert (R : repeat 0 k ++ [0; j] = 0 :: repeat 0 k ++ [j]).
  { change (0 :: repeat 0 k ++ [j]) with ((0 :: repeat 0 k) ++ [j]). rewrite repeat_cons, <- app_assoc. reflexivity. }
  rewrite R. cbn [upd bind]. unfold vget. cbn [nth_error].
  assert (N : nth_error (repeat 0 k ++ [j]) k = Some j) by (rewrite nth_error_app2; rewrite repeat_length; [rewrite Nat.sub_diag; reflexivity|lia]).
  rewrite N. cbn [bind]. cbn [upd]. pose proof (upd_at (repeat 0 k) (j + 1) j []) as U2. rewrite repeat_length in U2. rewrite U2.
  rewrite Nat.add_1_r. reflexivity.
Qed.

(** a list of compositions in which each one is the successor of the previous one *)
Fixpoint chain (x : list nat) (l : list (list nat)) (y : list nat) : Prop :=
  match l with [] => x = y | z :: r => stepc x = Ok z /\ chain z r y end.
Lemma chain_app x l y l' z : chain x l y -> chain y l' z -> chain x (l ++ l') z.
Proof. revert x. induction l as [|w l IH]; intros x H H'; cbn [app chain] in *; [subst; exact H'|]. destruct H. split; auto. Qed.
Lemma chain_block x l y j : chain x l y -> chain (x ++ [j]) (map (fun a => a ++ [j]) l) (y ++ [j]).
Proof. revert x. induction l as [|w l IH]; intros x H; cbn [map chain] in *; [subst; reflexivity|]. destruct H as [H1 H2]. split; [apply stepc_app; exact H1|auto]. Qed.

Definition first_of (k m : nat) : list nat := m :: repeat 0 k.
Definition last_of (k m : nat) : list nat := repeat 0 k ++ [m].
Lemma enum_chain k : forall m, exists l, enum (S k) m = first_of k m :: l /\ chain (first_of k m) l (last_of k m).
Proof.
  induction k as [|k IH]; intros m.
  - exists []. split; [|reflexivity]. cbn [enum]. rewrite seq_S, flat_map_app. cbn [flat_map Nat.add].
    assert (Z : flat_map (fun j => map (fun l : list nat => l ++ [j]) (if m - j =? 0 then [[]] else [])) (seq 0 m) = []).
    { assert (G : forall n s, s + n <= m -> flat_map (fun j => map (fun l : list nat => l ++ [j]) (if m - j =? 0 then [[]] else [])) (seq s n) = []).
      { induction n as [|n IHn]; intros s Hs; [reflexivity|]. cbn [seq flat_map]. destruct (Nat.eqb_spec (m - s) 0); [lia|]. cbn [map app]. apply IHn. lia. }
      apply G. lia. }
    rewrite Z, Nat.sub_diag. reflexivity.
  - change (enum (S (S k)) m) with (flat_map (fun j => map (fun l => l ++ [j]) (enum (S k) (m - j))) (seq 0 (S m))).
    assert (G : forall n j, j + n = m -> exists l, flat_map (fun j => map (fun l => l ++ [j]) (enum (S k) (m - j))) (seq j (S n)) = (first_of k (m - j) ++ [j]) :: l /\
      chain (first_of k (m - j) ++ [j]) l (last_of k 0 ++ [m])).
    { induction n as [|n IHn]; intros j Hj.
      - cbn [seq flat_map]. rewrite app_nil_r. destruct (IH (m - j)) as (l & -> & C). exists (map (fun a => a ++ [j]) l). split; [reflexivity|].
        apply chain_block with (j := j) in C. replace (m - j) with 0 in * by lia. replace m with j by lia. exact C.
      - change (seq j (S (S n))) with (j :: seq (S j) (S n)). cbn [flat_map]. destruct (IHn (S j)) as (l' & E' & C'); [lia|]. rewrite E'.
        destruct (IH (m - j)) as (l & -> & C). exists (map (fun a => a ++ [j]) l ++ (first_of k (m - S j) ++ [S j]) :: l'). split; [reflexivity|].
        eapply chain_app; [apply chain_block; exact C|]. cbn [chain]. split; [|exact C'].
        unfold last_of, first_of. rewrite <- app_assoc. cbn [app]. rewrite stepc_wrap by lia. replace (m - j - 1) with (m - S j) by lia. reflexivity. }
    destruct (G m 0 eq_refl) as (l & E & C). exists l. rewrite Nat.sub_0_r in *.
    assert (F1 : first_of k m ++ [0] = first_of (S k) m) by (unfold first_of; cbn [app]; f_equal; symmetry; apply repeat_cons).
    assert (F2 : last_of k 0 ++ [m] = last_of (S k) m) by (unfold last_of; rewrite <- repeat_cons; reflexivity).
    rewrite F1 in *. rewrite F2 in *. split; [exact E|exact C].
Qed.

(** parts of the compositions *)
Lemma enum_spec k : forall m a, In a (enum k m) <-> length a = k /\ nsum a = m.
Proof.
  assert (Ns : forall a j, nsum (a ++ [j]) = nsum a + j) by (induction a as [|x a IH]; intros j; cbn [app nsum]; [lia|rewrite IH; lia]).
  induction k as [|k IH]; intros m a.
  - cbn [enum]. destruct (Nat.eqb_spec m 0) as [->|N]; split; intros H.
    + destruct H as [<-|[]]. split; reflexivity.
    + destruct a; [left; reflexivity|destruct H; discriminate].
    + destruct H.
    + destruct H as [L N']. destruct a; [cbn in N'; lia|discriminate].
  - cbn [enum]. rewrite in_flat_map. split.
    + intros (j & Hj & H). apply in_seq in Hj. apply in_map_iff in H as (l & <- & H). apply IH in H as [L N]. rewrite app_length, Ns. cbn [length]. lia.
    + intros [L N]. destruct (exists_last (l := a)) as (l & j & ->); [destruct a; discriminate|]. rewrite Ns in N. rewrite app_length in L. cbn [length] in L.
      exists j. split; [apply in_seq; lia|]. apply in_map_iff. exists l. split; [reflexivity|]. apply IH. lia.
Qed.
Lemma enum_nodup k : forall m, NoDup (enum k m).
Proof.
  induction k as [|k IH]; intros m; cbn [enum]; [destruct (m =? 0); repeat constructor; auto|].
  assert (G : forall js, NoDup js -> NoDup (flat_map (fun j => map (fun l => l ++ [j]) (enum k (m - j))) js)).
  { induction 1 as [|j js Nj ND IHj]; [constructor|]. cbn [flat_map].
    assert (Nap : forall (a b : list (list nat)), NoDup a -> NoDup b -> (forall z, In z a -> ~ In z b) -> NoDup (a ++ b)).
    { induction a as [|x a IHa]; intros b Ha Hb D; [exact Hb|]. inversion Ha; subst. cbn [app]. constructor.
      - intros K. apply in_app_or in K as [K|K]; [contradiction|]. apply (D x); [left; reflexivity|exact K].
      - apply IHa; auto. intros z Hz. apply D. right. exact Hz. }
    apply Nap; [|exact IHj|].
    - apply FinFun.Injective_map_NoDup; [|apply IH]. intros a b E. apply app_inj_tail in E. tauto.
    - intros z H1 H2. apply in_map_iff in H1 as (a & <- & _). apply in_flat_map in H2 as (j' & Hj' & H2). apply in_map_iff in H2 as (b & E & _).
      apply app_inj_tail in E as [_ ->]. contradiction. }
  apply G. apply seq_NoDup.
Qed.

(** ** the loop over the compositions writes one point per composition *)
Definition gm_pt (n den : nat) (w : R) (a : list nat) : gmpoint :=
  (map (fun dim => (INR (2 * nth (dim + 1) a 0 + 1)%nat / INR den)%R) (seq 0 n), w).

Lemma chain_sum x l y : chain x l y -> length x > 0 -> forall z, In z l -> length z = length x.
Proof.
  revert x. induction l as [|w l IH]; intros x C Lx z Hz; [destruct Hz|]. cbn [chain] in C. destruct C as [S0 C].
  assert (Lw : length w = length x).
  { unfold stepc in S0. destruct (firstnz x) as [[p v]|]; [|discriminate]. unfold vset, vget in S0.
    destruct (upd x p 0) as [a1|] eqn:E1; [|discriminate]. cbn [bind] in S0. destruct (upd a1 0 (v - 1)) as [a2|] eqn:E2; [|discriminate]. cbn [bind] in S0.
    destruct (nth_error a2 (S p)) as [q|]; [|discriminate]. cbn [bind] in S0. destruct (upd a2 (S p) (q + 1)) as [a3|] eqn:E3; [|discriminate]. injection S0 as <-.
    rewrite (upd_length _ _ _ _ E3), (upd_length _ _ _ _ E2), (upd_length _ _ _ _ E1). reflexivity. }
  destruct Hz as [<-|Hz]; [exact Lw|]. rewrite <- Lw. eapply IH; [exact C|lia|exact Hz].
Qed.

Lemma firstnz_some a : 0 < nsum a -> firstnz a <> None.
Proof.
  induction a as [|x a IH]; cbn [nsum]; intros H; [lia|]. destruct x as [|x]; [|discriminate]. cbn [firstnz]. destruct (firstnz a) as [[z v]|]; [discriminate|]. exfalso. apply IH; [lia|reflexivity].
Qed.
Lemma nsum_last a n : length a = n -> 0 < n -> nsum a = nth (n - 1) a 0 -> a = last_of (n - 1) (nsum a).
Proof.
  revert n. induction a as [|x a IH]; intros n L P E; [cbn in L; lia|]. cbn [length] in L. destruct n as [|n]; [lia|]. injection L as L.
  destruct n as [|n]; [destruct a; [|discriminate]; cbn in *; unfold last_of; cbn; rewrite Nat.add_0_r; reflexivity|].
  replace (S (S n) - 1) with (S n) in * by lia. cbn [nth nsum] in E.
  assert (B : forall l i, nth i l 0 <= nsum l) by (induction l as [|y l IHl]; intros [|i]; cbn [nth nsum]; try lia; specialize (IHl i); lia).
  pose proof (B a n) as Bn. assert (x = 0) by lia. subst x. cbn [nsum Nat.add] in *. unfold last_of in *. cbn [repeat app]. f_equal.
  rewrite (IH (S n)) at 1; [replace (S n - 1) with n by lia; reflexivity|exact L|lia|]. replace (S n - 1) with n by lia. lia.
Qed.
Lemma nsum_last_of k m : nsum (last_of k m) = m.
Proof. unfold last_of. induction k as [|k IH]; cbn [repeat app nsum]; [lia|exact IH]. Qed.

Lemma nth_last k m : nth k (last_of k m) 0 = m.
Proof. unfold last_of. rewrite app_nth2; rewrite repeat_length; [rewrite Nat.sub_diag; reflexivity|lia]. Qed.

(** from a state standing on composition x *)
Lemma gm_points_run n m den w : forall l x c cap, 0 < n ->
  good c -> c_a c = x -> c_more c = true -> length x = n + 1 -> chain x l (last_of n m) -> l <> [] -> 0 < m ->
  (forall z, In z l -> nsum z = m) -> NoDup l -> length l <= cap ->
  gm_points cap m n den w c = Ok (map (gm_pt n den w) l).
Proof.
  induction l as [|y l IH]; intros x c cap Hn G E M L C NE Hm Sm ND Cap; [congruence|]. cbn [chain] in C. destruct C as [S0 C].
  destruct cap as [|cap]; [cbn [length] in Cap; lia|].
  assert (Ly : length y = n + 1) by (rewrite <- L; apply (chain_sum x (y :: l) (last_of n m)); [split; assumption|lia|left; reflexivity]).
  assert (Sy : nsum y = m) by (apply Sm; left; reflexivity).
  destruct (comp_next_step m (n + 1) c y) as (c' & E' & A' & M' & G'); try assumption; try lia.
  { rewrite E. exact S0. } { rewrite E. exact L. } { apply firstnz_some. lia. }
  cbn [gm_points]. rewrite E'. cbn [bind]. rewrite M', A'. replace (n + 1 - 1) with n by lia.
  destruct l as [|z l].
  - cbn [chain] in C. subst y. rewrite nth_last, Nat.eqb_refl. cbn [negb]. reflexivity.
  - destruct (Nat.eqb_spec (nth n y 0) m) as [K|K]; cbn [negb].
    + exfalso. assert (Y : y = last_of n m).
      { pose proof (nsum_last y (n + 1) Ly ltac:(lia)) as Q. replace (n + 1 - 1) with n in Q by lia. rewrite Sy in Q. apply Q. congruence. }
      inversion ND as [|? ? Ny ND']; subst. apply Ny.
      clear - C Y. assert (Q : forall l0 x y, chain x l0 y -> l0 <> [] -> In y l0).
      { induction l0 as [|u l0 IHl]; intros x y0 H Hne; [congruence|]. cbn [chain] in H. destruct H as [_ H]. destruct l0 as [|v l1]; [cbn in H; left; exact H|]. right. eapply IHl; [exact H|discriminate]. }
      rewrite Y at 1. eapply Q; [exact C|discriminate].
    + rewrite (IH y c' cap); try assumption; try discriminate.
      * reflexivity.
      * rewrite M'. replace (n + 1 - 1) with n by lia. destruct (Nat.eqb_spec (nth n y 0) m); [contradiction|reflexivity].
      * intros u Hu. apply Sm. right. exact Hu.
      * inversion ND; assumption.
      * cbn [length] in *. lia.
Qed.

Lemma gm_points_ok n m den w c cap : 0 < n -> c_more c = false -> length (enum (n + 1) m) <= cap ->
  gm_points cap m n den w c = Ok (map (gm_pt n den w) (enum (n + 1) m)).
Proof.
  intros Hn M Cap. replace (n + 1) with (S n) in * by lia. destruct (enum_chain n m) as (l & E & C). pose proof (enum_nodup (S n) m) as ND.
  assert (FA : Forall (fun z => length z = S n /\ nsum z = m) (enum (S n) m)) by (apply Forall_forall; intros z Hz; apply enum_spec; exact Hz).
  rewrite E in *. destruct cap as [|cap]; [cbn [length] in Cap; lia|].
  cbn [gm_points]. replace (n + 1) with (S n) by lia. unfold comp_next. rewrite M. cbn [negb]. unfold comp_end.
  change (m :: repeat 0 n) with (first_of n m). replace (S n - 1) with n by lia. unfold vget.
  assert (Nf : nth_error (first_of n m) n = Some 0).
  { unfold first_of. destruct n as [|n']; [lia|]. cbn [nth_error]. rewrite (nth_error_nth' _ 0) by (rewrite repeat_length; lia). f_equal. apply nth_repeat. }
  rewrite Nf. cbn [bind c_more c_a]. inversion FA as [|? ? [Lf Sf] FA']; subst.
  destruct m as [|m].
  - cbn [Nat.eqb negb]. assert (l = []).
    { destruct l as [|z l]; [reflexivity|]. exfalso. cbn [chain] in C. destruct C as [S0 _]. unfold stepc in S0.
      assert (Z : firstnz (first_of n 0) = None) by (unfold first_of; change (0 :: repeat 0 n) with (repeat 0 (S n)); generalize (S n); induction n0 as [|q IHq]; [reflexivity|cbn [repeat firstnz]; rewrite IHq; reflexivity]).
      rewrite Z in S0. discriminate. }
    subst l. reflexivity.
  - cbn [Nat.eqb negb].
    assert (NE : l <> []).
    { intros ->. cbn [chain] in C. pose proof (f_equal (fun u => nth n u 0) C) as Q. cbv beta in Q. rewrite nth_last in Q. apply nth_error_nth with (d := 0) in Nf. rewrite Nf in Q. discriminate. }
    rewrite (gm_points_run n (S m) den w l (first_of n (S m))); try assumption; try lia; try reflexivity.
    + unfold good. cbn [c_a c_t c_h]. exists 0, (S m). repeat split; reflexivity.
    + intros z Hz. rewrite Forall_forall in FA'. apply FA'. exact Hz.
    + inversion ND; assumption.
    + cbn [length] in Cap. lia.
Qed.
