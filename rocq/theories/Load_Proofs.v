(** Reading numbers and blocks of numbers (lexical level of the loaders). *)
From Coq Require Import List Arith NArith ZArith QArith Bool Ascii Permutation Sorted Lia.
From Verif Require Import Common Mesh_Model Mesh_Spec Elem_Model Load_Model Load_Spec.
Import ListNotations.
Local Open Scope nat_scope.

Lemma white_space c : white c -> is_space c = true.
Proof. unfold white. cbn [map In]. intros H. repeat destruct H as [<-|H]; try reflexivity. destruct H. Qed.
Lemma white_not_digit c : white c -> is_digit c = false.
Proof. unfold white. cbn [map In]. intros H. repeat destruct H as [<-|H]; try reflexivity. destruct H. Qed.
Lemma white_not c : white c -> Ascii.eqb c "." = false /\ Ascii.eqb c "e" = false /\ Ascii.eqb c "E" = false.
Proof. unfold white. cbn [map In]. intros H. repeat destruct H as [<-|H]; try (repeat split; reflexivity). destruct H. Qed.

Definition dchar (d : nat) : ascii := ascii_of_nat (48 + d).
Lemma dchar_facts d : d < 10 -> is_digit (dchar d) = true /\ is_space (dchar d) = false /\
  Ascii.eqb (dchar d) "-" = false /\ Ascii.eqb (dchar d) "+" = false /\ Ascii.eqb (dchar d) "." = false /\
  digit_val (dchar d) = N.of_nat d.
Proof.
  intros H. do 10 (destruct d as [|d]; [repeat split; reflexivity|]). lia.
Qed.

Lemma skip_blank w s : blank w -> skip_space (w ++ s) = skip_space s.
Proof.
  induction 1 as [|c w H _ IH]; [reflexivity|]. cbn [app skip_space]. rewrite (white_space c H). exact IH.
Qed.

Definition no_digit (s : text) : Prop := match s with [] => True | c :: _ => is_digit c = false end.

Lemma span_digits_app ds rest : decimal ds -> no_digit rest -> span_digits (digits ds ++ rest) = (digits ds, rest).
Proof.
  intros H N. induction H as [|d ds H _ IH].
  - cbn. destruct rest as [|c r]; [reflexivity|]. cbn in N. cbn. rewrite N. reflexivity.
  - cbn [digits map app span_digits]. fold (dchar d). destruct (dchar_facts d H) as (E & _). rewrite E.
    unfold digits in IH. rewrite IH. reflexivity.
Qed.

Lemma dec_val_digits_from ds : decimal ds -> forall v,
  fold_left (fun v c => (10 * v + digit_val c)%N) (digits ds) v = fold_left (fun v d => (10 * v + N.of_nat d)%N) ds v.
Proof.
  induction 1 as [|d ds H _ IH]; intros v; [reflexivity|]. cbn [digits map fold_left]. fold (dchar d).
  destruct (dchar_facts d H) as (_ & _ & _ & _ & _ & E). rewrite E. apply IH.
Qed.
Lemma dec_val_digits ds : decimal ds -> dec_val (digits ds) = value ds.
Proof. intros H. apply dec_val_digits_from, H. Qed.

Lemma separated_no_digit s : separated s -> no_digit s.
Proof. intros [->|(c & r & -> & W)]; [exact I|]. cbn. apply white_not_digit, W. Qed.

Lemma digits_app a b : digits (a ++ b) = digits a ++ digits b.
Proof. apply map_app. Qed.
Lemma decimal_app a b : decimal a -> decimal b -> decimal (a ++ b).
Proof. intros. apply Forall_app. split; assumption. Qed.
Lemma digits_length ds : length (digits ds) = length ds.
Proof. apply map_length. Qed.

Lemma strtoul_int w ds rest : blank w -> decimal ds -> ds <> [] -> no_digit rest -> (value ds < two64)%N ->
  strtoul (w ++ digits ds ++ rest) = (value ds, rest).
Proof.
  intros W H N R B. unfold strtoul. rewrite skip_blank by exact W.
  destruct ds as [|d ds]; [congruence|].
  assert (SK : skip_space (digits (d :: ds) ++ rest) = digits (d :: ds) ++ rest /\
               take_sign (digits (d :: ds) ++ rest) = (false, digits (d :: ds) ++ rest)).
  { cbn [digits map app skip_space take_sign]. fold (dchar d).
    destruct (dchar_facts d (Forall_inv H)) as (_ & E1 & E2 & E3 & _). rewrite E1, E2, E3. split; reflexivity. }
  destruct SK as [-> ->]. rewrite span_digits_app by assumption.
  rewrite dec_val_digits by assumption. cbn [digits map].
  replace (two64 <=? value (d :: ds))%N with false by (symmetry; apply N.leb_gt, B).
  cbn [andb]. reflexivity.
Qed.

Lemma sign_text_skip s neg rest : sign_text s neg -> (match rest with [] => True | c :: _ => is_space c = false /\ Ascii.eqb c "-" = false /\ Ascii.eqb c "+" = false end) ->
  skip_space (s ++ rest) = s ++ rest /\ take_sign (s ++ rest) = (neg, rest).
Proof.
  intros [] H.
  - cbn [app]. destruct rest as [|c r]; [split; reflexivity|]. destruct H as (H1 & H2 & H3).
    cbn. rewrite H1, H2, H3. split; reflexivity.
  - split; reflexivity.
  - split; reflexivity.
Qed.

Definition head_ok (s : text) : Prop :=
  match s with [] => True | c :: _ => is_space c = false /\ Ascii.eqb c "-" = false /\ Ascii.eqb c "+" = false end.

Lemma take_exp_text x e rest : exp_text x e -> separated rest -> take_exp (x ++ rest) = (e, rest).
Proof.
  intros [|c s neg ds Hc Hs Hd Hn] S.
  - cbn [app]. destruct S as [->|(c & r & -> & W)]; [reflexivity|]. unfold take_exp.
    destruct (white_not c W) as (_ & -> & ->). reflexivity.
  - cbn [app take_exp]. replace (Ascii.eqb c "e" || Ascii.eqb c "E") with true
      by (destruct Hc as [->| ->]; reflexivity).
    rewrite <- app_assoc.
    assert (HO : head_ok (digits ds ++ rest)).
    { destruct ds as [|d ds]; [congruence|]. cbn [digits map app head_ok]. fold (dchar d).
      destruct (dchar_facts d (Forall_inv Hd)) as (_ & E1 & E2 & E3 & _). auto. }
    destruct (sign_text_skip s neg _ Hs HO) as [_ ->].
    rewrite span_digits_app by (try assumption; apply separated_no_digit, S).
    rewrite dec_val_digits by assumption.
    destruct ds as [|d ds]; [congruence|]. cbn [digits map]. reflexivity.
Qed.

Lemma exp_head x e rest : exp_text x e -> separated rest -> no_digit (x ++ rest) /\
  match x ++ rest with [] => True | c :: _ => Ascii.eqb c "." = false end.
Proof.
  intros [|c s neg ds Hc Hs Hd Hn] S.
  - cbn [app]. split; [apply separated_no_digit, S|]. destruct S as [->|(c & r & -> & W)]; [exact I|]. apply (white_not c W).
  - destruct Hc as [->| ->]; split; reflexivity.
Qed.

Lemma strtod_real w body q rest : blank w -> spells body (NQ q) -> separated rest ->
  exists q', strtod (w ++ body ++ rest) = (q', rest) /\ (q' == q)%Q.
Proof.
  intros W H R. remember (NQ q) as n eqn:En.
  destruct H as [|s neg ip f fp x e q0 Hs Hip Hf Hx Hne Hq]; [discriminate|]. injection En as ->.
  unfold strtod. rewrite skip_blank by exact W. rewrite <- !app_assoc.
  destruct (exp_head x e rest Hx R) as [X1 X2].
  assert (FP : decimal fp) by (destruct Hf; [constructor|assumption]).
  assert (HO : head_ok (digits ip ++ f ++ x ++ rest)).
  { destruct ip as [|d ip].
    - cbn [digits map app]. destruct Hf; [cbn in Hne; congruence|]. repeat split; reflexivity.
    - cbn [digits map app head_ok]. fold (dchar d).
      destruct (dchar_facts d (Forall_inv Hip)) as (_ & E1 & E2 & E3 & _). auto. }
  destruct (sign_text_skip s neg _ Hs HO) as [-> ->].
  assert (ND : no_digit (f ++ x ++ rest)) by (destruct Hf; [exact X1|reflexivity]).
  rewrite span_digits_app by assumption.
  assert (FR : take_frac (f ++ x ++ rest) = (digits fp, x ++ rest)).
  { unfold take_frac. destruct Hf as [|fp Hfp].
    - cbn [app digits map]. destruct (x ++ rest) as [|c r]; [reflexivity|]. rewrite X2. reflexivity.
    - cbn [app]. change (Ascii.eqb "." ".") with true. cbv iota. apply span_digits_app; assumption. }
  rewrite FR. clear FR. rewrite <- digits_app. rewrite digits_length.
  rewrite dec_val_digits by (apply decimal_app; assumption).
  rewrite (take_exp_text x e rest Hx R).
  destruct (digits (ip ++ fp)) as [|c l] eqn:ED.
  { exfalso. apply Hne. apply map_eq_nil in ED. exact ED. }
  eexists. split; [reflexivity|]. rewrite Hq. unfold pow10. destruct neg; ring.
Qed.

(** ** Sequences of numbers *)

Lemma written_cons_inv txt n ns : written txt (n :: ns) -> exists w body rest, txt = w ++ body ++ rest /\
  blank w /\ spells body n /\ separated rest /\ written rest ns.
Proof. inversion 1; subst. eauto 10. Qed.

Lemma written_int txt n ns : written txt (NI n :: ns) -> (n < two64)%N ->
  exists t, strtoul txt = (n, t) /\ written t ns.
Proof.
  intros H B. apply written_cons_inv in H as (w & body & rest & -> & W & S & R & T).
  exists rest. split; [|exact T]. remember (NI n) as k eqn:E. destruct S as [ds D N|]; [|discriminate].
  injection E as <-. apply strtoul_int; try assumption. apply separated_no_digit, R.
Qed.

Lemma written_real txt q ns : written txt (NQ q :: ns) ->
  exists q' t, strtod txt = (q', t) /\ (q' == q)%Q /\ written t ns.
Proof.
  intros H. apply written_cons_inv in H as (w & body & rest & -> & W & S & R & T).
  destruct (strtod_real w body q rest W S R) as (q' & E & Q). eauto.
Qed.

(** [rd] reads items encoded by [enc]; [R] relates what is read to the item *)
Definition reads {A B} (rd : text -> A * text) (enc : B -> list num) (P : B -> Prop) (R : A -> B -> Prop) : Prop :=
  forall b txt ns, P b -> written txt (enc b ++ ns) ->
    exists a t, rd txt = (a, t) /\ R a b /\ written t ns.

Lemma read_many_spec {A B} (rd : text -> A * text) (enc : B -> list num) P R :
  reads rd enc P R -> forall bs txt ns, Forall P bs -> written txt (flat_map enc bs ++ ns) ->
  exists l t, read_many rd (length bs) txt = (l, t) /\ Forall2 R l bs /\ written t ns.
Proof.
  intros H. induction bs as [|b bs IH]; intros txt ns HP W.
  - exists [], txt. repeat split; [constructor|exact W].
  - cbn [flat_map] in W. rewrite <- app_assoc in W. inversion HP as [|? ? Hb Hbs]; subst.
    destruct (H b txt _ Hb W) as (a & t & E & HR & W').
    destruct (IH t ns Hbs W') as (l & t' & E' & F & W'').
    exists (a :: l), t'. cbn [length read_many]. rewrite E, E'. repeat split; [constructor; assumption|exact W''].
Qed.

Lemma read_block_spec {A B} (rd : text -> A * text) (enc : B -> list num) P R :
  reads rd enc P R -> forall bs txt ns, Forall P bs -> fits (length bs) ->
  written txt (count bs :: flat_map enc bs ++ ns) ->
  exists l t, read_block rd txt = (l, t) /\ Forall2 R l bs /\ written t ns.
Proof.
  intros H bs txt ns HP L W. destruct (written_int _ _ _ W L) as (t & E & W').
  unfold read_block. rewrite E. rewrite Nnat.Nat2N.id. apply (read_many_spec rd enc P R H bs t ns HP W').
Qed.

Lemma reads_index : reads strtoul (fun n : nat => [idx n]) fits (fun a n => a = N.of_nat n).
Proof.
  intros n txt ns F W. destruct (written_int _ _ _ W F) as (t & E & W'). eauto.
Qed.
Lemma reads_succ : reads strtoul (fun n : nat => [idx (S n)]) (fun n => fits (S n)) (fun a n => a = N.of_nat (S n)).
Proof.
  intros n txt ns F W. destruct (written_int _ _ _ W F) as (t & E & W'). eauto.
Qed.
Lemma reads_coord : reads strtod (fun q : Q => [NQ q]) (fun _ => True) Qeq.
Proof.
  intros n txt ns F W. destruct (written_real _ _ _ W) as (q & t & E & EQ & W'). eauto.
Qed.

Lemma flat_map_single {A B} (f : A -> B) l : flat_map (fun x => [f x]) l = map f l.
Proof. induction l; [reflexivity|]. cbn. congruence. Qed.

Lemma reads_point dim : reads (read_point_line dim) (map NQ) (fun p => length p = dim) (Forall2 Qeq).
Proof.
  intros p txt ns <- W. rewrite <- flat_map_single in W.
  apply (read_many_spec strtod _ _ _ reads_coord p txt ns); [|exact W].
  apply Forall_forall. intros; exact I.
Qed.

Lemma Forall2_map_eq {A B} (f : B -> A) l bs : Forall2 (fun a b => a = f b) l bs -> l = map f bs.
Proof. induction 1; cbn; congruence. Qed.

Lemma reads_plain n : reads (read_plain_line n) (map idx) (fun l => length l = n /\ Forall fits l) eq.
Proof.
  intros l txt ns [<- F] W. rewrite <- flat_map_single in W.
  destruct (read_many_spec strtoul _ _ _ reads_index l txt ns F W) as (vs & t & E & H & W').
  unfold read_plain_line. rewrite E. apply Forall2_map_eq in H. subst vs.
  eexists _, t. split; [reflexivity|]. split; [|exact W'].
  rewrite map_map. rewrite <- (map_id l) at 2. apply map_ext. intros a. apply Nnat.Nat2N.id.
Qed.

Lemma pred64_succ n : N.to_nat (pred64 (N.of_nat (S n))) = n.
Proof.
  unfold pred64. destruct (N.eqb_spec (N.of_nat (S n)) 0); [lia|]. rewrite Nnat.N2Nat.inj_sub, Nnat.Nat2N.id. lia.
Qed.

Lemma reads_tagged n : reads (read_tagged_line n) netgen_item
  (fun c => length (snd c) = n /\ fits (fst c) /\ Forall (fun v => fits (S v)) (snd c)) eq.
Proof.
  intros [k l] txt ns (L & Fk & F) W. cbn [fst snd] in *. subst n. unfold netgen_item in W. cbn [fst snd] in W.
  destruct (written_int _ _ _ W Fk) as (t & E & W'). unfold read_tagged_line. rewrite E.
  rewrite <- flat_map_single in W'.
  destruct (read_many_spec strtoul _ _ _ reads_succ l t ns F W') as (vs & t' & E' & H & W'').
  rewrite E'. apply Forall2_map_eq in H. subst vs. eexists _, t'. split; [reflexivity|]. split; [|exact W''].
  rewrite Nnat.Nat2N.id, map_map. f_equal. rewrite <- (map_id l) at 2. apply map_ext. intros a. apply pred64_succ.
Qed.

Lemma Forall2_eq_eq {A} (a b : list A) : Forall2 eq a b -> a = b.
Proof. induction 1; congruence. Qed.
