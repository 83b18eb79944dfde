(** Model of the harmonic enrichment of the scalar bases: scaled_harmonic_top_scalar_basis,
    libdiskpp/include/diskpp/bases/bases_scalar.hpp 1150-1470 and 1722-1990 (USE_H2DT is not defined).

    Coordinates are exact reals.  The 3D functions divide by y^2 + z^2, which may be zero: there an entry is
    [None] when the floating point value is infinite or NaN; neither is ever used as a divisor, so it only
    spreads.  [assert]s are compiled out. *)
From Coq Require Import List Arith Reals Bool.
From Verif Require Import Common Tensor_Spec Bases_Model.
Import ListNotations.
Open Scope R_scope.

(** harmonic_basis_size, bases_scalar.hpp 1150-1166 *)
Definition harmonic_basis_size (k d : nat) : outcome nat :=
  if (d =? 2)%nat then Ok (2 * k + 1)%nat else if (d =? 3)%nat then Ok ((k + 1) * (k + 1))%nat else Throw InvalidArgument.

(** the sizes kept by the object, 1301-1303 and 1741-1743 *)
Record hbasis := mkHB { full_degree : nat; full_size : nat; poly_degree : nat; poly_size : nat; harm_min : nat; harm_size : nat }.
(** the constructors, 1360-1371 and 1848-1859, in dimension [d] *)
Definition harm_make (d fbd : nat) : hbasis :=
  mkHB fbd (scalar_basis_size fbd d) fbd (scalar_basis_size fbd d) (fbd + 1) 0.
(** maximum_polynomial_degree(pd), 1373-1388 and 1861-1876; the subtraction of sizes is on naturals: it does
    not wrap because pd <= full_degree *)
Definition set_poly_degree (d pd : nat) (B : hbasis) : outcome hbasis :=
  if (full_degree B <? pd)%nat then Ok B
  else do hs_notused <- harmonic_basis_size (pd + 1 - 1) d;
       do hs_used <- harmonic_basis_size (full_degree B) d;
       let ps := scalar_basis_size pd d in
       let hs := (hs_used - hs_notused)%nat in
       Ok (mkHB (full_degree B) (ps + hs) pd ps (pd + 1) hs).

(** [ret.tail(h) = hp.tail(h)], 1417 and 1907; [ret.block(rows - h, 0, h, d) = hg.block(...)], 1450, 1956 *)
Definition copy_tail {A} (h : nat) (ret hp : list A) : outcome (list A) :=
  if (h <=? length ret)%nat && (h <=? length hp)%nat
  then Ok (firstn (length ret - h) ret ++ skipn (length hp - h) hp) else UB.
(** [2.0*(pt-bar)/diam], 1415, 1448, 1905, 1954 *)
Definition hep (bar : nat -> R) (diam : R) (x : nat -> R) (i : nat) : R := 2 * (x i - bar i) / diam.

(** ** the plane *)
(** eval_harmonic, 1306-1326 *)
Definition eval_harmonic2 (deg : nat) (x y : R) : outcome (list R) :=
  do hbs <- harmonic_basis_size deg 2;
  do ret <- vset (zeros hbs) 0 1;
  do ret <- (if (0 <? deg)%nat then do r <- vset ret 1 x; vset r 2 y else Ok ret);
  fold_left (fun st i => do r <- st;
    do P <- vget r (2 * i - 3); do Q <- vget r (2 * i - 2);
    do r <- vset r (2 * i - 1) (x * P - y * Q);
    vset r (2 * i) (y * P + x * Q)) (seq 2 (deg - 1)) (Ok ret).
(** eval_harmonic_gradients, 1328-1357; sx = sy = 1 *)
Definition eval_harmonic_gradients2 (deg : nat) (x y : R) : outcome (list (list R)) :=
  do hbs <- harmonic_basis_size deg 2;
  do ret <- vset (zero_rows hbs 2) 0 [0; 0];
  do ret <- (if (0 <? deg)%nat then do r <- vset ret 1 [1; 0]; vset r 2 [0; 1] else Ok ret);
  if (deg =? 1)%nat then Ok ret
  else do funcs <- eval_harmonic2 deg x y;
       fold_left (fun st i => do r <- st;
         do P <- vget funcs (2 * i - 3); do Q <- vget funcs (2 * i - 2);
         do r <- vset r (2 * i - 1) [1 * (INR i * P); - (1) * (INR i * Q)];
         vset r (2 * i) [1 * (INR i * Q); 1 * (INR i * P)]) (seq 2 (deg - 1)) (Ok ret).
(** eval_functions, 1396-1420 *)
Definition top2_functions (B : hbasis) (F : frame) (bar : nat -> R) (diam : R) (x : nat -> R) : outcome (list R) :=
  let bp := scaling_point 2 F x in
  do ret <- ret_of (loop2 (poly_degree B) (fun a b => ipow (bp 0%nat) a * ipow (bp 1%nat) b) (Ok (0%nat, zeros (full_size B))));
  if (0 <? harm_size B)%nat
  then do hp <- eval_harmonic2 (full_degree B) (hep bar diam x 0) (hep bar diam x 1); copy_tail (harm_size B) ret hp
  else Ok ret.
(** eval_gradients, 1422-1454: entries (0,0) and (1,1) of passage_new2old() *)
Definition top2_gradients (B : hbasis) (F : frame) (bar : nat -> R) (diam : R) (x : nat -> R) : outcome (list (list R)) :=
  let bp := scaling_point 2 F x in
  do ret <- ret_of (loop2 (poly_degree B) (fun a b =>
      [passage F 0 0 * dpow (bp 0%nat) a * ipow (bp 1%nat) b; passage F 1 1 * ipow (bp 0%nat) a * dpow (bp 1%nat) b])
      (Ok (0%nat, zero_rows (full_size B) 2)));
  if (0 <? harm_size B)%nat
  then do hg <- eval_harmonic_gradients2 (full_degree B) (hep bar diam x 0) (hep bar diam x 1); copy_tail (harm_size B) ret hg
  else Ok ret.

(** ** space *)
(** a floating point value: [None] is infinite or NaN *)
Definition fl := option R.
Definition fl2 (f : R -> R -> R) (a b : fl) : fl := match a, b with Some a, Some b => Some (f a b) | _, _ => None end.
Definition fadd := fl2 Rplus.
Definition fsub := fl2 Rminus.
Definition fmul := fl2 Rmult.
Definition fdiv (a : fl) (b : R) : fl := match a with Some a => if Req_EM_T b 0 then None else Some (a / b) | None => None end.
(** an n x n dense matrix: reads and writes outside it are UB *)
Definition mat := nat -> nat -> fl.
Definition mget (n : nat) (M : mat) (i j : nat) : outcome fl := if (i <? n)%nat && (j <? n)%nat then Ok (M i j) else UB.
Definition mset (n : nat) (M : mat) (i j : nat) (v : fl) : outcome mat :=
  if (i <? n)%nat && (j <? n)%nat then Ok (fun a b => if (a =? i)%nat && (b =? j)%nat then v else M a b) else UB.

(** the body of the loops of eval_cs, 1764-1783: first test *)
Definition cs_ladder (N : nat) (x y z R2 r2 : R) (n m : nat) (CS : mat * mat) : outcome (mat * mat) :=
  let (Cs, Ss) := CS in
  let mult := fdiv (Some (2 * (INR m + 1))) ((INR n + INR m + 1) * r2) in
  do c' <- mget N Cs (n - 1) m; do c <- mget N Cs n m; do s' <- mget N Ss (n - 1) m; do s <- mget N Ss n m;
  let cc := fsub (fmul (Some R2) c') (fmul (Some x) c) in
  let ss := fsub (fmul (Some R2) s') (fmul (Some x) s) in
  do Cs <- mset N Cs n (m + 1) (fmul mult (fsub (fmul cc (Some y)) (fmul ss (Some z))));
  do Ss <- mset N Ss n (m + 1) (fmul mult (fadd (fmul ss (Some y)) (fmul cc (Some z))));
  Ok (Cs, Ss).
(** second test *)
Definition cs_up (N : nat) (x R2 : R) (n m : nat) (CS : mat * mat) : outcome (mat * mat) :=
  let (Cs, Ss) := CS in
  let mult := Some (1 / (INR n + INR m + 1)) in
  let rec := fun A' A : fl => fmul mult (fsub (fmul (Some ((2 * INR n + 1) * x)) A) (fmul (Some ((INR n - INR m) * R2)) A')) in
  do c' <- mget N Cs (n - 1) m; do c <- mget N Cs n m; do s' <- mget N Ss (n - 1) m; do s <- mget N Ss n m;
  do Cs <- mset N Cs (n + 1) m (rec c' c);
  do Ss <- mset N Ss (n + 1) m (rec s' s);
  Ok (Cs, Ss).
Definition cs_step (hmd : nat) (x y z R2 r2 : R) (n m : nat) (st : outcome (mat * mat)) : outcome (mat * mat) :=
  do s <- st;
  do s <- (if (2 <=? n)%nat && (m <? n)%nat then cs_ladder (hmd + 1) x y z R2 r2 n m s else Ok s);
  if (1 <=? n)%nat && (m <? 2)%nat && (n <? hmd)%nat then cs_up (hmd + 1) x R2 n m s else Ok s.
(** eval_cs, 1748-1791 *)
Definition eval_cs (hmd : nat) (x y z : R) : outcome (mat * mat) :=
  let N := (hmd + 1)%nat in
  let zero : mat := fun _ _ => Some 0 in
  do Cs <- mset N zero 0 0 (Some 1);
  do CS <- (if (0 <? hmd)%nat
            then do C1 <- mset N Cs 1 0 (Some x); do C2 <- mset N C1 1 1 (Some y); do S1 <- mset N zero 1 1 (Some z); Ok (C2, S1)
            else Ok (Cs, zero));
  let R2 := x * x + y * y + z * z in
  let r2 := y * y + z * z in
  fold_left (fun st n => fold_left (fun st m => cs_step hmd x y z R2 r2 n m st) (seq 0 (S n)) st) (seq 0 (S hmd)) (Ok CS).
(** eval_harmonic, 1793-1814 *)
Definition eval_harmonic3 (hmd : nat) (x y z : R) : outcome (list fl) :=
  do bsize <- harmonic_basis_size hmd 3;
  do CS <- eval_cs hmd x y z;
  let (Cs, Ss) := CS in
  do ret <- vset (repeat (Some 0) bsize) 0 (Some 1);
  ret_of (fold_left (fun st n =>
      fold_left (fun st m => oput st (mget (hmd + 1) Ss n m)) (seq 1 n)
        (fold_left (fun st m => oput st (mget (hmd + 1) Cs n m)) (seq 0 (S n)) st))
    (seq 1 hmd) (Ok (1%nat, ret))).
(** one row of eval_harmonic_gradients, 1828-1841: [sg] is + for the first group and - for the second *)
Definition grad_row (x y z r2 : R) (sg : R) (n m : nat) (A' A B : fl) : list fl :=
  let rad := fsub (fmul (Some (INR n)) A) (fmul (Some ((INR n - INR m) * x)) A') in
  [fmul (Some (INR n - INR m)) A';
   fadd (fmul (fdiv (Some y) r2) rad) (fmul (Some sg) (fdiv (fmul (fmul (Some (INR m)) B) (Some z)) r2));
   fsub (fmul (fdiv (Some z) r2) rad) (fmul (Some sg) (fdiv (fmul (fmul (Some (INR m)) B) (Some y)) r2))].
(** eval_harmonic_gradients, 1816-1845 *)
Definition eval_harmonic_gradients3 (hmd : nat) (x y z : R) : outcome (list (list fl)) :=
  do bsize <- harmonic_basis_size hmd 3;
  do CS <- eval_cs hmd x y z;
  let (Cs, Ss) := CS in
  let r2 := y * y + z * z in
  let N := (hmd + 1)%nat in
  ret_of (fold_left (fun st n =>
      fold_left (fun st m => oput st (do s' <- mget N Ss (n - 1) m; do s <- mget N Ss n m; do c <- mget N Cs n m;
                                      Ok (grad_row x y z r2 (-(1)) n m s' s c))) (seq 1 n)
        (fold_left (fun st m => oput st (do c' <- mget N Cs (n - 1) m; do c <- mget N Cs n m; do s <- mget N Ss n m;
                                         Ok (grad_row x y z r2 1 n m c' c s))) (seq 0 (S n)) st))
    (seq 1 hmd) (Ok (1%nat, repeat (repeat (Some 0) 3) bsize))).
(** eval_functions, 1884-1910 *)
Definition top3_functions (B : hbasis) (F : frame) (bar : nat -> R) (diam : R) (x : nat -> R) : outcome (list fl) :=
  let bp := scaling_point 3 F x in
  do ret <- ret_of (loop3 (poly_degree B) (fun a b c => Some (ipow (bp 0%nat) a * ipow (bp 1%nat) b * ipow (bp 2%nat) c))
      (Ok (0%nat, repeat (Some 0) (full_size B))));
  if (0 <? harm_size B)%nat
  then do hp <- eval_harmonic3 (full_degree B) (hep bar diam x 0) (hep bar diam x 1) (hep bar diam x 2); copy_tail (harm_size B) ret hp
  else Ok ret.
(** eval_gradients, 1912-1960 *)
Definition top3_gradients (B : hbasis) (F : frame) (bar : nat -> R) (diam : R) (x : nat -> R) : outcome (list (list fl)) :=
  let bp := scaling_point 3 F x in
  do ret <- ret_of (loop3 (poly_degree B) (fun a b c =>
      let px := ipow (bp 0%nat) a in let py := ipow (bp 1%nat) b in let pz := ipow (bp 2%nat) c in
      let g := new2old 3 F (vec3 (dpow (bp 0%nat) a * py * pz) (px * dpow (bp 1%nat) b * pz) (px * py * dpow (bp 2%nat) c)) in
      [Some (g 0%nat); Some (g 1%nat); Some (g 2%nat)]) (Ok (0%nat, repeat (repeat (Some 0) 3) (full_size B))));
  if (0 <? harm_size B)%nat
  then do hg <- eval_harmonic_gradients3 (full_degree B) (hep bar diam x 0) (hep bar diam x 1) (hep bar diam x 2); copy_tail (harm_size B) ret hg
  else Ok ret.
