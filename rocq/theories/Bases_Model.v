(** Model of the scalar polynomial bases: libdiskpp/include/diskpp/bases/{bases_all,bases_scalar,
    bases_new,bases_raw}.hpp.

    Arrays are lists; writes and reads out of range are [UB]; coordinates are exact reals.  [assert]s
    are compiled out.  A dense matrix with one row per basis function is a list of rows. *)
From Coq Require Import List Arith ZArith Reals.
From Verif Require Import Common Util_Model Tensor_Spec.
Import ListNotations.
Open Scope R_scope.

(** ** sizes: size_t arithmetic wraps modulo 2^64 *)
Definition u64 (z : Z) : Z := (z mod 2 ^ 64)%Z.
(** the loop of scalar_basis_size, bases_scalar.hpp 45-52: (num, den) after [d] turns *)
Fixpoint size_loop (k : Z) (d : nat) : Z * Z :=
  match d with
  | O => (1, 1)%Z
  | S d' => let (num, den) := size_loop k d' in
            (u64 (num * u64 (k + Z.of_nat d)), u64 (den * Z.of_nat d))
  end.
(** scalar_basis_size, bases_scalar.hpp 42-55 *)
Definition scalar_basis_size_u (k : Z) (d : nat) : Z := let (num, den) := size_loop k d in (num / den)%Z.
Definition scalar_basis_size (k d : nat) : nat := Z.to_nat (scalar_basis_size_u (Z.of_nat k) d).

(** iexp_pow, bases_all.hpp 38-48, see Util_Model *)
Definition ipow (x : R) (n : nat) : R :=
  match iexp_pow_fuel Rmult 1 (S n) x n with Some y => y | None => 0 end.
(** [(n == 0) ? 0 : n * iexp_pow(x, n - 1)], bases_scalar.hpp 269, 460 *)
Definition dpow (x : R) (n : nat) : R := if (n =? 0)%nat then 0 else INR n * ipow x (n - 1).

(** [ret(pos++) = v] *)
Definition put {A} (st : outcome (nat * list A)) (v : A) : outcome (nat * list A) :=
  do s <- st; do r <- vset (snd s) (fst s) v; Ok (S (fst s), r).
Definition ret_of {A} (st : outcome (nat * list A)) : outcome (list A) := do s <- st; Ok (snd s).
(** the loops over the monomials of degree <= deg in two variables, bases_scalar.hpp 226-239:
    [for k <= deg, for i <= k: ret(pos++) = f(k - i, i)] *)
Definition loop2 {A} (deg : nat) (f : nat -> nat -> A) (st : outcome (nat * list A)) : outcome (nat * list A) :=
  fold_left (fun st k => fold_left (fun st i => put st (f (k - i)%nat i)) (seq 0 (S k)) st) (seq 0 (S deg)) st.
(** and in three, bases_scalar.hpp 415-429: [for k <= deg, for pow_x <= k, for pow_y <= k - pow_x],
    where pow_z is decremented from k - pow_x at each turn *)
Definition loop3 {A} (deg : nat) (f : nat -> nat -> nat -> A) (st : outcome (nat * list A)) : outcome (nat * list A) :=
  fold_left (fun st k => fold_left (fun st px => fold_left (fun st py => put st (f px py (k - px - py)%nat))
    (seq 0 (S (k - px))) st) (seq 0 (S k)) st) (seq 0 (S deg)) st.

(** ** the frame of an element (bases_all.hpp 53-411): barycenter, axes (columns) and lengths of the
    bounding box; the columns are the axes the basis uses (as many as the dimension of the element) *)
Record frame := mkFrame { f_bar : nat -> R; f_axes : nat -> nat -> R; f_len : nat -> R }.
(** compute_scaling_factor, bases_all.hpp 74-81, 323-328, 232-236 *)
Definition scaling_factor (F : frame) (i : nat) : R := 2 / f_len F i.
(** compute_passage_matrix, bases_all.hpp 83-89, 330-336, 247: the transposed axes, row i scaled *)
Definition passage (F : frame) (i j : nat) : R := f_axes F j i * scaling_factor F i.
(** scaling_point, bases_all.hpp 93-97, 194-198, 350-356; [d] is the dimension of space *)
Definition scaling_point (d : nat) (F : frame) (x : nat -> R) (i : nat) : R :=
  sig d (fun j => passage F i j * (x j - f_bar F j)).
(** [passage_new2old() * g] with passage_new2old() the transposed passage matrix, [n] reference
    variables, bases_all.hpp 107-111 *)
Definition new2old (n : nat) (F : frame) (g : nat -> R) (c : nat) : R := sig n (fun i => passage F i c * g i).

(** the two axes kept on a 3D face, bases_all.hpp 291-315: the first axis of least length is dropped *)
Definition min_ind (l : nat -> R) : nat :=
  snd (fold_left (fun s i => if Rlt_dec (l i) (fst s) then (l i, i) else s) [1; 2]%nat (l 0%nat, 0%nat)).
Definition keep (m pos : nat) : nat := nth pos (filter (fun i => negb (i =? m)%nat) [0; 1; 2]%nat) 0%nat.
Definition face3_frame (bar : nat -> R) (axes : nat -> nat -> R) (len : nat -> R) : frame :=
  let m := min_ind len in
  mkFrame bar (fun r c => axes r (keep m c)) (fun i => len (keep m i)).
(** the frame of a 2D face, bases_all.hpp 239-248: one axis, from the first point to the middle,
    normalised; [len] is the diameter of the face *)
Definition norm (d : nat) (v : nat -> R) : R := sqrt (sig d (fun i => v i * v i)).
Definition face2_frame (bar p0 : nat -> R) (len : R) : frame :=
  let v := fun i => bar i - p0 i in
  mkFrame bar (fun r _ => v r / norm 2 v) (fun _ => len).

(** ** scaled_monomial_scalar_basis *)
Definition vec2 (a b : R) (i : nat) : R := match i with 0%nat => a | _ => b end.
Definition vec3 (a b c : R) (i : nat) : R := match i with 0%nat => a | 1%nat => b | _ => c end.
Definition zeros (n : nat) : list R := repeat 0 n.
Definition zero_rows (n d : nat) : list (list R) := repeat (repeat 0 d) n.

(** 1D cells, bases_scalar.hpp 108-120 *)
Definition mono1_functions (deg : nat) (bar h : R) (x : R) : outcome (list R) :=
  let bp := 2 * (x - bar) / h in
  do ret <- vset (zeros (S deg)) 0 1;
  fold_left (fun st k => do r <- st; do p <- vget r (k - 1); vset r k (p * bp)) (seq 1 deg) (Ok ret).
(** bases_scalar.hpp 122-133 *)
Definition mono1_gradients (deg : nat) (bar h : R) (x : R) : outcome (list R) :=
  let bp := 2 * (x - bar) / h in
  fold_left (fun st k => do r <- st; vset r k (2 * INR k / h * ipow bp (k - 1))) (seq 1 deg) (Ok (zeros (S deg))).
(** 1D faces (points), bases_scalar.hpp 162-174 *)
Definition mono0_functions (deg : nat) : outcome (list R) := vset (zeros 1) 0 1.

(** 2D cells, bases_scalar.hpp 219-244 *)
Definition mono2_functions (deg : nat) (F : frame) (x : nat -> R) : outcome (list R) :=
  let bp := scaling_point 2 F x in
  ret_of (loop2 deg (fun a b => ipow (bp 0%nat) a * ipow (bp 1%nat) b) (Ok (0%nat, zeros (scalar_basis_size deg 2)))).
(** bases_scalar.hpp 246-286 *)
Definition mono2_gradients (deg : nat) (F : frame) (x : nat -> R) : outcome (list (list R)) :=
  let bp := scaling_point 2 F x in
  ret_of (loop2 deg (fun a b =>
    let g := new2old 2 F (vec2 (dpow (bp 0%nat) a * ipow (bp 1%nat) b) (ipow (bp 0%nat) a * dpow (bp 1%nat) b)) in
    [g 0%nat; g 1%nat]) (Ok (0%nat, zero_rows (scalar_basis_size deg 2) 2))).
(** eval_curls2, bases_scalar.hpp 288-302 *)
Definition mono2_curls (deg : nat) (F : frame) (x : nat -> R) : outcome (list (list R)) :=
  do dphi <- mono2_gradients deg F x;
  fold_left (fun st i => do r <- st; do row <- vget dphi i; do d0 <- vget row 0; do d1 <- vget row 1; vset r i [d1; - d0])
    (seq 0 (scalar_basis_size deg 2)) (Ok (zero_rows (scalar_basis_size deg 2) 2)).
(** 2D faces, bases_scalar.hpp 347-359 *)
Definition mono2f_functions (deg : nat) (F : frame) (x : nat -> R) : outcome (list R) :=
  let ep := scaling_point 2 F x 0 in
  fold_left (fun st i => do r <- st; vset r i (ipow ep i)) (seq 0 (S deg)) (Ok (zeros (S deg))).
(** 3D cells, bases_scalar.hpp 408-433 *)
Definition mono3_functions (deg : nat) (F : frame) (x : nat -> R) : outcome (list R) :=
  let bp := scaling_point 3 F x in
  ret_of (loop3 deg (fun a b c => ipow (bp 0%nat) a * ipow (bp 1%nat) b * ipow (bp 2%nat) c)
    (Ok (0%nat, zeros (scalar_basis_size deg 3)))).
(** bases_scalar.hpp 435-481 *)
Definition mono3_gradients (deg : nat) (F : frame) (x : nat -> R) : outcome (list (list R)) :=
  let bp := scaling_point 3 F x in
  ret_of (loop3 deg (fun a b c =>
    let px := ipow (bp 0%nat) a in let py := ipow (bp 1%nat) b in let pz := ipow (bp 2%nat) c in
    let g := new2old 3 F (vec3 (dpow (bp 0%nat) a * py * pz) (px * dpow (bp 1%nat) b * pz) (px * py * dpow (bp 2%nat) c)) in
    [g 0%nat; g 1%nat; g 2%nat]) (Ok (0%nat, zero_rows (scalar_basis_size deg 3) 3))).
(** 3D faces, bases_scalar.hpp 526-548 *)
Definition mono3f_functions (deg : nat) (F : frame) (x : nat -> R) : outcome (list R) :=
  let ep := scaling_point 3 F x in
  ret_of (loop2 deg (fun a b => ipow (ep 0%nat) a * ipow (ep 1%nat) b) (Ok (0%nat, zeros (scalar_basis_size deg 2)))).

(** ** scalar_monomial, bases_new.hpp *)
(** the power arrays, bases_new.hpp 339-348: an array of [n] zeros of which the first deg + 1 are set *)
Definition powers (deg n : nat) (x : R) : outcome (list R) :=
  do p <- vset (zeros n) 0 1;
  fold_left (fun st k => do r <- st; do y <- vget r (k - 1); vset r k (y * x)) (seq 1 deg) (Ok p).
(** [(e == 0) ? 0 : e * pow(e-1)], bases_new.hpp 380 *)
Definition dpower (p : list R) (e : nat) : outcome R := if (e =? 0)%nat then Ok 0 else do y <- vget p (e - 1); Ok (INR e * y).
(** phys2ref of cells and faces, bases_new.hpp 316-319, 551-554, 723-726: a matrix times (pt - bar) *)
Definition phys2ref (d : nat) (tr : nat -> nat -> R) (bar x : nat -> R) (i : nat) : R := sig d (fun j => tr i j * (x j - bar j)).
(** [ret(pos++) = v] where computing v may fail *)
Definition oput {A} (st : outcome (nat * list A)) (v : outcome A) : outcome (nat * list A) := do s <- st; do a <- v; put (Ok s) a.
Definition oloop2 {A} (deg : nat) (f : nat -> nat -> outcome A) (st : outcome (nat * list A)) : outcome (nat * list A) :=
  fold_left (fun st k => fold_left (fun st i => oput st (f (k - i)%nat i)) (seq 0 (S k)) st) (seq 0 (S deg)) st.
Definition oloop3 {A} (deg : nat) (f : nat -> nat -> nat -> outcome A) (st : outcome (nat * list A)) : outcome (nat * list A) :=
  fold_left (fun st k => fold_left (fun st i => fold_left (fun st j => oput st (f i j (k - i - j)%nat))
    (seq 0 (S (k - i))) st) (seq 0 (S k)) st) (seq 0 (S deg)) st.
(** a vector of which only some entries are set ([None]: indeterminate value, reading it is UB) *)
Definition read_all (v : list (option R)) : outcome (list R) :=
  fold_right (fun e acc => do l <- acc; match e with Some y => Ok (y :: l) | None => UB end) (Ok []) v.
(** [tmp_grad.transpose() * tr_], bases_new.hpp 385 *)
Definition row_times (d : nat) (v : list (option R)) (tr : nat -> nat -> R) : outcome (list R) :=
  do l <- read_all v; Ok (map (fun c => sig d (fun i => nth i l 0 * tr i c)) (seq 0 d)).

(** size_of_degree, bases_new.hpp 398-400, 798-800 and 651-653 (the value of a double division by 6.0,
    exact here since the numerator is a multiple of 6) *)
Definition new_size2 (k : nat) : nat := ((k + 2) * (k + 1) / 2)%nat.
Definition new_size3 (k : nat) : nat := ((k + 3) * (k + 2) * (k + 1) / 6)%nat.

(** 2D cells, bases_new.hpp 338-358, and 3D faces, 736-757 ([d] = 2 or 3) *)
Definition new2_functions (d deg : nat) (tr : nat -> nat -> R) (bar x : nat -> R) : outcome (list R) :=
  let ep := phys2ref d tr bar x in
  do powx <- powers deg (new_size2 deg) (ep 0%nat);
  do powy <- powers deg (new_size2 deg) (ep 1%nat);
  ret_of (oloop2 deg (fun a b => do p <- vget powx a; do q <- vget powy b; Ok (p * q)) (Ok (0%nat, zeros (new_size2 deg)))).
(** the gradients of 2D cells, bases_new.hpp 360-392, and of 3D faces, 759-792: in both tmp_grad has
    [d] entries and entries 0 and 1 are set *)
Definition new2_gradients (d deg : nat) (tr : nat -> nat -> R) (bar x : nat -> R) : outcome (list (list R)) :=
  let ep := phys2ref d tr bar x in
  do powx <- powers deg (new_size2 deg) (ep 0%nat);
  do powy <- powers deg (new_size2 deg) (ep 1%nat);
  ret_of (oloop2 deg (fun ex ey =>
    do px <- vget powx ex; do py <- vget powy ey;
    do dx <- dpower powx ex; do dy <- dpower powy ey;
    do t <- vset (repeat None d) 0 (Some (dx * py));
    do t <- vset t 1 (Some (px * dy));
    row_times d t tr) (Ok (0%nat, zero_rows (new_size2 deg) d))).
(** 3D cells, bases_new.hpp 565-592 *)
Definition new3_functions (deg : nat) (tr : nat -> nat -> R) (bar x : nat -> R) : outcome (list R) :=
  let ep := phys2ref 3 tr bar x in
  do powx <- powers deg (new_size3 deg) (ep 0%nat);
  do powy <- powers deg (new_size3 deg) (ep 1%nat);
  do powz <- powers deg (new_size3 deg) (ep 2%nat);
  ret_of (oloop3 deg (fun a b c => do p <- vget powx a; do q <- vget powy b; do r <- vget powz c; Ok (p * q * r))
    (Ok (0%nat, zeros (new_size3 deg)))).
(** bases_new.hpp 594-645 *)
Definition new3_gradients (deg : nat) (tr : nat -> nat -> R) (bar x : nat -> R) : outcome (list (list R)) :=
  let ep := phys2ref 3 tr bar x in
  do powx <- powers deg (new_size3 deg) (ep 0%nat);
  do powy <- powers deg (new_size3 deg) (ep 1%nat);
  do powz <- powers deg (new_size3 deg) (ep 2%nat);
  ret_of (oloop3 deg (fun ex ey ez =>
    do px <- vget powx ex; do py <- vget powy ey; do pz <- vget powz ez;
    do dx <- dpower powx ex; do dy <- dpower powy ey; do dz <- dpower powz ez;
    do t <- vset (repeat None 3) 0 (Some (dx * py * pz));
    do t <- vset t 1 (Some (dy * px * pz));
    do t <- vset t 2 (Some (dz * px * py));
    row_times 3 t tr) (Ok (0%nat, zero_rows (new_size3 deg) 3))).
(** 1D cells: phys2ref, bases_new.hpp 105-110 ([pb] the second point, [h] the length, [scale] the
    scale factor, 2 unless scalefactor(sf) was called) *)
Definition new1_ref (pb bar h scale x : R) : R := (pb - bar) * (x - bar) / (h / scale * (h / scale)).
(** bases_new.hpp 134-143 *)
Definition new1_functions (deg : nat) (pb bar h scale x : R) : outcome (list R) := powers deg (S deg) (new1_ref pb bar h scale x).
(** bases_new.hpp 157-167 *)
Definition new1_gradients (deg : nat) (pb bar h scale x : R) : outcome (list R) :=
  let ep := new1_ref pb bar h scale x in
  do r <- vset (zeros (S deg)) 0 0;
  do r <- vset r 1 (scale / h);
  fold_left (fun st k => do r <- st; do y <- vget r (k - 1); vset r k (y * INR k * ep / INR (k - 1))) (seq 2 (deg - 1)) (Ok r).
(** 2D faces, bases_new.hpp 452-481 *)
Definition new2f_ref (pa pb x : nat -> R) : R :=
  let bar := fun i => (pa i + pb i) / 2 in
  let h := norm 2 (fun i => pb i - pa i) in
  sig 2 (fun i => (pb i - bar i) * (x i - bar i)) / (h * (1 / 2) * (h * (1 / 2))).
Definition new2f_functions (deg : nat) (pa pb x : nat -> R) : outcome (list R) := powers deg (S deg) (new2f_ref pa pb x).
(** bases_new.hpp 483-487 *)
Definition new2f_gradients (deg : nat) (pa pb x : nat -> R) : outcome (list (list R)) := Throw LogicError.

(** ** bases_raw.hpp, 2D specialisation, in a space of dimension [d]: 107-112 and 153-186; tr_ has the
    columns v0, v1 *)
Definition raw_ref (d : nat) (v : nat -> nat -> R) (bar x : nat -> R) (i : nat) : R := sig d (fun j => (x j - bar j) * v i j).
Definition raw2_functions (d deg : nat) (v : nat -> nat -> R) (bar x : nat -> R) : outcome (list R) :=
  let ep := raw_ref d v bar x in
  do powx <- powers deg (new_size2 deg) (ep 0%nat);
  do powy <- powers deg (new_size2 deg) (ep 1%nat);
  ret_of (oloop2 deg (fun a b => do p <- vget powx a; do q <- vget powy b; Ok (p * q)) (Ok (0%nat, zeros (new_size2 deg)))).
Definition raw2_gradients (d deg : nat) (v : nat -> nat -> R) (bar x : nat -> R) : outcome (list (list R)) :=
  let ep := raw_ref d v bar x in
  do powx <- powers deg (new_size2 deg) (ep 0%nat);
  do powy <- powers deg (new_size2 deg) (ep 1%nat);
  ret_of (oloop2 deg (fun ex ey =>
    do px <- vget powx ex; do py <- vget powy ey;
    do dx <- dpower powx ex; do dy <- dpower powy ey;
    Ok (map (fun c => v 0%nat c * (dx * py) + v 1%nat c * (px * dy)) (seq 0 d))) (Ok (0%nat, zero_rows (new_size2 deg) d))).

(** ** Legendre bases, bases_scalar.hpp 569-1115 *)
(** legendre_1D(degree), 644-651 *)
Definition legendre_1D (degree : nat) : outcome nat := if (10 <? degree)%nat then Throw InvalidArgument else Ok degree.
(** eval_monomials, 580-589: the entries of the std::array above the degree are not set; here they are
    absent, so reading one is UB *)
Definition eval_monomials (deg : nat) (x : R) : outcome (list R) :=
  fold_left (fun st i => do r <- st; do p <- vget r (i - 1); Ok (r ++ [x * p])) (seq 1 deg) (Ok [1]).
(** the sum of c * pows[i] over a list of (c, i), written as in the cases of the switch; pows[0] is
    written as a plain constant there *)
Definition psum (pows : list R) (l : list (R * nat)) : outcome R :=
  fold_right (fun ci acc => do s <- acc; do p <- (if (snd ci =? 0)%nat then Ok 1 else vget pows (snd ci)); Ok (fst ci * p + s)) (Ok 0) l.
(** the switch of eval_poly, 595-613: terms and divisor; other values leave [val] unset (UB) *)
Definition leg_poly (degree : nat) : option (list (R * nat) * R) :=
  match degree with
  | 0%nat => Some ([(1, 0%nat)], 1)
  | 1%nat => Some ([(1, 1%nat)], 1)
  | 2%nat => Some ([(3, 2%nat); (-(1), 0%nat)], 2)
  | 3%nat => Some ([(5, 3%nat); (-(3), 1%nat)], 2)
  | 4%nat => Some ([(35, 4%nat); (-(30), 2%nat); (3, 0%nat)], 8)
  | 5%nat => Some ([(63, 5%nat); (-(70), 3%nat); (15, 1%nat)], 8)
  | 6%nat => Some ([(231, 6%nat); (-(315), 4%nat); (105, 2%nat); (-(5), 0%nat)], 16)
  | 7%nat => Some ([(429, 7%nat); (-(693), 5%nat); (315, 3%nat); (-(35), 1%nat)], 16)
  | 8%nat => Some ([(6435, 8%nat); (-(12012), 6%nat); (6930, 4%nat); (-(1260), 2%nat); (35, 0%nat)], 128)
  | 9%nat => Some ([(12155, 9%nat); (-(25740), 7%nat); (18018, 5%nat); (-(4620), 3%nat); (315, 1%nat)], 128)
  | 10%nat => Some ([(46189, 10%nat); (-(109395), 8%nat); (90090, 6%nat); (-(30030), 4%nat); (3465, 2%nat); (-(63), 0%nat)], 256)
  | _ => None
  end.
(** the switch of eval_deriv, 621-637 *)
Definition leg_deriv (degree : nat) : option (list (R * nat) * R) :=
  match degree with
  | 0%nat => Some ([(0, 0%nat)], 1)
  | 1%nat => Some ([(1, 0%nat)], 1)
  | 2%nat => Some ([(6, 1%nat)], 2)
  | 3%nat => Some ([(15, 2%nat); (-(3), 0%nat)], 2)
  | 4%nat => Some ([(140, 3%nat); (-(60), 1%nat)], 8)
  | 5%nat => Some ([(315, 4%nat); (-(210), 2%nat); (15, 0%nat)], 8)
  | 6%nat => Some ([(1386, 5%nat); (-(1260), 3%nat); (210, 1%nat)], 16)
  | 7%nat => Some ([(3003, 6%nat); (-(3465), 4%nat); (945, 2%nat); (-(35), 0%nat)], 16)
  | 8%nat => Some ([(51480, 7%nat); (-(72012), 5%nat); (27720, 3%nat); (-(2520), 1%nat)], 128)
  | 9%nat => Some ([(109395, 8%nat); (-(180180), 6%nat); (90090, 4%nat); (-(13860), 2%nat); (315, 0%nat)], 128)
  | 10%nat => Some ([(461890, 9%nat); (-(875160), 7%nat); (450450, 5%nat); (-(120120), 3%nat); (6930, 1%nat)], 256)
  | _ => None
  end.
(** eval_poly and eval_deriv, 591-639 *)
Definition leg_value (t : option (list (R * nat) * R)) (pows : list R) (degree : nat) : outcome R :=
  match t with
  | None => UB
  | Some (l, q) => do s <- psum pows l; Ok (s / q / sqrt (2 / INR (2 * degree + 1)))
  end.
(** eval_functions, 653-666; eval_gradients, 668-681 *)
Definition leg_functions (deg : nat) (x : R) : outcome (list R) :=
  do pows <- eval_monomials deg x;
  fold_left (fun st i => do r <- st; do v <- leg_value (leg_poly i) pows i; vset r i v) (seq 0 (S deg)) (Ok (zeros (S deg))).
Definition leg_gradients (deg : nat) (x : R) : outcome (list R) :=
  do pows <- eval_monomials deg x;
  fold_left (fun st i => do r <- st; do v <- leg_value (leg_deriv i) pows i; vset r i v) (seq 0 (S deg)) (Ok (zeros (S deg))).

(** scaled_legendre_scalar_basis, 2D cells: constructor 739-748, functions 750-781 *)
Definition sleg2_functions (degree : nat) (F : frame) (x : nat -> R) : outcome (list R) :=
  do deg <- legendre_1D degree;
  let bp := scaling_point 2 F x in
  do poly_x <- leg_functions deg (bp 0%nat); do poly_y <- leg_functions deg (bp 1%nat);
  let scaling := sqrt (scaling_factor F 0 * scaling_factor F 1) in
  ret_of (oloop2 deg (fun a b => do px <- vget poly_x a; do py <- vget poly_y b; Ok (px * py * scaling))
    (Ok (0%nat, zeros (scalar_basis_size deg 2)))).
(** 783-829 *)
Definition sleg2_gradients (degree : nat) (F : frame) (x : nat -> R) : outcome (list (list R)) :=
  do deg <- legendre_1D degree;
  let bp := scaling_point 2 F x in
  let scaling := sqrt (scaling_factor F 0 * scaling_factor F 1) in
  do poly_x <- leg_functions deg (bp 0%nat); do poly_y <- leg_functions deg (bp 1%nat);
  do dpoly_x <- leg_gradients deg (bp 0%nat); do dpoly_y <- leg_gradients deg (bp 1%nat);
  ret_of (oloop2 deg (fun a b =>
    do px <- vget poly_x a; do py <- vget poly_y b; do dx <- vget dpoly_x a; do dy <- vget dpoly_y b;
    let g := new2old 2 F (vec2 (dx * py) (px * dy)) in Ok [scaling * g 0%nat; scaling * g 1%nat])
    (Ok (0%nat, zero_rows (scalar_basis_size deg 2) 2))).
(** 3D cells, 929-972 *)
Definition sleg3_functions (degree : nat) (F : frame) (x : nat -> R) : outcome (list R) :=
  do deg <- legendre_1D degree;
  let bp := scaling_point 3 F x in
  do poly_x <- leg_functions deg (bp 0%nat); do poly_y <- leg_functions deg (bp 1%nat); do poly_z <- leg_functions deg (bp 2%nat);
  let scaling := sqrt (scaling_factor F 0 * scaling_factor F 1 * scaling_factor F 2) in
  ret_of (oloop3 deg (fun a b c => do px <- vget poly_x a; do py <- vget poly_y b; do pz <- vget poly_z c; Ok (px * py * pz * scaling))
    (Ok (0%nat, zeros (scalar_basis_size deg 3)))).
(** 974-1026 *)
Definition sleg3_gradients (degree : nat) (F : frame) (x : nat -> R) : outcome (list (list R)) :=
  do deg <- legendre_1D degree;
  let bp := scaling_point 3 F x in
  do poly_x <- leg_functions deg (bp 0%nat); do poly_y <- leg_functions deg (bp 1%nat); do poly_z <- leg_functions deg (bp 2%nat);
  do dpoly_x <- leg_gradients deg (bp 0%nat); do dpoly_y <- leg_gradients deg (bp 1%nat); do dpoly_z <- leg_gradients deg (bp 2%nat);
  let scaling := sqrt (scaling_factor F 0 * scaling_factor F 1 * scaling_factor F 2) in
  ret_of (oloop3 deg (fun a b c =>
    do px <- vget poly_x a; do py <- vget poly_y b; do pz <- vget poly_z c;
    do dx <- vget dpoly_x a; do dy <- vget dpoly_y b; do dz <- vget dpoly_z c;
    let g := new2old 3 F (vec3 (dx * py * pz) (px * dy * pz) (px * py * dz)) in
    Ok [scaling * g 0%nat; scaling * g 1%nat; scaling * g 2%nat])
    (Ok (0%nat, zero_rows (scalar_basis_size deg 3) 3))).
(** 2D faces, 864-888 *)
Definition sleg2f_functions (degree : nat) (F : frame) (x : nat -> R) : outcome (list R) :=
  do deg <- legendre_1D degree;
  do v <- leg_functions deg (scaling_point 2 F x 0);
  Ok (map (fun y => y * scaling_factor F 0) v).
(** is_orthonormal of that class, 875-879 *)
Definition sleg2f_is_orthonormal : bool := true.
(** 3D faces, 1062-1102 *)
Definition sleg3f_functions (degree : nat) (F : frame) (x : nat -> R) : outcome (list R) :=
  do deg <- legendre_1D degree;
  let ep := scaling_point 3 F x in
  do poly_x <- leg_functions deg (ep 0%nat); do poly_y <- leg_functions deg (ep 1%nat);
  let scaling := sqrt (scaling_factor F 0 * scaling_factor F 1) in
  ret_of (oloop2 deg (fun a b => do px <- vget poly_x a; do py <- vget poly_y b; Ok (scaling * px * py))
    (Ok (0%nat, zeros (scalar_basis_size deg 2)))).

(** ** the frame of scaled_monomial_abstract_face_basis, bases_all.hpp 435-473 *)
Definition vsub (a b : nat -> R) (i : nat) : R := a i - b i.
Definition dot3 (a b : nat -> R) : R := sig 3 (fun i => a i * b i).
(** [v / v.norm()]: [None] stands for the vector of NaN obtained when the norm is zero *)
Definition normalized (v : nat -> R) : option (nat -> R) :=
  if Req_EM_T (norm 3 v) 0 then None else Some (fun i => v i / norm 3 v).
(** [v0n.dot(v1n) < 0.99]: false on NaN *)
Definition wide (v0 v1 : nat -> R) : bool :=
  match normalized v0, normalized v1 with
  | Some a, Some b => if Rlt_dec (dot3 a b) (99 / 100) then true else false
  | _, _ => false
  end.
(** the loop, 450-466, over the remaining values of [i]: the accepted edges, if any.  The vectors are
    std::arrays or std::vectors: an index past the end is UB *)
Fixpoint axis_loop (pts : list (nat -> R)) (is_ : list nat) : outcome (option ((nat -> R) * (nat -> R))) :=
  match is_ with
  | [] => Ok None
  | i :: rest =>
      do p0 <- vget pts ((i + 1) mod length pts);
      do p <- vget pts i;
      do p1 <- vget pts ((i - 1) mod length pts);
      if wide (vsub p0 p) (vsub p1 p) then Ok (Some (vsub p0 p, vsub p1 p)) else axis_loop pts rest
  end.
(** compute_axis, 440-473; e1 is [None] (NaN) when the orthogonal part of v1 vanishes *)
Definition compute_axis (pts : list (nat -> R)) : outcome (option (nat -> R) * option (nat -> R)) :=
  do v <- axis_loop pts (seq 1 (length pts));
  match v with
  | None => Throw InvalidArgument
  | Some (v0, v1) => Ok (normalized v0, normalized (fun i => v1 i - dot3 v1 v0 * v0 i / dot3 v0 v0))
  end.
