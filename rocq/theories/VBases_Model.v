(** Model of the vector and matrix polynomial bases: libdiskpp/include/diskpp/bases/{bases_vector,
    bases_matrix}.hpp.

    A basis is evaluated at a point from the values (and gradients) of the scalar basis there; those
    come from Bases_Model.  A function value is a row (vector) or a list of rows (matrix).  Statements
    repeated for each of the [d] components are written as loops over the components. *)
From Coq Require Import List Arith ZArith Bool Reals.
From Verif Require Import Common Tensor_Spec Bases_Model.
Import ListNotations.
Open Scope R_scope.

Notation mat := (list (list R)).

(** ** sizes; the final products are not reduced modulo 2^64 *)
(** vector_basis_size, bases_vector.hpp 40-54; matrix_basis_size, bases_matrix.hpp 40-54 *)
Definition vector_basis_size (k sd vd : nat) : nat := vd * scalar_basis_size k sd.
Definition matrix_basis_size (k sd md : nat) : nat := md * md * scalar_basis_size k sd.
(** sym_matrix_basis_size, bases_matrix.hpp 230-258: the std::logic_error of the default case is built
    and dropped *)
Definition sym_matrix_basis_size (k sd vd : nat) : nat :=
  let md := match vd with 3%nat => 6%nat | 2%nat => 3%nat | _ => 0%nat end in
  if (k =? 0)%nat then md else (md * scalar_basis_size k sd)%nat.
(** vector_basis_size_RT, bases_vector.hpp 806-824 *)
Definition vector_basis_size_RT (k sd vd : nat) : outcome nat :=
  if (k =? 0)%nat then Throw InvalidArgument
  else if (sd =? 3)%nat && (vd =? 3)%nat then Ok (k * (k + 1) * (k + 3) / 2)%nat
  else if (sd =? 2)%nat && (vd =? 2)%nat then Ok (k * (k + 2))%nat
  else Throw InvalidArgument.
(** matrix_basis_size_RT, bases_matrix.hpp 449-456 *)
Definition matrix_basis_size_RT (k sd md : nat) : outcome nat :=
  if (k =? 0)%nat then Throw InvalidArgument else do n <- vector_basis_size_RT k sd md; Ok (sd * n)%nat.
(** sym_matrix_basis_size_RT, bases_matrix.hpp 665-679 *)
Definition sym_matrix_basis_size_RT (k sd md : nat) : outcome nat :=
  if (k =? 0)%nat then Throw InvalidArgument
  else
    let smb := sym_matrix_basis_size (k - 1) sd md in
    let beg := if (2 <=? k)%nat then scalar_basis_size (k - 2) sd else 0%nat in
    Ok (smb + sd * (scalar_basis_size (k - 1) sd - beg))%nat.
(** nedelec_tangential_basis_size, bases_vector.hpp 452-459: degree - 1 wraps at degree 0 *)
Definition nedelec_size (degree : nat) : nat :=
  (2 * Z.to_nat (scalar_basis_size_u (u64 (Z.of_nat degree - 1)) 2)
   + (scalar_basis_size (degree + 1) 2 - scalar_basis_size degree 2))%nat.

(** ** matrices *)
(** [ret(r, c) = v] *)
Definition mput (M : mat) (r c : nat) (v : R) : outcome mat := do row <- vget M r; do row' <- vset row c v; vset M r row'.
(** a read [M(r, c)] *)
Definition mread (M : mat) (r c : nat) : outcome R := do row <- vget M r; vget row c.
Definition zero_mat (d : nat) : mat := repeat (repeat 0 d) d.
(** g = Zero(); g.row(r) = v *)
Definition row_mat (d r : nat) (v : list R) : outcome mat := vset (zero_mat d) r v.
Definition transpose (d : nat) (g : mat) : mat := map (fun i => map (fun j => nth i (nth j g []) 0) (seq 0 d)) (seq 0 d).
(** (g + g.transpose()) / 2 *)
Definition sym_part (d : nat) (g : mat) : mat :=
  map (fun i => map (fun j => (nth j (nth i g []) 0 + nth j (nth i (transpose d g) []) 0) / 2) (seq 0 d)) (seq 0 d).
(** [f] for i from [beg] to [fin] - 1, in order *)
Definition for_range {A} (beg fin : nat) (f : A -> nat -> outcome A) (st : outcome A) : outcome A :=
  fold_left (fun st i => do s <- st; f s i) (seq beg (fin - beg)) st.

(** ** scaled_monomial_vector_basis: from the scalar values [phi] (gradients [dphi]), [n] =
    scalar_basis.size() and [size] = basis_size *)
(** eval_functions, 2D cells 622-636, 3D cells 122-137, 3D faces 324-337, 2D faces 771-783 *)
Definition vec_functions (d n size : nat) (phi : list R) : outcome mat :=
  for_range 0 n (fun ret i => for_range 0 d (fun ret c => do p <- vget phi i; mput ret (d * i + c) c p) (Ok ret))
    (Ok (zero_rows size d)).
(** eval_gradients, 638-662 and 139-167 *)
Definition vec_gradients (d n : nat) (dphi : mat) : outcome (list mat) :=
  for_range 0 n (fun ret i => do di <- vget dphi i;
    for_range 0 d (fun ret c => do g <- row_mat d c di; Ok (ret ++ [g])) (Ok ret)) (Ok []).
(** eval_sgradients, 664-688 and 169-197 *)
Definition vec_sgradients (d n : nat) (dphi : mat) : outcome (list mat) :=
  for_range 0 n (fun ret i => do di <- vget dphi i;
    for_range 0 d (fun ret c => do g <- row_mat d c di; Ok (ret ++ [sym_part d g])) (Ok ret)) (Ok []).
(** eval_divergences, 708-722 and 260-275 *)
Definition vec_divergences (d n size : nat) (dphi : mat) : outcome (list R) :=
  for_range 0 n (fun ret i => for_range 0 d (fun ret c => do p <- mread dphi i c; vset ret (d * i + c) p) (Ok ret))
    (Ok (zeros size)).
(** eval_curls in 2D, 690-706 (j = 2 i at the start of each turn) *)
Definition vec2_curls (n size : nat) (dphi : mat) : outcome (list R) :=
  for_range 0 n (fun ret i => do di <- vget dphi i; do d0 <- vget di 0; do d1 <- vget di 1;
    do ret <- vset ret (2 * i) d1; vset ret (2 * i + 1) (- d0)) (Ok (zeros size)).
(** eval_curls in 3D (deprecated), 199-226 (j = 3 i at the start of each turn) *)
Definition vec3_curls (n size : nat) (dphi : mat) : outcome mat :=
  for_range 0 n (fun ret i => do di <- vget dphi i; do d0 <- vget di 0; do d1 <- vget di 1; do d2 <- vget di 2;
    do ret <- mput ret (3 * i) 0 d1; do ret <- mput ret (3 * i) 1 d2;
    do ret <- mput ret (3 * i + 1) 0 (- d0); do ret <- mput ret (3 * i + 1) 2 d2;
    do ret <- mput ret (3 * i + 2) 1 (- d0); mput ret (3 * i + 2) 2 (- d1)) (Ok (zero_rows size 3)).
(** eval_curls2 in 3D, 228-258 *)
Definition vec3_curls2 (n size : nat) (dphi : mat) : outcome mat :=
  for_range 0 n (fun ret i => do di <- vget dphi i; do d0 <- vget di 0; do d1 <- vget di 1; do d2 <- vget di 2;
    do ret <- mput ret (3 * i) 1 d2; do ret <- mput ret (3 * i) 2 (- d1);
    do ret <- mput ret (3 * i + 1) 0 (- d2); do ret <- mput ret (3 * i + 1) 2 d0;
    do ret <- mput ret (3 * i + 2) 0 d1; mput ret (3 * i + 2) 1 (- d0)) (Ok (zero_rows size 3)).

(** the classes: constructor (sizes) and evaluation.  2D and 3D cells, bases_vector.hpp 563-740, 82-290 *)
Definition vec2c_functions (deg : nat) (F : frame) (x : nat -> R) : outcome mat :=
  do phi <- mono2_functions deg F x; vec_functions 2 (scalar_basis_size deg 2) (vector_basis_size deg 2 2) phi.
Definition vec2c_gradients (deg : nat) (F : frame) (x : nat -> R) : outcome (list mat) :=
  do dphi <- mono2_gradients deg F x; vec_gradients 2 (scalar_basis_size deg 2) dphi.
Definition vec2c_sgradients (deg : nat) (F : frame) (x : nat -> R) : outcome (list mat) :=
  do dphi <- mono2_gradients deg F x; vec_sgradients 2 (scalar_basis_size deg 2) dphi.
Definition vec2c_divergences (deg : nat) (F : frame) (x : nat -> R) : outcome (list R) :=
  do dphi <- mono2_gradients deg F x; vec_divergences 2 (scalar_basis_size deg 2) (vector_basis_size deg 2 2) dphi.
Definition vec2c_curls (deg : nat) (F : frame) (x : nat -> R) : outcome (list R) :=
  do dphi <- mono2_gradients deg F x; vec2_curls (scalar_basis_size deg 2) (vector_basis_size deg 2 2) dphi.
Definition vec3c_functions (deg : nat) (F : frame) (x : nat -> R) : outcome mat :=
  do phi <- mono3_functions deg F x; vec_functions 3 (scalar_basis_size deg 3) (vector_basis_size deg 3 3) phi.
Definition vec3c_gradients (deg : nat) (F : frame) (x : nat -> R) : outcome (list mat) :=
  do dphi <- mono3_gradients deg F x; vec_gradients 3 (scalar_basis_size deg 3) dphi.
Definition vec3c_sgradients (deg : nat) (F : frame) (x : nat -> R) : outcome (list mat) :=
  do dphi <- mono3_gradients deg F x; vec_sgradients 3 (scalar_basis_size deg 3) dphi.
Definition vec3c_divergences (deg : nat) (F : frame) (x : nat -> R) : outcome (list R) :=
  do dphi <- mono3_gradients deg F x; vec_divergences 3 (scalar_basis_size deg 3) (vector_basis_size deg 3 3) dphi.
Definition vec3c_curls (deg : nat) (F : frame) (x : nat -> R) : outcome mat :=
  do dphi <- mono3_gradients deg F x; vec3_curls (scalar_basis_size deg 3) (vector_basis_size deg 3 3) dphi.
Definition vec3c_curls2 (deg : nat) (F : frame) (x : nat -> R) : outcome mat :=
  do dphi <- mono3_gradients deg F x; vec3_curls2 (scalar_basis_size deg 3) (vector_basis_size deg 3 3) dphi.
(** faces: 3D 293-352, 2D 743-797 *)
Definition vec3f_functions (deg : nat) (F : frame) (x : nat -> R) : outcome mat :=
  do phi <- mono3f_functions deg F x; vec_functions 3 (scalar_basis_size deg 2) (vector_basis_size deg 2 3) phi.
Definition vec2f_functions (deg : nat) (F : frame) (x : nat -> R) : outcome mat :=
  do phi <- mono2f_functions deg F x; vec_functions 2 (scalar_basis_size deg 1) (vector_basis_size deg 1 2) phi.

(** ** tangential bases on 3D faces; [e0], [e1] is the frame of compute_axis, [bar] the barycenter *)
(** map_face_point_3d_to_2d, bases_all.hpp 475-484 *)
Definition face_coord (bar e x : nat -> R) : R := sig 3 (fun i => (x i - bar i) * e i).
Definition vec_row (v : nat -> R) : list R := [v 0%nat; v 1%nat; v 2%nat].
(** the two functions written for one monomial, bases_vector.hpp 404-421 *)
Definition put_tangent (e0 e1 : nat -> R) (m : R) (st : outcome (nat * mat)) : outcome (nat * mat) :=
  put (put st (vec_row (fun i => e0 i * m))) (vec_row (fun i => e1 i * m)).
(** the loops over the monomials of degree < n in the two face coordinates, 399-423 and 502-526 *)
Definition tangent_loop (n : nat) (bx by_ : R) (e0 e1 : nat -> R) (st : outcome (nat * mat)) : outcome (nat * mat) :=
  fold_left (fun st k => fold_left (fun st i => put_tangent e0 e1 (ipow bx (k - i) * ipow by_ i) st) (seq 0 (S k)) st) (seq 0 n) st.
(** scaled_monomial_vector_tangential_basis::eval_functions, 388-427 *)
Definition tangential_functions (deg : nat) (bar e0 e1 x : nat -> R) : outcome mat :=
  ret_of (tangent_loop (S deg) (face_coord bar e0 x) (face_coord bar e1 x) e0 e1 (Ok (0%nat, zero_rows (vector_basis_size deg 2 2) 3))).
(** scaled_monomial_nedelec_tangential_basis::eval_functions, 490-549 *)
Definition nedelec_functions (deg : nat) (bar e0 e1 x : nat -> R) : outcome mat :=
  let bx := face_coord bar e0 x in let by_ := face_coord bar e1 x in
  let st := tangent_loop deg bx by_ e0 e1 (Ok (0%nat, zero_rows (nedelec_size deg) 3)) in
  let bd := S deg in
  ret_of (fold_left (fun st i =>
    let dpdx := dpow bx (bd - i) * ipow by_ i in
    let dpdy := ipow bx (bd - i) * dpow by_ i in
    put st (vec_row (fun c => e0 c * dpdx + e1 c * dpdy))) (seq 0 (S bd)) st).

(** ** Raviart-Thomas bases of vectors; [npts] is the number of vertices of the cell *)
(** constructors, 874-885 and 985-996: the size of the basis; degree 0 is refused in the initialiser of
    basis_size *)
Definition rt_make (d k npts : nat) : outcome nat :=
  do n <- vector_basis_size_RT k d d; if (npts =? S d)%nat then Ok n else Throw InvalidArgument.
(** the index of the first scalar function used: 3D 895-898, 2D 1010 (degree - 2 wraps at degree 1) *)
Definition rt_begin (d k : nat) : nat :=
  if (d =? 3)%nat then scalar_basis_size (if (2 <? k)%nat then k - 2 else 0) 3
  else Z.to_nat (scalar_basis_size_u (u64 (Z.of_nat k - 2)) d).
(** the first rows of an array are overwritten by a block *)
Definition set_block {A} (l b : list A) : outcome (list A) :=
  if (length b <=? length l)%nat then Ok (b ++ skipn (length b) l) else UB.
(** eval_functions, 887-914 and 998-1023; [vb] is vector_basis.eval_functions(pt) and [b] = pt - cell_bar *)
Definition rt_functions (d k size : nat) (vb : mat) (sphi b : list R) : outcome mat :=
  let n := scalar_basis_size (k - 1) d in
  let beg := rt_begin d k in let offset := vector_basis_size (k - 1) d d in
  do ret <- set_block (zero_rows size d) vb;
  for_range beg n (fun ret i => for_range 0 d (fun ret c =>
    do p <- vget sphi i; do bc <- vget b c; mput ret (offset + i - beg) c (bc * p)) (Ok ret)) (Ok ret).
(** eval_divergences, 916-943 and 1025-1050 *)
Definition rt_divergences (d k size : nat) (vd sphi b : list R) (sdphi : mat) : outcome (list R) :=
  let n := scalar_basis_size (k - 1) d in
  let beg := rt_begin d k in let offset := vector_basis_size (k - 1) d d in
  do ret <- set_block (zeros size) vd;
  for_range beg n (fun ret i =>
    do p <- vget sphi i;
    do s <- for_range 0 d (fun s c => do bc <- vget b c; do g <- mread sdphi i c; Ok (s + bc * g)) (Ok (INR d * p));
    vset ret (offset + i - beg) s) (Ok ret).
(** pt - cell_bar *)
Definition from_bar (d : nat) (bar x : nat -> R) : list R := map (fun c => x c - bar c) (seq 0 d).
(** the two classes; [F] is the frame of the scalar and vector bases *)
Definition rt2_functions (k : nat) (F : frame) (bar x : nat -> R) : outcome mat :=
  do size <- rt_make 2 k 3; do vb <- vec2c_functions (k - 1) F x; do sphi <- mono2_functions (k - 1) F x;
  rt_functions 2 k size vb sphi (from_bar 2 bar x).
Definition rt2_divergences (k : nat) (F : frame) (bar x : nat -> R) : outcome (list R) :=
  do size <- rt_make 2 k 3; do vd <- vec2c_divergences (k - 1) F x;
  do sphi <- mono2_functions (k - 1) F x; do sdphi <- mono2_gradients (k - 1) F x;
  rt_divergences 2 k size vd sphi (from_bar 2 bar x) sdphi.
Definition rt3_functions (k : nat) (F : frame) (bar x : nat -> R) : outcome mat :=
  do size <- rt_make 3 k 4; do vb <- vec3c_functions (k - 1) F x; do sphi <- mono3_functions (k - 1) F x;
  rt_functions 3 k size vb sphi (from_bar 3 bar x).
Definition rt3_divergences (k : nat) (F : frame) (bar x : nat -> R) : outcome (list R) :=
  do size <- rt_make 3 k 4; do vd <- vec3c_divergences (k - 1) F x;
  do sphi <- mono3_functions (k - 1) F x; do sdphi <- mono3_gradients (k - 1) F x;
  rt_divergences 3 k size vd sphi (from_bar 3 bar x) sdphi.

(** ** matrix bases, bases_matrix.hpp *)
(** scaled_monomial_matrix_basis::eval_functions, 110-136 and 187-213 *)
Definition mat_functions (d n : nat) (phi : list R) : outcome (list mat) :=
  for_range 0 n (fun ret k => for_range 0 d (fun ret j => for_range 0 d (fun ret i =>
    do p <- vget phi k; do fc <- mput (zero_mat d) i j p; Ok (ret ++ [fc])) (Ok ret)) (Ok ret)) (Ok []).
(** scaled_monomial_sym_matrix_basis::eval_functions, 317-347 and 397-427 *)
Definition sym_functions (d n : nat) (phi : list R) : outcome (list mat) :=
  let invrac2 := 1 / sqrt 2 in
  for_range 0 n (fun ret k => for_range 0 d (fun ret j =>
    do ret <- for_range 0 j (fun ret i =>
      do p <- vget phi k; do fc <- mput (zero_mat d) i j (p * invrac2); do fc <- mput fc j i (p * invrac2); Ok (ret ++ [fc])) (Ok ret);
    do p <- vget phi k; do fc <- mput (zero_mat d) j j p; Ok (ret ++ [fc])) (Ok ret)) (Ok []).
(** scaled_monomial_matrix_basis_RT::eval_functions, 518-555 and 611-645: [mb] is the value of the
    matrix basis *)
Definition rtmat_functions (d k : nat) (mb : list mat) (sphi b : list R) : outcome (list mat) :=
  let beg := if (2 <=? k)%nat then scalar_basis_size (k - 2) d else 0%nat in
  for_range beg (scalar_basis_size (k - 1) d) (fun ret i => for_range 0 d (fun ret j =>
    do p <- vget sphi i; do m <- row_mat d j (map (fun bc => p * bc) b); Ok (ret ++ [m])) (Ok ret)) (Ok mb).
(** mat1, mat2, mat3 of the symmetric class, 763-787 and 870-880: row and column r hold b / 2, the
    diagonal entry b_r *)
Definition sym_outer (d r : nat) (b : list R) : mat :=
  map (fun i => map (fun j => if (i =? r)%nat && (j =? r)%nat then nth r b 0
    else if (i =? r)%nat then nth j b 0 / 2 else if (j =? r)%nat then nth i b 0 / 2 else 0) (seq 0 d)) (seq 0 d).
(** sphi(i) * mat *)
Definition mat_scale (s : R) (m : mat) : mat := map (map (fun e => s * e)) m.
(** scaled_monomial_sym_matrix_basis_RT::eval_functions, 742-797 and 850-905: [beg] is computed with
    dimension 2 in both classes; only the class in 2D compares the number of functions with the size *)
Definition rtsym_functions (d k size : nat) (smb : list mat) (sphi b : list R) : outcome (list mat) :=
  let beg := if (2 <=? k)%nat then scalar_basis_size (k - 2) 2 else 0%nat in
  do ret <- for_range beg (scalar_basis_size (k - 1) d) (fun ret i => for_range 0 d (fun ret r =>
    do p <- vget sphi i; Ok (ret ++ [mat_scale p (sym_outer d r b)])) (Ok ret)) (Ok smb);
  if (d =? 2)%nat && negb (length ret =? size)%nat then Throw InvalidArgument else Ok ret.
(** the classes *)
Definition mat2_functions (deg : nat) (F : frame) (x : nat -> R) : outcome (list mat) :=
  do phi <- mono2_functions deg F x; mat_functions 2 (scalar_basis_size deg 2) phi.
Definition mat3_functions (deg : nat) (F : frame) (x : nat -> R) : outcome (list mat) :=
  do phi <- mono3_functions deg F x; mat_functions 3 (scalar_basis_size deg 3) phi.
Definition sym2_functions (deg : nat) (F : frame) (x : nat -> R) : outcome (list mat) :=
  do phi <- mono2_functions deg F x; sym_functions 2 (scalar_basis_size deg 2) phi.
Definition sym3_functions (deg : nat) (F : frame) (x : nat -> R) : outcome (list mat) :=
  do phi <- mono3_functions deg F x; sym_functions 3 (scalar_basis_size deg 3) phi.
(** constructors of the Raviart-Thomas classes, 505-516, 598-609, 728-740, 836-848: the size *)
Definition rtmat_make (d k npts : nat) : outcome nat :=
  do n <- matrix_basis_size_RT k d d; if (npts =? S d)%nat then Ok n else Throw InvalidArgument.
Definition rtsym_make (d k npts : nat) : outcome nat :=
  do n <- sym_matrix_basis_size_RT k d d; if (npts =? S d)%nat then Ok n else Throw InvalidArgument.
Definition rtmat2_functions (k : nat) (F : frame) (bar x : nat -> R) : outcome (list mat) :=
  do size <- rtmat_make 2 k 3; do mb <- mat2_functions (k - 1) F x; do sphi <- mono2_functions (k - 1) F x;
  rtmat_functions 2 k mb sphi (from_bar 2 bar x).
Definition rtmat3_functions (k : nat) (F : frame) (bar x : nat -> R) : outcome (list mat) :=
  do size <- rtmat_make 3 k 4; do mb <- mat3_functions (k - 1) F x; do sphi <- mono3_functions (k - 1) F x;
  rtmat_functions 3 k mb sphi (from_bar 3 bar x).
Definition rtsym2_functions (k : nat) (F : frame) (bar x : nat -> R) : outcome (list mat) :=
  do size <- rtsym_make 2 k 3; do smb <- sym2_functions (k - 1) F x; do sphi <- mono2_functions (k - 1) F x;
  rtsym_functions 2 k size smb sphi (from_bar 2 bar x).
Definition rtsym3_functions (k : nat) (F : frame) (bar x : nat -> R) : outcome (list mat) :=
  do size <- rtsym_make 3 k 4; do smb <- sym3_functions (k - 1) F x; do sphi <- mono3_functions (k - 1) F x;
  rtsym_functions 3 k size smb sphi (from_bar 3 bar x).
