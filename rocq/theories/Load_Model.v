(** Model of the mesh loaders that read a mapped text file with strtot (loaders/strtot.hpp,
    loaders/loader_utils.hpp, loaders/loader_netgen.hpp, loaders/loader_cartesian.hpp) and of
    load_mesh (loaders/loader.hpp).

    A file is the list of its characters; reading stops at its end (the mapped page is
    zero-filled there, so the C functions see a terminator).  Coordinates are the exact rationals
    that the text denotes: rounding to double is not modelled.  Text for hexadecimal, infinite and
    not-a-number values is not modelled.  Progress messages are left out, and so are the failures
    of reserve() for absurd counts. *)
From Coq Require Import List Arith NArith ZArith QArith Bool Ascii.
From Verif Require Import Common Mesh_Model Elem_Model.
Import ListNotations.
Local Open Scope nat_scope.

Definition text := list ascii.

(** isspace and isdigit of the C locale *)
Definition is_space (c : ascii) : bool :=
  let n := nat_of_ascii c in (n =? 32) || ((9 <=? n) && (n <=? 13)).
Definition is_digit (c : ascii) : bool :=
  let n := nat_of_ascii c in (48 <=? n) && (n <=? 57).
Definition digit_val (c : ascii) : N := (N_of_ascii c - 48)%N.

Fixpoint skip_space (s : text) : text :=
  match s with c :: r => if is_space c then skip_space r else s | [] => [] end.

(** the longest prefix of digits, and the rest *)
Fixpoint span_digits (s : text) : text * text :=
  match s with
  | c :: r => if is_digit c then let '(d, t) := span_digits r in (c :: d, t) else ([], s)
  | [] => ([], [])
  end.
Definition dec_val (d : text) : N := fold_left (fun v c => (10 * v + digit_val c)%N) d 0%N.

(** optional sign: (negative?, rest) *)
Definition take_sign (s : text) : bool * text :=
  match s with
  | c :: r => if Ascii.eqb c "-" then (true, r) else if Ascii.eqb c "+" then (false, r) else (false, s)
  | [] => (false, [])
  end.

(** size_t arithmetic *)
Definition two64 : N := 18446744073709551616%N.
Definition pred64 (n : N) : N := if (n =? 0)%N then (two64 - 1)%N else (n - 1)%N.

(** strtot<size_t>, strtot.hpp:93-99: strtoul in base 10.  Values beyond ULONG_MAX give ULONG_MAX,
    a minus sign negates modulo 2^64, and text that is no number gives 0 and is not consumed. *)
Definition strtoul (s : text) : N * text :=
  let '(neg, s1) := take_sign (skip_space s) in
  let '(d, r) := span_digits s1 in
  match d with
  | [] => (0%N, s)
  | _ :: _ =>
      let v := dec_val d in
      if (two64 <=? v)%N then ((two64 - 1)%N, r)
      else (if neg && negb (v =? 0)%N then (two64 - v)%N else v, r)
  end.

(** 10^e *)
Definition pow10 (e : Z) : Q := Qpower (10 # 1) e.

(** the exponent part of a decimal number: [e|E [sign] digits], all of it or nothing *)
Definition take_exp (s : text) : Z * text :=
  match s with
  | c :: r =>
      if Ascii.eqb c "e" || Ascii.eqb c "E" then
        let '(neg, r1) := take_sign r in
        let '(d, r2) := span_digits r1 in
        match d with
        | [] => (0%Z, s)
        | _ :: _ => ((if neg then (- Z.of_N (dec_val d))%Z else Z.of_N (dec_val d)), r2)
        end
      else (0%Z, s)
  | [] => (0%Z, [])
  end.

(** the fraction part: [. digits] *)
Definition take_frac (s : text) : text * text :=
  match s with
  | c :: r => if Ascii.eqb c "." then span_digits r else ([], s)
  | [] => ([], [])
  end.

(** strtot<double>, strtot.hpp:69-75: strtod *)
Definition strtod (s : text) : Q * text :=
  let '(neg, s1) := take_sign (skip_space s) in
  let '(ip, s2) := span_digits s1 in
  let '(fp, s3) := take_frac s2 in
  match ip ++ fp with
  | [] => (0%Q, s)
  | _ :: _ =>
      let '(e, s4) := take_exp s3 in
      let m := (inject_Z (Z.of_N (dec_val (ip ++ fp))) * pow10 (e - Z.of_nat (length fp)))%Q in
      ((if neg then - m else m)%Q, s4)
  end.

(** [n] turns of a reading loop; the C loops count with [linecount] *)
Fixpoint read_many {A} (rd : text -> A * text) (n : nat) (s : text) : list A * text :=
  match n with
  | O => ([], s)
  | S k => let '(a, s1) := rd s in let '(l, s2) := read_many rd k s1 in (a :: l, s2)
  end.

(** a block: its length, then that many items (e.g. loader_netgen.hpp:130-154) *)
Definition read_block {A} (rd : text -> A * text) (s : text) : list A * text :=
  let '(n, s1) := strtoul s in read_many rd (N.to_nat n) s1.

(** read_2d_point_line and read_3d_point_line, loader_utils.hpp:162-185, with scalefactor = 1 *)
Definition read_point_line (dim : nat) (s : text) : list Q * text := read_many strtod dim s.

(** read_tetrahedron_line, read_triangle_line, read_edge_line, loader_netgen.hpp:47-90: a number
    followed by [n] 1-based vertex numbers, made 0-based (0 wraps around) *)
Definition read_tagged_line (n : nat) (s : text) : (nat * list nat) * text :=
  let '(t1, s1) := strtoul s in
  let '(vs, s2) := read_many strtoul n s1 in
  ((N.to_nat t1, map (fun v => N.to_nat (pred64 v)) vs), s2).

(** read_hexahedron_line, read_hex_face_line, read_quad_line, read_quad_face_line,
    loader_cartesian.hpp:42-98: [n] 0-based vertex numbers *)
Definition read_plain_line (n : nat) (s : text) : list nat * text :=
  let '(vs, s1) := read_many strtoul n s in (map N.to_nat vs, s1).

(** ** Storage of the loaded mesh (mesh/mesh_storage.hpp:108-236).  Subdomains by their id. *)
Record lmesh := mkL {
  lm_points : list (list Q);
  lm_nodes : list (list nat);
  lm_edges : list (list nat);
  lm_surfs : list (list nat);
  lm_vols : list (list nat);
  lm_binfo : list bdesc;
  lm_sub : list nat
}.

(** operator== of arrays *)
Definition aeq (a b : list nat) : outcome bool := Ok (arr_eqb a b).

(** elements of simplicial meshes: the constructor sorts (element_simplicial.hpp:56-60); the
    initialiser lists of the loaders have the length of the array *)
Definition sx (l : list nat) : list nat := std_sort Nat.ltb l.

(** nodes, one per point (e.g. loader_netgen.hpp:148-151) *)
Definition make_nodes (n : nat) : list (list nat) := map (fun i => [i]) (seq 0 n).

(** The loop that marks the listed boundary faces, loader_netgen.hpp:274-284 (and
    loader_cartesian.hpp:318-329, 532-543): the boolean is false when a listed face is not a face
    of the mesh, and then the loop stops there. *)
Fixpoint mark_listed (faces : list (list nat)) (bnd : list (nat * list nat)) (bi : list bdesc)
  : outcome (bool * list bdesc) :=
  match bnd with
  | [] => Ok (true, bi)
  | (id, f) :: r =>
      do pos <- find_element_id (list nat) lex_ltb faces f;
      match pos with
      | None => Ok (false, bi)
      | Some i => do bi' <- vset_at bi i (bd_make id true); mark_listed faces r bi'
      end
  end.

(** ** Netgen, 2D: loader_netgen.hpp:93-302 *)
Record raw := mkRaw {
  rw_points : list (list Q);
  rw_cells : list (nat * list nat);
  rw_bnd : list (nat * list nat)
}.

(** netgen_read, 105-237 *)
Definition netgen2_read (s : text) : raw :=
  let '(pts, s1) := read_block (read_point_line 2) s in
  let '(tri, s2) := read_block (read_tagged_line 3) s1 in
  let '(bnd, s3) := read_block (read_tagged_line 2) s2 in
  mkRaw pts tri bnd.

(** 186-188 *)
Definition tri_edges (t : list nat) : list (list nat) :=
  match t with [p0; p1; p2] => [sx [p0; p1]; sx [p1; p2]; sx [p0; p2]] | _ => [] end.

(** populate_mesh, 252-301: the value returned and the mesh.  The two sorting threads (267-275)
    work on disjoint containers and are run one after the other here. *)
Definition netgen2_populate (d : raw) : outcome (bool * lmesh) :=
  do edges <- sort_uniq lex_ltb aeq (flat_map (fun c => tri_edges (snd c)) (rw_cells d));
  do surfs <- sort_uniq lex_ltb aeq (map (fun c => sx (snd c)) (rw_cells d));
  do mb <- mark_listed edges (map (fun b => (fst b, sx (snd b))) (rw_bnd d)) (repeat bd_default (length edges));
  let m := mkL (rw_points d) (make_nodes (length (rw_points d))) edges surfs [] (snd mb) in
  if fst mb then Ok (true, m (repeat 0 (length surfs))) else Ok (false, m []).

(** ** Netgen, 3D: loader_netgen.hpp:304-535 *)

(** 400-410 *)
Definition tet_edges (t : list nat) : list (list nat) :=
  match t with
  | [p0; p1; p2; p3] => [sx [p0; p1]; sx [p0; p2]; sx [p0; p3]; sx [p1; p2]; sx [p1; p3]; sx [p2; p3]]
  | _ => []
  end.
Definition tet_surfs (t : list nat) : list (list nat) :=
  match t with
  | [p0; p1; p2; p3] => [sx [p0; p1; p2]; sx [p0; p1; p3]; sx [p0; p2; p3]; sx [p1; p2; p3]]
  | _ => []
  end.

(** 438-465: a listed boundary triangle that is no face of the mesh throws *)
Fixpoint mark_listed3 (faces : list (list nat)) (bnd : list (nat * list nat)) (bi : list bdesc)
  : outcome (list bdesc) :=
  match bnd with
  | [] => Ok bi
  | (id, f) :: r =>
      do i <- lower_bound (list nat) lex_ltb faces f;
      if i =? length faces then Throw LogicError
      else
        do x <- vget faces i;
        if arr_eqb x f then do bi' <- vset_at bi i (bd_make id true); mark_listed3 faces r bi'
        else Throw LogicError
  end.

(** tmpvol_comp, 430: volumes with their subdomains are compared by the volume only *)
Definition vs_ltb (a b : list nat * nat) : bool := lex_ltb (fst a) (fst b).

(** netgen_read, 319-474, and populate_mesh, 490-534 *)
Definition netgen3_load (s : text) : outcome (bool * lmesh) :=
  let '(pts, s1) := read_block (read_point_line 3) s in
  let '(tet, s2) := read_block (read_tagged_line 4) s1 in
  do edges <- sort_uniq lex_ltb aeq (flat_map (fun c => tet_edges (snd c)) tet);
  do surfs <- sort_uniq lex_ltb aeq (flat_map (fun c => tet_surfs (snd c)) tet);
  let vols := std_sort vs_ltb (map (fun c => (sx (snd c), fst c)) tet) in
  let '(bnd, s3) := read_block (read_tagged_line 3) s2 in
  do bi <- mark_listed3 surfs (map (fun b => (fst b, sx (snd b))) bnd) (repeat bd_default (length surfs));
  do m <- mark_internal_faces (list nat) (list nat) lex_ltb tet_faces
            (mkMesh (map fst vols) surfs bi);
  Ok (true, mkL pts (make_nodes (length pts)) edges surfs (map fst vols) (m_binfo m) (map snd vols)).

(** ** Cartesian, 2D: loader_cartesian.hpp:349-563 *)

(** 440-443; the constructor of cartesian elements does not sort (element_hexahedral.hpp:58-61) *)
Definition quad_edges (t : list nat) : list (list nat) :=
  match t with [p0; p1; p2; p3] => [[p0; p1]; [p0; p2]; [p1; p3]; [p2; p3]] | _ => [] end.

(** quad_read, 361-491, and populate_mesh, 507-562: boundary id 0; no subdomains *)
Definition quad_load (s : text) : outcome (bool * lmesh) :=
  let '(pts, s1) := read_block (read_point_line 2) s in
  let '(cls, s2) := read_block (read_plain_line 4) s1 in
  let '(bnd, s3) := read_block (read_plain_line 2) s2 in
  do edges <- sort_uniq lex_ltb aeq (flat_map quad_edges cls);
  do surfs <- sort_uniq lex_ltb aeq cls;
  do mb <- mark_listed edges (map (fun f => (0, f)) bnd) (repeat bd_default (length edges));
  Ok (fst mb, mkL pts (make_nodes (length pts)) edges surfs [] (snd mb) []).

(** ** Cartesian, 3D: loader_cartesian.hpp:105-347 *)

(** 206-217 and 219-224 *)
Definition hex_edges (t : list nat) : list (list nat) :=
  match t with
  | [p0; p1; p2; p3; p4; p5; p6; p7] =>
      [[p0; p1]; [p0; p2]; [p0; p4]; [p1; p3]; [p1; p5]; [p2; p3];
       [p2; p6]; [p3; p7]; [p4; p5]; [p4; p6]; [p5; p7]; [p6; p7]]
  | _ => []
  end.
Definition hex_surfs (t : list nat) : list (list nat) :=
  match t with
  | [p0; p1; p2; p3; p4; p5; p6; p7] =>
      [[p0; p2; p6; p4]; [p1; p3; p7; p5]; [p0; p1; p3; p2];
       [p4; p5; p7; p6]; [p0; p4; p5; p1]; [p2; p6; p7; p3]]
  | _ => []
  end.

(** hex_read, 121-274, and populate_mesh, 289-345: volumes are sorted but not made unique *)
Definition hex_load (s : text) : outcome (bool * lmesh) :=
  let '(pts, s1) := read_block (read_point_line 3) s in
  let '(cls, s2) := read_block (read_plain_line 8) s1 in
  let '(bnd, s3) := read_block (read_plain_line 4) s2 in
  do edges <- sort_uniq lex_ltb aeq (flat_map hex_edges cls);
  do surfs <- sort_uniq lex_ltb aeq (flat_map hex_surfs cls);
  do mb <- mark_listed surfs (map (fun f => (0, f)) bnd) (repeat bd_default (length surfs));
  Ok (fst mb, mkL pts (make_nodes (length pts)) edges surfs (std_sort lex_ltb cls) (snd mb) []).

(** faces(), geometry_hexahedral.hpp:141-187 *)
Definition quad_faces (t : list nat) : list (list nat) :=
  match t with [p0; p1; p2; p3] => [[p0; p1]; [p0; p2]; [p1; p3]; [p2; p3]] | _ => [] end.
Definition hex_faces (t : list nat) : list (list nat) :=
  match t with
  | [p0; p1; p2; p3; p4; p5; p6; p7] =>
      [[p0; p2; p6; p4]; [p1; p3; p7; p5]; [p0; p1; p3; p2];
       [p4; p5; p7; p6]; [p0; p4; p5; p1]; [p2; p6; p7; p3]]
  | _ => []
  end.

(** ** load_mesh, loader.hpp:103-119: read_mesh succeeded; the value returned by populate_mesh is
    dropped.  The warning about the file name extension is not modelled. *)
Definition load_mesh (populated : outcome (bool * lmesh)) : outcome (bool * lmesh) :=
  do r <- populated; Ok (true, snd r).

(** load_mesh_netgen and load_mesh_diskpp_cartesian, loader.hpp:123-153 *)
Definition load_mesh_netgen_2d (s : text) := load_mesh (netgen2_populate (netgen2_read s)).
Definition load_mesh_netgen_3d (s : text) := load_mesh (netgen3_load s).
Definition load_mesh_cartesian_2d (s : text) := load_mesh (quad_load s).
Definition load_mesh_cartesian_3d (s : text) := load_mesh (hex_load s).
