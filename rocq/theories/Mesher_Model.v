(** Model of the structured meshers of mesh/meshgen.hpp: simple_mesher for triangular (56-254),
    tetrahedral (256-525) and cartesian 2D (527-723) meshes.
    Coordinates are exact reals (the halvings of the code are exact in binary floating point until
    the exponent underflows).  The mesh classes' storage is a record; [reserve] has no effect;
    asserts are compiled out. *)
From Coq Require Import List Arith Bool Reals.
From Verif Require Import Common Mesh_Model Elem_Model.
Import ListNotations.
Local Open Scope nat_scope.

(** point<T,DIM> (mesh/point.hpp): coordinates; unused ones are 0 *)
Definition pt := nat -> R.
Definition pt2 (x y : R) : pt := fun i => match i with 0 => x | 1 => y | _ => 0%R end.
Definition pt3 (x y z : R) : pt := fun i => match i with 0 => x | 1 => y | 2 => z | _ => 0%R end.
(** (p0 + p1)/2. and (p0 + p1 + p2 + p3)/4.0 *)
Definition mid2 (p q : pt) : pt := fun i => ((p i + q i) / 2)%R.
Definition mid4 (p q r s : pt) : pt := fun i => ((p i + q i + r i + s i) / 4)%R.

(** mesh_storage: the containers the meshers fill; [s_sub] is subdomain_info.size() *)
Record store := mkS {
  s_points : list pt; s_nodes : list nat; s_edges : list (list nat); s_surfs : list (list nat);
  s_vols : list (list nat); s_binfo : list bdesc; s_sub : nat }.

Definition nes := (list nat * bdesc)%type.    (* std::pair<edge_type or surface_type, boundary_descriptor> *)
Definition nes_ltb (a b : nes) : bool := lex_ltb (fst a) (fst b).                 (* comp, comp_sort *)
Definition nes_eqb (a b : nes) : outcome bool := Ok (arr_eqb (fst a) (fst b)).    (* comp_uniq *)

(** simplicial elements sort their points on construction (element_simplicial.hpp:56-60) *)
Definition sord (l : list nat) : list nat := std_sort Nat.ltb l.

(** range-based for *)
Fixpoint each {A St} (f : A -> St -> outcome St) (l : list A) (s : St) : outcome St :=
  match l with [] => Ok s | a :: r => do s' <- f a s; each f r s' end.

(** eofs / ssearch: 204-212, 429-446, 666-679; [msg] std::logic_error when absent *)
Definition position (l : list (list nat)) (e : list nat) : outcome nat :=
  do i <- lower_bound _ lex_ltb l e;
  if i =? length l then Throw LogicError
  else do x <- vget l i;
       if arr_eqb e x then Ok i else Throw LogicError.

(** ** Triangles: init_pattern_1, 70-115 *)
Definition tri_init : store :=
  let bn := bd_default in
  mkS [pt2 0 0; pt2 1 0; pt2 1 1; pt2 0 1; pt2 (1/2) (1/2)] [0; 1; 2; 3; 4]
      [[0;1]; [0;3]; [0;4]; [1;2]; [1;4]; [2;3]; [2;4]; [3;4]]
      [[0;1;4]; [0;3;4]; [1;2;4]; [2;3;4]] []
      [bd_make 0 true; bd_make 3 true; bn; bd_make 1 true; bn; bd_make 2 true; bn; bn] 4.

(** state of the loop over the edges: points, nodes, new_edges, edge_offset *)
Record estate := mkE { e_pts : list pt; e_nodes : list nat; e_new : list nes; e_off : nat }.

(** 175-201 (triangles: [mk] sorts) and 636-659 (quadrilaterals: [mk] does not) *)
Definition edge_step (mk : list nat -> list nat) (binfo : list bdesc) (e : list nat) (st : estate) : outcome estate :=
  match e with
  | [a; b] =>
      do p0 <- vget (e_pts st) a;
      do p1 <- vget (e_pts st) b;
      let pmi := length (e_nodes st) in
      do d <- vget binfo (e_off st);
      Ok (mkE (e_pts st ++ [mid2 p0 p1]) (e_nodes st ++ [pmi])
              (e_new st ++ [(mk [a; pmi], d); (mk [b; pmi], d)]) (S (e_off st)))
  | _ => UB
  end.

(** 203-227: one triangle; state: new_edges, new_surfaces *)
Definition tri_step (edges : list (list nat)) (noff : nat) (s : list nat) (st : list nes * list (list nat))
  : outcome (list nes * list (list nat)) :=
  match s with
  | [a; b; c] =>
      do i0 <- position edges (sord [a; b]); let pe0 := i0 + noff in
      do i1 <- position edges (sord [b; c]); let pe1 := i1 + noff in
      do i2 <- position edges (sord [a; c]); let pe2 := i2 + noff in
      let bn := bd_default in
      Ok (fst st ++ [(sord [pe0; pe1], bn); (sord [pe2; pe1], bn); (sord [pe0; pe2], bn)],
          snd st ++ [sord [a; pe0; pe2]; sord [b; pe0; pe1]; sord [c; pe2; pe1]; sord [pe0; pe2; pe1]])
  | _ => UB
  end.

(** 161-253 *)
Definition tri_refine (s : store) : outcome store :=
  let noff := length (s_nodes s) in
  do es <- each (edge_step sord (s_binfo s)) (s_edges s) (mkE (s_points s) (s_nodes s) [] 0);
  do ns <- each (tri_step (s_edges s) noff) (s_surfs s) (e_new es, []);
  let ne := std_sort nes_ltb (fst ns) in
  let sf := std_sort lex_ltb (snd ns) in
  Ok (mkS (e_pts es) (e_nodes es) (map fst ne) sf (s_vols s) (map snd ne) (length sf)).

(** A user's program: build the mesher, then refine [n] times. *)
Fixpoint refine_n (step : store -> outcome store) (n : nat) (s : store) : outcome store :=
  match n with O => Ok s | S k => do s' <- step s; refine_n step k s' end.
Definition tri_mesh (n : nat) : outcome store := refine_n tri_refine n tri_init.

(** ** Quadrilaterals: constructor, 543-613 *)
Definition cart_init : store :=
  let bn := bd_default in let b i := bd_make i true in
  mkS [pt2 0 0; pt2 (1/2) 0; pt2 1 0; pt2 0 (1/2); pt2 (1/2) (1/2); pt2 1 (1/2); pt2 0 1; pt2 (1/2) 1; pt2 1 1]
      [0; 1; 2; 3; 4; 5; 6; 7; 8]
      [[0;1]; [0;3]; [1;2]; [1;4]; [2;5]; [3;4]; [3;6]; [4;5]; [4;7]; [5;8]; [6;7]; [7;8]]
      [[0;1;3;4]; [1;2;4;5]; [3;4;6;7]; [4;5;7;8]] []
      [b 0; b 3; b 0; bn; b 1; bn; b 3; bn; bn; b 1; b 2; b 2] 4.

Record qstate := mkQ { q_pts : list pt; q_nodes : list nat; q_new : list nes; q_surf : list (list nat) }.

(** 661-705: one quadrilateral *)
Definition cart_step (edges : list (list nat)) (noff : nat) (s : list nat) (st : qstate) : outcome qstate :=
  match s with
  | [a; b; c; d] =>
      do p0 <- vget (q_pts st) a; do p1 <- vget (q_pts st) b;
      do p2 <- vget (q_pts st) c; do p3 <- vget (q_pts st) d;
      let pmi := length (q_nodes st) in
      do i0 <- position edges [a; b]; let pe0 := i0 + noff in
      do i1 <- position edges [a; c]; let pe1 := i1 + noff in
      do i2 <- position edges [b; d]; let pe2 := i2 + noff in
      do i3 <- position edges [c; d]; let pe3 := i3 + noff in
      let bn := bd_default in
      Ok (mkQ (q_pts st ++ [mid4 p0 p1 p2 p3]) (q_nodes st ++ [pmi])
              (q_new st ++ [([pe0; pmi], bn); ([pe1; pmi], bn); ([pe2; pmi], bn); ([pe3; pmi], bn)])
              (q_surf st ++ [[a; pe0; pe1; pmi]; [b; pe2; pe0; pmi]; [c; pe1; pe3; pmi]; [d; pe3; pe2; pmi]]))
  | _ => UB
  end.

(** 616-722 *)
Definition cart_refine (s : store) : outcome store :=
  let noff := length (s_nodes s) in
  do es <- each (edge_step (fun l => l) (s_binfo s)) (s_edges s) (mkE (s_points s) (s_nodes s) [] 0);
  do qs <- each (cart_step (s_edges s) noff) (s_surfs s) (mkQ (e_pts es) (e_nodes es) (e_new es) []);
  let ne := std_sort nes_ltb (q_new qs) in
  let sf := std_sort lex_ltb (q_surf qs) in
  Ok (mkS (q_pts qs) (q_nodes qs) (map fst ne) sf (s_vols s) (map snd ne) (length sf)).
Definition cart_mesh (n : nat) : outcome store := refine_n cart_refine n cart_init.

(** faces(msh, cl) for 2D cartesian cells, geometry_hexahedral.hpp:141-158 *)
Definition quad_faces (t : list nat) : list (list nat) :=
  match t with [a; b; c; d] => [[a; b]; [a; c]; [b; d]; [c; d]] | _ => [] end.

(** ** Tetrahedra *)
(** what make_tetra (278-297) appends to: edges, new_surfaces, new_volumes *)
Record tstate := mkT { t_edges : list (list nat); t_surf : list nes; t_vol : list (list nat) }.
Definition make_tetra (p0 p1 p2 p3 : nat) (b0 b1 b2 b3 : bdesc) (t : tstate) : tstate :=
  mkT (t_edges t ++ [sord [p0; p1]; sord [p0; p2]; sord [p0; p3]; sord [p1; p2]; sord [p1; p3]; sord [p2; p3]])
      (t_surf t ++ [(sord [p0; p1; p2], b0); (sord [p0; p1; p3], b1); (sord [p0; p2; p3], b2); (sord [p1; p2; p3], b3)])
      (t_vol t ++ [sord [p0; p1; p2; p3]]).

(** constructor, 299-371 *)
Definition tet_init : outcome store :=
  let bn := bd_make 0 false in let b i := bd_make i true in
  let t := make_tetra 1 5 6 7 (b 5) bn bn (b 3)
          (make_tetra 1 4 5 7 (b 1) bn bn (b 3)
          (make_tetra 1 2 6 7 (b 5) bn bn (b 4)
          (make_tetra 1 2 3 7 (b 0) bn bn (b 4)
          (make_tetra 0 1 4 7 (b 1) bn (b 2) bn
          (make_tetra 0 1 3 7 (b 0) bn (b 2) bn (mkT [] [] [])))))) in
  do ns <- sort_uniq nes_ltb nes_eqb (t_surf t);
  do ed <- sort_uniq lex_ltb (fun a b => Ok (arr_eqb a b)) (t_edges t);
  Ok (mkS [pt3 0 0 0; pt3 1 0 0; pt3 1 1 0; pt3 0 1 0; pt3 0 0 1; pt3 1 0 1; pt3 1 1 1; pt3 0 1 1]
          [0; 1; 2; 3; 4; 5; 6; 7] ed (map fst ns) (t_vol t) (map snd ns) (length (t_vol t))).

(** 394-415: midpoints; state: points, nodes *)
Definition tet_edge_step (e : list nat) (st : list pt * list nat) : outcome (list pt * list nat) :=
  match e with
  | [a; b] =>
      do p0 <- vget (fst st) a; do p1 <- vget (fst st) b;
      Ok (fst st ++ [mid2 p0 p1], snd st ++ [length (snd st)])
  | _ => UB
  end.

(** 417-481: one tetrahedron.  [surfs], [binfo]: not modified by the loop; the edge search is
    restricted to the first [eoff] entries of the growing edge list. *)
Definition tet_step (surfs : list (list nat)) (binfo : list bdesc) (eoff noff : nat) (v : list nat) (t : tstate)
  : outcome tstate :=
  match v with
  | [p0; p1; p2; p3] =>
      let old := firstn eoff (t_edges t) in
      let bn := bd_make 0 false in
      do k0 <- position surfs (sord [p0; p1; p2]); do b0 <- vget binfo k0;
      do k1 <- position surfs (sord [p0; p1; p3]); do b1 <- vget binfo k1;
      do k2 <- position surfs (sord [p0; p2; p3]); do b2 <- vget binfo k2;
      do k3 <- position surfs (sord [p1; p2; p3]); do b3 <- vget binfo k3;
      do i4 <- position old (sord [p0; p1]); let q4 := i4 + noff in
      do i5 <- position old (sord [p1; p2]); let q5 := i5 + noff in
      do i6 <- position old (sord [p0; p2]); let q6 := i6 + noff in
      do i7 <- position old (sord [p0; p3]); let q7 := i7 + noff in
      do i8 <- position old (sord [p2; p3]); let q8 := i8 + noff in
      do i9 <- position old (sord [p1; p3]); let q9 := i9 + noff in
      Ok (make_tetra q6 q8 q9 q5 bn bn bn b3
         (make_tetra q6 q7 q9 q8 bn b2 bn bn
         (make_tetra q4 q9 q5 q6 bn bn b0 bn
         (make_tetra q4 q6 q7 q9 bn bn b1 bn
         (make_tetra q7 q9 q8 p3 bn b1 b2 b3
         (make_tetra q6 q5 p2 q8 b0 bn b2 b3
         (make_tetra q4 p1 q5 q9 b0 b1 bn b3
         (make_tetra p0 q4 q6 q7 b0 b1 b2 bn t))))))))
  | _ => UB
  end.

(** 374-524 *)
Definition tet_refine (s : store) : outcome store :=
  let noff := length (s_nodes s) in
  let eoff := length (s_edges s) in
  do pn <- each tet_edge_step (s_edges s) (s_points s, s_nodes s);
  do t <- each (tet_step (s_surfs s) (s_binfo s) eoff noff) (s_vols s) (mkT (s_edges s) [] []);
  do ed <- sort_uniq lex_ltb (fun a b => Ok (arr_eqb a b)) (skipn eoff (t_edges t));
  let vl := std_sort lex_ltb (t_vol t) in
  do ns <- sort_uniq nes_ltb nes_eqb (t_surf t);
  Ok (mkS (fst pn) (snd pn) ed (map fst ns) vl (map snd ns) (length vl)).
Definition tet_mesh (n : nat) : outcome store := do s <- tet_init; refine_n tet_refine n s.
