(** Model of mesh/mesh_hierarchy.hpp (mesh_hierarchy for simplicial_mesh<T,2>): red refinement of a
    triangular mesh, coarse-to-fine maps and point location.
    Coordinates are exact reals.  Values the code never initialises (edge::pb before refine(), and
    edge::boundary_id of an edge that is not on the boundary) are modelled as 0; asserts are compiled out. *)
From Coq Require Import List Arith Bool Reals.
From Verif Require Import Common Mesh_Model Elem_Model Mesher_Model.
Import ListNotations.
Local Open Scope nat_scope.

(** struct edge, 46-107 *)
Record iedge := mkIE { ie_p0 : nat; ie_p1 : nat; ie_pb : nat; ie_bnd : bool; ie_broken : bool; ie_id : nat }.
Definition ie_ltb (a b : iedge) : bool :=                                   (* 93-97 *)
  (ie_p0 a <? ie_p0 b) || ((ie_p0 a =? ie_p0 b) && (ie_p1 a <? ie_p1 b)).
Definition ie_eqb (a b : iedge) : outcome bool :=                           (* 99-101 *)
  Ok ((ie_p0 a =? ie_p0 b) && (ie_p1 a =? ie_p1 b)).
(** 65-76 and 78-91: the constructors swap the points when they are not in order *)
Definition ie_make (a b : nat) (id : nat) (bnd : bool) : iedge :=
  if b <? a then mkIE b a 0 bnd false id else mkIE a b 0 bnd false id.

(** 50-63: edge of the mesh *)
Definition ie_of_mesh (s : store) (e : list nat) : outcome iedge :=
  let m := mkMesh (s_surfs s) (s_edges s) (s_binfo s) in
  match e with
  | [a; b] =>
      do bd <- is_boundary _ _ lex_ltb m e;
      do id <- (if bd then boundary_id_face _ _ lex_ltb m e else Ok 0);
      Ok (mkIE a b 0 bd false id)
  | _ => UB
  end.

Fixpoint collect {A B} (f : A -> outcome B) (l : list A) : outcome (list B) :=
  match l with [] => Ok [] | a :: r => do b <- f a; do r' <- collect f r; Ok (b :: r') end.

(** the internal representation, 140-143; triangles are sorted triples (110-131) *)
Record hstate := mkH { h_points : list pt; h_edges : list iedge; h_tris : list (list nat); h_c2f : list (list nat * list (list nat)) }.

(** convert_simplicial_to_internal, 219-237 *)
Definition to_internal (s : store) : outcome hstate :=
  do es <- collect (ie_of_mesh s) (s_edges s);
  Ok (mkH (s_points s) (std_sort ie_ltb es) (map sord (s_surfs s)) []).

(** 147-155: break all the edges *)
Fixpoint break_edges (pts : list pt) (l : list iedge) : outcome (list pt * list iedge) :=
  match l with
  | [] => Ok (pts, [])
  | e :: r =>
      do p0 <- vget pts (ie_p0 e);
      do p1 <- vget pts (ie_p1 e);
      do rest <- break_edges (pts ++ [mid2 p0 p1]) r;
      Ok (fst rest, mkIE (ie_p0 e) (ie_p1 e) (length pts) (ie_bnd e) true (ie_id e) :: snd rest)
  end.

(** 168-175: *std::lower_bound over the broken edges; the end iterator cannot be dereferenced *)
Definition find_edge (l : list iedge) (a b : nat) : outcome iedge :=
  do i <- lower_bound _ ie_ltb l (ie_make a b 0 false); vget l i.

(** 161-206, one triangle: the nine edges it appends and the four children.
    [m_edges.reserve] (159) makes room for twelve edges per triangle, so that [edges_end] stays valid. *)
Definition split_tri (broken : list iedge) (t : list nat) : outcome (list iedge * list (list nat)) :=
  match t with
  | [a; b; c] =>
      do e0 <- find_edge broken a b;
      do e1 <- find_edge broken b c;
      do e2 <- find_edge broken a c;
      Ok ([ie_make (ie_p0 e0) (ie_pb e0) (ie_id e0) (ie_bnd e0);
           ie_make (ie_pb e0) (ie_pb e2) 0 false;
           ie_make (ie_p0 e0) (ie_pb e2) (ie_id e2) (ie_bnd e2);
           ie_make (ie_p1 e0) (ie_pb e0) (ie_id e0) (ie_bnd e0);
           ie_make (ie_pb e0) (ie_pb e1) 0 false;
           ie_make (ie_p0 e1) (ie_pb e1) (ie_id e1) (ie_bnd e1);
           ie_make (ie_p1 e1) (ie_pb e1) (ie_id e1) (ie_bnd e1);
           ie_make (ie_pb e1) (ie_pb e2) 0 false;
           ie_make (ie_p1 e2) (ie_pb e2) (ie_id e2) (ie_bnd e2)],
          [sord [ie_p0 e0; ie_pb e0; ie_pb e2]; sord [ie_p1 e0; ie_pb e0; ie_pb e1];
           sord [ie_p1 e1; ie_pb e1; ie_pb e2]; sord [ie_pb e0; ie_pb e1; ie_pb e2]])
  | _ => UB
  end.

(** std::remove_if without a following erase (210-212): the kept elements are moved to the front, the
    tail of the vector keeps what was there (libstdc++; the element type is trivially copyable). *)
Definition remove_if {A} (p : A -> bool) (l : list A) : list A :=
  let kept := filter (fun x => negb (p x)) l in kept ++ skipn (length kept) l.

(** refine, 145-216.  The triangles are taken from the front of the list and their children appended at its end;
    coarse_to_fine_int is a std::map, kept here in the order of the assignments. *)
Definition h_refine (h : hstate) : outcome hstate :=
  do pb <- break_edges (h_points h) (h_edges h);
  do sp <- collect (split_tri (snd pb)) (h_tris h);
  let all := snd pb ++ flat_map fst sp in
  do es <- sort_uniq ie_ltb ie_eqb (remove_if ie_broken all);
  Ok (mkH (fst pb) es (flat_map snd sp) (combine (h_tris h) (map snd sp))).

(** convert_internal_to_simplicial, 239-280; subdomain_info is left empty *)
Definition to_simplicial (h : hstate) : outcome store :=
  do es <- collect (fun e => simplicial_make 2 [ie_p0 e; ie_p1 e]) (h_edges h);
  do ts <- collect (simplicial_make 3) (h_tris h);
  Ok (mkS (h_points h) (seq 0 (length (h_points h))) es (std_sort lex_ltb ts) []
      (map (fun e => bd_make (ie_id e) (ie_bnd e)) (h_edges h)) 0).

(** make_coarse_to_fine_map, 282-317 *)
Definition c2f_step (coarse fine : store) (kv : list nat * list (list nat)) (ret : list (list nat)) : outcome (list (list nat)) :=
  do k <- simplicial_make 3 (fst kv);
  do i <- lookup _ lex_ltb (s_surfs coarse) k;
  do fs <- collect (fun t => do k' <- simplicial_make 3 t; lookup _ lex_ltb (s_surfs fine) k') (snd kv);
  vset ret i fs.
Definition make_c2f (h : hstate) (coarse fine : store) : outcome (list (list nat)) :=
  each (c2f_step coarse fine) (h_c2f h) (repeat [0; 0; 0; 0] (length (s_surfs coarse))).

(** build_next, 319-327 *)
Definition build_next (s : store) : outcome (hstate * store) :=
  do h <- to_internal s; do h' <- h_refine h; do s' <- to_simplicial h'; Ok (h', s').

(** the hierarchy, 44-45 *)
Record hier := mkHier { meshes : list store; coarse_to_fine : list (list (list nat)) }.

(** build_hierarchy, 385-407 *)
Fixpoint build_loop (k i : nat) (h : hier) : outcome hier :=
  match k with
  | O => Ok h
  | S k' =>
      do m <- vget (meshes h) i;
      do nx <- build_next m;
      let ms := meshes h ++ [snd nx] in
      do m1 <- vget ms (S i);
      do c <- make_c2f (fst nx) m m1;
      build_loop k' (S i) (mkHier ms (coarse_to_fine h ++ [c]))
  end.
Definition build_hierarchy (s : store) (levels : nat) : outcome hier := build_loop levels 0 (mkHier [s] []).

(** is_inside, 329-351.  When the denominator is 0 the code multiplies by an infinity, and every
    combination of the resulting infinities and NaNs fails one of the three comparisons. *)
Definition leb (x y : R) : bool := if Rle_dec x y then true else false.
Definition is_inside (s : store) (t : list nat) (p : pt) : outcome bool :=
  match t with
  | [a; b; c] =>
      do p0 <- vget (s_points s) a; do p1 <- vget (s_points s) b; do p2 <- vget (s_points s) c;
      let dot (u v : pt) := (u 0%nat * v 0%nat + u 1%nat * v 1%nat)%R in
      let v0 := (fun i => p1 i - p0 i)%R in
      let v1 := (fun i => p2 i - p0 i)%R in
      let v2 := (fun i => p i - p0 i)%R in
      let denom := (dot v0 v0 * dot v1 v1 - dot v0 v1 * dot v0 v1)%R in
      if Req_EM_T denom 0 then Ok false else
      let u := ((dot v1 v1 * dot v0 v2 - dot v0 v1 * dot v1 v2) * (1 / denom))%R in
      let v := ((dot v0 v0 * dot v1 v2 - dot v0 v1 * dot v0 v2) * (1 / denom))%R in
      Ok (leb 0 u && leb 0 v && leb (u + v) 1)
  | _ => UB
  end.

(** 364-371: the first of the listed triangles that contains the point; [None] when there is none *)
Fixpoint first_inside (s : store) (p : pt) (l : list nat) : outcome (option nat) :=
  match l with
  | [] => Ok None
  | t :: r =>
      do cl <- vget (s_surfs s) t;
      do b <- is_inside s cl p;
      if b then Ok (Some t) else first_inside s p r
  end.

(** locate_recursive, 353-373; [fuel] bounds the recursion *)
Fixpoint locate_recursive (h : hier) (p : pt) (fuel cur max tri : nat) : outcome nat :=
  if length (meshes h) <? max then Throw InvalidArgument
  else if max <? cur then Ok tri
  else match fuel with
       | O => UB
       | S f =>
           do m <- vget (meshes h) cur;
           do c <- vat (coarse_to_fine h) (cur - 1);
           do ts <- vat c tri;
           do o <- first_inside m p ts;
           match o with
           | Some t => locate_recursive h p f (S cur) max t
           | None => Throw InvalidArgument
           end
       end.

(** locate_point, 409-430 *)
Definition locate_point (h : hier) (p : pt) (level : nat) : outcome nat :=
  match meshes h with
  | [] => Throw LogicError
  | m :: _ =>
      do o <- first_inside m p (seq 0 (length (s_surfs m)));
      match o with
      | Some t => if 0 <? level then locate_recursive h p level 1 level t else Ok t
      | None => Throw InvalidArgument
      end
  end.
