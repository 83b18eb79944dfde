(** Model of the hexagonal mesh generator: mesh/meshgen_fvca5hex.hpp and fvca5_hex_mesher
    (mesh/meshgen.hpp:746-857).  size_t is nat (no overflow for the levels that fit in memory);
    coordinates of the final mesh are exact reals. *)
From Coq Require Import List Arith Bool Reals.
From Verif Require Import Common Mesh_Model Elem_Model Mesher_Model Hier_Model Single_Model.
Import ListNotations.
Local Open Scope nat_scope.

(** 32-55 *)
Definition hpt := (nat * nat)%type.
Definition hpt_ltb (p q : hpt) : bool := (fst p <? fst q) || ((fst p =? fst q) && (snd p <? snd q)).
Definition hpt_eqb (p q : hpt) : bool := (fst p =? fst q) && (snd p =? snd q).
Definition hpt_abs (bx by_ : nat) (p : hpt) : hpt := (fst p + bx, snd p + by_).

(** 57-84; the assert of the constructor is compiled out *)
Definition hedge := (hpt * hpt)%type.
Definition hedge_make (pa pb : hpt) : hedge := if hpt_ltb pb pa then (pb, pa) else (pa, pb).
Definition hedge_ltb (e f : hedge) : bool := hpt_ltb (fst e) (fst f) || (hpt_eqb (fst e) (fst f) && hpt_ltb (snd e) (snd f)).
Definition hedge_eqb (e f : hedge) : bool := hpt_eqb (fst e) (fst f) && hpt_eqb (snd e) (snd f).
Definition hedge_abs (bx by_ : nat) (e : hedge) : hedge := (hpt_abs bx by_ (fst e), hpt_abs bx by_ (snd e)).

(** 86-110; domain_id is never read *)
Definition poly := list hpt.
Definition poly_abs (bx by_ : nat) (p : poly) : poly := map (hpt_abs bx by_) p.
Fixpoint hlex_ltb (a b : poly) : bool :=           (* std::lexicographical_compare *)
  match a, b with
  | [], [] => false | [], _ => true | _, [] => false
  | x :: a', y :: b' => if hpt_ltb x y then true else if hpt_ltb y x then false else hlex_ltb a' b'
  end.
Definition poly_ltb (a b : poly) : bool :=
  if length a <? length b then true else if length b <? length a then false else hlex_ltb a b.

(** 25-30: the keys of boundary_edges; the map is modelled as the list of its (key, edge) entries, in the order
    of insertion within each key *)
Definition BOTTOM := 0. Definition RIGHT := 1. Definition TOP := 2. Definition LEFT := 3.
Definition bedge := (nat * hedge)%type.

(** 112-225: the pieces, with their boundary edges *)
Definition main_hex : list poly := [[(0,2); (1,1); (2,1); (3,2); (2,3); (1,3)]].
Definition bottom_polys : list poly := [[(0,0); (3,0); (2,1); (1,1)]].
Definition bottom_edges : list bedge := [(BOTTOM, hedge_make (0,0) (3,0)); (BOTTOM, hedge_make (3,0) (4,0))].
Definition top_polys : list poly := [[(0,4); (1,3); (2,3); (3,4)]].
Definition top_edges : list bedge := [(TOP, hedge_make (0,4) (3,4)); (TOP, hedge_make (3,4) (4,4))].
Definition top_inner : list poly := [[(0,4); (1,3); (2,3); (3,4); (2,5); (1,5)]].
Definition left_polys : list poly := [[(0,0); (1,1); (0,2)]; [(0,2); (1,3); (0,4)]].
Definition left_edges : list bedge := [(LEFT, hedge_make (0,0) (0,2)); (LEFT, hedge_make (0,2) (0,4))].
Definition right_polys : list poly := [[(4,0); (4,2); (3,2); (2,1); (3,0)]; [(4,2); (4,4); (3,4); (2,3); (3,2)]].
Definition right_edges : list bedge := [(RIGHT, hedge_make (4,0) (4,2)); (RIGHT, hedge_make (4,2) (4,4))].
Definition right_inner : list poly :=
  [[(4,0); (5,1); (4,2); (3,2); (2,1); (3,0)]; [(4,2); (5,3); (4,4); (3,4); (2,3); (3,2)]].

(** 227-237 *)
Record hexmesh := mkHM { hm_max : nat; hm_points : list hpt; hm_edges : list hedge; hm_polys : list poly;
                         hm_bedges : list bedge; hm_owners : hedge -> option nat * option nat }.

(** the pairs (points[i], points[(i+1)%size]) of the loops of update_geometry, make_hexmesh and make_level *)
Definition ring (p : poly) : list (hpt * hpt) :=
  map (fun i => (nth i p (0, 0), nth ((i + 1) mod length p) p (0, 0))) (seq 0 (length p)).

(** 239-260 *)
Definition update_geometry (hm : hexmesh) (polys : list poly) (bnd : list bedge) : hexmesh :=
  mkHM (hm_max hm) (hm_points hm ++ concat polys)
       (hm_edges hm ++ flat_map (fun p => map (fun ab => hedge_make (fst ab) (snd ab)) (ring p)) polys)
       (hm_polys hm ++ polys) (hm_bedges hm ++ bnd) (hm_owners hm).

(** 262-309, the leaf of the recursion *)
Definition hex_tile (cm xmin xmax ymin ymax : nat) : list poly * list bedge :=
  let bottom := ymin =? 0 in let top := ymax =? cm in let left := xmin =? 0 in let right := xmax =? cm in
  let polys := main_hex ++ (if bottom then bottom_polys else []) ++ (if top then top_polys else top_inner)
               ++ (if left then left_polys else []) ++ (if right then right_polys else right_inner) in
  let bnd := (if bottom then bottom_edges else []) ++ (if top then top_edges else [])
             ++ (if left then left_edges else []) ++ (if right then right_edges else []) in
  (map (poly_abs xmin ymin) polys, map (fun se => (fst se, hedge_abs xmin ymin (snd se))) bnd).

(** 262-309; running out of [fuel] stands for unbounded recursion *)
Fixpoint hexmesh_work (fuel : nat) (hm : hexmesh) (xmin xmax ymin ymax : nat) : outcome hexmesh :=
  match fuel with
  | 0 => UB
  | S fuel =>
      if (xmax - xmin =? 4) && (ymax - ymin =? 4) then
        let tb := hex_tile (hm_max hm) xmin xmax ymin ymax in Ok (update_geometry hm (fst tb) (snd tb))
      else
        let xm := (xmax + xmin) / 2 in let ym := (ymax + ymin) / 2 in
        do h1 <- hexmesh_work fuel hm xmin xm ymin ym;
        do h2 <- hexmesh_work fuel h1 xm xmax ymin ym;
        do h3 <- hexmesh_work fuel h2 xmin xm ym ymax;
        hexmesh_work fuel h3 xm xmax ym ymax
  end.

(** 311-317 *)
Fixpoint ipow (base exp : nat) : nat := match exp with 0 => 1 | S e => ipow base e * base end.

(** 337-348: the std::map edge_owners; absent keys read as two empty optionals *)
Definition add_edge_owner (own : hedge -> option nat * option nat) (e : hedge) (ofs : nat)
  : outcome (hedge -> option nat * option nat) :=
  match fst (own e) with
  | Some a => match snd (own e) with
              | Some _ => Throw LogicError
              | None => Ok (fun x => if hedge_eqb x e then (Some a, Some ofs) else own x)
              end
  | None => Ok (fun x => if hedge_eqb x e then (Some ofs, snd (own e)) else own x)
  end.
Definition poly_edges (p : poly) : list hedge := map (fun ab => hedge_make (fst ab) (snd ab)) (ring p).
Fixpoint add_owners (polys : list poly) (ofs : nat) (own : hedge -> option nat * option nat)
  : outcome (hedge -> option nat * option nat) :=
  match polys with
  | [] => Ok own
  | p :: r => do o <- each (fun e o => add_edge_owner o e ofs) (poly_edges p) own; add_owners r (S ofs) o
  end.

(** 319-366 *)
Definition make_hexmesh (l : nat) : outcome hexmesh :=
  let cm := ipow 2 (l + 2) in
  do h <- hexmesh_work (S l) (mkHM cm [] [] [] [] (fun _ => (None, None))) 0 cm 0 cm;
  do ps <- sort_uniq hpt_ltb (fun a b => Ok (hpt_eqb a b)) (hm_points h);
  do es <- sort_uniq hedge_ltb (fun a b => Ok (hedge_eqb a b)) (hm_edges h);
  let polys := std_sort poly_ltb (hm_polys h) in
  do own <- add_owners polys 0 (hm_owners h);
  Ok (mkHM cm ps es polys (hm_bedges h) own).

(** 368-379 *)
Definition hex_offset (hm : hexmesh) (p : hpt) : outcome nat :=
  do i <- lower_bound hpt hpt_ltb (hm_points hm) p;
  if i =? length (hm_points hm) then Throw LogicError
  else do q <- vget (hm_points hm) i; if negb (hpt_eqb q p) then Throw LogicError else Ok i.

(** meshgen.hpp:784-792 *)
Definition edge_transform (hm : hexmesh) (e : hedge) : outcome gedge :=
  do a <- hex_offset hm (fst e); do b <- hex_offset hm (snd e); Ok (gedge_make a b).
(** find_element_id followed by the throw of 806-807 and 832-833 *)
Definition gposition (es : list gedge) (e : gedge) : outcome nat :=
  do r <- find_element_id gedge gedge_ltb es e; match r with Some i => Ok i | None => Throw LogicError end.
(** 796-812: boundary_edges is visited in the order of its keys *)
Definition by_side (l : list bedge) : list bedge :=
  flat_map (fun s => filter (fun se => fst se =? s) l) [BOTTOM; RIGHT; TOP; LEFT].
Definition set_boundary (hm : hexmesh) (es : list gedge) (se : bedge) (bi : list bdesc) : outcome (list bdesc) :=
  do e <- edge_transform hm (snd se); do i <- gposition es e; vset_at bi i (bd_make (fst se) true).
(** 819-845 *)
Definition hex_surface (hm : hexmesh) (es : list gedge) (p : poly) : outcome gcell :=
  do ids <- collect (fun ab => do e <- edge_transform hm (hedge_make (fst ab) (snd ab)); gposition es e) (ring p);
  do pts <- collect (fun ab => hex_offset hm (fst ab)) (ring p);
  Ok (mkGC ids pts).

(** 768-854; the i-th node is node i *)
Definition hex_mesh (level : nat) : outcome gstore :=
  do hm <- make_hexmesh level;
  let c := INR (hm_max hm) in
  let points := map (fun p => pt2 (INR (fst p) / c) (INR (snd p) / c)) (hm_points hm) in
  do es0 <- collect (edge_transform hm) (hm_edges hm);
  let es := std_sort gedge_ltb es0 in
  do bi <- each (set_boundary hm es) (by_side (hm_bedges hm)) (repeat bd_default (length es));
  do surfs <- collect (hex_surface hm es) (hm_polys hm);
  Ok (mkG points es (std_sort gcell_ltb surfs) bi (length surfs)).
