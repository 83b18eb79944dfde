(** Model of the loaders of plane polygonal meshes: loader_fvca5.hpp and loader_medit.hpp (2D).
    The model starts from the numbers read from the file; keywords and layout are not modelled.
    The coordinates of the points are kept in file order and play no role here.  Index 0, which
    wraps around where the code does not test for it, is outside the model. *)
From Coq Require Import List Arith Bool.
From Verif Require Import Common Mesh_Model Elem_Model Load_Model Conn_Model.
Import ListNotations.
Local Open Scope nat_scope.

(** fvca5_poly (loader_fvca5.hpp:68-81), medit2d_poly (loader_medit.hpp:52-63): attached_edges is a
    std::set, here a sorted list without duplicates *)
Record ppoly := mkPP { pp_nodes : list nat; pp_edges : list (list nat); pp_dom : nat }.
Fixpoint eset_insert (e : list nat) (s : list (list nat)) : list (list nat) :=
  match s with
  | [] => [e]
  | x :: r => if lex_ltb e x then e :: s else if lex_ltb x e then x :: eset_insert e r else s
  end.
Definition attach (e : list nat) (p : ppoly) : ppoly := mkPP (pp_nodes p) (eset_insert e (pp_edges p)) (pp_dom p).

Record pmesh := mkPM {
  pm_edges : list (list nat);
  pm_cells : list gelem;
  pm_doms : list nat;         (* subdomain_info *)
  pm_binfo : list bdesc
}.

(** The loop over the attached edges of one polygon (loader_fvca5.hpp:487-505,
    loader_medit.hpp:357-375); [None]: an edge is not found and the function returns false *)
Fixpoint surf_edges (edges : list (list nat)) (es : list (list nat)) : outcome (option (list nat)) :=
  match es with
  | [] => Ok (Some [])
  | e :: r =>
      do pos <- find_element_id (list nat) lex_ltb edges e;
      match pos with
      | None => Ok None
      | Some i => do r' <- surf_edges edges r; Ok (match r' with Some l => Some (i :: l) | None => None end)
      end
  end.
(** 484-511 and 354-379: surfaces with the domain of the polygon *)
Fixpoint make_surfs (edges : list (list nat)) (ps : list ppoly) : outcome (option (list (gelem * nat))) :=
  match ps with
  | [] => Ok (Some [])
  | p :: r =>
      do es <- surf_edges edges (pp_edges p);
      match es with
      | None => Ok None
      | Some l =>
          do r' <- make_surfs edges r;
          Ok (match r' with Some q => Some ((mkG l (pp_nodes p), pp_dom p) :: q) | None => None end)
      end
  end.
Definition surf_ltb (a b : gelem * nat) : bool := lex_ltb (g_sub (fst a)) (g_sub (fst b)).

(** ** medit, 2D *)

(** the sides of a polygon, loader_medit.hpp:99-135: nodes[polynum] = nodes[0] *)
Definition poly_sides (ns : list nat) : list (list nat) := map make_edge (combine ns (tl ns ++ firstn 1 ns)).

(** What the file says: polygons (nodes from 1, id), "Edges" (ends from 1, id) *)
Record medit2_file := mkM2 { m2_polys : list (list nat * nat); m2_bnd : list (nat * (nat * nat)) }.

(** medit_read_polygons, 94-141: the polygon with its attached edges *)
Definition medit2_poly (p : list nat * nat) : ppoly :=
  let ns := map Nat.pred (fst p) in
  fold_left (fun q e => attach e q) (poly_sides ns) (mkPP ns [] (snd p)).
Definition medit2_edges (f : medit2_file) : list (list nat) := flat_map (fun p => poly_sides (map Nat.pred (fst p))) (m2_polys f).
(** medit_read_boundary_edges, 144-178 *)
Definition medit2_bnd (f : medit2_file) : list (nat * list nat) :=
  map (fun b => (fst b, make_edge (Nat.pred (fst (snd b)), Nat.pred (snd (snd b))))) (m2_bnd f).

(** 296-324: an edge is kept if face_unique (181-193) tells it from all edges before it *)
Fixpoint first_only (before : list (list nat)) (l : list (list nat)) : list (list nat) :=
  match l with
  | [] => []
  | e :: r => if existsb (fun x => arr_eqb e x) before then first_only (before ++ [e]) r
              else e :: first_only (before ++ [e]) r
  end.

(** populate_mesh, 284-385; subdomain_info is not touched *)
Definition medit2_populate (f : medit2_file) : outcome (bool * pmesh) :=
  let edges := std_sort lex_ltb (first_only [] (medit2_edges f)) in
  do mb <- mark_listed edges (medit2_bnd f) (repeat bd_default (length edges));
  if fst mb then
    do s <- make_surfs edges (map medit2_poly (m2_polys f));
    match s with
    | None => Ok (false, mkPM edges [] [] (snd mb))
    | Some surfs => Ok (true, mkPM edges (std_sort (fun a b => lex_ltb (g_sub a) (g_sub b)) (map fst surfs)) [] (snd mb))
    end
  else Ok (false, mkPM [] [] [] (snd mb)).

(** domain_info, mesh.hpp:583-588 (the assert is not executed), for the cell at position [i] *)
Definition domain_info (m : pmesh) (i : nat) : outcome nat := vat (pm_doms m) i.

(** ** fvca5 *)

(** The blocks of the file in their order: polygons (nodes from 1, domain: 0 when not given);
    "edges of the boundary" and "edges of transmission"; "all edges": two ends from 1, and the two polygons from 1 (0: none) *)
Record f5_edge := mkE5 { e5_a : nat; e5_b : nat; e5_l : nat; e5_r : nat }.
Inductive f5_block :=
| FPolys (l : list (list nat * nat))
| FBoundary (l : list (nat * nat))
| FEdges (l : list f5_edge).

Record f5_state := mkF5 { s5_polys : list ppoly; s5_bnd : list (list nat); s5_edges : list (list nat) }.

(** fvca5_parse_boundary_edges, 202-262: [None] when the block is refused *)
Fixpoint f5_read_bnd (l : list (nat * nat)) : option (list (list nat)) :=
  match l with
  | [] => Some []
  | (a, b) :: r =>
      if (a <? 1) || (b <? 1) then None
      else if a - 1 =? b - 1 then None
      else match f5_read_bnd r with Some q => Some (make_edge (a - 1, b - 1) :: q) | None => None end
  end.

(** 314-318: m_polys.at(neigh - 1).attached_edges.insert *)
Definition f5_attach (e : list nat) (k : nat) (ps : list ppoly) : outcome (list ppoly) :=
  if 0 <? k then do p <- vat ps (k - 1); vset_at ps (k - 1) (attach e p) else Ok ps.

(** fvca5_parse_all_edges, 264-334 *)
Fixpoint f5_read_edges (l : list f5_edge) (st : f5_state) : outcome (option f5_state) :=
  match l with
  | [] => Ok (Some st)
  | x :: r =>
      if (e5_a x <? 1) || (e5_b x <? 1) then Ok None
      else if e5_a x - 1 =? e5_b x - 1 then Ok None
      else
        let e := make_edge (e5_a x - 1, e5_b x - 1) in
        do p1 <- f5_attach e (e5_l x) (s5_polys st);
        do p2 <- f5_attach e (e5_r x) p1;
        f5_read_edges r (mkF5 p2 (s5_bnd st) (s5_edges st ++ [e]))
  end.

(** fvca5_parse_polygons, 150-200 *)
Definition f5_poly (p : list nat * nat) : ppoly := mkPP (map Nat.pred (fst p)) [] (snd p).

(** parse, 385-412, and fvca5_parse_block, 336-383 *)
Fixpoint f5_parse (bs : list f5_block) (st : f5_state) : outcome (option f5_state) :=
  match bs with
  | [] => Ok (Some st)
  | b :: r =>
      do s <- match b with
              | FPolys l => Ok (Some (mkF5 (s5_polys st ++ map f5_poly l) (s5_bnd st) (s5_edges st)))
              | FBoundary l => Ok (match f5_read_bnd l with
                                   | Some q => Some (mkF5 (s5_polys st) (s5_bnd st ++ q) (s5_edges st))
                                   | None => None end)
              | FEdges l => f5_read_edges l st
              end;
      match s with None => Ok None | Some st' => f5_parse r st' end
  end.

(** populate_mesh, 427-562 *)
Definition f5_populate (bnum : list nat -> list nat -> option nat) (st : f5_state) : outcome (bool * pmesh) :=
  let edges := std_sort lex_ltb (s5_edges st) in
  do mb <- mark_listed edges (map (fun e => (0, e)) (s5_bnd st)) (repeat bd_default (length (s5_edges st)));
  if fst mb then
    do s <- make_surfs edges (s5_polys st);
    match s with
    | None => Ok (false, mkPM edges [] [] (snd mb))
    | Some surfs =>
        let sorted := std_sort surf_ltb surfs in
        let cells := map fst sorted in
        do m1 <- mark_internal_faces (list nat) (list nat) lex_ltb (sub_faces edges) (mkMesh (map g_sub cells) edges (snd mb));
        do rn <- renumber (list nat) (list nat) lex_ltb lex_ltb (sub_faces edges) bnum m1;
        Ok (true, mkPM edges cells (map snd sorted) (if fst rn then snd rn else m_binfo m1))
    end
  else Ok (false, mkPM [] [] [] (snd mb)).

(** read_mesh and populate_mesh; the boolean is that of the call that failed *)
Definition f5_load (bnum : list nat -> list nat -> option nat) (bs : list f5_block) : outcome (bool * pmesh) :=
  do s <- f5_parse bs (mkF5 [] [] []);
  match s with None => Ok (false, mkPM [] [] [] []) | Some st => f5_populate bnum st end.
