(** Model of the loaders whose files give the connectivity explicitly: loader_poly.hpp (2D, 3D),
    loader_medit.hpp (3D), loader_fvca6.hpp; and of renumber_hypercube_boundaries and
    boundary_number of loader_utils.hpp.  The model starts from the numbers read from the file;
    the tokens of these formats (keywords, layout) are not modelled.  Coordinates of the points are
    kept in file order by all of them and play no role here. *)
From Coq Require Import List Arith Bool ZArith QArith.
From Verif Require Import Common Mesh_Model Elem_Model.
Import ListNotations.
Local Open Scope nat_scope.

(** generic_element, element_generic.hpp:73-189: subelement numbers and point numbers.
    operator< compares the subelement numbers. *)
Record gelem := mkG { g_sub : list nat; g_pts : list nat }.

(** What the readers collect: (number, list) pairs for edges, faces, volumes; point lists *)
Record conn := mkConn {
  cn_edges : list (nat * list nat);   (* m_edges: the two vertices in increasing order *)
  cn_faces : list (nat * list nat);   (* faces_to_edges *)
  cn_fpts : list (list nat);          (* faces_to_vts; the numbers of poly files are dropped by the code *)
  cn_vols : list (nat * list nat);    (* vol_to_faces *)
  cn_vpts : list (list nat);          (* vol_to_vts *)
  cn_grps : list (nat * list nat)     (* (group, members): faces in 3D, edges in 2D *)
}.

(** edge_type({v1, v2}) after the swap (loader_poly.hpp:296-308 and 570-581, loader_fvca6.hpp:221-233,
    loader_medit.hpp:600-611) *)
Definition make_edge (e : nat * nat) : list nat := if snd e <? fst e then [snd e; fst e] else [fst e; snd e].

(** comp_edges, comp_vecs: pairs are compared by the second component *)
Definition snd_ltb (a b : nat * list nat) : bool := lex_ltb (snd a) (snd b).

(** conv_table[items[i].first] = i, for all i from [k] on; [set] is operator[] or .at *)
Fixpoint build_table (set : list nat -> nat -> nat -> outcome (list nat)) (k : nat) (items : list (nat * list nat))
  (t : list nat) : outcome (list nat) :=
  match items with
  | [] => Ok t
  | it :: r => do t' <- set t (fst it) k; build_table set (S k) r t'
  end.

(** std::vector::resize: the old contents stay *)
Definition resize (n : nat) (t : list nat) : list nat := firstn n t ++ repeat 0 (n - length t).

(** for (auto& ptr : v) ptr = conv_table[ptr] *)
Fixpoint conv_list (t : list nat) (l : list nat) : outcome (list nat) :=
  match l with
  | [] => Ok []
  | p :: r => do q <- vget t p; do r' <- conv_list t r; Ok (q :: r')
  end.
Fixpoint conv_all (t : list nat) (l : list (nat * list nat)) : outcome (list (nat * list nat)) :=
  match l with
  | [] => Ok []
  | p :: r => do q <- conv_list t (snd p); do r' <- conv_all t r; Ok ((fst p, q) :: r')
  end.

(** the loop that makes surfaces or volumes: subelements from the pair, points from position
    [first] of the point lists *)
Fixpoint make_elems (pts : list (list nat)) (l : list (nat * list nat)) : outcome (list gelem) :=
  match l with
  | [] => Ok []
  | p :: r => do v <- vat pts (fst p); do r' <- make_elems pts r; Ok (mkG (snd p) v :: r')
  end.

(** boundary_info.at(conv_table[m]) = boundary_descriptor(id, true) for the members of the groups.
    [get] is operator[] or .at for the table, [set] for the descriptors. *)
Fixpoint mark_members (get : list nat -> nat -> outcome nat) (set : list bdesc -> nat -> bdesc -> outcome (list bdesc))
  (t : list nat) (id : nat) (ms : list nat) (bi : list bdesc) : outcome (list bdesc) :=
  match ms with
  | [] => Ok bi
  | m :: r => do p <- get t m; do bi' <- set bi p (bd_make id true); mark_members get set t id r bi'
  end.
Fixpoint mark_groups (get : list nat -> nat -> outcome nat) (set : list bdesc -> nat -> bdesc -> outcome (list bdesc))
  (t : list nat) (gs : list (nat * list nat)) (bi : list bdesc) : outcome (list bdesc) :=
  match gs with
  | [] => Ok bi
  | g :: r => do bi' <- mark_members get set t (fst g) (snd g) bi; mark_groups get set t r bi'
  end.

Record cmesh := mkCM {
  cm_edges : list (list nat);
  cm_faces : list gelem;
  cm_vols : list gelem;
  cm_binfo : list bdesc
}.

(** What the poly readers collect (read_cell_block, read_grp_block, loader_poly.hpp:65-75 and 122-132): every
    entry carries its number.  faces_to_vts.at(fe.first).second (356, 618) and
    vols_to_vts.at(vf.first).second (652) look node lists up by position, not by number. *)
Record poly_file := mkPoly {
  py_edges : list (nat * (nat * nat));
  py_faces : list (nat * list nat);
  py_fpts : list (nat * list nat);
  py_vols : list (nat * list nat);
  py_vpts : list (nat * list nat);
  py_grps : list (nat * list nat)
}.
Definition poly_read (f : poly_file) : conn :=
  mkConn (map (fun e => (fst e, make_edge (snd e))) (py_edges f)) (py_faces f) (map snd (py_fpts f))
         (py_vols f) (map snd (py_vpts f)) (py_grps f).

(** poly2d populate_mesh, loader_poly.hpp:279-362: the cells are the "faces" of the file *)
Definition poly2_populate (d : conn) : outcome (bool * cmesh) :=
  let se := std_sort snd_ltb (cn_edges d) in
  do te <- build_table vset_at 0 se (repeat 0 (length se));
  do fe <- conv_all te (cn_faces d);
  do bi <- mark_groups vget vset_at te (cn_grps d) (repeat bd_default (length se));
  let sf := std_sort snd_ltb fe in
  do faces <- make_elems (cn_fpts d) sf;
  do tf <- build_table vset 0 sf (resize (length sf) te);
  Ok (true, mkCM (map snd se) faces [] bi).

(** poly3d populate_mesh, loader_poly.hpp:552-660 *)
Definition poly3_populate (d : conn) : outcome (bool * cmesh) :=
  let se := std_sort snd_ltb (cn_edges d) in
  do te <- build_table vset_at 0 se (repeat 0 (length se));
  do fe <- conv_all te (cn_faces d);
  let sf := std_sort snd_ltb fe in
  do faces <- make_elems (cn_fpts d) sf;
  do tf <- build_table vset 0 sf (resize (length sf) te);
  do bi <- mark_groups vat vset_at tf (cn_grps d) (repeat bd_default (length sf));
  do vf <- conv_all tf (cn_vols d);
  let sv := std_sort snd_ltb vf in
  do vols <- make_elems (cn_vpts d) sv;
  Ok (true, mkCM (map snd se) faces vols bi).

(** medit3d populate_mesh, loader_medit.hpp:631-711: each entry of "Faces->Control volumes" is a
    group with one member; always returns false *)
Definition medit3_populate (d : conn) : outcome (bool * cmesh) :=
  let se := std_sort snd_ltb (cn_edges d) in
  do te <- build_table vset 0 se (repeat 0 (length se));
  do fe <- conv_all te (cn_faces d);
  let sf := std_sort snd_ltb fe in
  do faces <- make_elems (cn_fpts d) sf;
  do tf <- build_table vset 0 sf (resize (length sf) te);
  do vf <- conv_all tf (cn_vols d);
  let sv := std_sort snd_ltb vf in
  do vols <- make_elems (cn_vpts d) sv;
  do bi <- mark_groups vget vset tf (cn_grps d) (repeat bd_default (length sf));
  Ok (false, mkCM (map snd se) faces vols bi).

(** ** The renumbering, loader_utils.hpp:105-133 *)
Section Renumber.
  Variables C F : Type.
  Variables (cltb : C -> C -> bool) (fltb : F -> F -> bool) (faces_of : C -> list F).
  Variable bnum : C -> F -> option nat.   (* boundary_number(normal(msh, cl, fc)) *)

  (** 114-129: the faces of one cell; the boolean is false when the function returned early *)
  Fixpoint renumber_faces (m : mesh C F) (tbl : list owners) (cl : C) (fcs : list F) (bi : list bdesc)
    : outcome (bool * list bdesc) :=
    match fcs with
    | [] => Ok (true, bi)
    | fc :: r =>
        do n <- neighbour_via C F cltb fltb m tbl cl fc;
        match n with
        | Some _ => renumber_faces m tbl cl r bi
        | None =>
            match bnum cl fc with
            | None => Ok (false, bi)
            | Some k =>
                do i <- offset F fltb (m_faces m) fc;
                do bi' <- vset bi i (mkB k k true false);
                renumber_faces m tbl cl r bi'
            end
        end
    end.
  Fixpoint renumber_cells (m : mesh C F) (tbl : list owners) (cls : list C) (bi : list bdesc)
    : outcome (bool * list bdesc) :=
    match cls with
    | [] => Ok (true, bi)
    | cl :: r =>
        do x <- renumber_faces m tbl cl (faces_of cl) bi;
        if fst x then renumber_cells m tbl r (snd x) else Ok x
    end.
  Definition renumber (m : mesh C F) : outcome (bool * list bdesc) :=
    do tbl <- connectivity C F fltb faces_of m;
    renumber_cells m tbl (m_cells m) (m_binfo m).
End Renumber.

(** boundary_number, loader_utils.hpp:42-100, on exact normals *)
Definition within (lo x hi : Q) : bool := qltb lo x && qltb x hi.
Definition boundary_number2 (n : Q * Q) : option nat :=
  let xn := fst n in
  if within (-101 # 100) xn (-99 # 100) then Some 3
  else if within (99 # 100) xn (101 # 100) then Some 1
  else
    let yn := snd n in
    if within (-101 # 100) yn (-99 # 100) then Some 0
    else if within (99 # 100) yn (101 # 100) then Some 2
    else None.
Definition boundary_number3 (n : Q * Q * Q) : option nat :=
  let xn := fst (fst n) in
  if within (-101 # 100) xn (-99 # 100) then Some 2
  else if within (99 # 100) xn (101 # 100) then Some 5
  else
    let yn := snd (fst n) in
    if within (-101 # 100) yn (-99 # 100) then Some 1
    else if within (99 # 100) yn (101 # 100) then Some 4
    else
      let zn := snd n in
      if within (-101 # 100) zn (-99 # 100) then Some 0
      else if within (99 # 100) zn (101 # 100) then Some 3
      else None.

(** ** fvca6, loader_fvca6.hpp *)

(** What the file says: indices are 1-based everywhere.  read_fvca6_line (54-70) subtracts 1; the
    vertices of the edges (221-233) are taken as they are.  Index 0, which wraps around in the
    code, is outside the model. *)
Record fvca6_file := mkF6 {
  f6_edges : list (nat * nat);
  f6_faces : list (list nat);
  f6_fpts : list (list nat);
  f6_vols : list (list nat);
  f6_vpts : list (list nat)
}.
Definition number {A} (l : list A) : list (nat * A) := combine (seq 0 (length l)) l.
Definition fvca6_read (f : fvca6_file) : conn :=
  mkConn (number (map make_edge (f6_edges f)))
         (number (map (map Nat.pred) (f6_faces f)))
         (map (map Nat.pred) (f6_fpts f))
         (number (map (map Nat.pred) (f6_vols f)))
         (map (map Nat.pred) (f6_vpts f)) [].

(** 330-335: how many volumes list each face *)
Fixpoint count_list (l : list nat) (bf : list nat) : outcome (list nat) :=
  match l with
  | [] => Ok bf
  | i :: r => do x <- vat bf i; do bf' <- vset_at bf i (S x); count_list r bf'
  end.
Fixpoint count_vols (vs : list gelem) (bf : list nat) : outcome (list nat) :=
  match vs with [] => Ok bf | v :: r => do bf' <- count_list (g_sub v) bf; count_vols r bf' end.

(** 350-353: the fallback writes over what the renumbering left *)
Fixpoint mark_single (bf : list nat) (bi : list bdesc) : list bdesc :=
  match bf, bi with
  | n :: bf', b :: bi' => (if n =? 1 then bd_make 0 true else b) :: mark_single bf' bi'
  | _, _ => bi
  end.

(** faces of a volume, geometry_generic.hpp: storage->surfaces[id]; elements are represented by
    their subelement numbers, which is what the searches compare *)
Definition sub_faces (faces : list (list nat)) (c : list nat) : list (list nat) := map (fun i => nth i faces []) c.

(** populate_mesh, 250-356 *)
Definition fvca6_populate (bnum : list nat -> list nat -> option nat) (d : conn) : outcome (bool * cmesh) :=
  let se := std_sort snd_ltb (cn_edges d) in
  do te <- build_table vset 0 se (repeat 0 (length se));
  do fe <- conv_all te (cn_faces d);
  let sf := std_sort snd_ltb fe in
  do faces <- make_elems (cn_fpts d) sf;
  do tf <- build_table vset 0 sf (resize (length sf) te);
  do vf <- conv_all tf (cn_vols d);
  let sv := std_sort snd_ltb vf in
  do vols <- make_elems (cn_vpts d) sv;
  do bf <- count_vols vols (repeat 0 (length faces));
  let fs := map g_sub faces in
  do rn <- renumber (list nat) (list nat) lex_ltb lex_ltb (sub_faces fs) bnum
             (mkMesh (map g_sub vols) fs (repeat bd_default (length faces)));
  Ok (true, mkCM (map snd se) faces vols (if fst rn then snd rn else mark_single bf (snd rn))).
