(** Model of mesh/mesh.hpp: element lookup, boundary iterators, neighbour connectivity,
    bounding box; and of the descriptors of mesh/mesh_storage.hpp.
    Vertices are natural numbers; elements are kept abstract (types with an [operator<]). *)
From Coq Require Import List Arith Bool QArith.
From Verif Require Import Common.
Import ListNotations.
Local Open Scope nat_scope.

(** ** std::lower_bound and the searches built on it *)
Section Search.
  Variable E : Type.
  Variable ltb : E -> E -> bool.   (* operator< of the element type *)

  (** std::lower_bound (called at mesh.hpp:189, 951, 962), as the halving loop of libstdc++:
      [while (len > 0) { half = len/2; if ( *(first+half) < val) ... }].  [fuel] bounds the
      number of turns; running out of it and reading outside the range are [UB]. *)
  Fixpoint lb_loop (l : list E) (e : E) (fuel first len : nat) : outcome nat :=
    if len =? 0 then Ok first
    else match fuel with
         | O => UB
         | S f =>
             let half := len / 2 in
             do x <- vget l (first + half);
             if ltb x e then lb_loop l e f (first + half + 1) (len - half - 1)
             else lb_loop l e f first half
         end.
  Definition lower_bound (l : list E) (e : E) : outcome nat := lb_loop l e (length l) 0 (length l).

  (** mesh.hpp:184-197; [None] is the pair (false, id()) *)
  Definition find_element_id (l : list E) (e : E) : outcome (option nat) :=
    do i <- lower_bound l e;
    if i =? length l then Ok None
    else do x <- vget l i; if ltb e x then Ok None else Ok (Some i).

  (** mesh.hpp:608-628 (cells and faces) *)
  Definition lookup (l : list E) (e : E) : outcome nat :=
    do r <- find_element_id l e;
    match r with Some i => Ok i | None => Throw InvalidArgument end.

  (** mesh.hpp:947-967: no check that the element found is the one asked for *)
  Definition offset (l : list E) (e : E) : outcome nat :=
    do i <- lower_bound l e;
    if i =? length l then Throw LogicError else Ok i.
End Search.

(** mesh_storage.hpp:53-84 *)
Record bdesc := mkB { bd_id : nat; bd_tag : nat; bd_is_b : bool; bd_is_int : bool }.
Definition bd_default : bdesc := mkB 0 0 false false.                    (* 61-63 *)
Definition bd_make (id : nat) (b : bool) : bdesc := mkB id id b false.   (* 65-67 *)
Definition bd_set_internal (b : bool) (d : bdesc) : bdesc :=             (* 83 *)
  mkB (bd_id d) (bd_tag d) (bd_is_b d) b.

(** ** Iterators: mesh.hpp:90-139 *)
Section FilterIterator.
  Variable E : Type.
  Variable pred : E -> outcome bool.   (* the predicate may throw *)
  Variable l : list E.                 (* the range [begin, end) *)

  (** find_next, 98-106: [n] is the distance to the end *)
  Fixpoint find_next (n pos : nat) : outcome nat :=
    match n with
    | O => Ok pos
    | S n' =>
        do x <- vget l pos;
        do b <- pred x;
        if b then Ok pos else find_next n' (S pos)
    end.

  (** constructor, 114-119, with itor = begin *)
  Definition fi_begin : outcome nat :=
    if 0 =? length l then Ok 0 else find_next (length l) 0.
  (** constructor with itor = end *)
  Definition fi_end : nat := length l.
  (** operator++, 124-129 *)
  Definition fi_next (pos : nat) : outcome nat :=
    let pos' := if pos =? length l then pos else S pos in
    find_next (length l - pos') pos'.

  (** A user's loop [for (it = begin; it != end; it++) visit( *it)]; returns what was visited.
      [n] bounds the number of turns. *)
  Fixpoint visit_from (n pos : nat) : outcome (list E) :=
    if pos =? fi_end then Ok []
    else match n with
         | O => UB
         | S n' =>
             do x <- vget l pos;
             do pos' <- fi_next pos;
             do r <- visit_from n' pos';
             Ok (x :: r)
         end.
  Definition visit_all : outcome (list E) :=
    do b <- fi_begin; visit_from (length l) b.
End FilterIterator.

(** ** The mesh: cells, faces, boundary descriptors and the faces of each cell *)
Section Mesh.
  Variables C F : Type.
  Variable cltb : C -> C -> bool.
  Variable fltb : F -> F -> bool.
  Variable faces_of : C -> list F.     (* faces(msh, cl) *)

  Record mesh := mkMesh { m_cells : list C; m_faces : list F; m_binfo : list bdesc }.

  (** mesh.hpp:437-441 *)
  Definition is_boundary_id (m : mesh) (i : nat) : outcome bool :=
    do d <- vat (m_binfo m) i; Ok (bd_is_b d).
  (** mesh.hpp:444-449 *)
  Definition is_boundary (m : mesh) (f : F) : outcome bool :=
    do i <- lookup F fltb (m_faces m) f; is_boundary_id m i.
  (** mesh.hpp:459-466 *)
  Definition boundary_id (m : mesh) (i : nat) : outcome nat :=
    do b <- is_boundary_id m i;
    if b then do d <- vat (m_binfo m) i; Ok (bd_id d) else Throw InvalidArgument.
  (** mesh.hpp:468-477 *)
  Definition boundary_id_face (m : mesh) (f : F) : outcome nat :=
    do i <- lookup F fltb (m_faces m) f; boundary_id m i.

  (** mesh.hpp:141-150, 152-169, 171-180 *)
  Definition is_boundary_pred (m : mesh) (f : F) : outcome bool := is_boundary m f.
  Definition is_boundary_pred_with_id (m : mesh) (id : nat) (f : F) : outcome bool :=
    do i <- lookup F fltb (m_faces m) f;
    do b <- is_boundary_id m i;
    if b then do j <- boundary_id m i; Ok (j =? id) else Ok false.
  Definition is_internal_pred (m : mesh) (f : F) : outcome bool :=
    do b <- is_boundary m f; Ok (negb b).

  (** loops over boundary_faces_begin()/end(), boundary_faces_begin(id)/end(id),
      internal_faces_begin()/end(): mesh.hpp:522-581 *)
  Definition boundary_faces (m : mesh) : outcome (list F) :=
    visit_all F (is_boundary_pred m) (m_faces m).
  Definition boundary_faces_with_id (m : mesh) (id : nat) : outcome (list F) :=
    visit_all F (is_boundary_pred_with_id m id) (m_faces m).
  Definition internal_faces (m : mesh) : outcome (list F) :=
    visit_all F (is_internal_pred m) (m_faces m).

  (** mesh.hpp:480-519 *)
  Definition boundary_faces_size (m : mesh) : nat := length (filter bd_is_b (m_binfo m)).
  Definition boundary_faces_size_id (m : mesh) (id : nat) : nat :=
    length (filter (fun d => bd_is_b d && (bd_id d =? id)) (m_binfo m)).
  Definition internal_faces_size (m : mesh) : nat :=
    length (filter (fun d => negb (bd_is_b d)) (m_binfo m)).

  (** mesh.hpp:424-434: insertion in a std::set, then copied to a vector *)
  Fixpoint set_insert (x : nat) (l : list nat) : list nat :=
    match l with
    | [] => [x]
    | y :: r => if x <? y then x :: l else if y <? x then y :: set_insert x r else l
    end.
  Definition boundary_id_list (m : mesh) : list nat :=
    fold_left (fun s d => if bd_is_b d then set_insert (bd_id d) s else s) (m_binfo m) [].

  (** mesh.hpp:665-691 (asserts not executed) *)
  Fixpoint count_faces (m : mesh) (fcs : list F) (cnt : list nat) : outcome (list nat) :=
    match fcs with
    | [] => Ok cnt
    | f :: r =>
        do i <- offset F fltb (m_faces m) f;
        do n <- vget cnt i;
        do cnt' <- vset cnt i (S n);
        count_faces m r cnt'
    end.
  Fixpoint count_cells (m : mesh) (cls : list C) (cnt : list nat) : outcome (list nat) :=
    match cls with
    | [] => Ok cnt
    | c :: r => do cnt' <- count_faces m (faces_of c) cnt; count_cells m r cnt'
    end.
  Fixpoint mark_loop (cnt : list nat) (i k : nat) (bi : list bdesc) : outcome (list bdesc) :=
    match k with
    | O => Ok bi
    | S k' =>
        do nc <- vget cnt i;
        do d <- vat bi i;
        let d' := if bd_is_b d && (nc =? 2) then bd_set_internal true d else d in
        do bi' <- vset_at bi i d';
        mark_loop cnt (S i) k' bi'
    end.
  Definition mark_internal_faces (m : mesh) : outcome mesh :=
    do cnt <- count_cells m (m_cells m) (repeat 0 (length (m_faces m)));
    do bi <- mark_loop cnt 0 (length (m_faces m)) (m_binfo m);
    Ok (mkMesh (m_cells m) (m_faces m) bi).

  (** ** neighbour_connectivity, mesh.hpp:693-764 *)
  Definition owners := (option nat * option nat)%type.

  (** 712-734: one face of cell [ci] *)
  Definition add_owner (m : mesh) (ci : nat) (tbl : list owners) (f : F) : outcome (list owners) :=
    do r <- find_element_id F fltb (m_faces m) f;
    match r with
    | None => Throw InvalidArgument
    | Some _ =>
        do i <- offset F fltb (m_faces m) f;
        do fo <- vat tbl i;
        match fo with
        | (None, b) => vset_at tbl i (Some ci, b)
        | (Some a, None) => vset_at tbl i (Some a, Some ci)
        | (Some _, Some _) => Throw LogicError
        end
    end.
  Fixpoint add_faces (m : mesh) (ci : nat) (fcs : list F) (tbl : list owners) : outcome (list owners) :=
    match fcs with
    | [] => Ok tbl
    | f :: r => do tbl' <- add_owner m ci tbl f; add_faces m ci r tbl'
    end.
  Fixpoint add_cells (m : mesh) (ci : nat) (cls : list C) (tbl : list owners) : outcome (list owners) :=
    match cls with
    | [] => Ok tbl
    | c :: r => do tbl' <- add_faces m ci (faces_of c) tbl; add_cells m (S ci) r tbl'
    end.
  Definition connectivity (m : mesh) : outcome (list owners) :=
    add_cells m 0 (m_cells m) (repeat (None, None) (length (m_faces m))).

  (** 744-763; [assert] not executed.  The pair (cell, bool) is an option: [None] when the
      boolean is false. *)
  Definition neighbour_via (m : mesh) (tbl : list owners) (c : C) (f : F) : outcome (option C) :=
    if negb (length tbl =? length (m_faces m)) then Throw LogicError
    else
      do ci <- offset C cltb (m_cells m) c;
      do fi <- offset F fltb (m_faces m) f;
      do fo <- vat tbl fi;
      let fo' := match fo with
                 | (Some a, b) => if a =? ci then fo else (b, Some a)
                 | _ => fo
                 end in
      match snd fo' with
      | None => Ok None
      | Some d => do x <- vget (m_cells m) d; Ok (Some x)
      end.
End Mesh.

Arguments mkMesh {C F}. Arguments m_cells {C F}. Arguments m_faces {C F}. Arguments m_binfo {C F}.

(** ** bounding_box::compute, mesh.hpp:1031-1052.  A point is the list of its coordinates. *)
Definition qltb (x y : Q) : bool := negb (Qle_bool y x).

(** 1043-1047: is some coordinate smaller / larger? *)
Definition any_lt (p q : list Q) : bool := existsb (fun c => qltb (fst c) (snd c)) (combine p q).

Definition bb_step (mm : list Q * list Q) (p : list Q) : list Q * list Q :=
  let lt := any_lt p (fst mm) in
  let gt := any_lt (snd mm) p in
  ((if lt then p else fst mm), (if gt then p else snd mm)).

(** dereferencing begin() of an empty range is undefined behaviour *)
Definition bounding_box (pts : list (list Q)) : outcome (list Q * list Q) :=
  match pts with
  | [] => UB
  | p :: r => Ok (fold_left bb_step r (p, p))
  end.
