(** What a mesh file says, and what a mesh that holds it looks like.  Nothing here refers to the
    readers: files are described by how numbers are written in them. *)
From Coq Require Import List Arith NArith ZArith QArith Bool Ascii Permutation Sorted.
From Verif Require Import Common Mesh_Model Mesh_Spec.
Import ListNotations.
Local Open Scope nat_scope.

(** ** Text *)

(** blank: space, tab, newline, vertical tab, form feed, carriage return *)
Definition white (c : ascii) : Prop := In c (map ascii_of_nat [32; 9; 10; 11; 12; 13]).
Definition blank (s : list ascii) : Prop := Forall white s.

(** decimal digits, most significant first *)
Definition digits (ds : list nat) : list ascii := map (fun d => ascii_of_nat (48 + d)) ds.
Definition decimal (ds : list nat) : Prop := Forall (fun d => d < 10) ds.
Definition value (ds : list nat) : N := fold_left (fun v d => (10 * v + N.of_nat d)%N) ds 0%N.

(** an optional sign *)
Inductive sign_text : list ascii -> bool -> Prop :=
| sg_none : sign_text [] false
| sg_plus : sign_text ["+"%char] false
| sg_minus : sign_text ["-"%char] true.

(** an optional fraction [.ddd] *)
Inductive frac_text : list ascii -> list nat -> Prop :=
| fr_none : frac_text [] []
| fr_some fp : decimal fp -> frac_text ("."%char :: digits fp) fp.

(** an optional exponent *)
Inductive exp_text : list ascii -> Z -> Prop :=
| ex_none : exp_text [] 0
| ex_some c s neg ds : c = "e"%char \/ c = "E"%char -> sign_text s neg -> decimal ds -> ds <> [] ->
    exp_text (c :: s ++ digits ds) (if neg then (- Z.of_N (value ds))%Z else Z.of_N (value ds)).

(** The numbers of a file: unsigned integers and reals. *)
Inductive num := NI (n : N) | NQ (q : Q).

Inductive spells : list ascii -> num -> Prop :=
| sp_int ds : decimal ds -> ds <> [] -> spells (digits ds) (NI (value ds))
| sp_real s neg ip f fp x e q : sign_text s neg -> decimal ip -> frac_text f fp -> exp_text x e ->
    ip ++ fp <> [] ->
    (q == (if neg then -1 else 1) * (inject_Z (Z.of_N (value (ip ++ fp))) * Qpower (10 # 1) (e - Z.of_nat (length fp))))%Q ->
    spells (s ++ digits ip ++ f ++ x) (NQ q).

(** The text holds these numbers, in this order, separated by blanks in any layout.  What follows
    the last one is free. *)
Definition separated (rest : list ascii) : Prop := rest = [] \/ exists c r, rest = c :: r /\ white c.
Inductive written : list ascii -> list num -> Prop :=
| wr_nil t : written t []
| wr_cons w body n rest ns : blank w -> spells body n -> separated rest -> written rest ns ->
    written (w ++ body ++ rest) (n :: ns).

(** ** Mesh data: coordinates of the points, cells (number, vertices), boundary faces (number,
    vertices).  Vertices are numbered from 0 here. *)
Record mesh_data := mkData {
  md_points : list (list Q);
  md_cells : list (nat * list nat);
  md_bnd : list (nat * list nat)
}.

Definition count {A} (l : list A) : num := NI (N.of_nat (length l)).
Definition idx (n : nat) : num := NI (N.of_nat n).

(** Netgen files number the vertices from 1 and write the number of the item first. *)
Definition netgen_item (c : nat * list nat) : list num := idx (fst c) :: map (fun v => idx (S v)) (snd c).
Definition netgen_numbers (d : mesh_data) : list num :=
  count (md_points d) :: flat_map (map NQ) (md_points d) ++
  count (md_cells d) :: flat_map netgen_item (md_cells d) ++
  count (md_bnd d) :: flat_map netgen_item (md_bnd d).

(** DiSk++ cartesian files number the vertices from 0 and have no other numbers. *)
Definition cartesian_numbers (d : mesh_data) : list num :=
  count (md_points d) :: flat_map (map NQ) (md_points d) ++
  count (md_cells d) :: flat_map (fun c => map idx (snd c)) (md_cells d) ++
  count (md_bnd d) :: flat_map (fun c => map idx (snd c)) (md_bnd d).

(** Points have [dim] coordinates, cells [nc] vertices, boundary faces [nf], and all the numbers
    of the file fit in 64 bits. *)
Definition fits (n : nat) : Prop := (N.of_nat n < 18446744073709551616)%N.
Record well_shaped (dim nc nf : nat) (d : mesh_data) : Prop := {
  ws_points : Forall (fun p => length p = dim) (md_points d);
  ws_cells : Forall (fun c => length (snd c) = nc /\ fits (fst c) /\ Forall (fun v => fits (S v)) (snd c)) (md_cells d);
  ws_bnd : Forall (fun c => length (snd c) = nf /\ fits (fst c) /\ Forall (fun v => fits (S v)) (snd c)) (md_bnd d);
  ws_counts : fits (length (md_points d)) /\ fits (length (md_cells d)) /\ fits (length (md_bnd d))
}.

(** ** Simplices *)

(** [e] is the element with vertices [l]: the same vertices, in increasing order *)
Definition simplex (l e : list nat) : Prop := Permutation e l /\ StronglySorted le e.
(** [f] is the face of [l] left when one vertex is dropped; two vertices for the edges of a
    tetrahedron *)
Definition side (l f : list nat) : Prop := exists p r, Permutation l (p :: r) /\ simplex r f.
Definition side2 (l f : list nat) : Prop := exists p q r, Permutation l (p :: q :: r) /\ simplex r f.

(** [b] is the last entry of the list of boundary faces that satisfies [P] *)
Definition last_entry {A} (P : A -> Prop) (bnd : list A) (b : A) : Prop :=
  exists pre post, bnd = pre ++ b :: post /\ P b /\ Forall (fun c => ~ P c) post.

(** The containers hold exactly the cells and the sides of the cells of the data, strictly
    sorted, and the descriptors tell the boundary faces of the data.  [elt] relates a vertex list
    of the file to a stored element, [sides] a cell of the file to its stored faces. *)
Record holds (elt sides : list nat -> list nat -> Prop) (bid : nat * list nat -> nat) (internal : list nat -> bool)
    (ltb : list nat -> list nat -> bool) (d : mesh_data) (cells faces : list (list nat)) (binfo : list bdesc) : Prop := {
  hd_cells_sorted : sorted_unique ltb cells;
  hd_cells : forall c, In c cells <-> exists x, In x (md_cells d) /\ elt (snd x) c;
  hd_faces_sorted : sorted_unique ltb faces;
  hd_faces : forall f, In f faces <-> exists x, In x (md_cells d) /\ sides (snd x) f;
  hd_length : length binfo = length faces;
  hd_listed : forall i f b, nth_error faces i = Some f ->
    last_entry (fun b => elt (snd b) f) (md_bnd d) b ->
    nth_error binfo i = Some (mkB (bid b) (bid b) true (internal f));
  hd_unlisted : forall i f, nth_error faces i = Some f ->
    (forall b, In b (md_bnd d) -> ~ elt (snd b) f) ->
    nth_error binfo i = Some (mkB 0 0 false false)
}.

(** Points and nodes *)
Definition same_points (d : mesh_data) (pts : list (list Q)) (nodes : list (list nat)) : Prop :=
  Forall2 (Forall2 Qeq) pts (md_points d) /\ nodes = map (fun i => [i]) (seq 0 (length (md_points d))).

(** The cells of the data are distinct as sets of vertices, or as lists. *)
Definition distinct_cells (d : mesh_data) : Prop :=
  forall i j x y, nth_error (md_cells d) i = Some x -> nth_error (md_cells d) j = Some y ->
    Permutation (snd x) (snd y) -> i = j.
Definition distinct_lists (d : mesh_data) : Prop := NoDup (map snd (md_cells d)).

(** All the vertices named by the data exist. *)
Definition in_range (d : mesh_data) : Prop :=
  forall x, In x (md_cells d) \/ In x (md_bnd d) -> Forall (fun v => v < length (md_points d)) (snd x).

(** ** Boxes: the position [k] of a corner has bit [i] set when the corner is on the far side in
    direction [i].  The faces of a box and the order in which their corners are stored: *)
Definition quad_rows : list (list nat) := [[0; 1]; [0; 2]; [1; 3]; [2; 3]].
Definition hex_rows : list (list nat) :=
  [[0; 2; 6; 4]; [1; 3; 7; 5]; [0; 1; 3; 2]; [4; 5; 7; 6]; [0; 4; 5; 1]; [2; 6; 7; 3]].
Definition hex_edge_rows : list (list nat) :=
  [[0; 1]; [0; 2]; [0; 4]; [1; 3]; [1; 5]; [2; 3]; [2; 6]; [3; 7]; [4; 5]; [4; 6]; [5; 7]; [6; 7]].
Definition row_of (rows : list (list nat)) (l f : list nat) : Prop :=
  exists r, In r rows /\ f = map (fun k => nth k l 0) r.

(** the corners on side [v] in direction [i] *)
Definition corners (dim i : nat) (v : bool) : list nat :=
  filter (fun k => Bool.eqb (Nat.testbit k i) v) (seq 0 (2 ^ dim)).
