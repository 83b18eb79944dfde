(** What it means that a mesh has the connectivity of a file.  Files number their edges, faces and
    volumes; the mesh stores them in another order. *)
From Coq Require Import List Arith Permutation Sorted Bool.
From Verif Require Import Common Mesh_Model Mesh_Spec Conn_Model.
Import ListNotations.
Local Open Scope nat_scope.

(** The file: edges with their two vertices; faces with their edges; volumes with their faces;
    the vertices of faces and volumes; groups of boundary faces. *)
Record conn_file := mkFile {
  cf_edges : list (nat * (nat * nat));
  cf_faces : list (nat * list nat);
  cf_fpts : list (list nat);
  cf_vols : list (nat * list nat);
  cf_vpts : list (list nat);
  cf_grps : list (nat * list nat)
}.

(** The items are numbered 0, 1, ..., in any order. *)
Definition numbered {A} (l : list (nat * A)) : Prop := Permutation (map fst l) (seq 0 (length l)).

(** All references exist. *)
Record consistent (d : conn_file) : Prop := {
  cs_edges : numbered (cf_edges d);
  cs_faces : numbered (cf_faces d);
  cs_vols : numbered (cf_vols d);
  cs_face_edges : forall id es, In (id, es) (cf_faces d) -> Forall (fun e => e < length (cf_edges d)) es;
  cs_vol_faces : forall id fs, In (id, fs) (cf_vols d) -> Forall (fun f => f < length (cf_faces d)) fs;
  cs_fpts : length (cf_fpts d) = length (cf_faces d);
  cs_vpts : length (cf_vpts d) = length (cf_vols d)
}.

(** Distinct edges, faces, volumes *)
Record no_repeats (d : conn_file) : Prop := {
  nr_edges : forall i j a b a' b', In (i, (a, b)) (cf_edges d) -> In (j, (a', b')) (cf_edges d) ->
    (a = a' /\ b = b') \/ (a = b' /\ b = a') -> i = j;
  nr_faces : NoDup (map snd (cf_faces d));
  nr_vols : NoDup (map snd (cf_vols d))
}.

(** A renumbering of 0 .. n-1 *)
Definition renumbering (n : nat) (p : nat -> nat) : Prop := Permutation (map p (seq 0 n)) (seq 0 n).

(** The descriptor of item [m]: that of the last group that has it. *)
Definition in_last_group (gs : list (nat * list nat)) (m id : nat) : Prop :=
  exists pre ms post, gs = pre ++ (id, ms) :: post /\ In m ms /\ Forall (fun g => ~ In m (snd g)) post.
Definition in_no_group (gs : list (nat * list nat)) (m : nat) : Prop := Forall (fun g => ~ In m (snd g)) gs.

(** ** The mesh *)

(** Item [i] of the file is stored at position [p i], and nothing else is stored. *)
Record placed_as {X} (n : nat) (p : nat -> nat) (stored_items : list X) (item : nat -> X -> Prop) : Prop := {
  pa_perm : renumbering n p;
  pa_length : length stored_items = n;
  pa_item : forall i, i < n -> exists x, nth_error stored_items (p i) = Some x /\ item i x
}.

Definition edge_item (d : conn_file) (i : nat) (x : list nat) : Prop :=
  exists a b, In (i, (a, b)) (cf_edges d) /\ x = [Nat.min a b; Nat.max a b].
Definition face_item (d : conn_file) (pe : nat -> nat) (i : nat) (x : gelem) : Prop :=
  exists es, In (i, es) (cf_faces d) /\ g_sub x = map pe es /\ nth_error (cf_fpts d) i = Some (g_pts x).
Definition vol_item (d : conn_file) (pf : nat -> nat) (i : nat) (x : gelem) : Prop :=
  exists fs, In (i, fs) (cf_vols d) /\ g_sub x = map pf fs /\ nth_error (cf_vpts d) i = Some (g_pts x).

(** An edge is stored with its vertices in increasing order; a face or volume refers to the
    positions of its edges or faces, and has its own vertices. *)
Record same_mesh (d : conn_file) (edges : list (list nat)) (faces vols : list gelem) (pe pf pv : nat -> nat) : Prop := {
  sm_edges : placed_as (length (cf_edges d)) pe edges (edge_item d);
  sm_faces : placed_as (length (cf_faces d)) pf faces (face_item d pe);
  sm_vols : placed_as (length (cf_vols d)) pv vols (vol_item d pf)
}.

(** ** External faces: [f] belongs to the cell [c] and to no other. *)
Definition external {C F} (faces_of : C -> list F) (cells : list C) (c : C) (f : F) : Prop :=
  In f (faces_of c) /\ exists i, nth_error cells i = Some c /\ forall j, owns faces_of cells j f -> j = i.

(** ** Boundary descriptors of item [i], stored at [p i], given by groups *)
Definition described (n : nat) (p : nat -> nat) (gs : list (nat * list nat)) (bi : list bdesc) : Prop :=
  length bi = n /\ forall m, m < n ->
    (forall id, in_last_group gs m id -> nth_error bi (p m) = Some (mkB id id true false)) /\
    (in_no_group gs m -> nth_error bi (p m) = Some (mkB 0 0 false false)).

(** What the readers make of the file *)
Definition seen (d : conn_file) : conn :=
  mkConn (map (fun e => (fst e, make_edge (snd e))) (cf_edges d)) (cf_faces d) (cf_fpts d) (cf_vols d) (cf_vpts d) (cf_grps d).

(** No volume lists a face twice, and no face is listed by more than two volumes. *)
Record manifold (d : conn_file) : Prop := {
  mf_vols : Forall (fun v => NoDup (snd v)) (cf_vols d);
  mf_faces : forall i, count_occ Nat.eq_dec (concat (map snd (cf_vols d))) i <= 2
}.

(** Face [i] is listed by volume [v] and by no other. *)
Definition lists (d : conn_file) (v i : nat) : Prop := exists fs, In (v, fs) (cf_vols d) /\ In i fs.
Definition outer (d : conn_file) (i v : nat) : Prop := lists d v i /\ forall w, lists d w i -> w = v.

(** Every outer face has a side number; [bnum] tells it from the stored cell and face. *)
Definition all_known (d : conn_file) (faces vols : list gelem) (pf pv : nat -> nat) (bnum : list nat -> list nat -> option nat) : Prop :=
  forall i v x y, i < length (cf_faces d) -> outer d i v -> nth_error vols (pv v) = Some x ->
    nth_error faces (pf i) = Some y -> bnum (g_sub x) (g_sub y) <> None.

(** ** poly files: node lists carry a number, too *)
Definition in_number_order {A} (l : list (nat * A)) : Prop := map fst l = seq 0 (length l).
Definition poly_conn (f : poly_file) : conn_file :=
  mkFile (py_edges f) (py_faces f) (map snd (py_fpts f)) (py_vols f) (map snd (py_vpts f)) (py_grps f).
Definition poly_face (f : poly_file) (pe : nat -> nat) (i : nat) (x : gelem) : Prop :=
  exists es, In (i, es) (py_faces f) /\ g_sub x = map pe es /\ In (i, g_pts x) (py_fpts f).
Definition poly_vol (f : poly_file) (pf : nat -> nat) (i : nat) (x : gelem) : Prop :=
  exists fs, In (i, fs) (py_vols f) /\ g_sub x = map pf fs /\ In (i, g_pts x) (py_vpts f).

(** ** fvca6 files: everything counts from 1 *)
Record fvca6_valid (np : nat) (f : fvca6_file) : Prop := {
  fv_edges : Forall (fun e => 1 <= fst e <= np /\ 1 <= snd e <= np) (f6_edges f);
  fv_faces : Forall (Forall (fun e => 1 <= e <= length (f6_edges f))) (f6_faces f);
  fv_vols : Forall (Forall (fun e => 1 <= e <= length (f6_faces f))) (f6_vols f);
  fv_fpts : length (f6_fpts f) = length (f6_faces f) /\ Forall (Forall (fun v => 1 <= v <= np)) (f6_fpts f);
  fv_vpts : length (f6_vpts f) = length (f6_vols f) /\ Forall (Forall (fun v => 1 <= v <= np)) (f6_vpts f)
}.
Definition fvca6_conn (f : fvca6_file) : conn_file :=
  mkFile (number (map (fun e => (fst e - 1, snd e - 1)) (f6_edges f)))
         (number (map (map (fun x => x - 1)) (f6_faces f))) (map (map (fun x => x - 1)) (f6_fpts f))
         (number (map (map (fun x => x - 1)) (f6_vols f))) (map (map (fun x => x - 1)) (f6_vpts f)) [].
