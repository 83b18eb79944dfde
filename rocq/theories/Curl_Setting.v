(** What the curl operators assume of the tangential functions of the faces, and the functions that their unknowns
    stand for. *)
From Coq Require Import List Arith Reals.
From Verif Require Import Poly_Spec HHO_Spec VHHO_Spec Curl_Spec HHO_Model VHHO_Model Curl_Model HHO_Setting VHHO_Setting.
Import ListNotations.
Open Scope R_scope.

(** the functions of a face basis are independent on the face, of degree at most [fd] and tangent to it *)
Definition tb_fits (fd : nat) (f : facet) (b : vbasis) : Prop :=
  (forall j, (j < v_size b)%nat -> vdeg 3 (v_comp b j) fd /\ tangent f (v_comp b j)) /\
  (forall k, (forall a x, (a < 3)%nat -> fa_on f x -> peval (vlin (v_size b) k (v_comp b) a) x = 0) -> forall j, (j < v_size b)%nat -> k j = 0).
(** they span the tangential functions of degree [fd] *)
Definition tb_spans (fd : nat) (f : facet) (b : vbasis) : Prop := forall w, vdeg 3 w fd -> tangent f w ->
  exists k, forall a x, (a < 3)%nat -> fa_on f x -> peval (w a) x = peval (vlin (v_size b) k (v_comp b) a) x.
(** e0 and e1 are orthonormal and tangent to the face (bases_all.hpp:439-473) *)
Definition frame_fits (f : facet) (e0 e1 : pt) : Prop :=
  let dot := fun u v : pt => sg 3 (fun a => u a * v a) in
  dot e0 e0 = 1 /\ dot e1 e1 = 1 /\ dot e0 e1 = 0 /\ dot e0 (fa_normal f) = 0 /\ dot e1 (fa_normal f) = 0 /\ unit_normal f.

Definition tlist (tb : list vbasis) : list (option (nat * (nat -> tf))) := map (fun b => Some (v_size b, v_comp b)) tb.
Definition tdofs (c : scell) (cd : nat) (tb : list vbasis) : nat := v_size (vec_basis 3 (el_basis (cl_elem c) cd)) + vface_dofs (tlist tb).
Definition tfaces (c : scell) (cd : nat) (tb : list vbasis) (u : nat -> R) : list (option tf) :=
  vface_funs (v_size (vec_basis 3 (el_basis (cl_elem c) cd))) (tlist tb) u.
(** the solver of singular systems: it finds a solution if there is one *)
Definition solves_any (lu : nat -> mtx -> (nat -> R) -> nat -> R) : Prop :=
  forall n A b, (exists x, forall i, (i < n)%nat -> sg n (fun j => A i j * x j) = b i) ->
    forall i, (i < n)%nat -> sg n (fun j => A i j * lu n A b j) = b i.
(** [ds] are the projections of h uF + k V on the functions of the faces, for the face functions [us] *)
Fixpoint tjumps (h k : R) (fs : list facet) (tb : list vbasis) (us : list (option tf)) (V : tf) (ds : list (option tf)) : Prop :=
  match fs, tb, us, ds with
  | [], [], [], [] => True
  | f :: fs, b :: tb, Some u :: us, Some d :: ds => l2span f (v_size b) (v_comp b) (vcombo h u k V) d /\ tjumps h k fs tb us V ds
  | _, _, _, _ => False
  end.
(** the function of the reconstruction of curl_reconstruction, on the basis without its three constant functions *)
Definition drop3_fun (b : vbasis) (N : nat) (oper : mtx) (u : nat -> R) : tf :=
  vlin (v_size b - 3) (fun i => sg N (fun j => oper i j * u j)) (fun i => v_comp b (3 + i)%nat).
