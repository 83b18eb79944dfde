(** Model of static condensation: methods/implementation_hho/scalar_hho_condensation.hpp (used for
    scalar and vector problems) and schur/deschur of methods/hho_assemblers.hpp.
    Scalars form a commutative ring; Eigen's LDLT factorisation of a matrix is an oracle that
    fails ([None], info() != Success) or yields a solve function.  Blocks that leave the matrix
    are UB (Eigen's checks are assertions). *)
From Coq Require Import List Arith Bool.
From Verif Require Import Common LinAlg.
Import ListNotations.

Section Cond.
  Context {K : cring}.
  Local Open Scope k_scope.

  (** Eigen block(r0, c0, r, c), topLeftCorner and its siblings *)
  Definition block (M : mat K) (r0 c0 r c : nat) : outcome (mat K) :=
    if ((r0 + r <=? mrows M) && (c0 + c <=? mcols M))%nat
    then Ok (mkMat r c (fun i j => ment M (r0 + i)%nat (c0 + j)%nat)) else UB.
  Definition topLeftCorner M r c := block M 0 0 r c.
  Definition topRightCorner M r c := if (c <=? mcols M)%nat then block M 0 (mcols M - c) r c else UB.
  Definition bottomLeftCorner M r c := if (r <=? mrows M)%nat then block M (mrows M - r) 0 r c else UB.
  Definition bottomRightCorner M r c :=
    if ((r <=? mrows M) && (c <=? mcols M))%nat then block M (mrows M - r) (mcols M - c) r c else UB.
  Definition vhead (v : vec K) n : outcome (vec K) :=
    if (n <=? vsize v)%nat then Ok (mkVec n (vent v)) else UB.
  Definition vtail (v : vec K) n : outcome (vec K) :=
    if (n <=? vsize v)%nat then Ok (mkVec n (fun i => vent v (vsize v - n + i)%nat)) else UB.
  Definition vzero n : vec K := mkVec n (fun _ => 0).
  (** dense products and differences of conforming operands *)
  Definition mul_mm (A B : mat K) : mat K := mkMat (mrows A) (mcols B) (mm (mcols A) (ment A) (ment B)).
  Definition mul_mv (A : mat K) (x : vec K) : vec K := mkVec (mrows A) (mv (mcols A) (ment A) (vent x)).
  Definition sub_m (A B : mat K) : mat K := mkMat (mrows A) (mcols A) (fun i j => ment A i j - ment B i j).
  Definition sub_v (a b : vec K) : vec K := mkVec (vsize a) (fun i => vent a i - vent b i).
  (** solve applied to a matrix: column by column *)
  Definition solve_m (s : vec K -> vec K) (M : mat K) : mat K :=
    mkMat (mrows M) (mcols M) (fun i j => vent (s (mkVec (mrows M) (fun k => ment M k j))) i).
  (** ret = Zero(n); ret.head(t.size()) = t; ret.tail(f.size()) = f, with n = t.size() + f.size() *)
  Definition vconcat (t f : vec K) : vec K :=
    mkVec (vsize t + vsize f) (fun i => if (i <? vsize t)%nat then vent t i else vent f (i - vsize t)%nat).

  Variable ldlt : mat K -> option (vec K -> vec K).

  (** static_condensation_impl, scalar_hho_condensation.hpp 45-102 *)
  Definition static_condensation (lhs : mat K) (rhs : vec K) (num_cell_dofs num_faces_dofs : nat)
    : outcome ((mat K * vec K) * mat K * vec K) :=
    let num_total_dofs := (num_cell_dofs + num_faces_dofs)%nat in
    if (negb (vsize rhs =? num_cell_dofs) && negb (vsize rhs =? num_total_dofs))%nat
    then Throw InvalidArgument
    else
      do K_TT <- topLeftCorner lhs num_cell_dofs num_cell_dofs;
      do K_TF <- topRightCorner lhs num_cell_dofs num_faces_dofs;
      do K_FT <- bottomLeftCorner lhs num_faces_dofs num_cell_dofs;
      do K_FF <- bottomRightCorner lhs num_faces_dofs num_faces_dofs;
      do cell_rhs <- vhead rhs num_cell_dofs;
      do faces_rhs <- (if (vsize rhs =? num_total_dofs)%nat then vtail rhs num_faces_dofs else Ok (vzero num_faces_dofs));
      match ldlt K_TT with
      | None => Throw InvalidArgument
      | Some solve =>
        let AL := solve_m solve K_TF in
        let bL := solve cell_rhs in
        let AC := sub_m K_FF (mul_mm K_FT AL) in
        let bC := sub_v faces_rhs (mul_mv K_FT bL) in
        Ok ((AC, bC), AL, bL)
      end.

  (** static_decondensation_impl, 104-139 (no check of the factorisation: solving with a failed
      one is unspecified, here UB) *)
  Definition static_decondensation (lhs : mat K) (rhs solF : vec K) (num_cell_dofs num_faces_dofs : nat) : outcome (vec K) :=
    if (vsize rhs <? num_cell_dofs)%nat then Throw InvalidArgument
    else
      do K_TT <- topLeftCorner lhs num_cell_dofs num_cell_dofs;
      do K_TF <- topRightCorner lhs num_cell_dofs num_faces_dofs;
      do r <- vhead rhs num_cell_dofs;
      if negb (vsize solF =? num_faces_dofs)%nat then UB else
      match ldlt K_TT with
      | None => UB
      | Some solve => Ok (vconcat (solve (sub_v r (mul_mv K_TF solF))) solF)
      end.

  (** make_scalar_static_decondensation_withMatrix 176-190, make_vector_... 105-120 *)
  Definition static_decondensation_withMatrix (AL : mat K) (bL solF : vec K) : outcome (vec K) :=
    if ((mrows AL =? vsize bL) && (mcols AL =? vsize solF))%nat
    then Ok (vconcat (sub_v bL (mul_mv AL solF)) solF) else UB.

  (** schur, hho_assemblers.hpp 212-240; [ts] is basis.size() *)
  Definition schur (L : mat K) (R : vec K) (ts : nat) : outcome (mat K * vec K) :=
    if (mcols L <? ts)%nat then UB else
    let fs := (mcols L - ts)%nat in
    do MTT <- topLeftCorner L ts ts;
    do MTF <- topRightCorner L ts fs;
    do MFT <- bottomLeftCorner L fs ts;
    do MFF <- bottomRightCorner L fs fs;
    match ldlt MTT with
    | None => Throw InvalidArgument
    | Some solve =>
      do RT <- vhead R ts;
      let A := solve_m solve MTF in
      let B := solve RT in
      do RF <- vtail R fs;
      Ok (sub_m MFF (mul_mm MFT A), sub_v RF (mul_mv MFT B))
    end.

  (** deschur, 242-273 *)
  Definition deschur (lhs : mat K) (rhs solF : vec K) (ts : nat) : outcome (vec K) :=
    if (mcols lhs <? ts)%nat then UB else
    let fs := (mcols lhs - ts)%nat in
    do MTT <- topLeftCorner lhs ts ts;
    do MTF <- topRightCorner lhs ts fs;
    match ldlt MTT with
    | None => Throw InvalidArgument
    | Some solve =>
      do rhsT <- vhead rhs ts;
      if negb (vsize solF =? fs)%nat then UB else
      Ok (vconcat (solve (sub_v rhsT (mul_mv MTF solF))) solF)
    end.
End Cond.
