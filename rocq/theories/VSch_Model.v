(** Model of the condensation of the virtual element method: namespace vem of
    methods/implementation_vem/methods_vem_2d.hpp (lines 185-245).  The unknowns of the boundary come first.  Conventions
    are those of Cond_Model: exact scalars, an oracle for LDLT, blocks that leave the matrix are UB. *)
From Coq Require Import List Arith Bool.
From Verif Require Import Common LinAlg Cond_Model.
Import ListNotations.

Section VSch.
  Context {K : cring}.
  Local Open Scope k_scope.
  Variable ldlt : mat K -> option (vec K -> vec K).

  (** schur, 188-218 *)
  Definition vem_schur (L : mat K) (R : vec K) (n_bndunks : nat) : outcome (mat K * vec K) :=
    if (mcols L <? n_bndunks)%nat then UB else
    let fs := n_bndunks in
    let ts := (mcols L - n_bndunks)%nat in
    do MFF <- topLeftCorner L fs fs;
    do MFT <- topRightCorner L fs ts;
    do MTF <- bottomLeftCorner L ts fs;
    do MTT <- bottomRightCorner L ts ts;
    match ldlt MTT with
    | None => Throw InvalidArgument
    | Some solve =>
      do RT <- vtail R ts;
      let A := solve_m solve MTF in
      let B := solve RT in
      do RF <- vhead R fs;
      Ok (sub_m MFF (mul_mm MFT A), sub_v RF (mul_mv MFT B))
    end.

  (** deschur, 220-245; solving with operands of different sizes is UB *)
  Definition vem_deschur (lhs : mat K) (rhs solF : vec K) (n_bndunks : nat) : outcome (vec K) :=
    if (mcols lhs <? n_bndunks)%nat then UB else
    let ts := (mcols lhs - n_bndunks)%nat in
    let fs := n_bndunks in
    do MTF <- bottomLeftCorner lhs ts fs;
    do MTT <- bottomRightCorner lhs ts ts;
    match ldlt MTT with
    | None => Throw InvalidArgument
    | Some solve =>
      do rhsT <- vtail rhs ts;
      if negb (vsize solF =? fs)%nat then UB else
      Ok (vconcat solF (solve (sub_v rhsT (mul_mv MTF solF))))
    end.
End VSch.
