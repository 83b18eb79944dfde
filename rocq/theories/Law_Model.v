(** Model of the behaviour laws at a quadrature point, mechanics/behaviors/laws, of
    deformation_tensors.hpp, stress_tensors.hpp and maths_jacobian_derivate.hpp.  Scalars are exact
    reals.  A computed value that is not finite (division by zero) is kept apart as [None]. *)
From Coq Require Import List Arith Bool Reals.
From Verif Require Import Common Tensor_Model.
Import ListNotations.
Local Open Scope R_scope.

(** Eigen expressions on 3x3 (or 2x2) matrices *)
Definition mplus (A B : mtx) : mtx := fun i j => A i j + B i j.
Definition mminus (A B : mtx) : mtx := fun i j => A i j - B i j.
Definition mtimes (c : R) (A : mtx) : mtx := fun i j => c * A i j.
Definition mdivs (A : mtx) (c : R) : mtx := fun i j => A i j / c.
Definition mprod (D : nat) (A B : mtx) : mtx := fun i j => tsum D (fun k => A i k * B k j).
Definition mtransp (A : mtx) : mtx := fun i j => A j i.
Definition sqnorm (D : nat) (A : mtx) : R := msum D (fun i j => A i j * A i j).
Definition mnorm (D : nat) (A : mtx) : R := sqrt (sqnorm D A).
(** Eigen's determinant and inverse for sizes 2 and 3 (the inverse is the transposed cofactor
    matrix divided by the determinant) *)
Definition det2 (A : mtx) : R := A 0%nat 0%nat * A 1%nat 1%nat - A 0%nat 1%nat * A 1%nat 0%nat.
Definition minor3 (A : mtx) (i j : nat) : R :=
  let a := match i with O => 1%nat | _ => O end in let b := match i with O | 1%nat => 2%nat | _ => 1%nat end in
  let c := match j with O => 1%nat | _ => O end in let d := match j with O | 1%nat => 2%nat | _ => 1%nat end in
  A a c * A b d - A a d * A b c.
Definition sgn (i j : nat) : R := if Nat.even (i + j) then 1 else -1.
Definition det3 (A : mtx) : R :=
  A 0%nat 0%nat * minor3 A 0 0 - A 0%nat 1%nat * minor3 A 0 1 + A 0%nat 2%nat * minor3 A 0 2.
Definition inv3 (A : mtx) : mtx := fun i j => sgn i j * minor3 A j i / det3 A.
Definition inv2 (A : mtx) : mtx := fun i j =>
  (match i, j with O, O => A 1%nat 1%nat | O, _ => - A 0%nat 1%nat | _, O => - A 1%nat 0%nat | _, _ => A 0%nat 0%nat end) / det2 A.
Definition mdet (D : nat) (A : mtx) : R := if (D =? 2)%nat then det2 A else det3 A.
Definition minv (D : nat) (A : mtx) : mtx := if (D =? 2)%nat then inv2 A else inv3 A.

(** ** materialData.hpp *)
(** lines 66-73; the type is the volumetric law of the hyperelastic materials *)
Record material := mkMat { m_lambda : R; m_mu : R; m_H : R; m_K : R; m_sy0 : R; m_type : nat; m_curve : list (R * R) }.
(** lines 98-102, 110-114, 122-126 *)
Definition mu_of (E nu : R) : R := E / (2 * (1 + nu)).
Definition lambda_of (E nu : R) : R := E * nu / ((1 + nu) * (1 - 2 * nu)).
Definition H_of (E ET K : R) : R := E * ET / (E - ET) - 3 / 2 * K.
(** lines 164-182 *)
Definition getE (m : material) : R := m_mu m * (3 * m_lambda m + 2 * m_mu m) / (m_lambda m + m_mu m).
Definition getNu (m : material) : R := m_lambda m / (2 * (m_lambda m + m_mu m)).
Definition getET (m : material) : R := getE m * (m_H m + 3 / 2 * m_K m) / (m_H m + 3 / 2 * m_K m + getE m).
(** lines 226-244: std::sort by the abscissa (insertion sort in the model, which is stable), then
    two neighbours closer than [eps] are rejected *)
Fixpoint ins_pt (a : R * R) (l : list (R * R)) : list (R * R) :=
  match l with [] => [a] | b :: t => if Rlt_dec (fst b) (fst a) then b :: ins_pt a t else a :: l end.
Definition sort_pts (l : list (R * R)) : list (R * R) := fold_right ins_pt [] l.
Fixpoint close_pts (eps : R) (l : list (R * R)) : bool :=
  match l with
  | a :: ((b :: _) as t) => (if Rlt_dec (Rabs (fst a - fst b)) eps then true else false) || close_pts eps t
  | _ => false
  end.
Definition checkRpCurve (eps : R) (m : material) : outcome material :=
  let c := sort_pts (m_curve m) in
  if close_pts eps c then Throw InvalidArgument
  else Ok (mkMat (m_lambda m) (m_mu m) (m_H m) (m_K m) (m_sy0 m) (m_type m) c).

(** ** law_qp_bones.hpp *)
Definition is4 : mtx := match IdentitySymTensor4 3 with Some t => t | None => mzero end.
Definition id4 : mtx := match IdentityTensor4 3 with Some t => t | None => mzero end.
(** lines 68-72 *)
Definition elastic_modulus3D (m : material) : mtx := mplus (mtimes (2 * m_mu m) is4) (mtimes (m_lambda m) IxI).
(** lines 74-78 *)
Definition sigmaeq (dev : mtx) : R := sqrt (3 / 2 * sqnorm 3 dev).

(** the state of a quadrature point (elastic and plastic strain, cumulated plastic strain, at the
    previous and at the current step) *)
Record qp := mkQ { ee_prev : mtx; ep_prev : mtx; p_prev : R; ee_curr : mtx; ep_curr : mtx; p_curr : R; plastic : bool }.
(** IsotropicHardeningVMis_qp.hpp:68-72 *)
Definition qp_make : qp := mkQ mzero mzero 0 mzero mzero 0 false.
(** IsotropicHardeningVMis_qp.hpp:109-115 *)
Definition qp_update (q : qp) : qp := mkQ (ee_curr q) (ep_curr q) (p_curr q) (ee_curr q) (ep_curr q) (p_curr q) (plastic q).
(** convertMatrix3D: tensor_conversion.hpp:39-55 *)
Definition embed (DIM : nat) (M : mtx) : mtx := if (DIM =? 3)%nat then M else convertMatrix3D M.
(** IsotropicHardeningVMis_qp.hpp:97-101 *)
Definition total_strain_prev (q : qp) : mtx := convertMatrix (mplus (ee_prev q) (ep_prev q)).
(** IsotropicHardeningVMis_qp.hpp:117-126 *)
Definition hooke (m : material) (e : mtx) : mtx := mplus (mtimes (2 * m_mu m) e) (mtimes (m_lambda m * trace 3 e) mident).

(** abs(a)/b > 1E-8; false for 0/0 = NaN (a non-zero a never meets b = 0 here: b is the norm of the
    matrix a is the trace of) *)
Definition over (a b : R) : bool :=
  if Req_EM_T b 0 then false else if Rlt_dec (/ 10 ^ 8) (Rabs a / b) then true else false.

Definition cp (c : list (R * R)) (i : nat) : R := fst (nth i c (0, 0)).
Definition cr (c : list (R * R)) (i : nat) : R := snd (nth i c (0, 0)).
Definition slope (c : list (R * R)) (i : nat) : R := (cr c (S i) - cr c i) / (cp c (S i) - cp c i).
(** IsotropicHardeningVMis_qp.hpp:182-190: [k] = nb_point - 1 - i *)
Fixpoint find_i0 (c : list (R * R)) (p : R) (k i : nat) : nat :=
  match k with
  | O => length c - 2
  | S k => if Rlt_dec p (cp c (S i)) then i else find_i0 c p k (S i)
  end.
(** IsotropicHardeningVMis_qp.hpp:234-244: [k] = nb_point - 1 - i *)
Fixpoint find_i1 (c : list (R * R)) (mu p se : R) (k i : nat) : nat :=
  match k with
  | O => length c - 2
  | S k => if Rlt_dec 0 (cr c i - 3 * mu * (p - cp c i) - se) then i - 1 else find_i1 c mu p se k (S i)
  end.

(** result of compute_whole3D: the new state, the stress and the tangent modulus; [Ok None]: some of
    them are not finite *)
Definition law_result := outcome (option (qp * mtx * mtx)).
(** the common end, IsotropicHardeningVMis_qp.hpp:281-297: plastic strain with a trace is rejected *)
Definition finish (m : material) (q : qp) (C : mtx) : law_result :=
  if Rlt_dec (/ 10 ^ 8) (Rabs (trace 3 (ep_curr q))) then Throw InvalidArgument
  else Ok (Some (q, hooke m (ee_curr q), C)).
(** IsotropicHardeningVMis_qp.hpp:255-259 and 264, 271: the correction *)
Definition tangent_ep (m : material) (normal : mtx) (dp se_eq dem : R) : mtx :=
  let pdev := mminus is4 (mdivs IxI 3) in
  let mu2 := m_mu m * m_mu m in
  mminus (mplus (elastic_modulus3D m) (mtimes (4 * mu2 * (dp / se_eq - 1 / dem)) (Kronecker 3 normal normal)))
         (mtimes (6 * mu2 * dp / se_eq) pdev).
(** IsotropicHardeningVMis_qp.hpp:156-298.  With one point [nb_point - 2] wraps around and the curve
    is read far out of range. *)
Definition iso_whole3D (DIM : nat) (m : material) (q : qp) (strain : mtx) (tangentmodulus : bool) : law_result :=
  let Cep := elastic_modulus3D m in
  let c := m_curve m in
  let trial := mplus (ee_prev q) (mminus strain (embed DIM (total_strain_prev q))) in
  let elastic := mkQ (ee_prev q) (ep_prev q) (p_prev q) trial (ep_prev q) (p_prev q) false in
  let n := length c in
  if (n =? 0)%nat then finish m elastic Cep
  else if (n =? 1)%nat then UB
  else
    let i0 := find_i0 c (p_prev q) (n - 1) 0 in
    if Req_EM_T (cp c (S i0) - cp c i0) 0 then Ok None
    else
      let H0 := slope c i0 in
      let se := mtimes (2 * m_mu m) (deviator 3 trial) in
      let se_eq := sigmaeq se in
      let Phi0 := se_eq - cr c i0 - H0 * (p_prev q - cp c i0) in
      if over (trace 3 se) (mnorm 3 se) then Throw InvalidArgument
      else if Rlt_dec Phi0 0 then finish m elastic Cep
      else
        let i1 := find_i1 c (m_mu m) (p_prev q) se_eq (n - 2 - i0) (S i0) in
        if Req_EM_T (cp c (S i1) - cp c i1) 0 then Ok None
        else
          let H1 := slope c i1 in
          let Phi1 := se_eq - cr c i1 - H1 * (p_prev q - cp c i1) in
          let dem := 3 * m_mu m + H1 in
          if Req_EM_T (dem * se_eq) 0 then Ok None
          else
            let normal := mdivs (mtimes 3 se) (2 * se_eq) in
            let dp := Phi1 / dem in
            let q' := mkQ (ee_prev q) (ep_prev q) (p_prev q) (mminus trial (mtimes dp normal))
                          (mplus (ep_prev q) (mtimes dp normal)) (p_prev q + dp) true in
            finish m q' (if tangentmodulus then tangent_ep m normal dp se_eq dem else Cep).

(** LinearIsotropicAndKinematicHardening_qp.hpp:151-252 *)
Definition kin_whole3D (DIM : nat) (m : material) (q : qp) (strain : mtx) (tangentmodulus : bool) : law_result :=
  let Cep := elastic_modulus3D m in
  let trial := mplus (ee_prev q) (mminus strain (embed DIM (total_strain_prev q))) in
  let X := mtimes (m_K m) (ep_prev q) in
  let se := mminus (mtimes (2 * m_mu m) (deviator 3 trial)) X in
  let se_eq := sigmaeq se in
  let Phi := se_eq - m_sy0 m - m_H m * p_prev q in
  let fin q C := if over (trace 3 (ep_curr q)) (mnorm 3 (ep_curr q)) then Throw InvalidArgument
                 else Ok (Some (q, hooke m (ee_curr q), C)) in
  if over (trace 3 X) (mnorm 3 X) then Throw InvalidArgument
  else if over (trace 3 se) (mnorm 3 se) then Throw InvalidArgument
  else if Rlt_dec Phi 0 then fin (mkQ (ee_prev q) (ep_prev q) (p_prev q) trial (ep_prev q) (p_prev q) false) Cep
  else
    let dem := 3 * m_mu m + m_H m + 3 * m_K m / 2 in
    if Req_EM_T (dem * se_eq) 0 then Ok None
    else
      let normal := mdivs (mtimes 3 se) (2 * se_eq) in
      let dp := Phi / dem in
      fin (mkQ (ee_prev q) (ep_prev q) (p_prev q) (mminus trial (mtimes dp normal))
               (mplus (ep_prev q) (mtimes dp normal)) (p_prev q + dp) true)
          (if tangentmodulus then tangent_ep m normal dp se_eq dem else Cep).

(** compute_whole (IsotropicHardeningVMis_qp.hpp:300-310 and LinearIsotropicAndKinematicHardening_qp.hpp:254-264):
    the strain is DIM x DIM *)
Definition law_whole (law3D : nat -> material -> qp -> mtx -> bool -> law_result) (DIM : nat) (m : material) (q : qp) (strain : mtx) (t : bool) : law_result :=
  do r <- law3D DIM m q (embed DIM strain) t;
  Ok (match r with
      | None => None
      | Some (q, s, C) => Some (q, convertMatrix s, if (DIM =? 3)%nat then C else convertTensor2 C)
      end).

(** LinearElasticityLaw.hpp:94-106 and LinearLaw_qp.hpp:70-82 *)
Definition elastic_whole3D (m : material) (strain : mtx) : mtx * mtx := (hooke m strain, elastic_modulus3D m).
Definition linear_whole3D (m : material) (F : mtx) : mtx * mtx := (mtimes (m_lambda m) F, mtimes (m_lambda m) id4).

(** ** Hyperelastic laws: Neohookean_qp.hpp and Cavitation_qp.hpp (the functions of J are the same in
    both files: lines 75-120 of Neohookean_qp.hpp and 78-123 of Cavitation_qp.hpp) *)
Definition ln10 : R := ln 10.
Definition law_U (t : nat) (J : R) : outcome R :=
  match t with
  | 1%nat => Ok (ln J)
  | 2%nat => Ok (J - 1)
  | 3%nat => Ok (ln J / ln10)
  | 4%nat => Ok (1 / (1 - J))
  | 5%nat => Ok (J * J - 1)
  | 6%nat => Ok (sqrt ((J * J - 1 - 2 * ln J) / 2))
  | _ => Throw InvalidArgument
  end.
Definition law_T1 (t : nat) (J : R) : outcome R :=
  match t with
  | 1%nat => Ok (ln J)
  | 2%nat => Ok (J * (J - 1))
  | 3%nat => Ok (ln J / (ln10 * ln10))
  | 4%nat => Ok ((J - 1) / (J * J))
  | 5%nat => Ok (2 * J * J * (J * J - 1))
  | 6%nat => Ok ((J * J - 1) / 2)
  | _ => Throw InvalidArgument
  end.
Definition law_T2 (t : nat) (J : R) : outcome R :=
  match t with
  | 1%nat => Ok 1
  | 2%nat => Ok (J * (2 * J - 1))
  | 3%nat => Ok (1 / (ln10 * ln10))
  | 4%nat => Ok ((2 - J) / (J * J))
  | 5%nat => Ok (J * J * (8 * J * J - 4))
  | 6%nat => Ok (J * J)
  | _ => Throw InvalidArgument
  end.
Definition guardJ {A} (F : mtx) (k : R -> outcome A) : outcome A :=
  if Rle_dec (det3 F) 0 then Throw InvalidArgument else k (det3 F).
(** Neohookean_qp.hpp:155-169, 122-145, 197-213 *)
Definition neo_stress (m : material) (F : mtx) : outcome mtx :=
  guardJ F (fun J => do T1 <- law_T1 (m_type m) J;
    Ok (mplus (mtimes (m_mu m) F) (mtimes (m_lambda m * T1 - m_mu m) (mtransp (inv3 F))))).
Definition neo_tangent (m : material) (F : mtx) : outcome mtx :=
  guardJ F (fun J =>
    let invF := inv3 F in let invFt := mtransp invF in
    do T1 <- law_T1 (m_type m) J; do T2 <- law_T2 (m_type m) J;
    let ii := ProductInf 3 invFt invF in
    Ok (mplus (mtimes (m_mu m) (mplus id4 ii))
              (mtimes (m_lambda m) (mminus (mtimes T2 (Kronecker 3 invFt invFt)) (mtimes T1 ii))))).
Definition neo_energy (m : material) (F : mtx) : outcome R :=
  guardJ F (fun J => do U <- law_U (m_type m) J;
    let C := mprod 3 (mtransp F) F in
    Ok (m_mu m / 2 * (trace 3 C - 3) + (m_lambda m / 2 * U * U - m_mu m * ln J))).
(** Cavitation_qp.hpp:165-182, 125-155, 211-228; std::pow of a positive base *)
Definition cav_stress (m : material) (F : mtx) : outcome mtx :=
  guardJ F (fun J => do T1 <- law_T1 (m_type m) J;
    let C := mprod 3 (mtransp F) F in
    Ok (mplus (mtimes (m_mu m * Rpower (3 * trace 3 C) (- (1) / 4)) F)
              (mtimes (m_lambda m * T1 - m_mu m) (mtransp (inv3 F))))).
Definition cav_tangent (m : material) (F : mtx) : outcome mtx :=
  guardJ F (fun J =>
    let invF := inv3 F in let invFt := mtransp invF in
    let C := mprod 3 (mtransp F) F in let trC := trace 3 C in
    do T1 <- law_T1 (m_type m) J; do T2 <- law_T2 (m_type m) J;
    let aiso := mtimes (m_mu m * Rpower 3 (- (1) / 4))
                  (mminus (mtimes (Rpower trC (- (1) / 4)) id4) (mtimes (1 / 2 * Rpower trC (- (5) / 4)) (Kronecker 3 F F))) in
    let avol := mplus (mtimes (m_lambda m * T2) (Kronecker 3 invFt invFt))
                      (mtimes (m_mu m - m_lambda m * T1) (ProductInf 3 invFt invF)) in
    Ok (mplus aiso avol)).
Definition cav_energy (m : material) (F : mtx) : outcome R :=
  guardJ F (fun J => do U <- law_U (m_type m) J;
    let C := mprod 3 (mtransp F) F in
    Ok (2 * m_mu m / Rpower 3 (5 / 4) * Rpower (trace 3 C) (3 / 4) + (m_lambda m / 2 * U * U - m_mu m * ln J))).

(** ** deformation_tensors.hpp *)
(** lines 39-44 *)
Definition convertGtoLinearizedStrain (D : nat) (G : mtx) : mtx := mprod D (mtimes (1 / 2) G) (mtransp G).
(** lines 48-60 *)
Definition convertGtoF (G : mtx) : mtx := mplus G mident.
Definition convertFtoG (F : mtx) : mtx := mminus F mident.
(** lines 64-94 *)
Definition convertFtoCauchyGreenRight (D : nat) (F : mtx) : mtx := mprod D (mtransp F) F.
Definition convertGtoCauchyGreenRight (D : nat) (G : mtx) : mtx := convertFtoCauchyGreenRight D (convertGtoF G).
Definition convertFtoCauchyGreenLeft (D : nat) (F : mtx) : mtx := mprod D F (mtransp F).
Definition convertGtoCauchyGreenLeft (D : nat) (G : mtx) : mtx := convertFtoCauchyGreenLeft D (convertGtoF G).
(** lines 98-119 *)
Definition convertCauchyGreenRighttoGreenLagrange (C : mtx) : mtx := mtimes (1 / 2) (mminus C mident).
Definition convertFtoGreenLagrange (D : nat) (F : mtx) : mtx := convertCauchyGreenRighttoGreenLagrange (convertFtoCauchyGreenRight D F).
Definition convertGtoGreenLagrange (D : nat) (G : mtx) : mtx := convertCauchyGreenRighttoGreenLagrange (convertGtoCauchyGreenRight D G).

(** ** stress_tensors.hpp:41-98 *)
Definition convertPK1toPK2 (D : nat) (PK1 F : mtx) : mtx := mprod D (minv D F) PK1.
Definition convertPK2toPK1 (D : nat) (PK2 F : mtx) : mtx := mprod D F PK2.
Definition convertPK1toCauchy (D : nat) (PK1 F : mtx) : mtx := mdivs (mprod D PK1 (mtransp F)) (mdet D F).
Definition convertCauchytoPK1 (D : nat) (S F : mtx) : mtx := mprod D (mtimes (mdet D F) S) (mtransp (minv D F)).
Definition convertCauchytoPK2 (D : nat) (S F : mtx) : mtx :=
  mprod D (mprod D (mtimes (mdet D F) (minv D F)) S) (mtransp (minv D F)).
Definition convertPK2toCauchy (D : nat) (PK2 F : mtx) : mtx := mdivs (mprod D (mprod D F PK2) (mtransp F)) (mdet D F).
Definition VonMisesCriteria (D : nat) (M : mtx) : R := sqrt (3 / 2 * sqnorm D (deviator D M)).

(** ** maths_jacobian_derivate.hpp *)
(** lines 48-60 and 62-81 *)
Definition rows3 (a b c d e f g h k : R) : mtx := fun i j =>
  match i, j with
  | O, O => a | O, 1%nat => b | O, _ => c
  | 1%nat, O => d | 1%nat, 1%nat => e | 1%nat, _ => f
  | _, O => g | _, 1%nat => h | _, _ => k
  end.
Definition JacobianFirstDerivate2 (M : mtx) : mtx := fun i j =>
  match i, j with O, O => M 1 1 | O, _ => - M 1 0 | _, O => - M 0 1 | _, _ => M 0 0 end%nat.
Definition JacobianFirstDerivate3 (M : mtx) : mtx :=
  let m i j := M i j in
  rows3 (m 1%nat 1%nat * m 2%nat 2%nat - m 2%nat 1%nat * m 1%nat 2%nat) (m 1%nat 2%nat * m 2%nat 0%nat - m 2%nat 2%nat * m 1%nat 0%nat) (m 1%nat 0%nat * m 2%nat 1%nat - m 1%nat 1%nat * m 2%nat 0%nat)
        (m 0%nat 2%nat * m 2%nat 1%nat - m 2%nat 2%nat * m 0%nat 1%nat) (m 0%nat 0%nat * m 2%nat 2%nat - m 0%nat 2%nat * m 2%nat 0%nat) (m 2%nat 0%nat * m 0%nat 1%nat - m 0%nat 0%nat * m 2%nat 1%nat)
        (m 0%nat 1%nat * m 1%nat 2%nat - m 1%nat 1%nat * m 0%nat 2%nat) (m 0%nat 2%nat * m 1%nat 0%nat - m 0%nat 0%nat * m 1%nat 2%nat) (m 0%nat 0%nat * m 1%nat 1%nat - m 0%nat 1%nat * m 1%nat 0%nat).
(** lines 93-105 and 107-155 *)
Definition JacobianSecondDerivate2 : mtx := writes [(1, 1, 1%R); (1, 2, (-1)%R); (2, 1, (-1)%R); (2, 2, 1%R)]%nat.
Definition JacobianSecondDerivate3 (M : mtx) : mtx :=
  let m (i j : nat) := M i j in
  writes [(1, 1, m 2%nat 2%nat); (1, 2, (- m 2%nat 1%nat)%R); (1, 3, (- m 2%nat 2%nat)%R);
          (2, 1, (- m 1%nat 2%nat)%R); (2, 2, m 1%nat 1%nat); (2, 3, m 1%nat 2%nat);
          (3, 1, (- m 2%nat 2%nat)%R); (3, 2, m 2%nat 1%nat); (3, 3, m 2%nat 2%nat);
          (1, 5, m 2%nat 0%nat); (1, 6, m 2%nat 1%nat); (1, 7, (- m 2%nat 0%nat)%R);
          (2, 5, (- m 1%nat 0%nat)%R); (2, 6, (- m 1%nat 1%nat)%R); (2, 7, m 1%nat 0%nat);
          (3, 5, (- m 2%nat 0%nat)%R); (3, 6, (- m 2%nat 1%nat)%R); (3, 7, m 2%nat 0%nat);
          (5, 1, m 0%nat 2%nat); (5, 2, (- m 0%nat 1%nat)%R); (5, 3, (- m 0%nat 2%nat)%R);
          (6, 1, m 1%nat 2%nat); (6, 2, (- m 1%nat 1%nat)%R); (6, 3, (- m 2%nat 1%nat)%R);
          (7, 1, (- m 0%nat 2%nat)%R); (7, 2, m 0%nat 1%nat); (7, 3, m 0%nat 2%nat);
          (5, 5, m 0%nat 0%nat); (5, 6, m 0%nat 1%nat); (5, 7, (- m 0%nat 0%nat)%R);
          (6, 5, m 1%nat 0%nat); (6, 6, m 1%nat 1%nat); (6, 7, (- m 1%nat 0%nat)%R);
          (7, 5, (- m 0%nat 0%nat)%R); (7, 6, (- m 0%nat 1%nat)%R); (7, 7, m 0%nat 0%nat)]%nat.

(** ** Newmark time integration: NewtonIteration.hpp:154-186 and 425-437, NewtonSolverComput.hpp:530-550.
    One degree of freedom of one cell with mass [mass]; [f] is the sum of the other forces on it.
    The stiffness is zero, so that one Newton iteration solves the linear system. *)
Record dyn := mkDyn { d_u : R; d_v : R; d_a : R }.
Record dyn_iter := mkIt { it_u : R; it_v : R; it_a : R; it_vp : R; it_pred : R }.
(** NewtonIteration.hpp:138-175 *)
Definition newmark_init (beta dt : R) (s : dyn) : dyn_iter :=
  mkIt (d_u s) (d_v s) (d_a s) (d_v s)
       (- d_u s / (beta * dt * dt) - d_v s / (beta * dt) - dt * dt / 2 * (1 - 2 * beta) * d_a s).
(** NewtonSolverComput.hpp:539-550 and the solution of K x = RTF *)
Definition newmark_solve (mass beta dt f : R) (s : dyn_iter) : R :=
  let K := mass / (beta * dt * dt) in
  let rtf := f - mass / (beta * dt * dt) * it_u s + mass * it_pred s in
  rtf / K.
(** NewtonIteration.hpp:421-437 *)
Definition newmark_post (beta gamma dt : R) (x : R) (s : dyn_iter) : dyn_iter :=
  let a := x / (beta * dt * dt) + it_pred s in
  mkIt (it_u s + x) (it_vp s + dt * ((1 - gamma) * a + gamma * a)) a (it_vp s) (it_pred s).
Definition newmark_step (mass beta gamma dt f : R) (s : dyn) : dyn :=
  let i := newmark_init beta dt s in
  let i := newmark_post beta gamma dt (newmark_solve mass beta dt f i) i in
  mkDyn (it_u i) (it_v i) (it_a i).
