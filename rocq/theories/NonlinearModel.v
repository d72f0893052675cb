(* Model of gsMaterialMatrixNonlinear (src/gsMaterialMatrixNonlinear.hpp): neo-Hookean, Mooney-Rivlin and extended
   neo-Hookean laws in the Analytical and Generalized implementations.  The Spectral implementation is in
   SpectralModel.v, the c33 iteration in Newton33Model.v.
   math::pow(J_sq,e) with non-integer exponent is Rpower (defined for positive bases only); division by zero and
   negative bases produce inf/nan in C++ and are outside the model.  GISMO_ENSURE on the number of parameters of the
   Mooney-Rivlin law and on 3-6*nu <> 0 are not part of these definitions (they only reject inputs). *)
From Coq Require Import Reals.
From Verif Require Import Tensor MetricModel LinearModel.
Open Scope R_scope.

Inductive law := NH | MR | NHe.

(* m_parvals: Young's modulus, Poisson's ratio, ratio c1/c2 (Mooney-Rivlin only) *)
Record par := mkPar { pE : R; pnu : R; pratio : R }.
(* gsMaterialMatrixNonlinear.hpp 1315, 1335-1337, 1492, 1546 *)
Definition mu (p : par) : R := mu_of (pE p) (pnu p).
Definition lam (p : par) : R := lambda_of (pE p) (pnu p).
Definition bulk (p : par) : R := pE p / (3 - 6 * pnu p).
Definition c2 (p : par) : R := mu p / (pratio p + 1).
Definition c1 (p : par) : R := pratio p * c2 p.

(* The members set by _getMetric that the laws read: m_Gcon_ori, m_Gcov_def, m_Gcon_def, m_J0_sq *)
Record metric := mkMetric { Gori : mat; Gdef : mat; Gdefi : mat; J0 : R }.

(* gsMaterialMatrixBaseDim.hpp 998-1016 / 1019-1037 (with 1096-1102, 1227-1233): from the two covariant 3x3 metrics at a
   height; the exceptional branches (vanishing or negative determinants) are modelled in MetricModel.J0_sq *)
Definition metric_of (Gcov_ori Gcov_def : mat) : metric :=
  mkMetric (inv3 Gcov_ori) Gcov_def (inv3 Gcov_def) (det3 Gcov_def / det3 Gcov_ori).

(* gsMaterialMatrixNonlinear.hpp 1330-1333 and repeated: traceCt *)
Definition traceCt (m : metric) : R :=
    Gdef m 0%nat 0%nat * Gori m 0%nat 0%nat + Gdef m 0%nat 1%nat * Gori m 0%nat 1%nat
  + Gdef m 1%nat 0%nat * Gori m 1%nat 0%nat + Gdef m 1%nat 1%nat * Gori m 1%nat 1%nat.

(* the combination 2 X_ij X_kl + X_ik X_jl + X_il X_jk (1316, 1341, 1412) *)
Definition X4 (X : mat) : ten4 := fun i j k l => 2 * X i j * X k l + X i k * X j l + X i l * X j k.
(* -1/2 (X_ik X_jl + X_il X_jk): Gabcd (1339), dCinv (1493) *)
Definition dX4 (X : mat) : ten4 := fun i j k l => - (1 / 2) * (X i k * X j l + X i l * X j k).

(* ---------------- incompressible, Analytical ---------------- *)
(* gsMaterialMatrixNonlinear.hpp 1684-1692 (NH), 1696-1714 (MR).  No incompressible extended NH exists: 0. *)
Definition S_inc (w : law) (p : par) (m : metric) : mat := fun i j =>
  match w with
  | NH => mu p * (Gori m i j - 1 / J0 m * Gdefi m i j)
  | MR => c1 p * (Gori m i j - 1 / J0 m * Gdefi m i j)
          + c2 p / J0 m * (Gori m i j - traceCt m * Gdefi m i j) + c2 p * J0 m * Gdefi m i j
  | NHe => 0
  end.
(* gsMaterialMatrixNonlinear.hpp 1309-1317 (NH), 1321-1344 (MR) *)
Definition C_inc (w : law) (p : par) (m : metric) : ten4 := fun i j k l =>
  match w with
  | NH => mu p * 1 / J0 m * X4 (Gdefi m) i j k l
  | MR => (c1 p + c2 p * traceCt m) * 1 / J0 m * X4 (Gdefi m) i j k l
          - 2 * c2 p / J0 m * (Gori m i j * Gdefi m k l + Gdefi m i j * Gori m k l)
          + 2 * c2 p * J0 m * (dX4 (Gdefi m) i j k l + Gdefi m i j * Gdefi m k l)
  | NHe => 0
  end.

(* ---------------- incompressible, Generalized ---------------- *)
(* gsMaterialMatrixNonlinear.hpp 2127-2132 (NH), 2136-2156 (MR) *)
Definition dPsi_inc (w : law) (p : par) (m : metric) : mat := fun i j =>
  match w with
  | NH => 1 / 2 * mu p * Gori m i j
  | MR => if (Nat.eqb i 2 && Nat.eqb j 2)%bool then c1 p / 2 + c2 p / 2 * traceCt m
          else c1 p / 2 * Gori m i j + c2 p / 2 * (1 / J0 m * Gori m i j + J0 m * Gdefi m i j)
  | NHe => 0
  end.
(* gsMaterialMatrixNonlinear.hpp 2169-2173 (NH), 2177-2198 (MR) *)
Definition d2Psi_inc (w : law) (p : par) (m : metric) : ten4 := fun i j k l =>
  match w with
  | MR =>
    let ij := (Nat.eqb i 2 && Nat.eqb j 2)%bool in
    let kl := (Nat.eqb k 2 || Nat.eqb l 2)%bool in
    if (ij && negb kl)%bool then c2 p / 2 * Gori m k l
    else if (negb ij && kl)%bool then c2 p / 2 * Gori m i j
    else if (ij && kl)%bool then 0
    else c2 p / 2 * J0 m * (dX4 (Gdefi m) i j k l + Gdefi m i j * Gdefi m k l)
  | _ => 0
  end.
(* gsMaterialMatrixNonlinear.hpp 1741-1748 *)
Definition S_inc_gen (w : law) (p : par) (m : metric) : mat := fun i j =>
  2 * dPsi_inc w p m i j - 2 * dPsi_inc w p m 2%nat 2%nat * / J0 m * Gdefi m i j.
(* gsMaterialMatrixNonlinear.hpp 1404-1413 *)
Definition C_inc_gen (w : law) (p : par) (m : metric) : ten4 := fun i j k l =>
  4 * d2Psi_inc w p m i j k l + 4 * d2Psi_inc w p m 2%nat 2%nat 2%nat 2%nat * / (J0 m * J0 m) * Gdefi m i j * Gdefi m k l
  - 4 / J0 m * (d2Psi_inc w p m 2%nat 2%nat i j * Gdefi m k l + d2Psi_inc w p m 2%nat 2%nat k l * Gdefi m i j)
  + 2 * dPsi_inc w p m 2%nat 2%nat / J0 m * X4 (Gdefi m) i j k l.

(* ---------------- compressible ---------------- *)
(* gsMaterialMatrixNonlinear.hpp 831-838 and repeated: the matrices c, cinv and m_J_sq for a given c33 *)
Definition cmat (m : metric) (c33 : R) : mat := fun i j =>
  match i, j with
  | 0%nat, 0%nat | 0%nat, 1%nat | 1%nat, 0%nat | 1%nat, 1%nat => Gdef m i j
  | 2%nat, 2%nat => c33
  | _, _ => 0
  end.
Definition cinvmat (m : metric) (c33 : R) : mat := fun i j =>
  match i, j with
  | 0%nat, 0%nat | 0%nat, 1%nat | 1%nat, 0%nat | 1%nat, 1%nat => Gdefi m i j
  | 2%nat, 2%nat => 1 / c33
  | _, _ => 0
  end.
Definition J_sq (m : metric) (c33 : R) : R := J0 m * c33.
Definition idelta (i j : nat) : R := 1 - delta i j.     (* gsMaterialMatrixNonlinear.h 1228-1236 *)

Definition I_1 (m : metric) (c33 : R) : R := traceCt m + c33.                 (* 1498 *)
Definition I_2 (m : metric) (c33 : R) : R := c33 * traceCt m + J0 m.          (* 1522 *)
(* gsMaterialMatrixNonlinear.hpp 2205-2208 *)
Definition dI_1 (m : metric) : mat := fun i j => Gori m i j.
(* gsMaterialMatrixNonlinear.hpp 2213-2220 *)
Definition dI_2 (m : metric) (c33 : R) : mat := fun i j =>
  idelta i 2 * idelta j 2 * (c33 * dI_1 m i j + J0 m * cinvmat m c33 i j) + delta i 2 * delta j 2 * traceCt m.
(* gsMaterialMatrixNonlinear.hpp 1523-1525, 2332-2334 *)
Definition d2I_2 (m : metric) (c33 : R) : ten4 := fun i j k l =>
  let ci := cinvmat m c33 in
    idelta i 2 * idelta j 2 * idelta k 2 * idelta l 2 * (J0 m * (ci i j * ci k l + dX4 ci i j k l))
  + delta i 2 * delta j 2 * idelta k 2 * idelta l 2 * dI_1 m k l
  + idelta i 2 * idelta j 2 * delta k 2 * delta l 2 * dI_1 m i j.

(* gsMaterialMatrixNonlinear.hpp 1760-1776 (NH), 1780-1803 (MR), 1807-1815 (NH_ext) *)
Definition S_comp (w : law) (p : par) (m : metric) (c33 : R) : mat := fun i j =>
  let J := J_sq m c33 in let ci := cinvmat m c33 in
  match w with
  | NH => mu p * Rpower J (- (1 / 3)) * (Gori m i j - 1 / 3 * I_1 m c33 * ci i j) + bulk p * (1 / 2) * (J - 1) * ci i j
  | MR => c1 p * Rpower J (- (1 / 3)) * (Gori m i j - 1 / 3 * I_1 m c33 * ci i j)
          + c2 p * Rpower J (- (2 / 3)) * (dI_2 m c33 i j - 2 / 3 * I_2 m c33 * ci i j)
          + bulk p * (1 / 2) * (J - 1) * ci i j
  | NHe => mu p * Gori m i j - mu p * ci i j + lam p / 2 * (J - 1) * ci i j
  end.
(* gsMaterialMatrixNonlinear.hpp 1480-1501 (NH), 1504-1536 (MR), 1539-1551 (NH_ext) *)
Definition C3D (w : law) (p : par) (m : metric) (c33 : R) : ten4 := fun i j k l =>
  let J := J_sq m c33 in let ci := cinvmat m c33 in let dCinv := dX4 ci i j k l in
  match w with
  | NH => 1 / 9 * mu p * Rpower J (- (1 / 3)) * (2 * I_1 m c33 * (ci i j * ci k l - 3 * dCinv)
             - 6 * (Gori m i j * ci k l + ci i j * Gori m k l))
          + bulk p * (J * ci i j * ci k l + (J - 1) * dCinv)
  | MR => 1 / 9 * c1 p * Rpower J (- (1 / 3)) * (2 * I_1 m c33 * ci i j * ci k l - 6 * I_1 m c33 * dCinv
             - 6 * dI_1 m i j * ci k l - 6 * ci i j * dI_1 m k l)
          + 1 / 9 * c2 p * Rpower J (- (2 / 3)) * (8 * I_2 m c33 * ci i j * ci k l - 12 * I_2 m c33 * dCinv
             - 12 * dI_2 m c33 i j * ci k l - 12 * ci i j * dI_2 m c33 k l + 18 * d2I_2 m c33 i j k l)
          + bulk p * (J * ci i j * ci k l + (J - 1) * dCinv)
  | NHe => - 2 * mu p * dCinv + lam p * (J * ci i j * ci k l + (J - 1) * dCinv)
  end.

(* Generalized: gsMaterialMatrixNonlinear.hpp 2279-2283 (vol), 2235-2245 (NH), 2249-2264 (MR), 2268-2273 (NH_ext) *)
Definition dPsi_vol (p : par) (m : metric) (c33 : R) : mat := fun i j =>
  bulk p * (1 / 4) * (J_sq m c33 - 1) * cinvmat m c33 i j.
Definition dPsi (w : law) (p : par) (m : metric) (c33 : R) : mat := fun i j =>
  let J := J_sq m c33 in let ci := cinvmat m c33 in
  match w with
  | NH => mu p / 2 * Rpower J (- (1 / 3)) * (- (1 / 3) * I_1 m c33 * ci i j + dI_1 m i j) + dPsi_vol p m c33 i j
  | MR => c1 p / 2 * Rpower J (- (1 / 3)) * (- (1 / 3) * I_1 m c33 * ci i j + dI_1 m i j)
          + c2 p / 2 * Rpower J (- (2 / 3)) * (- (2 / 3) * I_2 m c33 * ci i j + dI_2 m c33 i j) + dPsi_vol p m c33 i j
  | NHe => mu p / 2 * dI_1 m i j - mu p / 2 * ci i j + lam p / 4 * (J - 1) * ci i j
  end.
(* gsMaterialMatrixNonlinear.hpp 2357-2362 (vol), 2298-2314 (NH), 2317-2344 (MR), 2347-2354 (NH_ext) *)
Definition d2Psi_vol (p : par) (m : metric) (c33 : R) : ten4 := fun i j k l =>
  let ci := cinvmat m c33 in
  bulk p * (1 / 4) * (J_sq m c33 * ci i j * ci k l + (J_sq m c33 - 1) * dX4 ci i j k l).
Definition d2Psi (w : law) (p : par) (m : metric) (c33 : R) : ten4 := fun i j k l =>
  let J := J_sq m c33 in let ci := cinvmat m c33 in let dCinv := dX4 ci i j k l in
  match w with
  | NH => 1 / 9 * mu p / 2 * Rpower J (- (1 / 3)) * (I_1 m c33 * ci i j * ci k l - 3 * dI_1 m i j * ci k l
             - 3 * ci i j * dI_1 m k l - 3 * I_1 m c33 * dCinv) + d2Psi_vol p m c33 i j k l
  | MR => 1 / 9 * c1 p / 2 * Rpower J (- (1 / 3)) * (I_1 m c33 * ci i j * ci k l - 3 * dI_1 m i j * ci k l
             - 3 * ci i j * dI_1 m k l - 3 * I_1 m c33 * dCinv)
          + 1 / 9 * c2 p / 2 * Rpower J (- (2 / 3)) * (4 * I_2 m c33 * ci i j * ci k l - 6 * I_2 m c33 * dCinv
             - 6 * dI_2 m c33 i j * ci k l - 6 * ci i j * dI_2 m c33 k l + 9 * d2I_2 m c33 i j k l)
          + d2Psi_vol p m c33 i j k l
  | NHe => - mu p / 2 * dCinv + lam p / 4 * (J * ci i j * ci k l + (J - 1) * dCinv)
  end.
(* gsMaterialMatrixNonlinear.hpp 1836-1842, 1619-1626 *)
Definition S_comp_gen (w : law) (p : par) (m : metric) (c33 : R) : mat := fun i j => 2 * dPsi w p m c33 i j.
Definition C3D_gen (w : law) (p : par) (m : metric) (c33 : R) : ten4 := fun i j k l => 4 * d2Psi w p m c33 i j k l.

(* gsMaterialMatrixNonlinear.hpp 1456-1460: static condensation *)
Definition condense (C : ten4) : ten4 := fun i j k l =>
  C i j k l - (C i j 2%nat 2%nat * C 2%nat 2%nat k l) / C 2%nat 2%nat 2%nat 2%nat.

(* gsMaterialMatrixNonlinear.hpp 896-927 (incompressible), 793-848 (compressible, c33 given): the stress vector of one
   point; close is the result of gsAllCloseRelativeToMax(m_Gcon_ori,m_Gcon_def,1e-12) of the G+Smo core *)
Definition stress_out (close : bool) (S : mat) : vec := fun r =>
  if close then 0 else match r with 0%nat => S 0%nat 0%nat | 1%nat => S 1%nat 1%nat | _ => S 0%nat 1%nat end.

(* gsMaterialMatrixNonlinear.hpp 1045-1073: _eval3D_Compressible_CauchyStress of one point: the stresses are divided by
   detF in the local Smat, but the matrix result, which was only set to zero, is returned *)
Definition cauchy_comp (close : bool) (S : mat) (m : metric) (c33 : R) : vec :=
  let Smat := fun r => stress_out close S r / sqrt (J0 m * c33) in
  let result := fun _ : nat => 0 in result.
(* gsMaterialMatrixNonlinear.hpp 984-1005, 1007-1013: eval3D_detF of incompressible materials *)
Definition detF_inc : R := 1.

(* gsMaterialMatrixNonlinear.hpp 451-454 *)
Definition dgcon (X : mat) (i j k l : nat) : R := - (1 / 2) * (X i k * X j l + X i l * X j k).
(* gsMaterialMatrixNonlinear.hpp 458-477: dCijkl_dCmn of the incompressible neo-Hookean law *)
Definition dC_dC (p : par) (m : metric) (i j k l a b : nat) : R :=
  let X := Gdefi m in
  let XX := X4 X i j k l in
  let dX := 2 * (dgcon X i j a b * X k l + X i j * dgcon X k l a b)
          + dgcon X i k a b * X j l + X i k * dgcon X j l a b
          + dgcon X i l a b * X j k + X i l * dgcon X j k a b in
  mu p * (- 1 / J0 m * X a b * XX + 1 / J0 m * dX).
(* gsMaterialMatrixNonlinear.hpp 395-440 (dCijkl_impl): the 3x9 matrix flattened column by column to 27 entries; rows are the
   derivative directions 11, 22, 12, columns the entries of the 3x3 Voigt matrix in storage order *)
Definition vpair (r : nat) : nat * nat := match r with 0%nat => (0, 0)%nat | 1%nat => (1, 1)%nat | _ => (0, 1)%nat end.
Definition dmatrix_out (p : par) (m : metric) (r : nat) : R :=
  let q := Nat.div r 3 in let row := Nat.modulo r 3 in
  let (i, j) := vpair (Nat.div q 3) in let (k, l) := vpair (Nat.modulo q 3) in let (a, b) := vpair row in
  dC_dC p m i j k l a b.
(* gsMaterialMatrixNonlinear.hpp 1226-1233, 1266-1273 (incompressible), 2051-2056, 2102-2107 (compressible): the 3x3 Voigt matrix C of the tensor *)
Definition matrix_out (C : ten4) (a b : nat) : R :=
  match a, b with
  | 0%nat, 0%nat => C 0%nat 0%nat 0%nat 0%nat
  | 1%nat, 1%nat => C 1%nat 1%nat 1%nat 1%nat
  | 2%nat, 2%nat => C 0%nat 1%nat 0%nat 1%nat
  | 1%nat, 0%nat | 0%nat, 1%nat => C 0%nat 0%nat 1%nat 1%nat
  | 2%nat, 0%nat | 0%nat, 2%nat => C 0%nat 0%nat 0%nat 1%nat
  | _, _ => C 1%nat 1%nat 0%nat 1%nat
  end.
