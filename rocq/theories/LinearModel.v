(* Model of gsMaterialMatrixLinear (src/gsMaterialMatrixLinear.hpp): St.Venant-Kirchhoff material. *)
From Coq Require Import Reals.
From Verif Require Import Tensor MetricModel.
Open Scope R_scope.

(* gsMaterialMatrixLinear.hpp 549-552: Lame parameters and plane-stress constant *)
Definition mu_of (E nu : R) : R := E / (2 * (1 + nu)).
Definition lambda_of (E nu : R) : R := E * nu / ((1 + nu) * (1 - 2 * nu)).
Definition Cconstant (E nu : R) : R :=
  2 * lambda_of E nu * mu_of E nu / (lambda_of E nu + 2 * mu_of E nu).

(* gsMaterialMatrixLinear.hpp 554; A is m_Acon_ori *)
Definition Cijkl (E nu : R) (A : mat) : ten4 := fun i j k l =>
  Cconstant E nu * A i j * A k l + mu_of E nu * (A i k * A j l + A i l * A j k).

Arguments Cijkl (E nu)%R A (i j k l)%nat.

(* gsMaterialMatrixLinear.hpp 538-555: with the guards (GISMO_ENSURE, always active).
   Division by zero for nu = -1 or nu = 1 is not an error in C++ (it yields inf/nan) and is outside the model. *)
Definition Cijkl_call (E nu : R) (A : mat) (i j k l : nat) : outcome R :=
  if (Nat.ltb i 2 && Nat.ltb j 2 && Nat.ltb k 2 && Nat.ltb l 2)%bool then
    if Req_EM_T (1 - 2 * nu) 0 then Throw else Ok (Cijkl E nu A i j k l)
  else Throw.

(* gsMaterialMatrixLinear.hpp 557-563: _Sij *)
Definition Sij (E nu : R) (A strain : mat) (i j : nat) : R :=
    Cijkl E nu A i j 0 0 * strain 0%nat 0%nat + Cijkl E nu A i j 0 1 * strain 0%nat 1%nat
  + Cijkl E nu A i j 1 0 * strain 1%nat 0%nat + Cijkl E nu A i j 1 1 * strain 1%nat 1%nat.

(* gsMaterialMatrixLinear.hpp 205-210 (eval3D_matrix): 3x3 Voigt matrix *)
Definition voigt (C : ten4) : mat := fun r c =>
  match r, c with
  | 0%nat, 0%nat => C 0%nat 0%nat 0%nat 0%nat
  | 1%nat, 1%nat => C 1%nat 1%nat 1%nat 1%nat
  | 2%nat, 2%nat => C 0%nat 1%nat 0%nat 1%nat
  | 1%nat, 0%nat | 0%nat, 1%nat => C 0%nat 0%nat 1%nat 1%nat
  | 2%nat, 0%nat | 0%nat, 2%nat => C 0%nat 0%nat 0%nat 1%nat
  | 2%nat, 1%nat | 1%nat, 2%nat => C 1%nat 1%nat 0%nat 1%nat
  | _, _ => 0
  end.

(* gsMaterialMatrixLinear.hpp 482-484 (eval3D_stress): Voigt stress (S11,S22,S12) *)
Definition Svoigt (E nu : R) (A strain : mat) : vec := fun i =>
  match i with
  | 0%nat => Sij E nu A strain 0 0
  | 1%nat => Sij E nu A strain 1 1
  | _     => Sij E nu A strain 0 1
  end.

(* The output classes of _E, gsMaterialMatrixLinear.hpp 594-626. *)
Inductive strain_kind := KMembrane | KBending | KGeneric.
Definition E_tensor (go gd : geo) (z : R) (k : strain_kind) : mat := fun i j =>
  match k with
  | KMembrane => / 2 * (Acov gd i j - Acov go i j)
  | KBending => Bcov go i j - Bcov gd i j
  | KGeneric => / 2 * (Gcov gd z i j - Gcov go z i j)
  end.

(* m_Acon_ori of the two element types: dim 3 (gsMaterialMatrixBaseDim.hpp 1225,1237) the inverse metric,
   dim 2 (1286,1297) the covariant one *)
Definition Cijkl_surface (E nu : R) (go : geo) : ten4 := Cijkl E nu (Acon go).
Definition Cijkl_planar (E nu : R) (go : geo2) : ten4 := Cijkl E nu (Acon2_member go).
