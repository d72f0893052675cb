(* Model of the metric computations of gsMaterialMatrixBaseDim (src/gsMaterialMatrixBaseDim.hpp). *)
From Coq Require Import Reals.
From Verif Require Import Tensor.
Open Scope R_scope.

(* What the geometry map delivers at one point of a surface in R^3: the columns of the jacobian
   (tangents), the rows of deriv2 (row 0: d11, row 1: d22, row 2: d12).
   Simplification: map.normals is taken to be the cross product of the tangents (G+Smo's
   computeMap for 2D -> 3D maps), before normalisation. *)
Record geo := mkGeo { tang : nat -> vec; der2 : nat -> vec }.

(* gsMaterialMatrixBaseDim.hpp 435-437, 553-555 (normals.colwise().normalize()) *)
Definition normal (g : geo) : vec := normalize (cross3 (tang g 0) (tang g 1)).

(* gsMaterialMatrixBaseDim.hpp 449-451 / 567-569: Acov = acov^T acov *)
Definition Acov (g : geo) : mat := fun i j => dot3 (tang g i) (tang g j).

(* gsMaterialMatrixBaseDim.hpp 452 / 570 *)
Definition Acon (g : geo) : mat := inv2 (Acov g).

(* gsMaterialMatrixBaseDim.hpp 455-460 / 573-578 *)
Definition Bcov (g : geo) : mat := fun i j =>
  match i, j with
  | 0%nat, 0%nat => dot3 (der2 g 0) (normal g)
  | 1%nat, 1%nat => dot3 (der2 g 1) (normal g)
  | _, _         => dot3 (der2 g 2) (normal g)
  end.

(* gsMaterialMatrixBaseDim.hpp 463-464 / 581-582: acon.col(i) *)
Definition acon (g : geo) (i : nat) : vec := fun c =>
  Acon g i 0%nat * tang g 0%nat c + Acon g i 1%nat * tang g 1%nat c.

(* gsMaterialMatrixBaseDim.hpp 467-469 / 585-587 *)
Definition mixedB (g : geo) : mat := fun i j =>
  Acon g i 0%nat * Bcov g 0%nat j + Acon g i 1%nat * Bcov g 1%nat j.

(* gsMaterialMatrixBaseDim.hpp 471-472 / 589-590: ncov.col(i) *)
Definition ncov (g : geo) (i : nat) : vec := fun c =>
  - mixedB g 0%nat i * tang g 0%nat c - mixedB g 1%nat i * tang g 1%nat c.

(* gsMaterialMatrixBaseDim.hpp 1099-1101 / 1230-1232 (dim 3): full metric at height z *)
Definition Gcov (g : geo) (z : R) : mat := fun i j =>
  match i, j with
  | 0%nat, 0%nat | 0%nat, 1%nat | 1%nat, 0%nat | 1%nat, 1%nat =>
      Acov g i j - 2 * z * Bcov g i j + z * z * dot3 (ncov g i) (ncov g j)
  | 2%nat, 2%nat => 1
  | _, _ => 0
  end.

(* gsMaterialMatrixBaseDim.hpp 1102 / 1233 *)
Definition Gcon (g : geo) (z : R) : mat := inv3 (Gcov g z).

(* gsMaterialMatrixBaseDim.hpp 1118-1120 / 1249-1251: gcov.col(i) *)
Definition gcov (g : geo) (z : R) (i : nat) : vec :=
  match i with
  | 0%nat | 1%nat => fun c => tang g i c + z * ncov g i c
  | _ => normal g
  end.

(* gsMaterialMatrixBaseDim.hpp 1123-1124 / 1254-1255: gcon.col(c) *)
Definition gcon (g : geo) (z : R) (c : nat) : vec := fun k =>
  Gcon g z c 0%nat * gcov g z 0%nat k + Gcon g z c 1%nat * gcov g z 1%nat k
  + Gcon g z c 2%nat * gcov g z 2%nat k.

(* gsMaterialMatrixBaseDim.hpp 1020-1039: m_J0_sq.  The case of a vanishing undeformed determinant with
   a non-vanishing deformed one divides by zero in C++; it is reported as UB here. NaN does not
   exist in exact arithmetic. *)
Definition J0_sq (go gd : geo) (z : R) : outcome R :=
  let det_ori := det3 (Gcov go z) in
  let det_def := det3 (Gcov gd z) in
  if Req_EM_T det_ori 0 then
    (if Req_EM_T det_def 0 then Ok 1 else UB)
  else
    if Rle_dec 0 (det_def / det_ori) then Ok (det_def / det_ori) else Throw.

(* gsMaterialMatrixBaseDim.hpp 283-288 (eval3D_strain): Voigt strain (E11,E22,E12+E21) at height z *)
Definition strainV (go gd : geo) (z : R) : vec := fun i =>
  let E := fun a b => / 2 * (Gcov gd z a b - Gcov go z a b) in
  match i with
  | 0%nat => E 0%nat 0%nat
  | 1%nat => E 1%nat 1%nat
  | _ => E 0%nat 1%nat + E 1%nat 0%nat
  end.

(* ------- planar elements (dim = 2) ------- *)
(* jacobian columns of a planar map; the third component of the vectors is zero *)
Record geo2 := mkGeo2 { tang2 : nat -> nat -> R }.
(* gsMaterialMatrixBaseDim.hpp 509-511 / 626-628 *)
Definition Acov2 (g : geo2) : mat := fun i j => sum2 (fun c => tang2 g i c * tang2 g j c).
(* gsMaterialMatrixBaseDim.hpp 1156-1157 / 1285-1286: the local Acon is read from m_Acov_*_mat
   and stored in m_Acon_*: for planar elements the "contravariant" mid-surface metric is the covariant one *)
Definition Acon2_member (g : geo2) : mat := Acov2 g.
(* gsMaterialMatrixBaseDim.hpp 1159-1163 / 1288-1292 *)
Definition Gcov2 (g : geo2) : mat := fun i j =>
  match i, j with
  | 0%nat, 0%nat | 0%nat, 1%nat | 1%nat, 0%nat | 1%nat, 1%nat => Acov2 g i j
  | 2%nat, 2%nat => 1
  | _, _ => 0
  end.
Definition Gcon2 (g : geo2) : mat := inv3 (Gcov2 g).
