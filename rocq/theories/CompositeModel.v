(* Model of the laminate material gsMaterialMatrixComposite (src/gsMaterialMatrixComposite.hpp) and of the ply matrix
   constructors (src/getMaterialMatrix.h), at one surface point.  The layer functions (thickness, ply matrix, angle, density)
   enter by their values at the point. *)
From Coq Require Import Reals List.
From Verif Require Import Tensor MetricModel.
Import ListNotations.
Open Scope R_scope.

Record ply := mkPly { thick : R; Gply : mat; angle : R }.

(* gsMaterialMatrixComposite.hpp 331-351: _transformationMatrix *)
Definition transformationMatrix (phi : R) : mat := fun i j =>
  match i, j with
  | 0%nat, 0%nat | 1%nat, 1%nat => cos phi * cos phi
  | 0%nat, 1%nat | 1%nat, 0%nat => sin phi * sin phi
  | 0%nat, 2%nat => sin phi * cos phi
  | 1%nat, 2%nat => - (sin phi * cos phi)
  | 2%nat, 0%nat => - 2 * (sin phi * cos phi)
  | 2%nat, 1%nat => 2 * (sin phi * cos phi)
  | _, _ => cos phi * cos phi - sin phi * sin phi
  end.

(* gsMaterialMatrixComposite.hpp 252: Dmat = T^T G T *)
Definition rotatedG (G : mat) (phi : R) : mat :=
  mmul3 (mmul3 (mtr (transformationMatrix phi)) G) (transformationMatrix phi).
Definition plyD (p : ply) : mat := rotatedG (Gply p) (angle p).

(* the four matrix outputs; every other MaterialOutput runs into GISMO_ERROR (line 265) *)
Inductive mout := MA | MB | MC | MD.

(* gsMaterialMatrixComposite.hpp 235-238: t_tot *)
Fixpoint t_tot (l : list ply) : R := match l with [] => 0 | p :: l' => thick p + t_tot l' end.

(* gsMaterialMatrixComposite.hpp 258-264: weight of a ply *)
Definition weight (out : mout) (t dz : R) : R :=
  match out with MA => t | MB | MC => t * dz | MD => t * (dz * dz) + t * t * t / 12 end.

(* gsMaterialMatrixComposite.hpp 246-267: loop over the layers with running thickness t_temp *)
Fixpoint layer_loop (out : mout) (z_mid t_temp : R) (l : list ply) (C : mat) : mat :=
  match l with
  | [] => C
  | p :: l' =>
      let dz := z_mid - (thick p / 2 + t_temp) in
      layer_loop out z_mid (t_temp + thick p) l' (madd C (mscal (weight out (thick p) dz) (plyD p)))
  end.

(* gsMaterialMatrixComposite.hpp 230-268: the laminate matrix in local Cartesian axes *)
Definition laminate (out : mout) (l : list ply) : mat := layer_loop out (t_tot l / 2) 0 l mzero.

(* gsMaterialMatrixComposite.hpp 354-373: the matrix of _cart2cov before its inversion (line 371) *)
Definition cart2cov_pre (a1 a2 e1 e2 : vec) : mat := fun i j =>
  match i, j with
  | 0%nat, 0%nat => dot3 e1 a1 * dot3 a1 e1
  | 0%nat, 1%nat => dot3 e1 a2 * dot3 a2 e2
  | 0%nat, 2%nat => 2 * dot3 e1 a1 * dot3 a2 e1
  | 1%nat, 0%nat => dot3 e2 a1 * dot3 a1 e2
  | 1%nat, 1%nat => dot3 e2 a2 * dot3 a2 e2
  | 1%nat, 2%nat => 2 * dot3 e2 a1 * dot3 a2 e2
  | 2%nat, 0%nat => dot3 e1 a1 * dot3 a1 e2
  | 2%nat, 1%nat => dot3 e1 a2 * dot3 a2 e2
  | _, _ => dot3 e1 a1 * dot3 a2 e2 + dot3 e1 a2 * dot3 a1 e2
  end.
Definition cart2cov (a1 a2 e1 e2 : vec) : mat := inv3 (cart2cov_pre a1 a2 e1 e2).
(* gsMaterialMatrixComposite.hpp 376-395: _con2cart has the same entries and is not inverted *)
Definition con2cart (ac1 ac2 e1 e2 : vec) : mat := cart2cov_pre ac1 ac2 e1 e2.

(* gsMaterialMatrixComposite.hpp 271-279: conversion to the shell basis at height 0 *)
Definition e1_of (g : geo) : vec := normalize (gcov g 0 0).
Definition e2_of (g : geo) : vec := normalize (gcon g 0 1).
Definition eval3D_matrix (out : mout) (l : list ply) (g : geo) : mat :=
  mmul3 (mmul3 (cart2cov (gcov g 0 0) (gcov g 0 1) (e1_of g) (e2_of g)) (laminate out l))
        (con2cart (gcon g 0 0) (gcon g 0 1) (e1_of g) (e2_of g)).

(* gsMaterialMatrixComposite.hpp 286-327: stress resultants; VectorN uses MatrixA and the membrane strain, VectorM uses
   MatrixD and the curvature change, any other output throws (line 302) *)
Inductive vout := VN | VM | VOther.
Definition voigtE (X : mat) : vec := fun r =>
  match r with 0%nat => X 0%nat 0%nat | 1%nat => X 1%nat 1%nat | _ => X 0%nat 1%nat + X 1%nat 0%nat end.
Definition eval3D_vector (out : vout) (l : list ply) (go gd : geo) : outcome vec :=
  match out with
  | VN => Ok (mvec3 (eval3D_matrix MA l go) (voigtE (fun i j => / 2 * (Acov gd i j - Acov go i j))))
  | VM => Ok (mvec3 (eval3D_matrix MD l go) (voigtE (fun i j => Bcov go i j - Bcov gd i j)))
  | VOther => Throw
  end.

(* gsMaterialMatrixComposite.hpp 141-168: density_into.  None for the densities models the constructor without rho
   (lines 69-95), which leaves m_Rs a vector of null pointers of length nLayers *)
Fixpoint density_sum (l : list ply) (rho : list R) : R :=
  match l, rho with p :: l', r :: rho' => thick p * r + density_sum l' rho' | _, _ => 0 end.
Definition density_into (l : list ply) (rho : option (list R)) : outcome R :=
  match rho with
  | Some r => Ok (density_sum l r)
  | None => match l with [] => Ok 0 | _ => UB end
  end.

(* getMaterialMatrix.h 30-51: gsCompositeMatrix (the GISMO_ASSERT is active in debug builds only) *)
Definition gsCompositeMatrix (Exx Eyy Gxy nuxy nuyx : R) : mat := fun i j =>
  match i, j with
  | 0%nat, 0%nat => Exx / (1 - nuxy * nuyx)
  | 1%nat, 1%nat => Eyy / (1 - nuxy * nuyx)
  | 2%nat, 2%nat => Gxy
  | 0%nat, 1%nat => nuyx * Exx / (1 - nuxy * nuyx)
  | 1%nat, 0%nat => nuxy * Eyy / (1 - nuxy * nuyx)
  | _, _ => 0
  end.
(* getMaterialMatrix.h 53-77: gsCompositeMatrixRaw, nine arguments *)
Definition gsCompositeMatrixRaw9 (G11 G22 G33 G12 G13 G23 G21 G31 G32 : R) : mat := fun i j =>
  match i, j with
  | 0%nat, 0%nat => G11 | 1%nat, 1%nat => G22 | 2%nat, 2%nat => G33
  | 1%nat, 0%nat => G12 | 0%nat, 1%nat => G21
  | 0%nat, 2%nat => G13 | 2%nat, 0%nat => G31
  | 1%nat, 2%nat => G23 | 2%nat, 1%nat => G32
  | _, _ => 0
  end.
(* getMaterialMatrix.h 79-97: gsCompositeMatrixRaw, six arguments *)
Definition gsCompositeMatrixRaw6 (G11 G22 G33 G12 G13 G23 : R) : mat := fun i j =>
  match i, j with
  | 0%nat, 0%nat => G11 | 1%nat, 1%nat => G22 | 2%nat, 2%nat => G33
  | 1%nat, 0%nat | 0%nat, 1%nat => G12
  | 0%nat, 2%nat | 2%nat, 0%nat => G13
  | 1%nat, 2%nat | 2%nat, 1%nat => G23
  | _, _ => 0
  end.
