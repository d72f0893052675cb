(* Model of the through-thickness integration (src/gsMaterialMatrixIntegrate.h/.hpp).
   All functions act component-wise and point-wise, so they are modelled for one component at one point.
   f : R -> R is the component of the material output as a function of the normalised height z in [-1/2,1/2]
   (the z matrix passed to eval3D), t is the thickness Tmat(0,k) at that point. *)
From Coq Require Import Reals List.
From Verif Require Import Tensor MetricModel LinearModel.
Import ListNotations.
Open Scope R_scope.

(* MaterialOutput values that have a moment (gsMaterialMatrixIntegrate.h 233-260) and one representing the rest *)
Inductive mout := VectorN | VectorM | CauchyVectorN | CauchyVectorM | PStressN | PStressM
  | MatrixA | MatrixB | MatrixC | MatrixD | PStrainN | PStrainM.

(* gsMaterialMatrixUtils.h: enum MatIntegration *)
Inductive mint := NotIntegrated | Integrated | Constant | Linear.

(* gsMaterialMatrixIntegrate.h 231-269: getMoment; PStrainN/PStrainM fall into the GISMO_NO_IMPLEMENTATION overload *)
Definition getMoment (o : mout) : outcome nat :=
  match o with
  | VectorN | PStressN | CauchyVectorN | MatrixA => Ok 0%nat
  | VectorM | PStressM | CauchyVectorM | MatrixB | MatrixC => Ok 1%nat
  | MatrixD => Ok 2%nat
  | PStrainN | PStrainM => Throw
  end.

(* gsMaterialMatrixIntegrate.hpp 366-392 *)
Definition multiplyZ (t : R) (moment : nat) (f : R -> R) : R :=
  if Nat.odd moment then 0
  else f 0 * (2 / (INR moment + 1) * (t / 2) ^ (moment + 1)).

(* gsMaterialMatrixIntegrate.hpp 332-363 *)
Definition multiplyLinZ (t : R) (moment : nat) (f : R -> R) : R :=
  let fac := if Nat.even moment then 0 else 1 in
  let z0 := 1 / 2 in let z1 := - (1 / 2) in
  1 / (INR moment + fac + 1) * ((z0 * t) ^ (moment + 1) * f z0 - (z1 * t) ^ (moment + 1) * f z1).

(* gsMaterialMatrixIntegrate.hpp 279-326; the quadrature rule on [-1/2,1/2] (gsGaussRule::mapTo) is an argument:
   a list of (weight,node) *)
Definition rule := list (R * R).
Fixpoint integrateZ (q : rule) (t : R) (moment : nat) (f : R -> R) : R :=
  match q with
  | [] => 0
  | (w, z) :: q' => w * (z * t) ^ moment * f z * t + integrateZ q' t moment f
  end.

Definition is_vector (o : mout) : bool :=
  match o with VectorN | VectorM | CauchyVectorN | CauchyVectorM => true | _ => false end.

(* gsMaterialMatrixIntegrate.hpp 179-262: eval_into_impl.  sv / sm are isVecIntegrated() / isMatIntegrated() *)
Definition eval_into (sv sm : mint) (o : mout) (q : rule) (t : R) (f : R -> R) : outcome R :=
  let bind (k : nat -> R) := match getMoment o with Ok m => Ok (k m) | Throw => Throw | UB => UB end in
  match (if is_vector o then sv else sm) with
  | NotIntegrated => bind (fun m => integrateZ q t m f)
  | Integrated => Ok (f 0)
  | Constant =>
      match o with
      | VectorN | CauchyVectorN => Ok (multiplyZ t 0 f)
      | VectorM | CauchyVectorM => Ok (multiplyZ t 2 f)
      | _ => bind (fun m => multiplyZ t m f)
      end
  | Linear => bind (fun m => multiplyLinZ t m f)
  end.

(* gsMaterialMatrixLinear.hpp 594-626: which strain an output of the linear material uses *)
Definition kind_of (o : mout) : strain_kind :=
  match o with
  | VectorN | CauchyVectorN | PStressN | PStrainN => KMembrane
  | VectorM | CauchyVectorM | PStressM | PStrainM => KBending
  | _ => KGeneric
  end.

(* gsMaterialMatrixLinear.hpp 306-308, 461-490: component r of the vector output at normalised height z *)
Definition linear_vector (E nu : R) (go gd : geo) (t : R) (o : mout) (r : nat) : R -> R := fun z =>
  Svoigt E nu (Acon go) (E_tensor go gd (z * t) (kind_of o)) r.

(* gsMaterialMatrixLinear.hpp 178-215: entry (r,c) of the matrix output; does not depend on the height *)
Definition linear_matrix (E nu : R) (go : geo) (r c : nat) : R -> R := fun _ =>
  voigt (Cijkl_surface E nu go) r c.

(* gsMaterialMatrixLinear.h 169,172: both Constant *)
Definition linear_resultant (E nu : R) (go gd : geo) (o : mout) (q : rule) (t : R) (r : nat) : outcome R :=
  eval_into Constant Constant o q t (linear_vector E nu go gd t o r).
Definition linear_resultant_matrix (E nu : R) (go : geo) (o : mout) (q : rule) (t : R) (r c : nat) : outcome R :=
  eval_into Constant Constant o q t (linear_matrix E nu go r c).

(* gsMaterialMatrixTFT.hpp 155-200 for a point classified as taut (1) or slack (-1) at both evaluation heights, linear inner
   material: stress of the inner VectorN output, whatever output was requested; mult is 1 or SlackMultiplier.
   gsMaterialMatrixTFT.h 113-122: both integration kinds are Linear. *)
Definition tft_resultant (E nu : R) (go gd : geo) (mult : R) (o : mout) (q : rule) (t : R) (r : nat) : outcome R :=
  eval_into Linear Linear o q t (fun z => mult * linear_vector E nu go gd t VectorN r z).
(* gsMaterialMatrixTFT.hpp 369-410 likewise *)
Definition tft_resultant_matrix (E nu : R) (go : geo) (mult : R) (o : mout) (q : rule) (t : R) (r c : nat) : outcome R :=
  eval_into Linear Linear o q t (fun z => mult * linear_matrix E nu go r c z).
