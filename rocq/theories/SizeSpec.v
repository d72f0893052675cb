(* What a caller of an evaluator relies on (gsFunction: eval_into returns targetDim() rows and one column per point; evaluators with
   several heights return one column per point and height). *)
From Coq Require Import Arith.
From Verif Require Import Tensor SizeModel.

(* quantities that do not depend on the height *)
Definition flat_output (o : out) : bool := match o with Density | Thickness | Parameters => true | _ => false end.
Definition columns (o : out) (n m : nat) : nat := if flat_output o then n else n * m.
(* the result r of evaluating output o at n points and m heights has the declared size *)
Definition conforms (o : out) (npars n m : nat) (r : outcome (nat * nat)) : Prop := r = Ok (targetDim o npars, columns o n m).

(* groups of outputs *)
Definition transform (o : out) : bool :=
  match o with Spec2Cov | Spec2Con | Cov2Cart | Con2Cart | StretchTransform | PStressTransform => true | _ => false end.
Definition wrinkling (o : out) : bool := match o with Theta | Gamma => true | _ => false end.
Definition principal_strain (o : out) : bool := match o with PStrainN | PStrainM => true | _ => false end.
Definition stiffness (o : out) : bool := match o with MatrixA | MatrixB | MatrixC | MatrixD => true | _ => false end.
Definition resultant (o : out) : bool := match o with VectorN | VectorM => true | _ => false end.
Definition cauchy_resultant (o : out) : bool := match o with CauchyVectorN | CauchyVectorM => true | _ => false end.
(* outputs computed from the kinematics alone *)
Definition kinematic (o : out) : bool := match o with Stretch | StretchDir | Strain | StrainN | StrainM | Deformation => true | _ => false end.
(* single-layer materials, and tension-field materials built on them *)
Definition plain (c : cls) : Prop := c = CLinear \/ c = CHyper.
Inductive tension_field_on_plain : cls -> Prop := TF_base : forall c, plain c -> tension_field_on_plain (CTFT c).
