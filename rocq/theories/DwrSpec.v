(* Specification for the dual-weighted-residual assembler. *)
From Coq Require Import Reals List.
From Coquelicot Require Import Coquelicot.
From Verif Require Import Tensor PrincipalModel KinModel KinSpec KinAsm DwrModel.
Import ListNotations.
Open Scope R_scope.

(* b is the gradient of the functional Jf (as a function of the time of a path leaving in the direction with coefficients y) *)
Definition gradient_along (n : nat) (Jf : R -> R) (b : nat -> nat -> R) (y : coefs) : Prop :=
  is_derive Jf 0 (rsum n (fun i => sum3 (fun d => b i d * y i d))).

(* a differentiable family of deformed configurations: at every point it starts at def p and leaves with the field of coefficients y *)
Definition leaves (n : nat) (y : coefs) (p : gpoint) (path : R -> jet) (def : jet) : Prop :=
  path 0 = def /\
  is_dvec (fun t => j0 (path t)) 0 (j0 (fieldjet n (gbas p) y)) /\ is_dvec (fun t => j1 (path t)) 0 (j1 (fieldjet n (gbas p) y)) /\
  is_dvec (fun t => j2 (path t)) 0 (j2 (fieldjet n (gbas p) y)) /\
  (forall a, is_dvec (fun t => jsec (path t) a) 0 (jsec (fieldjet n (gbas p) y) a)).

Definition mzero : mat := fun _ _ => 0.
(* the tangents of a law are the derivatives of its stresses, with the symmetry of a stored energy *)
Definition stress_contract (g : goal) (l : law) : Prop :=
  match g with
  | GMembraneStress => has_tangents (lS0 l) (lA0 l) (fun _ _ => mzero) /\ (forall e f, symm3 (lA0 l e f))
  | GMembraneForce => exists C, has_tangents (lN l) (lA l) C /\ (forall e f, symm3 (lA l e f)) /\ (forall e f, transp3 (lB l e f) (C e f))
  | GFlexuralStress => has_tangents (lS1 l) (fun _ _ => mzero) (lD0 l) /\ (forall e f, symm3 (lD0 l e f))
  | GFlexuralMoment => exists B, has_tangents (lM l) B (lD l) /\ (forall e f, symm3 (lD l e f)) /\ (forall e f, transp3 (lC l e f) (B e f))
  | _ => False
  end.
(* matrix of covariant components of the metric; matrix of a Voigt stress (11,22,12) *)
Definition met (c : jet) : mat := fun k l => dot3 (jcol c k) (jcol c l).
Definition smat (S : vec) : mat := fun k l =>
  match k, l with 0%nat, 0%nat => S 0%nat | 1%nat, 1%nat => S 1%nat | 0%nat, 1%nat | 1%nat, 0%nat => S 2%nat | _, _ => 0 end.

(* h is the dual basis of the tangents of c (in their plane) *)
Definition dual_basis (c : jet) (h : nat -> vec) : Prop :=
  (forall k l, (k < 2)%nat -> (l < 2)%nat -> dot3 (h k) (jcol c l) = delta k l) /\
  (forall k, (k < 2)%nat -> dot3 (h k) (cross3 (j1 c) (j2 c)) = 0).
(* a differentiable pair of orthonormal directions in the tangent plane of ori *)
Definition frame_path (ori : jet) (fr : R -> nat -> vec) : Prop :=
  (forall t r, (r < 2)%nat -> dot3 (fr t r) (fr t r) = 1) /\
  (forall t, dot3 (fr t 0%nat) (fr t 1%nat) = 0) /\
  (forall t r, (r < 2)%nat -> dot3 (fr t r) (cross3 (j1 ori) (j2 ori)) = 0) /\
  (exists dfr, forall r, (r < 2)%nat -> is_dvec (fun t => fr t r) 0 (dfr r)).
(* the two directions are eigenvectors of the tensor with components X on the basis g *)
Definition eigen_pair (X : mat) (g : nat -> vec) (fr : nat -> vec) (mu : nat -> R) : Prop :=
  forall r a, (r < 2)%nat -> (a < 3)%nat -> mvec3 (Bten X g) (fr r) a = mu r * fr r a.
(* the undeformed tangents are orthonormal *)
Definition orthonormal (c : jet) : Prop :=
  dot3 (j1 c) (j1 c) = 1 /\ dot3 (j2 c) (j2 c) = 1 /\ dot3 (j1 c) (j2 c) = 0.

(* What is asked of the spectral data of one point along a path, for the principal goals.  fr t are the principal directions
   (eigenvectors, at time 0, of the stretch tensor with components of the metric on the dual basis; of the stress tensor for PStress);
   the transformation matrices are those of gsMaterialMatrixBaseDim (eval3D_spec2con, eval3D_spec2cov: both use the covariant basis). *)
Definition principal_contract (g : goal) (p : gpoint) (path : R -> jet) (def : jet) : Prop :=
  exists fr mu, frame_path (gori p) fr /\
  match g with
  | GStretch | GPStrain =>
      orthonormal (gori p) /\ (exists h, dual_basis (gori p) h /\ eigen_pair (met def) h (fr 0) mu) /\
      (forall t, lT (glaw p) (path t) = transformation (jcol (gori p)) (fr t))
  | GPStress =>
      stress_contract GMembraneStress (glaw p) /\
      eigen_pair (smat (lS0 (glaw p) (Em (gori p) def) (Ef (gori p) def))) (jcol (gori p)) (fr 0) mu /\
      lTp (glaw p) def = transformation (jcol (gori p)) (fr 0) /\
      (forall t r, (r < 2)%nat -> lP (glaw p) (path t) r =
         dot3 (fr t r) (mvec3 (Bten (smat (lS0 (glaw p) (Em (gori p) (path t)) (Ef (gori p) (path t)))) (jcol (gori p))) (fr t r)))
  | _ => False
  end.
