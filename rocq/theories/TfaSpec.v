(* Accuracy of a tension-field stress whose angle solves the wrinkling equation only approximately. *)
From Coq Require Import Reals List.
From Verif Require Import Tensor TFTSpec TfrSpec.
Open Scope R_scope.

(* parts of a stress in the wrinkle frame: shear between n and m, tension along m *)
Definition shear_of (S : vec) (th : R) : R := along (stress_tensor S) (wdir th) (tdir th).
Definition tension_of (S : vec) (th : R) : R := along (stress_tensor S) (tdir th) (tdir th).
(* the stiffness is at least lam in every strain direction (Frobenius norm of the strain tensor) *)
Definition stiff (lam : R) (C : mat) : Prop :=
  forall v : vec, lam * (v 0%nat * v 0%nat + v 1%nat * v 1%nat + v 2%nat * v 2%nat / 2) <= sum3 (fun i => sum3 (fun j => v i * C i j * v j)).
(* residual measure, and the bound in terms of it and of the reported amount of wrinkling *)
Definition misfit (S : vec) (th : R) : R := shear_of S th * shear_of S th / tension_of S th.
Definition error_bound (lam : R) (S : vec) (th g : R) : R := misfit S th * (g + misfit S th / (2 * lam)).
