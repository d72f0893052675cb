(* Specification: in-plane states for which the plane-stress iteration is guaranteed to converge.  t is the trace of the in-plane
   right Cauchy-Green tensor, j its determinant. *)
From Coq Require Import Reals.
From Verif Require Import NonlinearModel.
Open Scope R_scope.

Definition wide (w : law) (t j : R) : Prop :=
  match w with
  | NH => 8 < 7 * (t * j)
  | MR => 8 < 7 * (t * j) /\ 5 * t < 16 * (j * j) /\ t * t <= 10 * j
  | NHe => / 2 < j
  end.
(* the four numbers 1, t/2, 1/j, 2j/t, all 1 without deformation, differ by at most one eighth *)
Definition moderate (t j : R) : Prop :=
  forall x y, (x = 1 \/ x = t / 2 \/ x = / j \/ x = 2 * j / t) -> (y = 1 \/ y = t / 2 \/ y = / j \/ y = 2 * j / t) -> 8 * x <= 9 * y.
