(* Specification for penalty factors: plane-stress modulus and the angle between the parameter lines. *)
From Coq Require Import Reals.
From Verif Require Import Tensor KinModel.
Open Scope R_scope.

Definition plane_modulus (E nu : R) : R := E / (1 - nu * nu).
Definition gram (c : jet) (i j : nat) : R := let t i := match i with 0%nat => j1 c | _ => j2 c end in dot3 (t i) (t j).
(* squared sine of the angle between the parameter lines *)
Definition sin2 (c : jet) : R := 1 - gram c 0 1 * gram c 0 1 / (gram c 0 0 * gram c 1 1).
(* two parametrisations of one surface around a point: c' = c after the linear change P of the parameters (tangents only) *)
Definition reparametrised (c c' : jet) (P : mat) : Prop :=
  det2 P <> 0 /\ forall k, (k < 3)%nat -> j1 c' k = P 0%nat 0%nat * j1 c k + P 1%nat 0%nat * j2 c k /\
                                          j2 c' k = P 0%nat 1%nat * j1 c k + P 1%nat 1%nat * j2 c k.
