(* Independent specification: Newton iterates of a scalar equation. *)
From Coq Require Import Reals.
Open Scope R_scope.

(* iterates x, x - f(x)/f'(x), ... *)
Fixpoint newton (f df : R -> R) (x : R) (n : nat) : R :=
  match n with 0%nat => x | S k => let y := newton f df x k in y - f y / df y end.
(* strict sign change at the root r on the positive half line *)
Definition crosses (f : R -> R) (r : R) : Prop :=
  0 < r /\ f r = 0 /\ (forall c, 0 < c < r -> f c < 0) /\ (forall c, r < c -> 0 < f c).
