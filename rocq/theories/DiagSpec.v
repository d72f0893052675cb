(* What the post-processing queries are meant to measure. *)
From Coq Require Import Reals List.
From Verif Require Import Tensor KinModel KinAsm.
Import ListNotations.
Open Scope R_scope.

(* image of a surface under x |-> Q x + t *)
Definition isometric (Q : mat) : Prop := forall i j, (i < 3)%nat -> (j < 3)%nat -> sum3 (fun k => Q k i * Q k j) = delta i j.
Definition jmap (Q : mat) (t : vec) (c : jet) : jet :=
  mkjet (vadd (mvec3 Q (j0 c)) t) (mvec3 Q (j1 c)) (mvec3 Q (j2 c)) (mvec3 Q (j11 c)) (mvec3 Q (j22 c)) (mvec3 Q (j12 c)).

(* The same surface point seen through another parametrisation: P b a = d(old b)/d(new a), S b r the second derivatives
   of the change of variables (r = 0,1,2 for 11, 22, 12): the second-order chain rule. *)
Definition lin2 (x y : R) (a b : vec) : vec := vadd (vscal x a) (vscal y b).
Definition quad2 (P : mat) (a b : nat) (c : jet) : vec := fun i =>
  P 0%nat a * P 0%nat b * j11 c i + (P 0%nat a * P 1%nat b + P 1%nat a * P 0%nat b) * j12 c i + P 1%nat a * P 1%nat b * j22 c i.
Definition reparam (P S : mat) (c : jet) : jet :=
  mkjet (j0 c)
        (lin2 (P 0%nat 0%nat) (P 1%nat 0%nat) (j1 c) (j2 c))
        (lin2 (P 0%nat 1%nat) (P 1%nat 1%nat) (j1 c) (j2 c))
        (vadd (quad2 P 0 0 c) (lin2 (S 0%nat 0%nat) (S 1%nat 0%nat) (j1 c) (j2 c)))
        (vadd (quad2 P 1 1 c) (lin2 (S 0%nat 1%nat) (S 1%nat 1%nat) (j1 c) (j2 c)))
        (vadd (quad2 P 0 1 c) (lin2 (S 0%nat 2%nat) (S 1%nat 2%nat) (j1 c) (j2 c))).

(* same value and same derivatives as functions into R^3 *)
Definition same3 (u v : vec) : Prop := forall i, (i < 3)%nat -> u i = v i.

(* root mean square of a length over a surface *)
Definition is_rms (l : list (R * R)) (r : R) : Prop :=   (* (surface weight, squared length) *)
  0 <= r /\ r * r * psum l fst = psum l (fun p => fst p * snd p).
