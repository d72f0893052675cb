(* The directions in which tension-field theory looks for wrinkles (Lu, Accorsi and Leonard 2001): compression along n, stretch along m. *)
From Coq Require Import Reals.
From Verif Require Import Tensor TFTModel TFTSpec.
Open Scope R_scope.

Definition admissible (E N : vec) (th : R) : Prop :=
  0 < along (strain_tensor E) (tdir th) (tdir th) /\ along (stress_tensor N) (wdir th) (wdir th) < 0.
(* the stress has no shear in the coordinate directions, or equal normal stresses *)
Definition aligned (N : vec) : Prop := N 2%nat = 0 \/ N 0%nat = N 1%nat.
Definition within (x : R) (i : R * R) : Prop := fst i <= x <= snd i.
Definition inside (x : R) (i : R * R) : Prop := fst i < x < snd i.
