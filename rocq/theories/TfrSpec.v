(* What a membrane that cannot carry compression is: its energy is the least energy reached after an additional strain taken
   up by wrinkles, which is non-negative in every direction (relaxed energy). *)
From Coq Require Import Reals List.
From Coquelicot Require Import Coquelicot.
From Verif Require Import Tensor TFTSpec KinSpec KinModel.
Import ListNotations.
Open Scope R_scope.

Definition psd_strain (P : vec) : Prop := forall a, 0 <= along (strain_tensor P) (wdir a) (wdir a).
Definition psd_stress (S : vec) : Prop := forall a, 0 <= along (stress_tensor S) (wdir a) (wdir a).
Definition plus3 (E P : vec) : vec := fun i => E i + P i.
Definition minus3 (E P : vec) : vec := fun i => E i - P i.
(* strain energy of the inner material *)
Definition inner_energy (C : mat) (E : vec) : R := / 2 * sum3 (fun i => sum3 (fun j => E i * C i j * E j)).
Definition relaxed (C : mat) (E : vec) (w : R) : Prop :=
  (exists P, psd_strain P /\ inner_energy C (plus3 E P) = w) /\ (forall P, psd_strain P -> w <= inner_energy C (plus3 E P)).

(* the tension field value and angle describe the strain E: taut, slack, wrinkled *)
Inductive describes (C : mat) (E : vec) (tf th : R) : Prop :=
| is_taut : tf = 1 -> psd_stress (fun i => sum3 (fun j => C i j * E j)) -> describes C E tf th
| is_slack : tf = -1 -> psd_strain (fun i => - E i) -> describes C E tf th
| is_wrinkled : forall g s, tf = 0 -> wrinkled_state C E th g s -> describes C E tf th.

(* away from the transitions *)
Definition pos_stress (S : vec) : Prop := forall a, 0 < along (stress_tensor S) (wdir a) (wdir a).
Definition neg_strain (E : vec) : Prop := forall a, along (strain_tensor E) (wdir a) (wdir a) < 0.
