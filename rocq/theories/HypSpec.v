(* What the linearisation of a hyperelastic shell should be. *)
From Coq Require Import Reals List.
From Coquelicot Require Import Coquelicot.
From Verif Require Import Tensor IntegrateModel NonlinearSpec KinModel KinSpec.
Import ListNotations.
Open Scope R_scope.

(* fundamental forms of a surface jet *)
Definition form1 (c : jet) : mat := fun i j => dot3 (jcol c i) (jcol c j).
Definition form2 (c : jet) : mat := fun i j => match i, j with 0%nat, 0%nat => curvature c 0 | 1%nat, 1%nat => curvature c 1 | _, _ => curvature c 2 end.
(* third fundamental form: b a^-1 b *)
Definition form3 (c : jet) : mat := fun i j => sum2 (fun k => sum2 (fun l => form2 c i k * inv2 (form1 c) k l * form2 c l j)).
(* as a Voigt strain (shear doubled) *)
Definition third (c : jet) : vec := fun a =>
  match a with 0%nat => form3 c 0%nat 0%nat | 1%nat => form3 c 1%nat 1%nat | _ => 2 * form3 c 0%nat 1%nat end.

(* metric at height h *)
Definition form_at (c : jet) (h : R) : mat := fun i j => form1 c i j - 2 * h * form2 c i j + h * h * form3 c i j.
(* at every height of the rule the tangent vectors of both configurations are independent and oriented consistently (no focal point) *)
Definition heights_ok (q : rule) (t : R) (ori def : jet) : Prop :=
  forall w z, In (w, z) q -> 0 < det2 (form_at ori (z * t)) /\ 0 < det2 (form_at def (z * t)).

(* the surface is flat to second order at the point *)
Definition is_flat (c : jet) : Prop := forall a, (a < 3)%nat -> curvature c a = 0.

(* sum over the thickness of weight * h^m * f(h) *)
Definition zsum (q : rule) (t : R) (m : nat) (f : R -> R) : R :=
  fold_right (fun wz s => fst wz * (snd wz * t) ^ m * f (snd wz * t) * t + s) 0 q.

(* the metric of the layer at height h as a tensor with unit transverse component *)
Definition solid_metric (c : jet) (h : R) : mat := fun i j =>
  match i, j with 0%nat, 0%nat | 0%nat, 1%nat | 1%nat, 0%nat | 1%nat, 1%nat => form_at c h i j | 2%nat, 2%nat => 1 | _, _ => 0 end.
(* energy per unit area for a density W of (inverse reference metric, metric) *)
Definition stored (W : mat -> mat -> R) (q : rule) (t : R) (ori def : jet) : R :=
  zsum q t 0 (fun h => W (inv3 (solid_metric ori h)) (solid_metric def h)).

(* bilinear form x^T A y *)
Definition row (A : mat) (a : nat) (y : vec) : R := sum3 (fun b => A a b * y b).
Definition quad (x : vec) (A : mat) (y : vec) : R := dot3 x (fun a => row A a y).
