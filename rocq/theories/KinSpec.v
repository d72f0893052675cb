(* Specification of the kinematics: what the variations, strains and linearisations are supposed to be. *)
From Coq Require Import Reals List.
From Coquelicot Require Import Coquelicot.
From Verif Require Import Tensor KinModel.
Import ListNotations.
Open Scope R_scope.

(* configuration c moved by t in direction v *)
Definition moved (c v : jet) (t : R) : jet := jadd c (jscal t v).

(* the tangents span a plane *)
Definition regular (c : jet) : Prop := 0 < dot3 (cross3 (j1 c) (j2 c)) (cross3 (j1 c) (j2 c)).

(* n is the oriented unit normal of the tangents a, b *)
Definition is_unit_normal (a b n : vec) : Prop :=
  dot3 n a = 0 /\ dot3 n b = 0 /\ dot3 n n = 1 /\ 0 < dot3 n (cross3 a b).

(* the unit normal *)
Definition nrm (c : jet) : vec := fun i => cross3 (j1 c) (j2 c) i / sqrt (dot3 (cross3 (j1 c) (j2 c)) (cross3 (j1 c) (j2 c))).

(* component-wise derivative of a vector valued function *)
Definition is_dvec (f : R -> vec) (t : R) (d : vec) : Prop :=
  forall i, (i < 3)%nat -> is_derive (fun s => f s i) t (d i).

(* Kirchhoff-Love strains in Voigt form (shear doubled): change of metric, change of curvature *)
Definition mem_strain (ori def : jet) : vec := fun a =>
  match a with
  | 0%nat => (dot3 (j1 def) (j1 def) - dot3 (j1 ori) (j1 ori)) / 2
  | 1%nat => (dot3 (j2 def) (j2 def) - dot3 (j2 ori) (j2 ori)) / 2
  | _ => dot3 (j1 def) (j2 def) - dot3 (j1 ori) (j2 ori)
  end.
Definition curvature (c : jet) (a : nat) : R := dot3 (jsec c a) (nrm c).
Definition bend_strain (ori def : jet) : vec := fun a =>
  match a with
  | 0%nat => curvature ori 0 - curvature def 0
  | 1%nat => curvature ori 1 - curvature def 1
  | _ => 2 * (curvature ori 2 - curvature def 2)
  end.

(* P, Q are the partial derivatives of the resultant N with respect to the two strain arguments:
   chain rule along every differentiable strain path. *)
Definition has_tangents (N : vec -> vec -> vec) (P Q : vec -> vec -> mat) : Prop :=
  forall (e f : R -> vec) (de df : vec), is_dvec e 0 de -> is_dvec f 0 df ->
    forall a, (a < 3)%nat ->
    is_derive (fun t => N (e t) (f t) a) 0
      (sum3 (fun b => P (e 0) (f 0) a b * de b) + sum3 (fun b => Q (e 0) (f 0) a b * df b)).

(* N, M are the gradients of the energy density W *)
Definition has_gradient (W : vec -> vec -> R) (N M : vec -> vec -> vec) : Prop :=
  forall (e f : R -> vec) (de df : vec), is_dvec e 0 de -> is_dvec f 0 df ->
    is_derive (fun t => W (e t) (f t)) 0 (dot3 (N (e 0) (f 0)) de + dot3 (M (e 0) (f 0)) df).

(* symmetric 3x3 matrix; transposes of each other *)
Definition symm3 (A : mat) : Prop := forall a b, (a < 3)%nat -> (b < 3)%nat -> A a b = A b a.
Definition transp3 (B C : mat) : Prop := forall a b, (a < 3)%nat -> (b < 3)%nat -> C a b = B b a.
