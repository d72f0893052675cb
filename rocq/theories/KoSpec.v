(* Specification: Koiter's shell with the plane-stress Saint Venant-Kirchhoff law. *)
From Coq Require Import Reals List.
From Verif Require Import Tensor MetricModel IntegrateModel PtModel NonlinearModel KinModel KinSpec KinAsm HypModel HypSpec RaModel.
Import ListNotations.
Open Scope R_scope.

(* contravariant metric of a surface *)
Definition cometric (c : jet) : mat := fun i j =>
  let a11 := dot3 (j1 c) (j1 c) in let a22 := dot3 (j2 c) (j2 c) in let a12 := dot3 (j1 c) (j2 c) in let D := a11 * a22 - a12 * a12 in
  match i, j with 0%nat, 0%nat => a22 / D | 1%nat, 1%nat => a11 / D | _, _ => - (a12 / D) end.
(* in-plane tensor of a strain in Voigt form (shear doubled) *)
Definition unvoigt (e : vec) : mat := fun i j => match i, j with 0%nat, 0%nat => e 0%nat | 1%nat, 1%nat => e 1%nat | _, _ => e 2%nat / 2 end.
(* trace and squared norm with respect to the metric *)
Definition str (a e : mat) : R := sum2 (fun i => sum2 (fun j => a i j * e i j)).
Definition snorm (a e : mat) : R := sum2 (fun i => sum2 (fun j => sum2 (fun k => sum2 (fun l => a i k * a j l * e i j * e k l)))).
Definition wall (E nu : R) (a e : mat) : R := E / (1 - nu ^ 2) * (nu * (str a e) ^ 2 + (1 - nu) * snorm a e).
Definition koiter (E nu t : R) (ori : jet) (em ef : vec) : R :=
  t / 2 * wall E nu (cometric ori) (unvoigt em) + t ^ 3 / 24 * wall E nu (cometric ori) (unvoigt ef).
Definition koiter_total (n : nat) (pts : list apoint) (x : coefs) : R :=
  fold_right Rplus 0 (map (fun q => aw q * measure (aori q) *
    koiter (pE (apar q)) (pnu (apar q)) (athick q) (aori q) (mem_strain (aori q) (adef n q x)) (bend_strain (aori q) (adef n q x))) pts).
(* admissible point: the undeformed and the deformed surface are regular; the constants of the material exist *)
Definition ko_ok (n : nat) (x : coefs) (q : apoint) : Prop :=
  regular (aori q) /\ regular (adef n q x) /\ pnu (apar q) <> 1 /\ pnu (apar q) <> -1 /\ pnu (apar q) <> / 2.

(* hyperelastic shells: the point of C124 and its admissibility *)
Definition hq (q : apoint) : hpoint := mkhp (aw q * measure (aori q)) (abas q) (aori q) (arule q) (athick q).
(* no cut-off at the heights of the rule *)
Definition no_cut (close : mat -> mat -> bool) (q : apoint) (def : jet) : Prop :=
  forall w z, In (w, z) (arule q) -> close (Gcon (sgeo (aori q)) (z * athick q)) (Gcon (sgeo def) (z * athick q)) = false.
Definition hy_ok (n : nat) (x : coefs) (q : apoint) : Prop :=
  regular (aori q) /\ regular (adef n q x) /\ heights_ok (arule q) (athick q) (aori q) (adef n q x).
