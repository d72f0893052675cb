(* Specification of through-thickness integration: the m-th moment of a quantity F(z) over [-t/2,t/2]. *)
From Coq Require Import Reals List.
From Coquelicot Require Import Coquelicot.
From Verif Require Import Tensor MetricModel LinearSpec.
Import ListNotations.
Open Scope R_scope.

Definition is_moment (F : R -> R) (t : R) (m : nat) (I : R) : Prop :=
  is_RInt (fun z => z ^ m * F z) (- (t / 2)) (t / 2) I.

(* a quadrature rule on [-1/2,1/2] integrates all monomials up to degree d exactly *)
Definition exact_to (d : nat) (q : list (R * R)) : Prop := forall n, (n <= d)%nat ->
  is_RInt (fun x => x ^ n) (- (1 / 2)) (1 / 2) (fold_right Rplus 0 (map (fun wz => fst wz * snd wz ^ n) q)).

(* polynomial with coefficient list c *)
Fixpoint poly (c : list R) (x : R) : R := match c with [] => 0 | a :: c' => a + x * poly c' x end.

(* Kirchhoff-Love kinematics of a pair of surface points: fundamental forms, strain at height z *)
Definition unit_normal (g : geo) : vec := fun c =>
  cross3 (tang g 0) (tang g 1) c / sqrt (dot3 (cross3 (tang g 0) (tang g 1)) (cross3 (tang g 0) (tang g 1))).
Definition form1 (g : geo) (i j : nat) : R := dot3 (tang g i) (tang g j).
Definition second_derivative (g : geo) (i j : nat) : vec :=
  match i, j with 0%nat, 0%nat => der2 g 0 | 1%nat, 1%nat => der2 g 1 | _, _ => der2 g 2 end.
Definition form2 (g : geo) (i j : nat) : R := dot3 (second_derivative g i j) (unit_normal g).
Definition membrane_strain (go gd : geo) : mat := fun i j => (form1 gd i j - form1 go i j) / 2.
Definition curvature_change (go gd : geo) : mat := fun i j => form2 go i j - form2 gd i j.
Definition kl_strain (go gd : geo) (z : R) : mat := fun i j => membrane_strain go gd i j + z * curvature_change go gd i j.

(* (11,22,12) components of a tensor, and (11,22,2*12) for strains *)
Definition row_of (r : nat) : nat * nat := match r with 0%nat => (0, 0) | 1%nat => (1, 1) | _ => (0, 1) end%nat.
Definition voigt_strain (e : mat) : vec := fun r =>
  match r with 0%nat => e 0%nat 0%nat | 1%nat => e 1%nat 1%nat | _ => 2 * e 0%nat 1%nat end.
