(* Independent specification for the linear material. *)
From Coq Require Import Reals.
From Verif Require Import Tensor.
Open Scope R_scope.

Definition symmetric (n : nat) (M : mat) : Prop := forall i j, (i < n)%nat -> (j < n)%nat -> M i j = M j i.

Definition minor_major_symmetric (n : nat) (C : ten4) : Prop :=
  forall i j k l, (i < n)%nat -> (j < n)%nat -> (k < n)%nat -> (l < n)%nat ->
  C i j k l = C j i k l /\ C i j k l = C i j l k /\ C i j k l = C k l i j.

(* positive definite symmetric 2x2 matrix (Sylvester) *)
Definition spd2 (A : mat) : Prop := symmetric 2 A /\ 0 < A 0%nat 0%nat /\ 0 < det2 A.

(* 3D isotropic elasticity (Lame) in a shell frame with metric diag(A,1) *)
Definition shell_metric (A : mat) : mat := fun i j =>
  match i, j with
  | 0%nat, 0%nat | 0%nat, 1%nat | 1%nat, 0%nat | 1%nat, 1%nat => A i j
  | 2%nat, 2%nat => 1
  | _, _ => 0
  end.
Definition lame3D (lam mu : R) (A : mat) : ten4 := fun i j k l =>
  let G := shell_metric A in lam * G i j * G k l + mu * (G i k * G j l + G i l * G j k).
Definition stress3D (C : ten4) (E : mat) (i j : nat) : R :=
  sum3 (fun k => sum3 (fun l => C i j k l * E k l)).

(* strain energy density (times two) S:E of an in-plane law *)
Definition energy2 (C : ten4) (E : mat) : R :=
  sum2 (fun i => sum2 (fun j => sum2 (fun k => sum2 (fun l => C i j k l * E k l * E i j)))).

(* change of surface parametrisation by an invertible 2x2 matrix P: covariant components transform as P^T X P *)
Definition pullback2 (P X : mat) : mat := fun i j => sum2 (fun a => sum2 (fun b => P a i * X a b * P b j)).

Definition nonzero2 (E : mat) : Prop := exists i j, (i < 2)%nat /\ (j < 2)%nat /\ E i j <> 0.

(* plane-stress law of an isotropic material in engineering constants, A the inverse surface metric *)
Definition plane_stress_law (E nu : R) (A e : mat) (i j : nat) : R :=
  E / (1 - nu * nu) * sum2 (fun k => sum2 (fun l => ((1 - nu) * A i k * A j l + nu * A i j * A k l) * e k l)).
