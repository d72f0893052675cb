(* Independent specification for hyperelastic materials: strain energy densities in terms of the invariants of the right
   Cauchy-Green tensor C (covariant components) and the inverse undeformed metric A, in three dimensions. *)
From Coq Require Import Reals.
From Coquelicot Require Import Coquelicot.
From Verif Require Import Tensor.
Open Scope R_scope.

(* a metric of shell form: symmetric in-plane block, no in-plane / transverse coupling *)
Definition shell_shape (G : mat) : Prop :=
  G 0%nat 1%nat = G 1%nat 0%nat /\ G 0%nat 2%nat = 0 /\ G 2%nat 0%nat = 0 /\ G 1%nat 2%nat = 0 /\ G 2%nat 1%nat = 0.
(* ... with unit transverse component (metrics of points of a shell, and directions leave it unchanged) *)
Definition shell_G (G : mat) : Prop := shell_shape G /\ G 2%nat 2%nat = 1.
Definition in_plane (H : mat) : Prop := shell_shape H /\ H 2%nat 2%nat = 0.
(* index pairs that a shell law uses: in-plane or 33 *)
Definition shell_pair (i j : nat) : Prop := ((i < 2)%nat /\ (j < 2)%nat) \/ (i = 2%nat /\ j = 2%nat).

Definition contract (C : ten4) (H : mat) (i j : nat) : R := sum3 (fun k => sum3 (fun l => C i j k l * H k l)).
Definition dotdot (S H : mat) : R := sum3 (fun i => sum3 (fun j => S i j * H i j)).
Definition line (G H : mat) (t : R) : mat := fun i j => G i j + t * H i j.

(* invariants of C with respect to the inverse metric A; J2 is the squared volume ratio *)
Definition inv1 (A C : mat) : R := dotdot A C.
Definition AC (A C : mat) : mat := mmul3 A C.
Definition inv2nd (A C : mat) : R :=
  / 2 * (inv1 A C * inv1 A C - sum3 (fun i => mmul3 (AC A C) (AC A C) i i)).
Definition J2 (A C : mat) : R := det3 A * det3 C.

(* energies *)
Definition W_NH (mu K : R) (A C : mat) : R :=
  mu / 2 * (Rpower (J2 A C) (- (1 / 3)) * inv1 A C - 3) + K / 4 * (J2 A C - 1 - ln (J2 A C)).
Definition W_MR (c1 c2 K : R) (A C : mat) : R :=
  c1 / 2 * (Rpower (J2 A C) (- (1 / 3)) * inv1 A C - 3) + c2 / 2 * (Rpower (J2 A C) (- (2 / 3)) * inv2nd A C - 3)
  + K / 4 * (J2 A C - 1 - ln (J2 A C)).
Definition W_NHe (mu lam : R) (A C : mat) : R :=
  mu / 2 * (inv1 A C - 3 - ln (J2 A C)) + lam / 4 * (J2 A C - 1 - ln (J2 A C)).

(* incompressible plane stress: the transverse component is fixed by det C = det G, the energy is that of the full tensor *)
Definition with33 (C : mat) (c : R) : mat := fun i j =>
  match i, j with 2%nat, 2%nat => c | 2%nat, _ | _, 2%nat => 0 | _, _ => C i j end.
Definition isochoric (A C : mat) : mat := with33 C (/ (J2 A (with33 C 1))).
Definition W_inc (c1 c2 : R) (A C : mat) : R :=
  c1 / 2 * (inv1 A (isochoric A C) - 3) + c2 / 2 * (inv2nd A (isochoric A C) - 3).

Definition tangent_of (S : mat -> nat -> nat -> R) (C : mat -> ten4) (G H : mat) (i j : nat) : Prop :=
  is_derive (fun t => S (line G H t) i j) 0 (/ 2 * contract (C G) H i j).
Definition gradient_of (W : mat -> R) (S : mat) (G H : mat) : Prop :=
  is_derive (fun t => W (line G H t)) 0 (/ 2 * dotdot S H).

(* admissible states: undeformed and deformed metrics of shell form with positive in-plane determinants; in 3D also C_33 > 0 *)
Definition adm (Go G : mat) : Prop := shell_G Go /\ shell_G G /\ 0 < det2 Go /\ 0 < det2 G.
Definition adm3 (Go C : mat) : Prop := shell_G Go /\ shell_shape C /\ 0 < det2 Go /\ 0 < det2 C /\ 0 < C 2%nat 2%nat.
