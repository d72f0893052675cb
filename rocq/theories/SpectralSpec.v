(* Specification for stretch based laws: Ogden energies, principal states, differentiable families of principal states. *)
From Coq Require Import Reals List.
From Coquelicot Require Import Coquelicot.
From Verif Require Import Tensor MetricModel MetricSpec PrincipalModel PrincipalSpec NonlinearSpec.
Open Scope R_scope.

(* Ogden energies for a list of (mu_i, alpha_i) in terms of the principal stretches; volumetric part as for the other laws *)
Definition ogden_W (terms : list (R * R)) (l1 l2 l3 : R) : R :=
  fold_right (fun t acc => fst t / snd t * (Rpower l1 (snd t) + Rpower l2 (snd t) + Rpower l3 (snd t) - 3) + acc) 0 terms.
Definition ogden_W_iso (terms : list (R * R)) (l1 l2 l3 : R) : R :=
  let r := Rpower (l1 * l2 * l3) (- (1 / 3)) in ogden_W terms (r * l1) (r * l2) (r * l3).
Definition vol_W (K l1 l2 l3 : R) : R := let J := (l1 * l2 * l3) * (l1 * l2 * l3) in K / 4 * (J - 1 - ln J).

(* the in-plane metric G, seen from the undeformed point (g,z), has stretches l1 <= l2 along the unit vectors v1, v2 *)
Definition principal_state (g : geo) (z : R) (G : mat) (l1 l2 : R) (v1 v2 : vec) : Prop :=
  regular g /\ det3 (Gcov g z) <> 0 /\ principal_stretches (Bten G (gcon g z)) (normal g) l1 l2 v1 v2.

(* stretches along the line G + t H near t = 0 *)
Definition principal_family (g : geo) (z : R) (G H : mat) (l1 l2 : R -> R) (v1 v2 : R -> vec) : Prop :=
  locally 0 (fun t => principal_state g z (line G H t) (l1 t) (l2 t) (v1 t) (v2 t)).

Definition triple (l1 l2 l3 : R) : vec := fun k => match k with 0%nat => l1 | 1%nat => l2 | _ => l3 end.
Definition frame3 (v1 v2 n : vec) : nat -> vec := fun k => match k with 0%nat => v1 | 1%nat => v2 | _ => n end.
