(* Specification of the dual load vector of a point goal. *)
From Coq Require Import Reals List Arith.
From Verif Require Import Tensor KinModel DwrModel DwrSpec DofModel DofSpec GoalPtModel.
Import ListNotations.
Open Scope R_scope.

(* coefficients on the first patch of the field with free values x and zero prescribed values *)
Definition free_coefs (m : mapper) (x : nat -> R) : coefs := fun i c => if Nat.ltb (m_index m i 0 c) (m_free m) then x (m_index m i 0 c) else 0.
(* the functions not listed as active at a point vanish there with their derivatives *)
Definition local_basis (n : nat) (q : evalpt) : Prop :=
  NoDup (ev_act q) /\ (forall i, In i (ev_act q) -> (i < n)%nat) /\
  (forall i, (i < n)%nat -> ~ In i (ev_act q) -> gbas (ev_pt q) i = mksjet 0 0 0 0 0 0).
(* number g is that of an active function of the first patch at one of the points *)
Definition touched (m : mapper) (pts : list evalpt) (g : nat) : Prop :=
  exists q i c, In q pts /\ In i (ev_act q) /\ (c < 3)%nat /\ m_index m i 0 c = g.
(* the requests for which the point version of a goal is differentiable with the material data at hand (as in C61) *)
Definition sound_request (g : goal) (comp : nat) (path : R -> gpoint -> jet) (def prim : gpoint -> jet) (pts : list gpoint) : Prop :=
  match g with
  | GDisplacement => ((comp < 3)%nat \/ comp = 9%nat) /\
      (comp = 9%nat -> forall p a, In p pts -> (a < 3)%nat -> j0 (prim p) a = j0 (def p) a - j0 (gori p) a)
  | GMembraneStrain | GFlexuralStrain => (comp < 3)%nat \/ comp = 9%nat
  | GMembraneStress | GFlexuralStress | GFlexuralMoment => ((comp < 3)%nat \/ comp = 9%nat) /\ (forall p, In p pts -> stress_contract g (glaw p))
  | GMembraneForce => comp = 9%nat /\ (forall p, In p pts -> stress_contract g (glaw p))
  | GPStrain => ((comp < 2)%nat \/ comp = 9%nat) /\ (forall p, In p pts -> principal_contract g p (fun t => path t p) (def p))
  | GPStress => (comp < 2)%nat /\ (forall p, In p pts -> principal_contract g p (fun t => path t p) (def p))
  | GStretch => False
  end.
