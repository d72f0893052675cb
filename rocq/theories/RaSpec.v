(* Specification: the same shell, discretised with the same functions, in other parameters. *)
From Coq Require Import Reals List Permutation.
From Verif Require Import Tensor MetricModel LinearSpec IntegrateModel NonlinearModel PtModel KinModel KinSpec HypModel ReparSpec RaModel.
Import ListNotations.
Open Scope R_scope.

(* chain rule for a map and for a scalar function: P = first, K = second derivatives of the parameter change *)
Definition jdd (c : jet) (a b : nat) : vec := match a, b with 0%nat, 0%nat => j11 c | 1%nat, 1%nat => j22 c | _, _ => j12 c end.
Definition jrow (P : mat) (K : nat -> nat -> R) (c : jet) (r : nat) : vec := fun i =>
  sum2 (fun a => sum2 (fun b => P a (fst (row_pair r)) * P b (snd (row_pair r)) * jdd c a b i)) + sum2 (fun a => K a r * jcol c a i).
Definition jrepar (P : mat) (K : nat -> nat -> R) (c : jet) : jet :=
  mkjet (j0 c) (fun i => sum2 (fun a => P a 0%nat * jcol c a i)) (fun i => sum2 (fun a => P a 1%nat * jcol c a i)) (jrow P K c 0) (jrow P K c 1) (jrow P K c 2).
Definition sfst (p : sjet) (a : nat) : R := match a with 0%nat => s1 p | _ => s2 p end.
Definition sdd (p : sjet) (a b : nat) : R := match a, b with 0%nat, 0%nat => s11 p | 1%nat, 1%nat => s22 p | _, _ => s12 p end.
Definition srow (P : mat) (K : nat -> nat -> R) (p : sjet) (r : nat) : R :=
  sum2 (fun a => sum2 (fun b => P a (fst (row_pair r)) * P b (snd (row_pair r)) * sdd p a b)) + sum2 (fun a => K a r * sfst p a).
Definition srepar (P : mat) (K : nat -> nat -> R) (p : sjet) : sjet :=
  mksjet (s0 p) (sum2 (fun a => P a 0%nat * sfst p a)) (sum2 (fun a => P a 1%nat * sfst p a)) (srow P K p 0) (srow P K p 1) (srow P K p 2).

(* the quadrature point in the other parameters: basis functions and geometry by the chain rule, the weight by the substitution rule,
   and a thickness rule that is the old one seen from the new side of the surface (the same rule, if it is symmetric about 0) *)
Definition same_point (P : mat) (K : nat -> nat -> R) (q q' : apoint) : Prop :=
  det2 P <> 0 /\ aw q' * Rabs (det2 P) = aw q /\ (forall i, abas q' i = srepar P K (abas q i)) /\ aori q' = jrepar P K (aori q) /\
  Permutation (arule q') (map (fun wz => (fst wz, ReparSpec.side P * snd wz)) (arule q)) /\ athick q' = athick q /\ apar q' = apar q.
(* non-degenerate undeformed and deformed surface and layers *)
Definition layers_ok (n : nat) (x : coefs) (q : apoint) : Prop :=
  regular (aori q) /\ regular (adef n q x) /\
  forall w z, In (w, z) (arule q) -> det3 (Gcov (sgeo (aori q)) (z * athick q)) <> 0 /\ det3 (Gcov (sgeo (adef n q x)) (z * athick q)) <> 0.
(* the test for unchanged metrics gives the same answer in both parametrisations *)
Definition same_test (close : mat -> mat -> bool) (P : mat) (n : nat) (x : coefs) (q q' : apoint) : Prop :=
  forall w z, In (w, z) (arule q') ->
    close (Gcon (sgeo (aori q')) (z * athick q)) (Gcon (sgeo (adef n q' x)) (z * athick q))
    = close (Gcon (sgeo (aori q)) (ReparSpec.side P * z * athick q)) (Gcon (sgeo (adef n q x)) (ReparSpec.side P * z * athick q)).

(* planar patch: one thickness rule for both, non-degenerate configurations *)
Definition same_point2 (P : mat) (K : nat -> nat -> R) (q q' : apoint) : Prop :=
  det2 P <> 0 /\ aw q' * Rabs (det2 P) = aw q /\ (forall i, abas q' i = srepar P K (abas q i)) /\ aori q' = jrepar P K (aori q) /\
  arule q' = arule q /\ athick q' = athick q /\ apar q' = apar q.
Definition planar_ok (n : nat) (x : coefs) (q : apoint) : Prop := det3 (Gcov2 (sgeo2 (aori q))) <> 0 /\ det3 (Gcov2 (sgeo2 (adef n q x))) <> 0.
Definition same_test2 (close : mat -> mat -> bool) (n : nat) (x : coefs) (q q' : apoint) : Prop :=
  close (Gcon2 (sgeo2 (aori q'))) (Gcon2 (sgeo2 (adef n q' x))) = close (Gcon2 (sgeo2 (aori q))) (Gcon2 (sgeo2 (adef n q x))).
