(* Specification: what a change of the parametrisation of the surface, or of the units of length and stress, does to a material response. *)
From Coq Require Import Reals List.
From Verif Require Import Tensor MetricModel LinearSpec NonlinearModel SpectralModel.
Import ListNotations.
Open Scope R_scope.

(* second derivatives of the surface: rows 11, 22, 12 of der2 *)
Definition dd (g : geo) (a b : nat) : vec :=
  match a, b with 0%nat, 0%nat => der2 g 0%nat | 1%nat, 1%nat => der2 g 1%nat | _, _ => der2 g 2%nat end.
Definition row_pair (r : nat) : nat * nat := match r with 0%nat => (0, 0)%nat | 1%nat => (1, 1)%nat | _ => (0, 1)%nat end.
(* the surface in other parameters v, u = u(v): P a i = du_a / dv_i, K a r = second derivatives of u_a (rows 11, 22, 12) *)
Definition repar (P : mat) (K : nat -> nat -> R) (g : geo) : geo :=
  mkGeo (fun i c => sum2 (fun a => P a i * tang g a c))
        (fun r c => sum2 (fun a => sum2 (fun b => P a (fst (row_pair r)) * P b (snd (row_pair r)) * dd g a b c))
                    + sum2 (fun a => K a r * tang g a c)).
(* the same for a planar map *)
Definition repar2 (P : mat) (g : geo2) : geo2 := mkGeo2 (fun i c => sum2 (fun a => P a i * tang2 g a c)).
(* a prescribed deformation tensor (C11, C22, C12) in the other parameters *)
Definition pullC (P : mat) (C : vec) : vec :=
  let G := fun i j : nat => match i, j with 0%nat, 0%nat => C 0%nat | 1%nat, 1%nat => C 1%nat | _, _ => C 2%nat end in
  fun r => pullback2 P G (fst (row_pair r)) (snd (row_pair r)).
(* 1 if the new parameters keep the side the normal points to, -1 if they turn it over *)
Definition side (P : mat) : R := if Rlt_dec 0 (det2 P) then 1 else -1.

(* work of a stress (11,22,12) on an in-plane strain, form of a 3x3 stiffness on two strains *)
Definition voi (e : mat) : vec := fun a => match a with 0%nat => e 0%nat 0%nat | 1%nat => e 1%nat 1%nat | _ => e 0%nat 1%nat + e 1%nat 0%nat end.
Definition workV (s : vec) (e : mat) : R := sum3 (fun a => s a * voi e a).
Definition formV (M e f : mat) : R := sum3 (fun a => sum3 (fun b => voi e a * M a b * voi f b)).

(* two outcomes: both fail in the same way, or both return related values *)
Definition both {A B} (rel : A -> B -> Prop) (x : outcome A) (y : outcome B) : Prop :=
  match x, y with Ok a, Ok b => rel a b | Throw, Throw | UB, UB => True | _, _ => False end.
(* the same stress / stiffness in the two parametrisations: the same work on the same strain *)
Definition same_stress (P : mat) (s s' : vec) : Prop := forall e, symmetric 2 e -> workV s' (pullback2 P e) = workV s e.
Definition same_stiffness (P : mat) (M M' : mat) : Prop := forall e f, symmetric 2 e -> symmetric 2 f -> formV M' (pullback2 P e) (pullback2 P f) = formV M e f.

(* lengths measured in a unit that is r times smaller *)
Definition scaled (r : R) (g : geo) : geo := mkGeo (fun i c => r * tang g i c) (fun i c => r * der2 g i c).
(* moduli measured in a unit of stress that is k times smaller *)
Fixpoint scale_moduli (k : R) (pars : list R) : list R :=
  match pars with
  | m :: a :: r => k * m :: a :: scale_moduli k r
  | [m] => [k * m]
  | [] => []
  end.

(* largest entry of a 3x3 matrix in absolute value *)
Definition maxabs9 (M : mat) : R :=
  fold_right Rmax 0 (map (fun k => Rabs (M (Nat.div k 3) (Nat.modulo k 3))) (seq 0 9)).
(* contract of gsAllCloseRelativeToMax(A,B,tol) of the G+Smo core: the largest difference is at most tol times the largest entry *)
Definition relative_close (tol : R) (close : mat -> mat -> bool) : Prop :=
  forall A B, close A B = true <-> maxabs9 (fun i j => A i j - B i j) <= tol * Rmax (maxabs9 A) (maxabs9 B).
(* components of a stress and a stiffness after a change of units: lengths r times larger, stresses k times larger *)
Definition rescaled_stress (k r : R) (s s' : vec) : Prop := forall a, (a < 3)%nat -> s' a = k / r ^ 2 * s a.
Definition rescaled_stiffness (k r : R) (M M' : mat) : Prop := forall a b, (a < 3)%nat -> (b < 3)%nat -> M' a b = k / r ^ 4 * M a b.
(* the same material in other units of stress: Young's modulus and the Ogden coefficients change, ratios and exponents do not *)
Definition units_par (k : R) (p : par) : par := mkPar (k * pE p) (pnu p) (pratio p).
Definition units_law (k : R) (w : slaw) : slaw := match w with L l => L l | OG pars => OG (scale_moduli k pars) end.
