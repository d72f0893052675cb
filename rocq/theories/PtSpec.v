(* Independent specification for point evaluations: flat shells, agreement of results, partial derivatives. *)
From Coq Require Import Reals List Lra Lia Arith.
From Coquelicot Require Import Coquelicot.
From Verif Require Import Tensor MetricModel NonlinearSpec PtModel.
Open Scope R_scope.

(* a planar element seen as a flat surface in space: z = 0; d: in-plane second derivatives of the parametrisation *)
Definition flat (g : geo2) (d : nat -> nat -> R) : geo :=
  mkGeo (fun i c => match c with 0%nat | 1%nat => tang2 g i c | _ => 0 end)
        (fun i c => match c with 0%nat | 1%nat => d i c | _ => 0 end).
Definition jac2 (g : geo2) : R := tang2 g 0%nat 0%nat * tang2 g 1%nat 1%nat - tang2 g 0%nat 1%nat * tang2 g 1%nat 0%nat.

(* two calls have the same result: same failure, or values that agree under the relation *)
Definition same {A} (eq : A -> A -> Prop) (x y : outcome A) : Prop :=
  match x, y with Ok a, Ok b => eq a b | Throw, Throw => True | UB, UB => True | _, _ => False end.
Definition vec3eq (u v : vec) : Prop := forall i, (i < 3)%nat -> u i = v i.
Definition mat3eq (M N : mat) : Prop := forall i j, (i < 3)%nat -> (j < 3)%nat -> M i j = N i j.

(* tensor components of a metric as a vector (C11, C22, C12) *)
Definition components (G : mat) : vec := fun i =>
  match i with 0%nat => G 0%nat 0%nat | 1%nat => G 1%nat 1%nat | _ => G 0%nat 1%nat end.

(* x moved by t along coordinate r *)
Definition shift (x : vec) (r : nat) (t : R) : vec := fun i => if Nat.eqb i r then x i + t else x i.
Definition near (e : R) (x y : vec) : Prop := forall i, (i < 3)%nat -> Rabs (y i - x i) < e.

(* contract of the numerical differentiation: for a function that is defined around x, each entry of the result is the
   corresponding partial derivative where that exists *)
Definition exact (D : deriv_op) : Prop := forall f x F,
  (exists e, 0 < e /\ forall y, near e x y -> f y = Ok (F y)) ->
  exists v, D f x = Ok v /\
    forall r c l, (r < 3)%nat -> (c < 9)%nat -> is_derive (fun t => F (shift x r t) c) 0 l -> v (r + 3 * c)%nat = l.

(* unit directions of the deformation tensor: 11, 22 and the symmetric 12 pair with engineering component 1 *)
Definition dirC (r : nat) : mat := fun i j =>
  match r, i, j with
  | 0%nat, 0%nat, 0%nat => 1
  | 1%nat, 1%nat, 1%nat => 1
  | 2%nat, 0%nat, 1%nat | 2%nat, 1%nat, 0%nat => / 2
  | _, _, _ => 0
  end.

(* a shear component half as large *)
Definition half_shear (G : mat) : mat := fun i j =>
  match i, j with 0%nat, 1%nat | 1%nat, 0%nat => G i j / 2 | _, _ => G i j end.
