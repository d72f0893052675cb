(* Specification of laminates: a stack of layers occupying [-T/2,T/2], first layer on top. *)
From Coq Require Import Reals List.
From Coquelicot Require Import Coquelicot.
From Verif Require Import Tensor.
Import ListNotations.
Open Scope R_scope.

(* a quantity per layer together with the layer thickness; its value at height z of the stack whose top is at [top] *)
Fixpoint value_at (stack : list (R * R)) (top z : R) : R :=
  match stack with
  | [] => 0
  | (t, q) :: s => if Rle_dec (top - t) z then q else value_at s (top - t) z
  end.
Definition total (stack : list (R * R)) : R := fold_right (fun p acc => fst p + acc) 0 stack.
(* m-th moment of the layered quantity about the mid-plane *)
Definition stack_moment (stack : list (R * R)) (m : nat) (I : R) : Prop :=
  is_RInt (fun z => z ^ m * value_at stack (total stack / 2) z) (- (total stack / 2)) (total stack / 2) I.
Definition thicknesses_nonneg (stack : list (R * R)) : Prop := forall p, In p stack -> 0 <= fst p.

(* quadratic form of a 3x3 matrix *)
Definition bilin (Q : mat) (x y : vec) : R := sum3 (fun r => sum3 (fun s => x r * Q r s * y s)).
Definition quad (Q : mat) (e : vec) : R := bilin Q e e.
Definition posdef3 (Q : mat) : Prop := forall e, (exists r, (r < 3)%nat /\ e r <> 0) -> 0 < quad Q e.

(* engineering strains (11,22,2*12) of a symmetric 2x2 tensor, and the tensor seen from axes turned by phi *)
Definition eng (e : mat) : vec := fun r => match r with 0%nat => e 0%nat 0%nat | 1%nat => e 1%nat 1%nat | _ => 2 * e 0%nat 1%nat end.
Definition turned (phi : R) (e : mat) : mat := fun i j =>
  let R_ := fun a b : nat => match a, b with 0%nat, 0%nat | 1%nat, 1%nat => cos phi | 0%nat, 1%nat => sin phi | _, _ => - sin phi end in
  sum2 (fun k => sum2 (fun l => R_ i k * e k l * R_ j l)).

(* isotropic plane-stress matrix *)
Definition isotropic3 (Q : mat) : Prop :=
  Q 0%nat 0%nat = Q 1%nat 1%nat /\ Q 0%nat 1%nat = Q 1%nat 0%nat /\ Q 2%nat 2%nat = (Q 0%nat 0%nat - Q 0%nat 1%nat) / 2 /\
  Q 0%nat 2%nat = 0 /\ Q 1%nat 2%nat = 0 /\ Q 2%nat 0%nat = 0 /\ Q 2%nat 1%nat = 0.
Definition eq3 (M N : mat) : Prop := forall i j, (i < 3)%nat -> (j < 3)%nat -> M i j = N i j.

(* orthotropic compliance in engineering constants *)
Definition compliance (Exx Eyy Gxy nuxy nuyx : R) : mat := fun i j =>
  match i, j with
  | 0%nat, 0%nat => / Exx | 1%nat, 1%nat => / Eyy | 2%nat, 2%nat => / Gxy
  | 0%nat, 1%nat => - (nuyx / Eyy) | 1%nat, 0%nat => - (nuxy / Exx) | _, _ => 0 end.
