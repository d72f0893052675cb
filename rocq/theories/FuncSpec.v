(* Specification of the reported quantities: Cartesian components in the tangent plane, elongations, equivalent stress, sums. *)
From Coq Require Import Reals List Arith.
From Coquelicot Require Import Coquelicot.
From Verif Require Import Tensor KinModel KinSpec FuncModel.
Import ListNotations.
Open Scope R_scope.

Definition same3 (u v : vec) : Prop := forall k, (k < 3)%nat -> u k = v k.

(* e1, e2: the orthonormal basis of the tangent plane with e1 along the first tangent and e2 on the side of the second *)
Definition frame (a1 a2 e1 e2 : vec) : Prop :=
  dot3 e1 e1 = 1 /\ dot3 e2 e2 = 1 /\ dot3 e1 e2 = 0 /\ 0 < dot3 a1 e1 /\ 0 < dot3 a2 e2 /\
  same3 a1 (vscal (dot3 a1 e1) e1) /\ same3 a2 (vadd (vscal (dot3 a2 e1) e1) (vscal (dot3 a2 e2) e2)).

(* the tensor S^11 a1 (x) a1 + S^22 a2 (x) a2 + S^12 (a1 (x) a2 + a2 (x) a1) as a bilinear form *)
Definition tform (S a1 a2 x y : vec) : R :=
  S 0%nat * (dot3 a1 x * dot3 a1 y) + S 1%nat * (dot3 a2 x * dot3 a2 y) + S 2%nat * (dot3 a1 x * dot3 a2 y + dot3 a2 x * dot3 a1 y).
(* its components in an orthonormal basis *)
Definition comps (B : vec -> vec -> R) (e1 e2 : vec) : vec := fun i =>
  match i with 0%nat => B e1 e1 | 1%nat => B e2 e2 | _ => B e1 e2 end.

(* a material line element with parametric components x, y *)
Definition line (c : jet) (x y : R) : vec := vadd (vscal x (j1 c)) (vscal y (j2 c)).
(* half the change of its squared length; change of the second fundamental form in its direction *)
Definition elongation (o d : jet) (x y : R) : R := (dot3 (line d x y) (line d x y) - dot3 (line o x y) (line o x y)) / 2.
Definition second_form (c : jet) (x y : R) : R := x * x * curvature c 0 + y * y * curvature c 1 + 2 * x * y * curvature c 2.
Definition bending (o d : jet) (x y : R) : R := second_form o x y - second_form d x y.

(* von Mises stress of a plane stress state from the deviator of the 3D tensor *)
Definition plane (S : vec) : mat := fun i j =>
  match i, j with
  | 0%nat, 0%nat => S 0%nat | 1%nat, 1%nat => S 1%nat
  | 0%nat, 1%nat | 1%nat, 0%nat => S 2%nat
  | _, _ => 0 end.
Definition deviator (T : mat) : mat := fun i j => T i j - (if Nat.eqb i j then (T 0%nat 0%nat + T 1%nat 1%nat + T 2%nat 2%nat) / 3 else 0).
Definition equivalent (S : vec) : R := sqrt (3 / 2 * sum3 (fun i => sum3 (fun j => deviator (plane S) i j * deviator (plane S) i j))).

(* sum of a list of vectors *)
Definition vsum (l : list vec) : vec := fun i => fold_right (fun v acc => v i + acc) 0 l.
(* point in a box *)
Definition inbox (s : list (R * R)) (x : list R) : Prop := Forall2 (fun b t => fst b <= t <= snd b) s x.
(* the contributions of the k-th pieces of the summands; all summands have a k-th piece *)
Definition values (get : piece -> vec) (fs : list fset) (k : nat) : list vec :=
  flat_map (fun f => match nth_error f k with Some p => [get p] | None => [] end) fs.
Definition complete (fs : list fset) (k : nat) : Prop := List.Forall (fun f => (k < length f)%nat) fs.
