(* Specification of eigen-decompositions, principal stretches and Voigt transformations. *)
From Coq Require Import Reals.
From Verif Require Import Tensor.
Open Scope R_scope.

(* contract of a symmetric eigen-solver: ascending eigenvalues, orthogonal matrix of eigenvectors *)
Definition eigen_decomposition (B : mat) (vals : vec) (vecs : nat -> vec) : Prop :=
  (forall k a, (k < 3)%nat -> (a < 3)%nat -> mvec3 B (vecs k) a = vals k * vecs k a) /\
  (forall k l, (k < 3)%nat -> (l < 3)%nat -> dot3 (vecs k) (vecs l) = delta k l) /\
  (forall a b, (a < 3)%nat -> (b < 3)%nat -> sum3 (fun k => vecs k a * vecs k b) = delta a b) /\
  vals 0%nat <= vals 1%nat <= vals 2%nat.

(* l, v are the principal in-plane stretches and directions of the deformation with in-plane metric C in the
   undeformed frame with normal n: the deformation maps lengths in direction w to sqrt(w.(B w)), B = C_kl g^k g^l *)
Definition principal_stretches (B : mat) (n : vec) (l1 l2 : R) (v1 v2 : vec) : Prop :=
  0 < l1 <= l2 /\
  (forall a, (a < 3)%nat -> mvec3 B v1 a = l1 * l1 * v1 a) /\ (forall a, (a < 3)%nat -> mvec3 B v2 a = l2 * l2 * v2 a) /\
  dot3 v1 v1 = 1 /\ dot3 v2 v2 = 1 /\ dot3 v1 v2 = 0 /\ dot3 v1 n = 0 /\ dot3 v2 n = 0.

(* (11,22,12) components of a symmetric in-plane tensor given by its components X_kl on a basis e_k,
   measured along vectors f_i: f_i . (sum X_kl e_k e_l) . f_j *)
Definition tensor_on (X : mat) (e : nat -> vec) (f : nat -> vec) (i j : nat) : R :=
  sum2 (fun k => sum2 (fun l => X k l * dot3 (e k) (f i) * dot3 (e l) (f j))).
Definition voigt3 (X : nat -> nat -> R) : vec := fun r =>
  match r with 0%nat => X 0%nat 0%nat | 1%nat => X 1%nat 1%nat | _ => X 0%nat 1%nat end.

(* two pairs of dual bases (b1,d1), (b2,d2) of one tangent plane *)
Definition coplanar_duals (b1 d1 b2 d2 : nat -> vec) : Prop :=
  (forall i j, (i < 2)%nat -> (j < 2)%nat -> dot3 (b1 i) (d1 j) = delta i j) /\
  (forall l a, (l < 2)%nat -> (a < 3)%nat -> b1 l a = sum2 (fun i => dot3 (b2 i) (b1 l) * d2 i a)).
