(* Independent specification of shell metrics: Gram matrices, duality, rotations, areas. *)
From Coq Require Import Reals.
From Verif Require Import Tensor MetricModel.
Open Scope R_scope.

(* tangents are linearly independent *)
Definition regular (g : geo) : Prop := exists c, (c < 3)%nat /\ cross3 (tang g 0) (tang g 1) c <> 0.

(* Gram matrix of a family of vectors *)
Definition is_gram (M : mat) (b : nat -> vec) : Prop :=
  forall i j, (i < 3)%nat -> (j < 3)%nat -> M i j = dot3 (b i) (b j).

Definition dual_bases (b c : nat -> vec) : Prop :=
  forall i j, (i < 3)%nat -> (j < 3)%nat -> dot3 (b i) (c j) = delta i j.

Definition inverse3 (M N : mat) : Prop :=
  forall i j, (i < 3)%nat -> (j < 3)%nat -> mmul3 M N i j = delta i j.

(* proper rotations of R^3 *)
Definition rotation (Q : mat) : Prop :=
  (forall i j, (i < 3)%nat -> (j < 3)%nat -> mmul3 (mtr Q) Q i j = delta i j) /\ det3 Q = 1.

(* the surface point moved by the rotation Q (derivatives of Q o x + translation) *)
Definition rotate (Q : mat) (g : geo) : geo :=
  mkGeo (fun i => mvec3 Q (tang g i)) (fun i => mvec3 Q (der2 g i)).

Definition eq_on (n : nat) (M N : mat) : Prop :=
  forall i j, (i < n)%nat -> (j < n)%nat -> M i j = N i j.

(* area of the parallelogram spanned by two vectors *)
Definition area (u v : vec) : R := norm3 (cross3 u v).
