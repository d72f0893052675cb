(* What a batched evaluation should deliver, stated without reference to the loops. *)
From Coq Require Import Arith.

(* result r (None = not written) of a batch of n points with m thickness coordinates equals pointwise evaluation f *)
Definition pointwise {A} (n m : nat) (f : nat -> nat -> A) (r : nat -> option A) : Prop :=
  (forall k j, k < n -> j < m -> r (j * n + k) = Some (f k j)) /\
  (forall c, r c <> None <-> c < n * m).

Definition column_bijection (n m : nat) (idx : nat -> nat -> nat) : Prop :=
  (forall k j, k < n -> j < m -> idx k j < n * m) /\
  (forall c, c < n * m -> exists k j, k < n /\ j < m /\ idx k j = c) /\
  (forall k j k' j', k < n -> j < m -> k' < n -> j' < m -> idx k j = idx k' j' -> k = k' /\ j = j').
