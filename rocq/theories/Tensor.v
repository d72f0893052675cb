(* Small vectors and tensors over R, as used throughout the model.
   gsMatrix / gsVector entries M(i,j), v(i) of the C++ code become applications M i j, v i
   of functions on nat (indices are zero based as in the code).  The scalar type T is R. *)
From Coq Require Import Reals Lra Lia Arith.
Open Scope R_scope.

Definition vec := nat -> R.
Definition mat := nat -> nat -> R.
Definition ten4 := nat -> nat -> nat -> nat -> R.

Definition sum2 (f : nat -> R) : R := f 0%nat + f 1%nat.
Definition sum3 (f : nat -> R) : R := f 0%nat + f 1%nat + f 2%nat.

Definition vadd (u v : vec) : vec := fun i => u i + v i.
Definition vsub (u v : vec) : vec := fun i => u i - v i.
Definition vscal (c : R) (u : vec) : vec := fun i => c * u i.
Definition vzero : vec := fun _ => 0.

Definition dot3 (u v : vec) : R := sum3 (fun i => u i * v i).

(* gsVector3d::cross / Eigen cross product *)
Definition cross3 (u v : vec) : vec := fun i =>
  match i with
  | 0%nat => u 1%nat * v 2%nat - u 2%nat * v 1%nat
  | 1%nat => u 2%nat * v 0%nat - u 0%nat * v 2%nat
  | _     => u 0%nat * v 1%nat - u 1%nat * v 0%nat
  end.

Definition norm3 (u : vec) : R := sqrt (dot3 u u).

(* Eigen: normalize() divides by the norm iff the squared norm is positive *)
Definition normalize (u : vec) : vec :=
  if Rlt_dec 0 (dot3 u u) then fun i => u i / norm3 u else u.

Definition delta (i j : nat) : R := if Nat.eqb i j then 1 else 0.

Definition det2 (M : mat) : R := M 0%nat 0%nat * M 1%nat 1%nat - M 0%nat 1%nat * M 1%nat 0%nat.

Definition det3 (M : mat) : R :=
    M 0%nat 0%nat * (M 1%nat 1%nat * M 2%nat 2%nat - M 1%nat 2%nat * M 2%nat 1%nat)
  - M 0%nat 1%nat * (M 1%nat 0%nat * M 2%nat 2%nat - M 1%nat 2%nat * M 2%nat 0%nat)
  + M 0%nat 2%nat * (M 1%nat 0%nat * M 2%nat 1%nat - M 1%nat 1%nat * M 2%nat 0%nat).

(* Eigen inverse() of a 2x2 matrix *)
Definition inv2 (M : mat) : mat := fun i j =>
  match i, j with
  | 0%nat, 0%nat =>   M 1%nat 1%nat / det2 M
  | 0%nat, _     => - M 0%nat 1%nat / det2 M
  | _    , 0%nat => - M 1%nat 0%nat / det2 M
  | _    , _     =>   M 0%nat 0%nat / det2 M
  end.

(* Eigen inverse() of a 3x3 matrix: transposed cofactors over the determinant *)
Definition inv3 (M : mat) : mat := fun i j =>
  match i, j with
  | 0%nat, 0%nat => (M 1%nat 1%nat * M 2%nat 2%nat - M 1%nat 2%nat * M 2%nat 1%nat) / det3 M
  | 0%nat, 1%nat => (M 0%nat 2%nat * M 2%nat 1%nat - M 0%nat 1%nat * M 2%nat 2%nat) / det3 M
  | 0%nat, _     => (M 0%nat 1%nat * M 1%nat 2%nat - M 0%nat 2%nat * M 1%nat 1%nat) / det3 M
  | 1%nat, 0%nat => (M 1%nat 2%nat * M 2%nat 0%nat - M 1%nat 0%nat * M 2%nat 2%nat) / det3 M
  | 1%nat, 1%nat => (M 0%nat 0%nat * M 2%nat 2%nat - M 0%nat 2%nat * M 2%nat 0%nat) / det3 M
  | 1%nat, _     => (M 0%nat 2%nat * M 1%nat 0%nat - M 0%nat 0%nat * M 1%nat 2%nat) / det3 M
  | _    , 0%nat => (M 1%nat 0%nat * M 2%nat 1%nat - M 1%nat 1%nat * M 2%nat 0%nat) / det3 M
  | _    , 1%nat => (M 0%nat 1%nat * M 2%nat 0%nat - M 0%nat 0%nat * M 2%nat 1%nat) / det3 M
  | _    , _     => (M 0%nat 0%nat * M 1%nat 1%nat - M 0%nat 1%nat * M 1%nat 0%nat) / det3 M
  end.

(* 3x3 matrix product and matrix-vector product *)
Definition mmul3 (M N : mat) : mat := fun i j => sum3 (fun k => M i k * N k j).
Definition mvec3 (M : mat) (v : vec) : vec := fun i => sum3 (fun k => M i k * v k).
Definition mtr (M : mat) : mat := fun i j => M j i.
Definition madd (M N : mat) : mat := fun i j => M i j + N i j.
Definition msub (M N : mat) : mat := fun i j => M i j - N i j.
Definition mscal (c : R) (M : mat) : mat := fun i j => c * M i j.
Definition mzero : mat := fun _ _ => 0.

(* Outcome of a call: a value, an exception (GISMO_ENSURE / GISMO_ERROR / GISMO_NO_IMPLEMENTATION),
   or undefined behaviour (out-of-bounds access, null dereference). *)
Inductive outcome (A : Type) : Type :=
| Ok (a : A)
| Throw
| UB.
Arguments Ok {A} a.
Arguments Throw {A}.
Arguments UB {A}.

(* ---- tactics ---- *)
Ltac unf := cbv [vadd vsub vscal vzero dot3 sum2 sum3 cross3 delta det2 det3 inv2 inv3 mmul3 mvec3 mtr madd msub
                 mscal mzero Nat.eqb] in *.

(* case split an index below 2 or below 3 *)
Ltac idx2 i H := destruct i as [|[|i]]; [ clear H | clear H | exfalso; clear -H; lia ].
Ltac idx3 i H := destruct i as [|[|[|i]]]; [ clear H | clear H | clear H | exfalso; clear -H; lia ].
