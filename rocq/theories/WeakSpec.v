(* Specification for penalised linear problems. *)
From Coq Require Import Reals List.
From Verif Require Import Tensor KinModel KinSpec KinAsm LinSpec WeakModel.
Open Scope R_scope.

Definition is_null (n : nat) (x : coefs) : Prop := forall i d, (i < n)%nat -> (d < 3)%nat -> x i d = 0.
Definition admissible (n : nat) (fr : frees) (x : coefs) : Prop := prescribed n fr (fun _ _ => 0) x.
Definition posdef (n : nat) (fr : frees) (K : dmat) : Prop := forall x, admissible n fr x -> ~ is_null n x -> 0 < dquad n K x.
(* one solution for every load and every prescribed value *)
Definition uniquely_solvable (n : nat) (fr : frees) (K : dmat) : Prop := forall f g, exists x, solves n fr K f g x /\
  forall y, solves n fr K f g y -> forall i d, (i < n)%nat -> (d < 3)%nat -> y i d = x i d.
(* displacement at a side point and jump across an interface point *)
Definition wval (n : nat) (q : wpoint) (x : coefs) : vec := j0 (fieldjet n (wbas q) x).
Definition jump (n : nat) (q : ipoint) (x : coefs) : vec := fun c => j0 (fieldjet n (ibl q) x) c - j0 (fieldjet n (ibr q) x) c.
Definition vanishes (v : vec) : Prop := forall c, (c < 3)%nat -> v c = 0.
(* no motion is left by the eliminated dofs alone / by the eliminated dofs and the weakly held sides / and the couplings *)
Definition supported (n : nat) (fr : frees) (pts : list qpoint) : Prop :=
  forall x, admissible n fr x -> (forall q, In q pts -> strain_free n q x) -> is_null n x.
Definition supported_weakly (n : nat) (fr : frees) (pts : list qpoint) (wpts : list wpoint) : Prop :=
  forall x, admissible n fr x -> (forall q, In q pts -> strain_free n q x) -> (forall q, In q wpts -> vanishes (wval n q x)) -> is_null n x.
Definition supported_coupled (n : nat) (fr : frees) (pts : list qpoint) (ipts : list ipoint) : Prop :=
  forall x, admissible n fr x -> (forall q, In q pts -> strain_free n q x) -> (forall q, In q ipts -> vanishes (jump n q x)) -> is_null n x.
Definition wsound (wpts : list wpoint) : Prop := forall q, In q wpts -> 0 < ww q /\ 0 < wal q.
Definition isound (ipts : list ipoint) : Prop := forall q, In q ipts -> 0 < iw q /\ 0 < ial q.
