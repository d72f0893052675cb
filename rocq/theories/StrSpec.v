(* Specification for structures of coupled patches: rigid motions of the whole structure, the linear system of a Newton step, balance of the loads. *)
From Coq Require Import Reals List.
From Verif Require Import Tensor MetricSpec KinModel KinSpec KinAsm ObjSpec WifModel WifSpec StrModel.
Open Scope R_scope.

(* every patch in its own basis, with control points X, bases that sum to one; coupled displacements only where the undeformed patches meet *)
Definition proper (P : nat) (S : structure) (X : field) : Prop :=
  (forall p q, (p < P)%nat -> In q (spts S p) -> represents (snum S p) (qbas q) (X p) (qori q) /\ punity (snum S p) (qbas q)) /\
  (forall c, In c (sifc S) -> (fl c < P)%nat /\ (fr c < P)%nat /\
     forall q, In q (fpts c) -> coupled (snum S (fl c)) (snum S (fr c)) (fstate c X) q /\ (fc0 c = true -> meets q)).
(* the deformed structure is regular *)
Definition sregular (P : nat) (S : structure) (x : field) : Prop :=
  (forall p q, (p < P)%nat -> In q (spts S p) -> KinSpec.regular (qdef (snum S p) q (x p))) /\
  (forall c q, In c (sifc S) -> In q (fpts c) -> iregular (snum S (fl c)) (snum S (fr c)) (fstate c x) q).
(* the whole deformed structure moved by Q and b; a field of vectors turned *)
Definition smoved (Q : mat) (b : vec) (X x : field) : field := fun p => superposed Q b (X p) (x p).
Definition sturn (Q : mat) (f : field) : field := fun p => cturn Q (f p).
Definition sadd (x y : field) : field := fun p i d => x p i d + y p i d.
(* a property of every degree of freedom of P patches *)
Definition every (P : nat) (S : structure) (A : nat -> nat -> nat -> Prop) : Prop := forall p i d, (p < P)%nat -> (i < snum S p)%nat -> (d < 3)%nat -> A p i d.
(* matrix times vector over all patches *)
Definition sapply (P : nat) (S : structure) (K : nat -> nat -> nat -> nat -> nat -> nat -> R) (y : field) (p i d : nat) : R :=
  rsum P (fun q => rsum (snum S q) (fun j => sum3 (fun e => K p i d q j e * y q j e))).
(* Newton step from x under the loads f *)
Definition newton (P : nat) (S : structure) (f x y : field) : Prop := every P S (fun p i d => sapply P S (Smat S x) y p i d = Svec S f x p i d).
Definition equilibrium (P : nat) (S : structure) (f x : field) : Prop := every P S (fun p i d => Svec S f x p i d = 0).
(* resultants of all loads, the loads acting at the deformed control points *)
Definition total_force (P : nat) (S : structure) (f : field) (d : nat) : R := rsum P (fun p => netforce (snum S p) (f p) d).
Definition total_moment (P : nat) (S : structure) (X x f : field) (d : nat) : R := rsum P (fun p => netmoment (snum S p) (position (X p) (x p)) (f p) d).
(* quadratic form of a matrix over all patches; jump of a field at a point of an interface *)
Definition squad (P : nat) (S : structure) (K : nat -> nat -> nat -> nat -> nat -> nat -> R) (y : field) : R :=
  rsum P (fun p => rsum (snum S p) (fun i => sum3 (fun d => sapply P S K y p i d * y p i d))).
Definition sjump (S : structure) (c : iface) (q : ipoint) (y : field) : vec := fun d =>
  rsum (snum S (fl c)) (fun i => y (fl c) i d * s0 (ibl q i)) - rsum (snum S (fr c)) (fun i => y (fr c) i d * s0 (ibr q i)).
