(* Specification for coupled patches that are moved together. *)
From Coq Require Import Reals List.
From Verif Require Import Tensor MetricSpec KinModel KinSpec KinAsm ObjSpec WifModel.
Open Scope R_scope.

(* value and derivatives of the undeformed patch in its own basis with control points X *)
Definition represents (n : nat) (bas : nat -> sjet) (X : coefs) (o : jet) : Prop := forall i, (i < 3)%nat ->
  j0 o i = rsum n (fun k => X k i * s0 (bas k)) /\ j1 o i = rsum n (fun k => X k i * s1 (bas k)) /\ j2 o i = rsum n (fun k => X k i * s2 (bas k)) /\
  forall a, jsec o a i = rsum n (fun k => X k i * ssec (bas k) a).
(* partition of unity and its derivatives *)
Definition punity (n : nat) (bas : nat -> sjet) : Prop :=
  rsum n (fun k => s0 (bas k)) = 1 /\ rsum n (fun k => s1 (bas k)) = 0 /\ rsum n (fun k => s2 (bas k)) = 0 /\ forall a, rsum n (fun k => ssec (bas k) a) = 0.
(* the two undeformed patches meet at the point *)
Definition meets (q : ipoint) : Prop := forall i, (i < 3)%nat -> j0 (iol q) i = j0 (ior q) i.
Definition coupled (n m : nat) (X : coefs2) (q : ipoint) : Prop :=
  represents n (ibl q) (fst X) (iol q) /\ represents m (ibr q) (snd X) (ior q) /\ punity n (ibl q) /\ punity m (ibr q).
(* both patches moved by the same rigid motion *)
Definition superposed2 (Q : mat) (b : vec) (X x : coefs2) : coefs2 := (superposed Q b (fst X) (fst x), superposed Q b (snd X) (snd x)).
(* force and moment (about the origin) of the nodal forces f on n control points at positions p *)
Definition netforce (n : nat) (f : nat -> nat -> R) (d : nat) : R := rsum n (fun i => f i d).
Definition netmoment (n : nat) (p f : nat -> nat -> R) (d : nat) : R := rsum n (fun i => cross3 (p i) (f i) d).
Definition position (X x : coefs) : nat -> nat -> R := fun i d => X i d + x i d.
(* the interface of the model with all control points mapped by Q *)
Definition iturn (Q : mat) (q : ipoint) : ipoint := mki (iw q) (iad q) (iar q) (ibl q) (ibr q) (jturn Q (iol q)) (jturn Q (ior q)) (isl q) (isr q).
Definition cturn2 (Q : mat) (x : coefs2) : coefs2 := (cturn Q (fst x), cturn Q (snd x)).
(* both deformed patches are regular at the point and the edge orientations are signs *)
Definition iregular (n m : nat) (x : coefs2) (q : ipoint) : Prop :=
  let c := idef n m q x in KinSpec.regular (fst c) /\ KinSpec.regular (snd c) /\ (fst (isl q) = 1 \/ fst (isl q) = -1) /\ (fst (isr q) = 1 \/ fst (isr q) = -1).
