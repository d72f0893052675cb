(* Specification for moved and mirrored configurations: orthogonal maps of vectors, jets and dof vectors. *)
From Coq Require Import Reals List.
From Verif Require Import Tensor MetricSpec KinModel KinSpec KinAsm.
Open Scope R_scope.

(* orthogonal matrix with determinant s (1: rotation, -1: mirror) *)
Definition orth (Q : mat) (s : R) : Prop :=
  (forall i j, (i < 3)%nat -> (j < 3)%nat -> sum3 (fun k => Q k i * Q k j) = delta i j) /\ det3 Q = s /\ s * s = 1.
(* c' is c moved by Q and some translation *)
Definition jmoved (Q : mat) (c c' : jet) : Prop := forall i, (i < 3)%nat ->
  j1 c' i = mvec3 Q (j1 c) i /\ j2 c' i = mvec3 Q (j2 c) i /\ forall a, jsec c' a i = mvec3 Q (jsec c a) i.
(* every control point turned *)
Definition cturn (Q : mat) (x : coefs) : coefs := fun i d => mvec3 Q (x i) d.
(* displacement that takes the deformed shell X + x to Q (X + x) + b; X are the control points of the undeformed shell *)
Definition superposed (Q : mat) (b : vec) (X x : coefs) : coefs := fun i d => mvec3 Q (fun e => X i e + x i e) d + b d - X i d.
(* the undeformed shell of the point is represented in the same basis with control points X *)
Definition isoparametric (n : nat) (X : coefs) (q : qpoint) : Prop := forall i, (i < 3)%nat ->
  j1 (qori q) i = rsum n (fun k => X k i * s1 (qbas q k)) /\ j2 (qori q) i = rsum n (fun k => X k i * s2 (qbas q k)) /\
  forall a, jsec (qori q) a i = rsum n (fun k => X k i * ssec (qbas q k) a).
(* derivatives of a partition of unity *)
Definition unity (n : nat) (q : qpoint) : Prop :=
  rsum n (fun k => s1 (qbas q k)) = 0 /\ rsum n (fun k => s2 (qbas q k)) = 0 /\ forall a, rsum n (fun k => ssec (qbas q k) a) = 0.
(* resultants and tangents of a wall that is symmetric about its middle surface *)
Definition wall_symmetric (q : qpoint) : Prop := forall e f f', (forall a, (a < 3)%nat -> f' a = - f a) -> forall a, (a < 3)%nat ->
  qN q e f' a = qN q e f a /\ qM q e f' a = - qM q e f a /\ forall b, (b < 3)%nat ->
  qA q e f' a b = qA q e f a b /\ qB q e f' a b = - qB q e f a b /\ qC q e f' a b = - qC q e f a b /\ qD q e f' a b = qD q e f a b.
(* position and derivatives mapped by Q *)
Definition jturn (Q : mat) (c : jet) : jet :=
  mkjet (mvec3 Q (j0 c)) (mvec3 Q (j1 c)) (mvec3 Q (j2 c)) (mvec3 Q (j11 c)) (mvec3 Q (j22 c)) (mvec3 Q (j12 c)).
(* the same shell and material with all control points mapped by Q *)
Definition qturn (Q : mat) (q : qpoint) : qpoint := mkq (qw q) (qbas q) (jturn Q (qori q)) (qN q) (qM q) (qA q) (qB q) (qC q) (qD q).
(* the same surface with the two parameter directions exchanged *)
Definition swi (a : nat) : nat := match a with 0 => 1 | 1 => 0 | _ => a end%nat.
Definition jswap (c : jet) : jet := mkjet (j0 c) (j2 c) (j1 c) (j22 c) (j11 c) (j12 c).
Definition sswap (p : sjet) : sjet := mksjet (s0 p) (s2 p) (s1 p) (s22 p) (s11 p) (s12 p).
(* the same material: its response to the re-indexed strains is the re-indexed response *)
Definition swapped (q q' : qpoint) : Prop :=
  qw q' = qw q /\ (forall i, qbas q' i = sswap (qbas q i)) /\ qori q' = jswap (qori q) /\
  forall e f e' f', (forall a, (a < 3)%nat -> e' a = e (swi a) /\ f' a = f (swi a)) -> forall a, (a < 3)%nat ->
    qN q' e' f' a = qN q e f (swi a) /\ qM q' e' f' a = qM q e f (swi a) /\ forall b, (b < 3)%nat ->
    qA q' e' f' a b = qA q e f (swi a) (swi b) /\ qB q' e' f' a b = qB q e f (swi a) (swi b) /\
    qC q' e' f' a b = qC q e f (swi a) (swi b) /\ qD q' e' f' a b = qD q e f (swi a) (swi b).
(* the mirrored shell with its layers stacked in reversed order along the (now reversed) normal *)
Definition qmirror (Q : mat) (q : qpoint) : qpoint :=
  let m (f : vec) : vec := fun a => - f a in
  mkq (qw q) (qbas q) (jturn Q (qori q)) (fun e f => qN q e (m f)) (fun e f a => - qM q e (m f) a)
    (fun e f => qA q e (m f)) (fun e f a b => - qB q e (m f) a b) (fun e f a b => - qC q e (m f) a b) (fun e f => qD q e (m f)).
