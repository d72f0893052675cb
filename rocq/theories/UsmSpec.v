(* Specification of a change of units of the whole discretised problem: every length is multiplied by r, every modulus (stress) by k.
   Quantities are given by how they are measured, independently of how they are computed: a control point is a length, a thickness is a
   length, a force per area is a stress, a mass per volume has its own factor s. *)
From Coq Require Import Reals List.
From Verif Require Import Tensor KinModel KinSpec KinAsm LinSpec NonlinearModel RaModel WifModel.
Import ListNotations.
Open Scope R_scope.

(* displacements of the control points are lengths *)
Definition cscale (r : R) (x : coefs) : coefs := fun i d => r * x i d.
Definition cscale2 (r : R) (x : coefs2) : coefs2 := (cscale r (fst x), cscale r (snd x)).

(* The section of a shell in the new units.  The components belong to the parametric basis, whose vectors are lengths: membrane strains are
   multiplied by r^2, bending strains by r, force resultants (stress times length) by k r / r^2, moments by k r^2 / r^2. *)
Definition units_law (r k : R) (q q' : qpoint) : Prop := forall e f,
  (forall a, (a < 3)%nat -> qN q' (vscal (r * r) e) (vscal r f) a = k / r * qN q e f a /\ qM q' (vscal (r * r) e) (vscal r f) a = k * qM q e f a) /\
  (forall a b, (a < 3)%nat -> (b < 3)%nat ->
     qA q' (vscal (r * r) e) (vscal r f) a b = k / (r * r * r) * qA q e f a b /\ qB q' (vscal (r * r) e) (vscal r f) a b = k / (r * r) * qB q e f a b /\
     qC q' (vscal (r * r) e) (vscal r f) a b = k / (r * r) * qC q e f a b /\ qD q' (vscal (r * r) e) (vscal r f) a b = k / r * qD q e f a b).
(* the same quadrature point in the new units: the weight carries an area *)
Definition units_point (r k : R) (q q' : qpoint) : Prop :=
  qw q' = r * r * qw q /\ qbas q' = qbas q /\ qori q' = jscal r (qori q) /\ units_law r k q q'.
(* the points of both problems one by one; X relates further data given at the points *)
Definition units_pts (r k : R) (X : qpoint -> qpoint -> Prop) : list qpoint -> list qpoint -> Prop := Forall2 (fun q q' => units_point r k q q' /\ X q q').
Definition nodata (q q' : qpoint) : Prop := True.

(* an interface point: penalty factors of displacements are stiffnesses per area, those of rotations moments per area and angle *)
Definition units_ipoint (r k : R) (q q' : ipoint) : Prop :=
  iw q' = r * r * iw q /\ ibl q' = ibl q /\ ibr q' = ibr q /\ iol q' = jscal r (iol q) /\ ior q' = jscal r (ior q) /\ isl q' = isl q /\ isr q' = isr q /\
  forall e f, iad q' (vscal (r * r) e) (vscal r f) = k / r * iad q e f /\ iar q' (vscal (r * r) e) (vscal r f) = k * r * iar q e f.

(* a point of a shell of linear material in the new units *)
Definition units_apoint (r k : R) (q : apoint) : apoint :=
  mkap (aw q) (abas q) (jscal r (aori q)) (arule q) (r * athick q) (mkPar (k * pE (apar q)) (pnu (apar q)) (pratio (apar q))).

(* a mode of vibration: no displacement where it is prescribed, stiffness and inertia in balance elsewhere *)
Definition mode (n : nat) (fr : frees) (K M : dmat) (lam : R) (x : coefs) : Prop :=
  prescribed n fr (fun _ _ => 0) x /\ forall i d, (i < n)%nat -> (d < 3)%nat -> fr i d = true -> dapply n K x i d = lam * dapply n M x i d.
