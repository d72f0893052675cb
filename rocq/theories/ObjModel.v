(* Assembled follower pressure.  gsThinShellAssembler.hpp 425-461 (_assemblePressure, dim 3): vector p * space * sn(def).normalized() *
   meas(ori), matrix -p * space * var1(space,def).tr() * meas(ori); the measure is in the weight qw (see KinModel.v). *)
From Coq Require Import Reals List.
From Verif Require Import Tensor KinModel KinSpec KinAsm.
Open Scope R_scope.

(* vector, 452-459 *)
Definition Pvec (n : nat) (pts : list qpoint) (p : qpoint -> R) (x : coefs) (i d : nat) : R :=
  psum pts (fun q => qw q * Fpress (p q) (qdef n q x) (bvar d (qbas q i))).
(* matrix, 431-439 *)
Definition Pmat (n : nat) (pts : list qpoint) (p : qpoint -> R) (x : coefs) (i d j e : nat) : R :=
  psum pts (fun q => qw q * Kpress (p q) (qdef n q x) (bvar d (qbas q i)) (bvar e (qbas q j))).
