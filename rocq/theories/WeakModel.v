(* The penalty terms of the linear assembly: weakly imposed displacements and weakly coupled patches (C0 part),
   src/gsThinShellAssembler.hpp 565-650 and 879-916.  The densities are those of KinModel.
   Simplifications: the penalty of a point is the option m_alpha_d_bc (m_alpha_d_ifc) times the largest entry of the membrane
   stiffness divided by the element size (595, 903); the option is the argument t, the rest is the number wal (ial) of the point.
   assembleBdr and assembleIfc are sums over the quadrature points of the sides. *)
From Coq Require Import Reals List.
From Verif Require Import Tensor KinModel KinSpec KinAsm LinModel.
Open Scope R_scope.

(* a quadrature point of a side marked "Weak Dirichlet": weight times meas, stiffness over size, basis functions, prescribed value *)
Record wpoint := mkw { ww : R; wal : R; wbas : nat -> sjet; wg : vec }.
(* -(alpha_d * m_space * m_space.tr()) * meas(m_ori): 599-604 *)
Definition Kwd (t : R) (wpts : list wpoint) (i d j e : nat) : R :=
  psum wpts (fun q => ww q * Kweakdir (t * wal q) (bvar d (wbas q i)) (bvar e (wbas q j))).
(* -(alpha_d * m_space * g_N) * meas(m_ori): 641-646 *)
Definition Fwd (t : R) (wpts : list wpoint) (i d : nat) : R :=
  psum wpts (fun q => ww q * Fweakdir_lin3 (t * wal q) (wg q) (bvar d (wbas q i))).
(* a quadrature point of an interface: weight times meas, stiffness over size, basis functions on the two sides *)
Record ipoint := mki { iw : R; ial : R; ibl : nat -> sjet; ibr : nat -> sjet }.
(* the four blocks of the C^0 coupling: 907-916 *)
Definition Kif (t : R) (ipts : list ipoint) (i d j e : nat) : R :=
  psum ipts (fun q => iw q * Kifc (t * ial q) (bvar d (ibl q i), bvar d (ibr q i)) (bvar e (ibl q j), bvar e (ibr q j))).
(* assemble() adds the penalty blocks to the stiffness: 1580-1609 *)
Definition Kweak (n : nat) (pts : list qpoint) (t : R) (wpts : list wpoint) (i d j e : nat) : R := Klmat n pts i d j e + Kwd t wpts i d j e.
Definition Kcoup (n : nat) (pts : list qpoint) (t : R) (ipts : list ipoint) (i d j e : nat) : R := Klmat n pts i d j e + Kif t ipts i d j e.
