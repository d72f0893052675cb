(* The system of the linear assembly, src/gsThinShellAssembler.hpp 1540-1629 (3D with bending).
   Simplifications: the sum over the quadrature points is gsExprAssembler::assemble of the core library; the material data of a
   point are those of the undeformed shell (the call passes &m_patches twice, 1556-1559), written as the data at zero strain;
   weak boundary and interface terms, foundation and pressure (1580-1609) are the densities of KinModel and are not repeated here.
   Strongly imposed (eliminated) degrees of freedom are handled by gsExprAssembler: the rows of the free ones remain, the
   prescribed values enter through the columns. *)
From Coq Require Import Reals List.
From Verif Require Import Tensor KinModel KinSpec KinAsm.
Open Scope R_scope.

(* m_N_der * m_Em_der.tr() + m_M_der * m_Ef_der.tr(): 1571-1577, 1592-1598; the bending variation of a basis function is the dof
   version (deriv2(m_space,...)), 1572 *)
Definition Klentry (q : qpoint) (i d j e : nat) : R :=
  let c := qori q in
  let A := qA q vzero vzero in let B := qB q vzero vzero in let C := qC q vzero vzero in let D := qD q vzero vzero in
  let Emv := Em_der c (bvar d (qbas q i)) in let Emu := Em_der c (bvar e (qbas q j)) in
  let Efv := Ef_der_dof c d (qbas q i) in let Efu := Ef_der_dof c e (qbas q j) in
  dot3 (vadd (rowmat Emv A) (rowmat Efv B)) Emu + dot3 (vadd (rowmat Emv C) (rowmat Efv D)) Efu.
(* ( ... ) * meas(m_ori) summed over the points: 1592-1598 *)
Definition Klmat (n : nat) (pts : list qpoint) (i d j e : nat) : R := psum pts (fun q => qw q * Klentry q i d j e).
(* m_space * m_physforce * meas(m_ori): 1600-1603; g q is the force at the point *)
Definition Flin (pts : list qpoint) (g : qpoint -> vec) (i d : nat) : R := psum pts (fun q => qw q * dot3 (j0 (bvar d (qbas q i))) (g q)).
(* assembleMass: m_space * m_space.tr() * mm0 * meas(m_ori), 1460-1463; rho q is the density of the point *)
Definition Mmat (pts : list qpoint) (rho : qpoint -> R) (i d j e : nat) : R :=
  psum pts (fun q => qw q * Kmass (rho q) (bvar d (qbas q i)) (bvar e (qbas q j))).
