(* A structure of several patches coupled weakly along interfaces: what assembleVector and assembleMatrix (gsThinShellAssembler.hpp 1712-1786 and
   1989-2060, dim 3 with bending) put into the right-hand side and into the matrix: loads minus internal forces of every patch (2030-2042), the
   interface vector (2045), the stiffness of every patch (1766-1776) and the interface matrix (1779).
   Simplifications: the loads of each control point are given; every degree of freedom is free; foundations, weak boundary conditions and pressure are
   in other models (KinModel, WeakModel); the list of interfaces is that of m_weakC0 and m_weakC1 (871-877), each interface with its two switches. *)
From Coq Require Import Reals List Bool Arith.
From Verif Require Import Tensor KinModel KinSpec KinAsm WifModel.
Import ListNotations.
Open Scope R_scope.

(* one interface: first() and second() patch (assembleIfc uses left() and right()), in the lists m_weakC0 / m_weakC1, its quadrature points *)
Record iface := mkif { fl : nat; fr : nat; fc0 : bool; fc1 : bool; fpts : list ipoint }.
(* patch p has snum p control points and the quadrature points spts p *)
Record structure := mkstr { snum : nat -> nat; spts : nat -> list qpoint; sifc : list iface }.
(* displacements, loads or residuals of the control points of every patch *)
Definition field := nat -> coefs.

(* patch on the left (false) or right (true) of the interface *)
Definition fside (c : iface) (r : bool) : nat := if r then fr c else fl c.
(* left and right patch of the deformed geometry, 1050: m_def.left(), m_def.right() *)
Definition fstate (c : iface) (x : field) : coefs2 := (x (fl c), x (fr c)).
(* 1198-1228: left() blocks go to the rows of the left patch, right() blocks to those of the right patch *)
Definition fvec (S : structure) (x : field) (c : iface) (r : bool) (i d : nat) : R :=
  Ivec (snum S (fl c)) (snum S (fr c)) (fc0 c) (fc1 c) (fpts c) (fstate c x) r i d.
(* 1064-1157 *)
Definition fmat (S : structure) (x : field) (c : iface) (r : bool) (i d : nat) (r' : bool) (j e : nat) : R :=
  Imat (snum S (fl c)) (snum S (fr c)) (fc0 c) (fc1 c) (fpts c) (fstate c x) r i d r' j e.
(* patches have their own rows and columns (no matched interfaces in the mapper, 1065-1073: left and right blocks are written separately) *)
Definition at_ (a p : nat) (v : R) : R := if Nat.eqb a p then v else 0.
(* the vector of assembleVector *)
Definition Svec (S : structure) (f x : field) (p i d : nat) : R :=
  f p i d - Fvec (snum S p) (spts S p) (x p) i d
  + psum (sifc S) (fun c => at_ (fside c false) p (fvec S x c false i d) + at_ (fside c true) p (fvec S x c true i d)).
(* the matrix of assembleMatrix: row (p,i,d), column (q,j,e) *)
Definition Smat (S : structure) (x : field) (p i d q j e : nat) : R :=
  at_ p q (Kmat (snum S p) (spts S p) (x p) i d j e)
  + psum (sifc S) (fun c =>
      at_ (fside c false) p (at_ (fside c false) q (fmat S x c false i d false j e)) + at_ (fside c false) p (at_ (fside c true) q (fmat S x c false i d true j e))
    + at_ (fside c true) p (at_ (fside c false) q (fmat S x c true i d false j e)) + at_ (fside c true) p (at_ (fside c true) q (fmat S x c true i d true j e))).
