(* Assembled internal force vector and stiffness matrix (sum over quadrature points).
   The stress resultants and tangents of a point are functions of the strains of the point
   (what gsMaterialMatrixIntegrate returns, see the Integrate / Linear / Nonlinear models). *)
From Coq Require Import Reals List.
From Verif Require Import Tensor KinModel KinSpec.
Import ListNotations.
Open Scope R_scope.

Definition qdef (n : nat) (q : qpoint) (x : coefs) : jet := jadd (qori q) (fieldjet n (qbas q) x).
Definition qem (n : nat) (q : qpoint) (x : coefs) : vec := mem_strain (qori q) (qdef n q x).
Definition qef (n : nat) (q : qpoint) (x : coefs) : vec := bend_strain (qori q) (qdef n q x).

Fixpoint psum {A : Type} (l : list A) (f : A -> R) : R :=
  match l with nil => 0 | a :: r => f a + psum r f end.

(* entry (i,d) of the internal force: gsThinShellAssembler.hpp 2020-2023, 2045-2049 without the leading minus *)
Definition Fvec (n : nat) (pts : list qpoint) (x : coefs) (i d : nat) : R :=
  psum pts (fun q => qw q *
    (dot3 (qN q (qem n q x) (qef n q x)) (Em_der (qdef n q x) (bvar d (qbas q i)))
     + dot3 (qM q (qem n q x) (qef n q x)) (Ef_der_dof (qdef n q x) d (qbas q i)))).

(* entry ((i,d),(j,e)) of the matrix: 1749-1783 with the dof versions of all expressions *)
Definition Kentry (q : qpoint) (n : nat) (x : coefs) (i d j e : nat) : R :=
  let c := qdef n q x in
  let em := qem n q x in let ef := qef n q x in
  let A := qA q em ef in let B := qB q em ef in let C := qC q em ef in let D := qD q em ef in
  let v := bvar d (qbas q i) in let u := bvar e (qbas q j) in
  let Emv := Em_der c v in let Emu := Em_der c u in
  let Efv := Ef_der_dof c d (qbas q i) in let Efu := Ef_der_dof c e (qbas q j) in
  dot3 (vadd (rowmat Emv A) (rowmat Efv B)) Emu + flatdot v u (qN q em ef)
  + dot3 (vadd (rowmat Emv C) (rowmat Efv D)) Efu + Ef_der2 c v u (qM q em ef).
Definition Kmat (n : nat) (pts : list qpoint) (x : coefs) (i d j e : nat) : R :=
  psum pts (fun q => qw q * Kentry q n x i d j e).

(* matrix times coefficient vector *)
Definition Kapply (n : nat) (pts : list qpoint) (x y : coefs) (i d : nat) : R :=
  rsum n (fun j => sum3 (fun e => Kmat n pts x i d j e * y j e)).

(* total strain energy for a pointwise energy density *)
Definition energy (n : nat) (pts : list qpoint) (W : qpoint -> vec -> vec -> R) (x : coefs) : R :=
  psum pts (fun q => qw q * W q (qem n q x) (qef n q x)).

Definition cmove (x y : coefs) (t : R) : coefs := fun i d => x i d + t * y i d.
