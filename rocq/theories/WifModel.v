(* Assembled weak coupling of two patches along an interface: gsThinShellAssembler.hpp 1024-1228 (_assembleWeakIfc_impl, dim 3, nonlinear:
   matrix 1024-1158, vector 1160-1228).  The integrands of one interface point are those of KinModel.v (Kifc, KifcC1, KifcIn, Fifc3, FifcC1, FifcIn);
   here they are summed over the points and over the two families of basis functions.
   Simplifications: one interface; gsExprAssembler::assembleIfc (core) is weight * expression summed over the points, meas(ori) is in the weight. *)
From Coq Require Import Reals List Bool.
From Verif Require Import Tensor KinModel KinSpec KinAsm.
Import ListNotations.
Open Scope R_scope.

(* one interface point.  The penalty factors (1046-1048) are the option times the largest entry of the material matrix divided by the
   element size: functions of the strains of the first patch *)
Record ipoint := mki {
  iw : R;                                   (* weight * meas(ori) *)
  iad : vec -> vec -> R; iar : vec -> vec -> R;   (* alpha_d, alpha_r *)
  ibl : nat -> sjet; ibr : nat -> sjet;     (* basis functions of the left and of the right patch *)
  iol : jet; ior : jet;                     (* undeformed patches *)
  isl : side; isr : side }.                 (* the interface as an edge of the left / right patch *)

(* displacements of the control points of both patches *)
Definition coefs2 := (coefs * coefs)%type.
Definition iori (q : ipoint) : jet * jet := (iol q, ior q).
Definition idef (n m : nat) (q : ipoint) (x : coefs2) : jet * jet :=
  (jadd (iol q) (fieldjet n (ibl q) (fst x)), jadd (ior q) (fieldjet m (ibr q) (snd x))).
Definition iad_at (n m : nat) (q : ipoint) (x : coefs2) : R := iad q (mem_strain (iol q) (fst (idef n m q x))) (bend_strain (iol q) (fst (idef n m q x))).
Definition iar_at (n m : nat) (q : ipoint) (x : coefs2) : R := iar q (mem_strain (iol q) (fst (idef n m q x))) (bend_strain (iol q) (fst (idef n m q x))).
(* space.left() (r = false) / space.right() (r = true), component d of basis function i *)
Definition itest (q : ipoint) (r : bool) (i d : nat) : jet * jet :=
  if r then (jzero, bvar d (ibr q i)) else (bvar d (ibl q i), jzero).
(* the integrand of the vector for the interfaces listed in m_weakC0 (c0) and m_weakC1 (c1): 1198-1228 *)
Definition Fipt (n m : nat) (c0 c1 : bool) (x : coefs2) (q : ipoint) (v : jet * jet) : R :=
  (if c0 then Fifc3 (iad_at n m q x) (iori q) (idef n m q x) v else 0)
  + (if c1 then FifcC1 (iar_at n m q x) (iori q) (idef n m q x) v + FifcIn (iar_at n m q x) (isl q) (isr q) (iori q) (idef n m q x) v else 0).
(* the integrand of the matrix: 1064-1157 *)
Definition Kipt (n m : nat) (c0 c1 : bool) (x : coefs2) (q : ipoint) (v u : jet * jet) : R :=
  (if c0 then Kifc (iad_at n m q x) v u else 0)
  + (if c1 then KifcC1 (iar_at n m q x) (iori q) (idef n m q x) v u + KifcIn (iar_at n m q x) (isl q) (isr q) (iori q) (idef n m q x) v u else 0).
Definition Ivec (n m : nat) (c0 c1 : bool) (pts : list ipoint) (x : coefs2) (r : bool) (i d : nat) : R :=
  psum pts (fun q => iw q * Fipt n m c0 c1 x q (itest q r i d)).
Definition Imat (n m : nat) (c0 c1 : bool) (pts : list ipoint) (x : coefs2) (r : bool) (i d : nat) (r' : bool) (j e : nat) : R :=
  psum pts (fun q => iw q * Kipt n m c0 c1 x q (itest q r i d) (itest q r' j e)).
