(* Hyperelastic shells: what the assembler integrates over the thickness at one surface point.
   gsMaterialMatrixIntegrate evaluates eval3D_stress / eval3D_matrix at the heights of the thickness rule
   (src/gsMaterialMatrixIntegrate.hpp 301-331, 405-429: moments 0, 1 for VectorN, VectorM, moments 0, 1, 1, 2 for MatrixA..D)
   and the material reads the two metrics at that height (src/gsMaterialMatrixBaseDim.hpp 1099-1101, 1230-1232).
   A law is given by its stress and its tangent as functions of the undeformed and the deformed metric; the instances are the
   analytical incompressible laws and the compressible laws at a given thickness component.
   Simplification: eval3D_stress returns zero when the two contravariant metrics agree up to a relative 1e-12
   (gsMaterialMatrixNonlinear.hpp 900, 931); that cut-off is not applied here (exact agreement gives zero anyway, C21). *)
From Coq Require Import Reals List.
From Verif Require Import Tensor MetricModel LinearModel IntegrateModel NonlinearModel KinModel KinAsm.
Import ListNotations.
Open Scope R_scope.

(* surface data of a jet: tangents and second derivatives *)
Definition sgeo (c : jet) : geo := mkGeo (fun i => jcol c i) (fun i => jsec c i).

Record hlaw := mkHlaw { hS : mat -> mat -> mat; hC : mat -> mat -> ten4 }.
(* gsMaterialMatrixNonlinear.hpp 894-907, 1260-1273 *)
Definition inc_law (w : law) (p : par) : hlaw :=
  mkHlaw (fun Go G => S_inc w p (metric_of Go G)) (fun Go G => C_inc w p (metric_of Go G)).
(* 795-816, 2083-2107: c33 is what the thickness iteration returns for the two metrics *)
Definition comp_law (w : law) (p : par) (c33 : mat -> mat -> R) : hlaw :=
  mkHlaw (fun Go G => S_comp w p (metric_of Go G) (c33 Go G)) (fun Go G => condense (C3D w p (metric_of Go G) (c33 Go G))).

(* eval3D_stress and eval3D_matrix at height h *)
Definition stress_at (L : hlaw) (ori def : jet) (h : R) : vec := stress_out false (hS L (Gcov (sgeo ori) h) (Gcov (sgeo def) h)).
Definition matrix_at (L : hlaw) (ori def : jet) (h : R) : mat := fun a b => matrix_out (hC L (Gcov (sgeo ori) h) (Gcov (sgeo def) h)) a b.

(* moment m of the stress / of the tangent; q is the rule on [-1/2,1/2], t the thickness *)
Definition hyp_vec (L : hlaw) (q : rule) (t : R) (m : nat) (ori def : jet) : vec := fun a =>
  integrateZ q t m (fun z => stress_at L ori def (z * t) a).
Definition hyp_mat (L : hlaw) (q : rule) (t : R) (m : nat) (ori def : jet) : mat := fun a b =>
  integrateZ q t m (fun z => matrix_at L ori def (z * t) a b).

(* internal force density (gsThinShellAssembler.hpp 2038-2042) and stiffness density (1757-1776) of the shell, and of the membrane
   formulation (bending = false, 2106-2110 and 1817-1835), with these resultants *)
Definition hyp_force (L : hlaw) (q : rule) (t : R) (ori def v : jet) : R :=
  Fint def (hyp_vec L q t 0 ori def) (hyp_vec L q t 1 ori def) v.
Definition hyp_stiff (L : hlaw) (q : rule) (t : R) (ori def v u : jet) : R :=
  Kstiff def (hyp_mat L q t 0 ori def) (hyp_mat L q t 1 ori def) (hyp_mat L q t 1 ori def) (hyp_mat L q t 2 ori def)
    (hyp_vec L q t 0 ori def) (hyp_vec L q t 1 ori def) v u.
Definition mem_force (L : hlaw) (q : rule) (t : R) (ori def v : jet) : R := Fint_mem def (hyp_vec L q t 0 ori def) v.
Definition mem_stiff (L : hlaw) (q : rule) (t : R) (ori def v u : jet) : R :=
  Kstiff_mem def (hyp_mat L q t 0 ori def) (hyp_vec L q t 0 ori def) v u.

(* one quadrature point of the assembly loop (gsExprAssembler::assemble, core): weight times meas(ori), basis functions, undeformed
   jet, thickness rule and thickness; the material parameters are constant here *)
Record hpoint := mkhp { hw : R; hbas : nat -> sjet; hori : jet; hrule : rule; hthick : R }.
Definition hdef (n : nat) (q : hpoint) (x : coefs) : jet := jadd (hori q) (fieldjet n (hbas q) x).
(* the expressions for basis functions (Ef_der_dof) equal those for the field bvar d p (KinStiff.Ef_dof_ext), which are used here;
   internal force entry (i,d), without the leading minus (gsThinShellAssembler.hpp 2038-2049) *)
Definition hFvec (L : hlaw) (n : nat) (pts : list hpoint) (x : coefs) (i d : nat) : R :=
  psum pts (fun q => hw q * hyp_force L (hrule q) (hthick q) (hori q) (hdef n q x) (bvar d (hbas q i))).
(* stiffness entry ((i,d),(j,e)) (1749-1783) *)
Definition hKmat (L : hlaw) (n : nat) (pts : list hpoint) (x : coefs) (i d j e : nat) : R :=
  psum pts (fun q => hw q * hyp_stiff L (hrule q) (hthick q) (hori q) (hdef n q x) (bvar d (hbas q i)) (bvar e (hbas q j))).
