(* Goal functionals, dual load vectors, error estimators and error indicators of the dual-weighted-residual assembler.
   Sources: src/gsThinShellAssemblerDWR.hpp / .h, src/gsThinShellDWRHelper.h.  Shells in R^3 (d = 3, with bending) unless stated.
   External contracts (G+Smo core, not in /repo): as in KinModel.v; ev.integral / integralBdr sum weight * expression over quadrature
   points; ev.eval of an expression without test space returns one number; ExprAssembler refuses to assemble an expression that has no
   test space; uv(i,n) is the i-th unit vector of length n and an index i >= n is only checked by an assertion (undefined otherwise). *)
From Coq Require Import Reals List Arith.
From Verif Require Import Tensor PrincipalModel KinModel KinAsm.
Import ListNotations.
Open Scope R_scope.

(* enum class GoalFunction, gsThinShellAssemblerDWR.h 25-39 (Modal and Buckling are not accepted by the functions below) *)
Inductive goal := GDisplacement | GStretch | GPStrain | GPStress | GMembraneStrain | GMembraneStress | GMembraneForce
  | GFlexuralStrain | GFlexuralStress | GFlexuralMoment.
(* the three overloads of computeGoal / _assembleDual *)
Inductive site := Interior | Boundary | Point.

(* Material data at one point, as functions of the membrane / bending strain, or of the deformed geometry.
   hpp 226-262, 2766-2778: N, M, A..D integrated over the thickness; S0, S1, A0, D0 evaluated at Z = 0 (MatrixA, MatrixD, VectorN,
   VectorM); T: StretchTransform, Tp: PStressTransform, P: PStress (two values), all at Z = 0 *)
Record law := mklaw {
  lN : vec -> vec -> vec; lM : vec -> vec -> vec; lS0 : vec -> vec -> vec; lS1 : vec -> vec -> vec;
  lA : vec -> vec -> mat; lB : vec -> vec -> mat; lC : vec -> vec -> mat; lD : vec -> vec -> mat;
  lA0 : vec -> vec -> mat; lD0 : vec -> vec -> mat;
  lT : jet -> mat; lTp : jet -> mat; lP : jet -> vec }.

(* gsMaterialMatrixBaseDim.hpp 90-108 eval3D_spec2con = eval3D_pstretchTransform (gsMaterialMatrixBase.h 333), which fills lT:
   conbasis = m_gcov_ori, sbasis = principal stretch directions.  gsMaterialMatrixBaseDim.hpp 68-86 eval3D_spec2cov =
   eval3D_pstressTransform (gsMaterialMatrixBase.h 346), which fills lTp: covbasis = m_gcov_ori, the same directions *)
Definition spec2con (gcov gcon sbasis : nat -> vec) : mat := transformation gcov sbasis.
Definition spec2cov (gcov gcon sbasis : nat -> vec) : mat := transformation gcov sbasis.

(* weight * meas(Gori), scalar basis functions of the (L or H) space at the point, undeformed geometry, material.
   For the point version the weight is 1. *)
Record gpoint := mkg { gw : R; gbas : nat -> sjet; gori : jet; glaw : law }.

(* m12 = diag(1,1,1/2): hpp 274-275 *)
Definition m12 (x : vec) : vec := fun a => match a with 2%nat => x 2%nat * (1 / 2) | _ => x a end.
(* Cm = flat(jac(Gdef).tr()*jac(Gdef)) * m12: 277, 2807 *)
Definition Cm (def : jet) : vec := m12 (Em_der def def).
(* Cm_der = 2 * flat(jac(Gdef).tr()*jac(space)) * m12: 278 *)
Definition Cm_der (def v : jet) : vec := m12 (vscal 2 (Em_der def v)).
(* Em: 285, 2813 *)
Definition Em (ori def : jet) : vec := fun a => (1 / 2) * (Em_der def def a - Em_der ori ori a).
(* Ef: 293, 2819 *)
Definition Ef (ori def : jet) : vec :=
  mult2 (fun a => deriv2_map ori (unormal ori) a - deriv2_map def (unormal def) a).
(* X * reshape(T,3,3).tr() for a row X, reshape(T,3,3) * X.tr() for the goal: 281-282, 2810 *)
Definition applyT (T : mat) (x : vec) : vec := mvec3 T x.

(* the quantity of interest.  Interior 2826-2965, Boundary 3048-3189: identical except for the integration; Point: lambda uses the
   transposed matrix, 3246 *)
Definition goal_q (s : site) (l : law) (ori def : jet) (g : goal) : vec :=
  let em := Em ori def in let ef := Ef ori def in
  match g with
  | GDisplacement => vsub (j0 def) (j0 ori)
  | GStretch => match s with Point => applyT (mtr (lT l def)) (Cm def) | _ => applyT (lT l def) (Cm def) end
  | GPStrain => applyT (lT l def) (m12 em)
  | GPStress => fun a => match a with 2%nat => 0 | _ => lP l def a end  (* a vector of length 2 *)
  | GMembraneStrain => em
  | GMembraneStress => lS0 l em ef
  | GMembraneForce => lN l em ef
  | GFlexuralStrain => ef
  | GFlexuralStress => lS1 l em ef
  | GFlexuralMoment => lM l em ef
  end.
(* number of components of the quantity *)
Definition goal_dim (g : goal) : nat := match g with GPStress => 2 | _ => 3 end.
(* integrand: component 9 is the squared norm.  Point: the component version of Stretch uses the displacement, 3310 *)
Definition goal_dens (s : site) (l : law) (ori def : jet) (g : goal) (comp : nat) : R :=
  if Nat.eqb comp 9 then dot3 (goal_q s l ori def g) (goal_q s l ori def g)
  else match s, g with
       | Point, GStretch => (j0 def comp - j0 ori comp)
       | _, _ => goal_q s l ori def g comp
       end.
Definition goal_status (g : goal) (comp : nat) : outcome unit :=
  if (Nat.eqb comp 9 || Nat.ltb comp (goal_dim g))%bool then Ok tt else UB.
(* computeGoal: 2747-2966, 2969-3190, 3192-3524 *)
Definition computeGoal (s : site) (g : goal) (comp : nat) (pts : list gpoint) (def : gpoint -> jet) : outcome R :=
  match goal_status g comp with
  | Ok _ => Ok (psum pts (fun p => gw p * goal_dens s (glaw p) (gori p) (def p) g comp))
  | Throw => Throw | UB => UB
  end.

(* ------------------------------------------------------------------ dual load *)
(* first variation of the quantity for the degree of freedom "component d of basis function b": 277-312 (756-761, 1214-1219).
   Emv = Em_der, Efv = Ef_der of the degree of freedom *)
Definition dual_q (l : law) (ori def : jet) (g : goal) (v0 Emv Efv : vec) : vec :=
  let em := Em ori def in let ef := Ef ori def in
  match g with
  | GDisplacement => v0
  | GStretch => applyT (lT l def) (m12 (vscal 2 Emv))
  | GPStrain => applyT (lT l def) (m12 Emv)
  | GPStress => applyT (lTp l def) (rowmat Emv (lA0 l em ef))
  | GMembraneStrain => Emv
  | GMembraneStress => rowmat Emv (lA0 l em ef)
  | GMembraneForce => vadd (rowmat Emv (lA l em ef)) (rowmat Efv (lB l em ef))
  | GFlexuralStrain => Efv
  | GFlexuralStress => rowmat Efv (lD0 l em ef)
  | GFlexuralMoment => vadd (rowmat Emv (lC l em ef)) (rowmat Efv (lD l em ef))
  end.
(* lambda of _assembleDual is Cm * reshape(T,3,3).tr() in all three versions (281, 733, 1192) *)
Definition dual_weight (l : law) (ori def prim : jet) (g : goal) : vec :=
  match g with
  | GDisplacement => j0 prim                                   (* usol: 314, 766, 1237 *)
  | _ => goal_q Interior l ori def g
  end.
(* conv = [[1,0],[0,1],[0,0]]: 411-416; Interior / Boundary drop the third entry of Smp_der *)
Definition conv (x : vec) : vec := fun a => match a with 2%nat => 0 | _ => x a end.
Definition dual_dens (s : site) (l : law) (ori def prim : jet) (g : goal) (comp : nat) (v0 Emv Efv : vec) : R :=
  let q := match s, g with Point, GPStress => dual_q l ori def g v0 Emv Efv
                         | _, GPStress => conv (dual_q l ori def g v0 Emv Efv)
                         | _, _ => dual_q l ori def g v0 Emv Efv end in
  if Nat.eqb comp 9 then
    match s, g with
    | Boundary, GFlexuralStrain => 2 * dot3 (mult2 q) (Ef ori def)   (* 1004-1006: m110 reads mult2t *)
    | _, _ => 2 * dot3 q (dual_weight l ori def prim g)
    end
  else q comp.
(* which requests are assembled.  Boundary MembraneForce, one component (986): the expression N.tr()*uv has no test space, assembly fails,
   status AssemblyError.  Point: the same expression (1462) evaluates to one number and tmp(i+j*rows,0) is read out of range (1472);
   PStress norm (1340) multiplies 3 columns with a vector of length 2.  Components >= 3 (>= 2 for PStress in the conv version): uv. *)
Definition dual_status (s : site) (g : goal) (comp : nat) : outcome unit :=
  match s, g, comp with
  | Boundary, GMembraneForce, 9%nat => Ok tt
  | Boundary, GMembraneForce, _ => if Nat.ltb comp 3 then Throw else UB
  | Point, GMembraneForce, 9%nat => Ok tt
  | Point, GMembraneForce, _ => UB
  | Point, GPStress, 9%nat => UB
  | Point, GPStress, _ => if Nat.ltb comp 3 then Ok tt else UB
  | _, _, _ => goal_status g comp
  end.
(* entry (i,d) of the dual vector.  _assembleDual: 195-644, 647-1104, 1107-1587.
   Boundary conditions are homogeneous and eliminated degrees of freedom are skipped: the entries below are those of the free ones. *)
Definition assembleDual (s : site) (g : goal) (comp : nat) (pts : list gpoint) (def prim : gpoint -> jet) : outcome (nat -> nat -> R) :=
  match dual_status s g comp with
  | Ok _ => Ok (fun i d => psum pts (fun p => gw p *
      dual_dens s (glaw p) (gori p) (def p) (prim p) g comp
        (j0 (bvar d (gbas p i))) (Em_der (def p) (bvar d (gbas p i))) (Ef_der_dof (def p) d (gbas p i))))
  | Throw => Throw | UB => UB
  end.
