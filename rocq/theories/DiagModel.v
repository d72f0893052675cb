(* Post-processing queries of gsThinShellAssembler: areas, norms, energies, interface errors.
   A quadrature rule is a list of points carrying the parametric weight and the jets the expressions read;
   gsExprEvaluator::integral / integralInterface is the weighted sum of the integrand, maxInterface the largest value. *)
From Coq Require Import Reals List.
From Verif Require Import Tensor KinModel KinAsm.
Import ListNotations.
Open Scope R_scope.

(* one quadrature point of a domain integral: weight, original and deformed jets, force and moment resultants *)
Record dpt := mkdpt { dw : R; dori : jet; ddef : jet; dN : vec; dM : vec }.
Definition disp (p : dpt) : vec := vsub (j0 (ddef p)) (j0 (dori p)).

(* getArea: gsThinShellAssembler.hpp 2509-2520 *)
Definition get_area (geo : dpt -> jet) (pts : list dpt) : R := psum pts (fun p => dw p * measure (geo p)).

(* getDisplacementNorm: 2523-2539. std::pow(x,0.5) is sqrt x for x >= 0 (negative weights are not modelled). *)
Definition get_disp_norm (pts : list dpt) : R :=
  let result := psum pts (fun p => dw p * (dot3 (disp p) (disp p) * measure (ddef p))) in
  let area := psum pts (fun p => dw p * measure (dori p)) in
  sqrt (result / area).

(* getElasticEnergy: 2542-2563. u.tr() * (N + M).tr() contracts the displacement (d components) with the sum of the two
   resultants (3 Voigt components): for d = 2 the sizes do not match. *)
Definition get_elastic_energy (d : nat) (pts : list dpt) : outcome R :=
  match d with
  | 3%nat => Ok (psum pts (fun p => dw p * (/ 2 * dot3 (disp p) (vadd (dN p) (dM p)) * measure (ddef p))))
  | _ => UB
  end.

(* deformationNorm: 2897-2909. No square root and no difference. *)
Definition deformation_norm (pts : list dpt) : R :=
  psum pts (fun p => dw p * (dot3 (j0 (ddef p)) (j0 (ddef p)) * measure (dori p))).

(* one quadrature point of an interface integral *)
Record ipt := mkipt { iw : R; ileft : jet; iright : jet }.

(* sn(G): the normal of the map, not normalised *)
Definition sn (c : jet) : vec := cross3 (j1 c) (j2 c).
(* fform(G) and fform2nd(G): first and second fundamental forms (core library; the second one with the unit normal) *)
Definition fform (c : jet) : mat := fun a b =>
  dot3 (match a with 0%nat => j1 c | _ => j2 c end) (match b with 0%nat => j1 c | _ => j2 c end).
Definition fform2nd (c : jet) : mat := fun a b =>
  dot3 (match a, b with 0%nat, 0%nat => j11 c | 0%nat, _ => j12 c | _, 0%nat => j12 c | _, _ => j22 c end) (unormal c).
Definition mul2 (A B : mat) : mat := fun i j => sum2 (fun k => A i k * B k j).
Definition shape_op (c : jet) : mat := mul2 (inv2 (fform c)) (fform2nd c).
Definition trace2 (A : mat) : R := A 0%nat 0%nat + A 1%nat 1%nat.

Fixpoint lmax {A : Type} (l : list A) (f : A -> R) : R :=
  match l with nil => 0 | a :: r => Rmax (f a) (lmax r f) end.

(* interfaceErrorC0: 2577-2585 *)
Definition err_C0 (pts : list ipt) : R :=
  sqrt (psum pts (fun p => iw p * dot3 (vsub (j0 (ileft p)) (j0 (iright p))) (vsub (j0 (ileft p)) (j0 (iright p))))).
(* interfaceErrorG1: 2587-2595 *)
Definition err_G1 (pts : list ipt) : R :=
  sqrt (psum pts (fun p => iw p * dot3 (vsub (normalize (sn (ileft p))) (normalize (sn (iright p))))
                                       (vsub (normalize (sn (ileft p))) (normalize (sn (iright p)))))).
(* interfaceErrorNormal: 2597-2604 *)
Definition err_normal (pts : list ipt) : R := lmax pts (fun p => norm3 (vsub (sn (ileft p)) (sn (iright p)))).
(* interfaceErrorGaussCurvature: 2606-2614 *)
Definition err_gauss (pts : list ipt) : R :=
  lmax pts (fun p => Rabs (det2 (shape_op (ileft p)) - det2 (shape_op (iright p)))).
(* interfaceErrorMeanCurvature: 2615-2623 *)
Definition err_mean (pts : list ipt) : R :=
  lmax pts (fun p => Rabs (trace2 (shape_op (ileft p)) - trace2 (shape_op (iright p)))).

(* _isInPlane: 2937-2952, _ifcTest: 2911-2935. The integral runs over all interfaces of the geometry, whatever
   interface is asked for; ifcs is the list of interfaces with their quadrature points. *)
Definition is_in_plane (ifcs : list (list ipt)) (tol : R) (ifc : list ipt) : Prop := err_G1 (concat ifcs) < tol.

(* projectL2: 2887-2895, projectL2_into: 2824-2850; the body of the latter is commented out, the result matrix is left as it is *)
Definition projectL2_into (fun_ : vec -> vec) (result : list R) : list R := result.
Definition projectL2 (fun_ : vec -> vec) : list R := projectL2_into fun_ [].
