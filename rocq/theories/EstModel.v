(* Error estimators of the dual-weighted-residual assembler: computeError / computeErrorElements / computeErrorDofs, their squared
   versions, computeErrorEig (modal and buckling) and matrixNorm.  Source: src/gsThinShellAssemblerDWR.hpp.
   Contracts of the core library as in DwrModel.v; ev.integralElWise stores one integral per element and returns their sum;
   integralBdrBc sums weight * expression over the boundary quadrature points of the Neumann sides. *)
From Coq Require Import Reals List Arith Bool.
From Verif Require Import Tensor KinModel KinAsm IndicatorModel.
Import ListNotations.
Open Scope R_scope.

Definition jsub (a b : jet) : jet := jadd a (jscal (-1) b).
(* one interior quadrature point: weight * meas(Gori), deformed geometry, resultants N, M of the deformed geometry (S0f, S1f: 1836-1839),
   body force, the two dual solutions *)
Record epoint := mke { ew : R; edef : jet; eN : vec; eM : vec; eF : vec; ezL : jet; ezH : jet }.
(* one Neumann boundary point: weight * tv(Gori).norm(), traction, dual solutions *)
Record bpoint := mkb { bw : R; bg : vec; bzL : jet; bzH : jet }.
(* Ef_der of the difference: 1857-1859, 2705-2707 *)
Definition Ef_derd (c zH zL : jet) : vec :=
  mult2 (fun a => - (deriv2_map zH (unormal c) a - deriv2_map zL (unormal c) a
                     + deriv2_map c (var1 c zH) a - deriv2_map c (var1 c zL) a)).
(* linear 1753 (external force only), bending 1861-1866, membrane 1956-1963 *)
Inductive ekind := Linear | Bending | Membrane.
Definition est_dens (k : ekind) (p : epoint) : R :=
  let fext := dot3 (vsub (j0 (ezH p)) (j0 (ezL p))) (eF p) in
  match k with
  | Linear => fext
  | Bending => fext - (dot3 (eN p) (Em_der (edef p) (jsub (ezH p) (ezL p))) + dot3 (eM p) (Ef_derd (edef p) (ezH p) (ezL p)))
  | Membrane => fext - dot3 (eN p) (Em_der (edef p) (jsub (ezH p) (ezL p)))
  end.
Definition bdens (b : bpoint) : R := dot3 (vsub (j0 (bzH b)) (j0 (bzL b))) (bg b).
(* squared estimators: expr.sqNorm() of a scalar (2066, 2179, 2275) *)
Definition sq_dens (k : ekind) (p : epoint) : R := est_dens k p * est_dens k p.

(* the problem: quadrature points by element (in the element order of the H basis), Neumann points, point loads (C59), element boxes *)
Record eproblem := mkp { pels : list (list epoint); pbnd : list bpoint; ploads : list pload; ppatches : list (list elem) }.
Definition elint (dens : epoint -> R) (el : list epoint) : R := psum el (fun p => ew p * dens p).
Definition integral (dens : epoint -> R) (P : eproblem) : R := psum (pels P) (elint dens).
Definition bintegral (P : eproblem) : R := psum (pbnd P) (fun b => bw b * bdens b).
Definition lsum (P : eproblem) (withLoads : bool) (x : R) : R := if withLoads then applyTotal (ploads P) x else x.
(* value of m_error for _elWise = 0.  Linear 1759-1767, bending 1872-1881 (Neumann term only with loads), membrane 1969-1976;
   squared: 2072-2080, 2185-2193, 2281-2288 (Neumann and load terms are added unsquared, Neumann always) *)
Definition est_total (k : ekind) (P : eproblem) (withLoads : bool) : R :=
  match k with
  | Bending => lsum P withLoads (integral (est_dens k) P) + (if withLoads then bintegral P else 0)
  | _ => lsum P withLoads (integral (est_dens k) P) + bintegral P
  end.
Definition sq_total (k : ekind) (P : eproblem) (withLoads : bool) : R := lsum P withLoads (integral (sq_dens k) P) + bintegral P.

(* members m_error, m_errors *)
Record dstate := mkd { m_error : R; m_errors : list R }.
(* computeError<0>, <1>, <2>: 1705-1727 and the _impl functions.  <1>: 1768-1776, 1882-1890, 1977-1985: the Neumann term is missing;
   <2>: only a local variable is set, members keep their values.  nt: number of OpenMP threads. *)
Inductive run (nt : nat) (dens : epoint -> R) (tot : bool -> R) (P : eproblem) (withLoads : bool) : nat -> dstate -> outcome dstate -> Prop :=
| run0 : forall s, run nt dens tot P withLoads 0 s (Ok (mkd (tot withLoads) (m_errors s)))
| run1 : forall s errs, (if withLoads then applyAll nt (ppatches P) (ploads P) (map (elint dens) (pels P)) (Ok errs) else errs = map (elint dens) (pels P)) ->
    run nt dens tot P withLoads 1 s (Ok (mkd (lsum P withLoads (integral dens P)) errs))
| run1_throw : forall s, withLoads = true -> applyAll nt (ppatches P) (ploads P) (map (elint dens) (pels P)) Throw ->
    run nt dens tot P withLoads 1 s Throw
| run2 : forall s, run nt dens tot P withLoads 2 s (Ok s).

(* ------------------------------------------------------------------ eigenvalue estimators *)
(* a point: weight * meas, undeformed geometry, tangents at the undeformed geometry, density * thickness, mode and dual modes *)
Record gpt := mkgp { mw : R; mori : jet; mA : mat; mB : mat; mC : mat; mD : mat; mrho : R; mu_ : jet; mzL : jet; mzH : jet }.
(* modal: A = N_der Em_der^T + M_der Ef_der^T with N_der, M_der of the difference (2698-2713) *)
Definition modal_A (p : gpt) : R :=
  let emd := Em_der (mori p) (jsub (mzH p) (mzL p)) in let efd := Ef_derd (mori p) (mzH p) (mzL p) in
  dot3 (vadd (rowmat emd (mA p)) (rowmat efd (mB p))) (Em_der (mori p) (mu_ p))
  + dot3 (vadd (rowmat emd (mC p)) (rowmat efd (mD p))) (Ef_der (mori p) (mu_ p)).
(* Bdiff, Bprimal: 2718-2719 *)
Definition modal_Bd (p : gpt) : R := mrho p * dot3 (j0 (mu_ p)) (vsub (j0 (mzH p)) (j0 (mzL p))).
Definition modal_Bp (p : gpt) : R := mrho p * dot3 (j0 (mu_ p)) (j0 (mu_ p)).
(* expr and m_error: 2720-2728 *)
Definition modal_error (pts : list gpt) (evL evDL evDH : R) : R :=
  psum pts (fun p => mw p * (modal_A p - evL * modal_Bd p + (evDH - evDL) * modal_Bp p)) - (evDH - evDL).
(* matrixNorm, modal version: 3527-3551 *)
Definition matrixNorm_modal (pts : list (R * (R * (jet * jet)))) : R :=
  psum pts (fun q => fst q * (fst (snd q) * dot3 (j0 (fst (snd (snd q)))) (j0 (snd (snd (snd q)))))).

(* buckling: additionally the deformed geometry, its tangents and resultants *)
Record bkpt := mkbp { kw : R; kori : jet; kdef : jet; kA : mat; kB : mat; kC : mat; kD : mat;
  kA' : mat; kB' : mat; kC' : mat; kD' : mat; kN : vec; kM : vec; ku : jet; kzL : jet; kzH : jet }.
(* Ef_der_L, Ef_der_NL: 2483, 2505: minus sign in front of deriv2(G,var1) *)
Definition Ef_bk (c v : jet) : vec := mult2 (fun a => - (deriv2_map v (unormal c) a - deriv2_map c (var1 c v) a)).
(* Ef_derd_L, Ef_derd_NL: 2484-2487, 2506-2509 *)
Definition Efd_bk (c zH zL : jet) : vec :=
  mult2 (fun a => - (deriv2_map zH (unormal c) a - deriv2_map c (var1 c zH) a - deriv2_map zL (unormal c) a - deriv2_map c (var1 c zL) a)).
Definition quad4 (A B C D : mat) (e1 f1 e2 f2 : vec) : R :=
  dot3 (vadd (rowmat e1 A) (rowmat f1 B)) e2 + dot3 (vadd (rowmat e1 C) (rowmat f1 D)) f2.
(* deriv2(field) with one argument: deriv2_expr for a gsFeVariable ignores the point index and takes column 0 of values[2]
   (gsThinShellUtils.h 1499-1519), i.e. the second derivatives at the first quadrature point of the element.  u0, v0, ...: the fields there. *)
(* Ef_der2 of two fields: 2511-2515, Efd_der2 2517-2521; deriv2(Gdef) * var2(u,v,Gdef) with the value of var2_expr for two fields *)
Definition Ef2_bk (c u v u0 v0 : jet) (M : vec) : R :=
  - dot3 (vadd (mult2 (fun a => dot3 (jsec u0 a) (var1 c v))) (vadd (mult2 (fun a => dot3 (jsec v0 a) (var1 c u)))
      (mult2 (fun a => dot3 (jsec c a) (var2_field c u v))))) M.
Definition Efd2_bk (c u zH zL u0 zH0 zL0 : jet) (M : vec) : R :=
  - dot3 (vadd (mult2 (fun a => dot3 (jsec u0 a) (vsub (var1 c zH) (var1 c zL))))
         (vadd (mult2 (fun a => dot3 (vsub (jsec zH0 a) (jsec zL0 a)) (var1 c u)))
      (mult2 (fun a => dot3 (jsec c a) (vsub (var2_field c u zH) (var2_field c u zL)))))) M.
(* K_L, Kd_L, K_NL, Kd_NL: 2530-2533; p0: first quadrature point of the element of p *)
Definition K_L (p : bkpt) : R := let c := kori p in
  quad4 (kA p) (kB p) (kC p) (kD p) (Em_der c (ku p)) (Ef_bk c (ku p)) (Em_der c (ku p)) (Ef_bk c (ku p)).
Definition Kd_L (p : bkpt) : R := let c := kori p in
  quad4 (kA p) (kB p) (kC p) (kD p) (Em_der c (jsub (kzH p) (kzL p))) (Efd_bk c (kzH p) (kzL p)) (Em_der c (ku p)) (Ef_bk c (ku p)).
Definition K_NL (p0 p : bkpt) : R := let c := kdef p in
  quad4 (kA' p) (kB' p) (kC' p) (kD' p) (Em_der c (ku p)) (Ef_bk c (ku p)) (Em_der c (ku p)) (Ef_bk c (ku p))
  + dot3 (Em_der (ku p) (ku p)) (kN p) + Ef2_bk c (ku p) (ku p) (ku p0) (ku p0) (kM p).
Definition Kd_NL (p0 p : bkpt) : R := let c := kdef p in
  quad4 (kA' p) (kB' p) (kC' p) (kD' p) (Em_der c (jsub (kzH p) (kzL p))) (Efd_bk c (kzH p) (kzL p)) (Em_der c (ku p)) (Ef_bk c (ku p))
  + dot3 (Em_der (ku p) (jsub (kzH p) (kzL p))) (kN p) + Efd2_bk c (ku p) (kzH p) (kzL p) (ku p0) (kzH p0) (kzL p0) (kM p).
(* sums over the elements and their quadrature points; the expression helper evaluates all points of one element at once, so that
   column 0 belongs to the first of them *)
Definition elsum (els : list (list bkpt)) (f : bkpt -> bkpt -> R) : R := psum els (fun el => psum el (fun p => f (hd p el) p)).
(* A, Bdiff, Bprimal, expr, m_error: 2535-2544 *)
Definition buckling_error (els : list (list bkpt)) (evL evDL evDH : R) : R :=
  elsum els (fun p0 p => kw p * (Kd_L p - evL * (Kd_NL p0 p - Kd_L p) + (evDH - evDL) * (K_NL p0 p - K_L p))) - (evDH - evDL).
(* matrixNorm, buckling version without foundation and pressure (3553-3638): Bprimal of the fields u = primal, z = other *)
Definition KL2 (p : bkpt) (u z : jet) : R := let c := kori p in
  quad4 (kA p) (kB p) (kC p) (kD p) (Em_der c z) (Ef_bk c z) (Em_der c u) (Ef_bk c u).
Definition KNL2 (p : bkpt) (u z u0 z0 : jet) : R := let c := kdef p in
  quad4 (kA' p) (kB' p) (kC' p) (kD' p) (Em_der c z) (Ef_bk c z) (Em_der c u) (Ef_bk c u)
  + dot3 (Em_der u z) (kN p) + Ef2_bk c z u z0 u0 (kM p).
Definition matrixNorm_buckling (els : list (list bkpt)) (u z : bkpt -> jet) : R :=
  elsum els (fun p0 p => kw p * (KNL2 p (u p) (z p) (u p0) (z p0) - KL2 p (u p) (z p))).
(* the whole function: with m_foundInd and m_pressInd the works of the foundation and pressure of the deformed state on z are added, 3640-3653 *)
Definition matrixNorm_full (found : option (bkpt -> vec)) (press : option (bkpt -> R)) (els : list (list bkpt)) (u z : bkpt -> jet) : R :=
  matrixNorm_buckling els u z
  + match found with Some k => psum (concat els) (fun p => kw p * sum3 (fun i => j0 (z p) i * k p i * (j0 (kdef p) i - j0 (kori p) i))) | None => 0 end
  + match press with Some q => psum (concat els) (fun p => kw p * (q p * dot3 (j0 (z p)) (unormal (kdef p)))) | None => 0 end.
