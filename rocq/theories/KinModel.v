(* Variations of the surface normal and the force / stiffness densities of the shell assembler.
   Sources: src/gsThinShellUtils.h (expressions), src/gsThinShellAssembler.hpp (forms).
   One evaluation point k at a time; scalars are real numbers.
   External contracts (G+Smo core, not in /repo):
   - _G.data().normal(k) is the cross product of the two columns of the jacobian;
   - Eigen's normalize() (Tensor.normalize), cross() and norm();
   - flat(X) of a 2x2 block is [X00, X11, X01+X10]; symmetrize() is X + X^T; space actives are
     ordered component by component (row s+j, s = d*A);
   - jac(space) / grad / deriv2 return first / second parametric derivatives, second derivatives in
     the order 11, 22, 12. *)
From Coq Require Import Reals List.
From Verif Require Import Tensor.
Import ListNotations.
Open Scope R_scope.

(* The data of a map (geometry or displacement field) at one point: value, the two columns of the
   jacobian, and the three second derivatives (11, 22, 12). *)
Record jet := mkjet { j0 : vec; j1 : vec; j2 : vec; j11 : vec; j22 : vec; j12 : vec }.

Definition jadd (a b : jet) : jet :=
  mkjet (vadd (j0 a) (j0 b)) (vadd (j1 a) (j1 b)) (vadd (j2 a) (j2 b))
        (vadd (j11 a) (j11 b)) (vadd (j22 a) (j22 b)) (vadd (j12 a) (j12 b)).
Definition jscal (s : R) (a : jet) : jet :=
  mkjet (vscal s (j0 a)) (vscal s (j1 a)) (vscal s (j2 a)) (vscal s (j11 a)) (vscal s (j22 a)) (vscal s (j12 a)).
Definition jzero : jet := mkjet vzero vzero vzero vzero vzero vzero.
(* row a of deriv2: a = 0,1,2 for 11, 22, 12 *)
Definition jsec (a : jet) (i : nat) : vec := match i with 0%nat => j11 a | 1%nat => j22 a | _ => j12 a end.

(* The data of one scalar basis function at the point. *)
Record sjet := mksjet { s0 : R; s1 : R; s2 : R; s11 : R; s22 : R; s12 : R }.
Definition ssec (p : sjet) (i : nat) : R := match i with 0%nat => s11 p | 1%nat => s22 p | _ => s12 p end.

(* vecFun(pos,val), gsThinShellUtils.h 102-107 (same helper in every expression) *)
Definition vecFun (d : nat) (x : R) : vec := fun i => if Nat.eqb i d then x else 0.
(* degree of freedom "component d of active p": the field p * e_d *)
Definition bvar (d : nat) (p : sjet) : jet :=
  mkjet (vecFun d (s0 p)) (vecFun d (s1 p)) (vecFun d (s2 p)) (vecFun d (s11 p)) (vecFun d (s22 p)) (vecFun d (s12 p)).

(* ------------------------------------------------------------------ the normal and its variations *)
(* measure: gsThinShellUtils.h 160, 207, 292, 420, 595 *)
Definition measure (c : jet) : R := norm3 (cross3 (j1 c) (j2 c)).
(* normal = _G.data().normal(k); normal.normalize(): 155-156, 203-204, 284-285 *)
Definition unormal (c : jet) : vec := normalize (cross3 (j1 c) (j2 c)).
(* (normal * m^T) * normal, the outer-product version: 172, 213, 316, 444, 606 *)
Definition outer_apply (n m : vec) : vec := fun i => sum3 (fun j => (n i * m j) * n j).
(* m_v: 168-169 (space), 209-210 (fields), 302-304, 311-313 *)
Definition m_var (c v : jet) : vec := fun i =>
  (cross3 (j1 v) (j2 c) i - cross3 (j2 v) (j1 c) i) / measure c.
(* var1_expr: space rows 172, fields 213 *)
Definition var1 (c v : jet) : vec := fun i => m_var c v i - outer_apply (unormal c) (m_var c v) i.
(* m_uv of var2dot_expr / var2deriv2dot_expr: 318-320, 446-448 *)
Definition m_uv (c u v : jet) : vec := fun i =>
  (cross3 (j1 u) (j2 v) i + cross3 (j1 v) (j2 u) i) / measure c.
(* tmp: 315-326 (n_der, m_u_der, second variation of the normal), for any choice of m_uv *)
Definition var2_with (c u v : jet) (muv : vec) : vec :=
  let n := unormal c in
  let mu := m_var c u in
  let mv := m_var c v in
  let nder := fun i => mv i - outer_apply n mv i in
  let muder := fun i => muv i - dot3 n mv * mu i in
  fun i => muder i - (dot3 mu nder + dot3 n muder) * n i - dot3 n mu * nder i.
Definition var2 (c u v : jet) : vec := var2_with c u v (m_uv c u v).
(* var2dot_expr::eval: evEf * tmp, 330-332 *)
Definition var2dot (c u v : jet) (f : vec) : R := dot3 f (var2 c u v).
(* tmp = cDer2 * tmp; tmp.row(2) *= 2: 458-459 and 620-621 *)
Definition curv_of (c : jet) (w : vec) : vec := fun a =>
  match a with 2%nat => dot3 (j12 c) w * 2 | _ => dot3 (jsec c a) w end.
(* var2deriv2dot_expr::eval: 458-462 *)
Definition var2deriv2dot (c u v : jet) (f : vec) : R := dot3 f (curv_of c (var2 c u v)).
(* var2_expr (two FeVariables): m_uv of lines 608-610, result 612-622 *)
Definition m_uv_field (c u v : jet) : vec := fun i =>
  (cross3 (j1 u) (j2 v) i - cross3 (j2 v) (j1 u) i) / measure c.
Definition var2_field_normal (c u v : jet) : vec := var2_with c u v (m_uv_field c u v).
Definition var2_field (c u v : jet) : vec := curv_of c (var2_field_normal c u v).

(* ------------------------------------------------------------------ boundary tangent and outer normal *)
(* tangent_expr (core) returns plus or minus the column colIndex of the jacobian (s = +1 or -1, col = 0, 1).
   tvar1_expr, space branch 750-785: dtan = sign * grad column; 1/|t| (dtan - (ut . dtan) ut) *)
Definition jcol (c : jet) (i : nat) : vec := match i with 0%nat => j1 c | _ => j2 c end.
Definition tangent (s : R) (i : nat) (c : jet) : vec := vscal s (jcol c i).
Definition tvar1 (s : R) (i : nat) (c v : jet) : vec :=
  let t := tangent s i c in
  let ut := normalize t in
  let dtan := vscal s (jcol v i) in
  fun k => 1 / norm3 t * (dtan k - dot3 ut dtan * ut k).
(* ovar1_expr 935-958: tvar x normal + tangent x snvar, tangent normalised *)
Definition ovar1 (s : R) (i : nat) (c v : jet) : vec :=
  vadd (cross3 (tvar1 s i c v) (unormal c)) (cross3 (normalize (tangent s i c)) (var1 c v)).
(* ovar2dot_expr 1044-1163.  cJac is normalised column by column (1044-1045), and the normalised columns
   are used in measure (1078), mu (1120), mv (1136); the tangent (tan_expr) is not normalised. *)
Definition jnorm (c : jet) : jet :=
  mkjet (j0 c) (normalize (j1 c)) (normalize (j2 c)) (j11 c) (j22 c) (j12 c).
Definition tvar2 (s : R) (i : nat) (c u v : jet) : vec :=
  let t := tangent s i c in
  let ut := normalize t in
  let du := vscal s (jcol u i) in
  let dv := vscal s (jcol v i) in
  let tu := tvar1 s i c u in
  let tv := tvar1 s i c v in
  fun k => -1 / norm3 t * (dot3 tv du * ut k + dot3 ut dv * tu k + dot3 ut du * tv k).
(* the normal of the expression is that of the true jacobian (_G.data().normal), mu/mv/muv use J *)
Definition snvar1_with (c J v : jet) : vec :=
  let n := unormal c in fun k => m_var J v k - dot3 n (m_var J v) * n k.
Definition snvar2_with (c J u v : jet) : vec :=
  let n := unormal c in
  let mu := m_var J u in
  let mv := m_var J v in
  let sv := snvar1_with c J v in
  let muder := fun k => m_uv J u v k - dot3 n mv * mu k in
  fun k => muder k - (dot3 mu sv + dot3 n muder) * n k - dot3 n mu * sv k.
Definition ovar2_with (s : R) (i : nat) (c J u v : jet) : vec :=
  fun k => cross3 (tvar2 s i c u v) (unormal c) k
           + cross3 (tvar1 s i c u) (snvar1_with c J v) k
           + cross3 (tvar1 s i c v) (snvar1_with c J u) k
           + cross3 (normalize (tangent s i c)) (snvar2_with c J u v) k.
Definition ovar2 (s : R) (i : nat) (c u v : jet) : vec := ovar2_with s i c (jnorm c) u v.

(* ------------------------------------------------------------------ strains *)
(* flat( jac(def).tr() * jac(space) ): gsThinShellAssembler.hpp 1574, 1748, 2020 *)
Definition Em_der (c v : jet) : vec := fun a =>
  match a with
  | 0%nat => dot3 (j1 c) (j1 v)
  | 1%nat => dot3 (j2 c) (j2 v)
  | _ => dot3 (j1 c) (j2 v) + dot3 (j2 c) (j1 v)
  end.
(* deriv2(space, n): deriv2dot_expr space branch, row (d*numAct+j) = tmp(j,.) * vEv.at(d), gsThinShellUtils.h 1337-1345 *)
Definition deriv2_space (d : nat) (p : sjet) (n : vec) : vec := fun a => ssec p a * n d.
(* deriv2(map, w): deriv2dot_expr geometry/variable branch, vEv * tmp^T, gsThinShellUtils.h 1320-1324 *)
Definition deriv2_map (c : jet) (w : vec) : vec := fun a => dot3 w (jsec c a).
(* ... * reshape(m_m2,3,3) with mult2t = diag(1,1,2): gsThinShellAssembler.hpp 1566-1567, 1740-1741 *)
Definition mult2 (x : vec) : vec := fun a => match a with 2%nat => x 2%nat * 2 | _ => x a end.
(* m_Ef_der: 1575, 1753, 2023; dof version and field version (m_E_fc, 1912, uses the field version) *)
Definition Ef_der_dof (c : jet) (d : nat) (p : sjet) : vec :=
  mult2 (fun a => - (deriv2_space d p (unormal c) a + deriv2_map c (var1 c (bvar d p)) a)).
Definition Ef_der (c v : jet) : vec :=
  mult2 (fun a => - (deriv2_map v (unormal c) a + deriv2_map c (var1 c v) a)).

(* ------------------------------------------------------------------ second variations of the strains *)
(* flatdot(jac(space),jac(space).tr(),N): flatdot_expr::eval, gsThinShellUtils.h 1656-1666 *)
Definition flatdot (u v : jet) (N : vec) : R :=
    dot3 (j1 u) (j1 v) * N 0%nat + dot3 (j1 u) (j2 v) * N 2%nat
  + dot3 (j2 u) (j1 v) * N 2%nat + dot3 (j2 u) (j2 v) * N 1%nat.
(* flatdot2(deriv2(space), var1(space,def).tr(), M)(i,j): flatdot2_expr::eval, gsThinShellUtils.h 1727-1733 *)
Definition flatdot2 (c u v : jet) (M : vec) : R :=
  dot3 M (mult2 (fun a => dot3 (jsec u a) (var1 c v))).
(* m_Ef_der2 = -( flatdot2(..).symmetrize() + var2deriv2(space,space,def,M) ): gsThinShellAssembler.hpp 1754-1755 *)
Definition Ef_der2 (c u v : jet) (M : vec) : R :=
  - (flatdot2 c u v M + flatdot2 c v u M + var2deriv2dot c u v M).

(* row vector times 3x3 matrix *)
Definition rowmat (x : vec) (A : mat) : vec := fun b => sum3 (fun a => x a * A a b).

(* ------------------------------------------------------------------ densities (integrand without meas(ori)) *)
(* m_N * m_Em_der.tr() + m_M * m_Ef_der.tr(): 2038-2042 (the code adds minus this to the vector) *)
Definition Fint (c : jet) (N M : vec) (v : jet) : R := dot3 N (Em_der c v) + dot3 M (Ef_der c v).
(* N_der Em_der^T + Em_der2 + M_der Ef_der^T + Ef_der2: 1757-1776; row = first argument *)
Definition Kstiff (c : jet) (A B C D : mat) (N M : vec) (v u : jet) : R :=
  let Nder := vadd (rowmat (Em_der c v) A) (rowmat (Ef_der c v) B) in
  let Mder := vadd (rowmat (Em_der c v) C) (rowmat (Ef_der c v) D) in
  dot3 Nder (Em_der c u) + flatdot v u N + dot3 Mder (Ef_der c u) + Ef_der2 c v u M.
(* linear assembly, 1574-1601: N_der Em_der^T + M_der Ef_der^T at def = ori *)
Definition Klin (c : jet) (A B C D : mat) (v u : jet) : R :=
  dot3 (vadd (rowmat (Em_der c v) A) (rowmat (Ef_der c v) B)) (Em_der c u)
  + dot3 (vadd (rowmat (Em_der c v) C) (rowmat (Ef_der c v) D)) (Ef_der c u).
(* membrane version (dim 2, or bending = false): 1817-1835 and 2106-2110 *)
Definition Fint_mem (c : jet) (N : vec) (v : jet) : R := dot3 N (Em_der c v).
Definition Kstiff_mem (c : jet) (A : mat) (N : vec) (v u : jet) : R :=
  dot3 (rowmat (Em_der c v) A) (Em_der c u) + flatdot v u N.

(* pressure: vector p * space * sn(def).normalized() 456-458, matrix -p * space * var1(space,def).tr() 435-438;
   linear vector 400-402 *)
Definition Fpress (p : R) (c v : jet) : R := p * dot3 (j0 v) (unormal c).
Definition Kpress (p : R) (c v u : jet) : R := - (p * dot3 (j0 v) (var1 c u)).

(* foundation: vector space * diag(k) * (def-ori) 551-553, matrix space * diag(k) * space.tr() 532-534,
   linear assembly: matrix 489-491, no vector 498-501 *)
Definition Ffound (k : vec) (ori def v : jet) : R := sum3 (fun i => j0 v i * k i * (j0 def i - j0 ori i)).
Definition Kfound (k : vec) (v u : jet) : R := sum3 (fun i => j0 v i * k i * j0 u i).

(* weak Dirichlet: 3D matrix -alpha space space.tr() 741-746 (linear 599-604), vector alpha (space du - space g) 791-796;
   linear 3D vector -alpha space g 641-646; 2D linear vector alpha_raw (space (ori-ori) - space g) 694-699 *)
Definition Kweakdir (alpha : R) (v u : jet) : R := - (alpha * dot3 (j0 v) (j0 u)).
Definition Fweakdir (alpha : R) (g : vec) (ori def v : jet) : R :=
  alpha * (dot3 (j0 v) (vsub (j0 def) (j0 ori)) - dot3 (j0 v) g).
Definition Fweakdir_lin3 (alpha : R) (g : vec) (v : jet) : R := - (alpha * dot3 (j0 v) g).
Definition Fweakdir_lin2 (alpha_raw : R) (g : vec) (ori v : jet) : R :=
  alpha_raw * (dot3 (j0 v) (vsub (j0 ori) (j0 ori)) - dot3 (j0 v) g).

(* weak C0 interface: a trial / test field is a pair (left, right).
   matrix blocks: 1065-1073 (3D nonlinear), 907-915 (3D linear), 1256-1264 (2D nonlinear);
   vector 3D: -alpha left du, +alpha right du (1199-1203); vector 2D: +alpha left du, -alpha right du (1294-1298) *)
Definition Kifc (alpha : R) (v u : jet * jet) : R :=
    alpha * dot3 (j0 (fst v)) (j0 (fst u)) - alpha * dot3 (j0 (snd v)) (j0 (fst u))
  - alpha * dot3 (j0 (fst v)) (j0 (snd u)) + alpha * dot3 (j0 (snd v)) (j0 (snd u)).
Definition ifc_jump (ori def : jet * jet) : vec :=
  vsub (vsub (j0 (fst def)) (j0 (fst ori))) (vsub (j0 (snd def)) (j0 (snd ori))).
Definition Fifc3 (alpha : R) (ori def v : jet * jet) : R :=
  - (alpha * dot3 (j0 (fst v)) (ifc_jump ori def)) + alpha * dot3 (j0 (snd v)) (ifc_jump ori def).
Definition Fifc2 (alpha : R) (ori def v : jet * jet) : R :=
  alpha * dot3 (j0 (fst v)) (ifc_jump ori def) - alpha * dot3 (j0 (snd v)) (ifc_jump ori def).

(* weak C1 interface, out-of-plane part.  dN_lr = Nl.Nr - (ori) and dN_rl = Nr.Nl - (ori) (1052-1056).
   Each assembleIfc argument adds its own contribution; the two "symmetry" groups are added as written.
   matrix, first line 1078-1094; second line 1098-1115; vector 1206-1215. *)
Definition dNd (ori def : jet * jet) : R :=
  dot3 (unormal (fst def)) (unormal (snd def)) - dot3 (unormal (fst ori)) (unormal (snd ori)).
Definition dNd' (ori def : jet * jet) : R :=
  dot3 (unormal (snd def)) (unormal (fst def)) - dot3 (unormal (snd ori)) (unormal (fst ori)).
Definition v1l (def v : jet * jet) : vec := var1 (fst def) (fst v).
Definition v1r (def v : jet * jet) : vec := var1 (snd def) (snd v).
Definition KifcC1 (alpha : R) (ori def v u : jet * jet) : R :=
  let nl := unormal (fst def) in let nr := unormal (snd def) in
  let a := dNd ori def in let b := dNd' ori def in
  (* first line *)
    alpha * a * var2dot (fst def) (fst v) (fst u) nr + alpha * b * var2dot (fst def) (fst v) (fst u) nr
  + alpha * a * dot3 (v1l def v) (v1r def u) + alpha * b * dot3 (v1l def v) (v1r def u)
  + alpha * a * dot3 (v1r def v) (v1l def u) + alpha * b * dot3 (v1r def v) (v1l def u)
  + alpha * a * var2dot (snd def) (snd v) (snd u) nl + alpha * b * var2dot (snd def) (snd v) (snd u) nl
  (* second line, then its symmetry group *)
  + alpha * dot3 (v1l def v) nr * dot3 (v1l def u) nr + alpha * dot3 (v1l def v) nr * dot3 (v1r def u) nl
  + alpha * dot3 (v1r def v) nl * dot3 (v1l def u) nr + alpha * dot3 (v1r def v) nl * dot3 (v1r def u) nl
  + alpha * dot3 (v1r def v) nl * dot3 (v1r def u) nl + alpha * dot3 (v1r def v) nl * dot3 (v1l def u) nr
  + alpha * dot3 (v1l def v) nr * dot3 (v1r def u) nl + alpha * dot3 (v1l def v) nr * dot3 (v1l def u) nr.
Definition FifcC1 (alpha : R) (ori def v : jet * jet) : R :=
  let nl := unormal (fst def) in let nr := unormal (snd def) in
  let a := dNd ori def in let b := dNd' ori def in
    - (alpha * a * dot3 (v1l def v) nr) - alpha * a * dot3 (v1r def v) nl
    - alpha * b * dot3 (v1r def v) nl - alpha * b * dot3 (v1l def v) nr.

(* ------------------------------------------------------------------ assembled system *)
(* One quadrature point: weight times meas(ori), the reference jet, the basis functions, and the constitutive
   data of the point.  gsExprAssembler::assemble (core) sums weight * expression over the points. *)
Record qpoint := mkq {
  qw : R;                       (* weight * meas(ori) *)
  qbas : nat -> sjet;           (* scalar basis function i at the point; 0 where inactive *)
  qori : jet;                   (* undeformed geometry *)
  qN : vec -> vec -> vec;       (* stress resultants as functions of membrane / bending strain *)
  qM : vec -> vec -> vec;
  qA : vec -> vec -> mat; qB : vec -> vec -> mat; qC : vec -> vec -> mat; qD : vec -> vec -> mat }.

(* a coefficient vector: x i d, component d of control displacement i, i < n *)
Definition coefs := nat -> nat -> R.
Fixpoint rsum (n : nat) (f : nat -> R) : R := match n with O => 0 | S m => rsum m f + f m end.
(* the field with coefficients x: sum over the actives i and components d of x i d * (basis function i) e_d *)
Fixpoint fieldjet (n : nat) (bas : nat -> sjet) (x : coefs) : jet :=
  match n with
  | O => jzero
  | S m => jadd (fieldjet m bas x)
             (jadd (jscal (x m 0%nat) (bvar 0 (bas m))) (jadd (jscal (x m 1%nat) (bvar 1 (bas m))) (jscal (x m 2%nat) (bvar 2 (bas m)))))
  end.

(* ------------------------------------------------------------------ further interface / boundary terms *)
(* 2D linear interface matrix 993-1001: every block carries meas(ori) twice; m is meas(ori) (the common single
   factor of the other forms is dropped everywhere) *)
Definition Kifc2_lin (alpha m : R) (v u : jet * jet) : R := Kifc alpha v u * m.

(* outer (in-plane) normal of an edge: unit tangent x unit normal (contract of unv for the orientation s, column i) *)
Definition onormal (s : R) (i : nat) (c : jet) : vec := cross3 (normalize (tangent s i c)) (unormal c).

(* an edge side: orientation and column of the tangent *)
Definition side := (R * nat)%type.
(* weak C1, in-plane part: dnN_lr, dnN_rl 1058-1062; matrix third line 1119-1135, fourth line 1139-1155;
   vector 1219-1228 *)
Definition dnN (sl sr : side) (ori def : jet * jet) : R :=
  dot3 (onormal (fst sl) (snd sl) (fst def)) (unormal (snd def)) - dot3 (onormal (fst sl) (snd sl) (fst ori)) (unormal (snd ori)).
Definition dnN' (sl sr : side) (ori def : jet * jet) : R :=
  dot3 (onormal (fst sr) (snd sr) (snd def)) (unormal (fst def)) - dot3 (onormal (fst sr) (snd sr) (snd ori)) (unormal (fst ori)).
Definition o1l (sl : side) (def v : jet * jet) : vec := ovar1 (fst sl) (snd sl) (fst def) (fst v).
Definition o1r (sr : side) (def v : jet * jet) : vec := ovar1 (fst sr) (snd sr) (snd def) (snd v).
Definition KifcIn (alpha : R) (sl sr : side) (ori def v u : jet * jet) : R :=
  let nl := unormal (fst def) in let nr := unormal (snd def) in
  let ol := onormal (fst sl) (snd sl) (fst def) in let or := onormal (fst sr) (snd sr) (snd def) in
  let a := dnN sl sr ori def in let b := dnN' sl sr ori def in
  let o2l := dot3 nr (ovar2 (fst sl) (snd sl) (fst def) (fst v) (fst u)) in
  let o2r := dot3 nl (ovar2 (fst sr) (snd sr) (snd def) (snd v) (snd u)) in
  (* third line *)
    alpha * a * o2l + alpha * b * o2l
  + alpha * a * dot3 (o1l sl def v) (v1r def u) + alpha * b * dot3 (o1l sl def v) (v1r def u)
  + alpha * a * dot3 (o1r sr def v) (v1l def u) + alpha * b * dot3 (o1r sr def v) (v1l def u)
  + alpha * a * o2r + alpha * b * o2r
  (* fourth line *)
  + alpha * dot3 (o1l sl def v) nr * dot3 (o1l sl def u) nr + alpha * dot3 (v1l def v) or * dot3 (v1l def u) or
  + alpha * dot3 (o1l sl def v) nr * dot3 (v1r def u) ol + alpha * dot3 (v1l def v) or * dot3 (o1r sr def u) nl
  + alpha * dot3 (v1r def v) ol * dot3 (o1l sl def u) nr + alpha * dot3 (o1r sr def v) nl * dot3 (v1l def u) or
  + alpha * dot3 (v1r def v) ol * dot3 (v1r def u) ol + alpha * dot3 (o1r sr def v) nl * dot3 (o1r sr def u) nl.
Definition FifcIn (alpha : R) (sl sr : side) (ori def v : jet * jet) : R :=
  let nl := unormal (fst def) in let nr := unormal (snd def) in
  let ol := onormal (fst sl) (snd sl) (fst def) in let or := onormal (fst sr) (snd sr) (snd def) in
  let a := dnN sl sr ori def in let b := dnN' sl sr ori def in
    - (alpha * a * dot3 (o1l sl def v) nr) - alpha * a * dot3 (v1r def v) ol
    - alpha * b * dot3 (o1r sr def v) nl - alpha * b * dot3 (v1l def v) or.

(* weak clamped, 3D nonlinear.  nvo = nv(ori) (not normalised), unvo = unv(ori).
   matrix 749-758: alpha dnN var2deriv2(space,space,def,unv.tr()) + alpha (var1 . unv)(var1 . unv), dnN with unv (739);
   vector 799-806: - alpha dnN (var1 . usn(ori)), dnN with nv (788).  linear matrix 607-614. *)
Definition Kclamp (alpha : R) (unvo : vec) (ori def v u : jet) : R :=
  alpha * (dot3 (unormal def) unvo - dot3 (unormal ori) unvo) * var2deriv2dot def v u unvo
  + alpha * (dot3 (var1 def v) unvo * dot3 (var1 def u) unvo).
Definition Fclamp (alpha : R) (nvo : vec) (ori def v : jet) : R :=
  - (alpha * (dot3 (unormal def) nvo - dot3 (unormal ori) nvo) * dot3 (var1 def v) (unormal ori)).

(* mass matrix density rho * space * space.tr(): 1462 *)
Definition Kmass (rho : R) (v u : jet) : R := rho * dot3 (j0 v) (j0 u).

(* assembleMatrix(deformed, previous, update), 3D (mixed integration point Newton) 1866-1958: strain increments m_E_mc, m_E_fc of
   the update at the previous configuration (1913-1914), predicted resultants S + increment (1915-1918, 1922), the matrix with the
   coefficients A..D (1927-1945); which configuration A..D are evaluated at is the subject of EvalModel.v / C97 *)
Definition mip_N (prev du : jet) (Ap Bp : mat) (Np : vec) : vec :=
  vadd Np (vadd (rowmat (Em_der prev du) Ap) (rowmat (Ef_der prev du) Bp)).
Definition mip_M (prev du : jet) (Cp Dp : mat) (Mp : vec) : vec :=
  vadd Mp (vadd (rowmat (Em_der prev du) Cp) (rowmat (Ef_der prev du) Dp)).
Definition Kmip (c prev du : jet) (A B C D Ap Bp Cp Dp : mat) (Np Mp : vec) (v u : jet) : R :=
  Kstiff c A B C D (mip_N prev du Ap Bp Np) (mip_M prev du Cp Dp Mp) v u.

(* choice of the tangent column, gsThinShellUtils.h 735-757 (tvar1_expr) and 1044-1065 (ovar2dot_expr): the columns of the jacobian are
   normalised, multiplied with the unit outer normal o, and the pair is normalised; sign of the tangent 763-768, 1084-1089 *)
Definition detect (tol : R) (c : jet) (o : vec) : option nat :=
  let x0 := dot3 (normalize (j1 c)) (normalize o) in
  let x1 := dot3 (normalize (j2 c)) (normalize o) in
  let r := x0 * x0 + x1 * x1 in
  let y0 := if Rlt_dec 0 r then x0 / sqrt r else x0 in
  let y1 := if Rlt_dec 0 r then x1 / sqrt r else x1 in
  if Rlt_dec (Rabs y0) tol then if Rlt_dec (1 - tol) (Rabs y1) then Some 0%nat else None
  else if Rlt_dec (Rabs y1) tol then if Rlt_dec (1 - tol) (Rabs y0) then Some 1%nat else None else None.
Definition detect_sign (c : jet) (t : vec) (i : nat) : R :=
  let d := dot3 t (normalize (jcol c i)) in
  (if Rlt_dec 0 d then 1 else 0) - (if Rlt_dec d 0 then 1 else 0).
