(* Assembled internal force and stiffness of a shell with the resultants returned by the materials.
   src/gsThinShellAssembler.hpp 2008-2049 (vector), 1728-1783 (matrix): at every quadrature point weight * meas(ori) * expression, the
   resultants being gsMaterialMatrixIntegrate objects; src/gsMaterialMatrixIntegrate.hpp 279-326 (integrateZ: the material is evaluated at
   all heights first, then summed), 366-392 (multiplyZ, for the linear material), 179-262 (dispatch).
   An evaluation that throws ends the assembly (the caller reports ASSEMBLY_ERROR), hence the outcome type.
   Simplification: the heights of a point are evaluated one after the other; which of several failing heights is met first is not tracked. *)
From Coq Require Import Reals List.
From Verif Require Import Tensor MetricModel LinearModel IntegrateModel NonlinearModel SpectralModel Newton33Model PrincipalModel SizeModel PtModel KinModel KinAsm HypModel.
Import ListNotations.
Open Scope R_scope.

(* one quadrature point: weight of the rule (without meas(ori)), basis functions, undeformed jet, thickness rule on [-1/2,1/2],
   thickness and material parameters *)
Record apoint := mkap { aw : R; abas : nat -> sjet; aori : jet; arule : rule; athick : R; apar : par }.
Definition adef (n : nat) (q : apoint) (x : coefs) : jet := jadd (aori q) (fieldjet n (abas q) x).

(* moment m of a vector / matrix output over the thickness: gsMaterialMatrixIntegrate.hpp 279-326 *)
Fixpoint ovec (q : rule) (t : R) (m : nat) (f : R -> outcome vec) : outcome vec :=
  match q with
  | [] => Ok vzero
  | (w, z) :: r => obind (f z) (fun s => obind (ovec r t m f) (fun y => Ok (fun a => w * (z * t) ^ m * s a * t + y a)))
  end.
Fixpoint omat (q : rule) (t : R) (m : nat) (f : R -> outcome mat) : outcome mat :=
  match q with
  | [] => Ok mzero
  | (w, z) :: r => obind (f z) (fun s => obind (omat r t m f) (fun y => Ok (fun a b => w * (z * t) ^ m * s a b * t + y a b)))
  end.

(* stress resultants (N, M) and tangents ((A, B), (C, D)) of a point in a deformed state *)
Definition resultants := apoint -> jet -> outcome (vec * vec).
Definition tangents := apoint -> jet -> outcome (mat * mat * (mat * mat)).

(* hyperelastic materials: NotIntegrated, moments 0, 1 of eval3D_stress and 0, 1, 1, 2 of eval3D_matrix *)
Section Hyper.
Variables (close : mat -> mat -> bool) (eps epsm : R) (eig : mat -> vec * (nat -> vec)) (comp : bool) (imp : impl) (w : slaw).
Definition apt (q : apoint) (def : jet) : pdata := shell_pt (sgeo (aori q)) (sgeo def) (athick q) (apar q).
Definition hyper_res : resultants := fun q def =>
  let f := fun z => eval_stress close eps epsm eig comp imp w (apt q def) z in
  obind (ovec (arule q) (athick q) 0 f) (fun N => obind (ovec (arule q) (athick q) 1 f) (fun M => Ok (N, M))).
Definition hyper_tan : tangents := fun q def =>
  let f := fun z => eval_matrix eps epsm eig comp imp w (apt q def) z in
  obind (omat (arule q) (athick q) 0 f) (fun A => obind (omat (arule q) (athick q) 1 f) (fun B => obind (omat (arule q) (athick q) 1 f) (fun C =>
  obind (omat (arule q) (athick q) 2 f) (fun D => Ok ((A, B), (C, D)))))).
End Hyper.
(* the linear material: Constant (gsMaterialMatrixLinear.h 169, 172), i.e. the value at z = 0 times the factor of multiplyZ;
   VectorM uses moment 2 (IntegrateModel.eval_into), MatrixB and MatrixC have an odd moment *)
Definition fz (t : R) (m : nat) : R := multiplyZ t m (fun _ => 1).
Definition lin_res : resultants := fun q def =>
  let E := pE (apar q) in let nu := pnu (apar q) in
  obind (lin_vector E nu KMembrane (apt q def) 0) (fun N => obind (lin_vector E nu KBending (apt q def) 0) (fun M =>
  Ok ((fun a => N a * fz (athick q) 0), (fun a => M a * fz (athick q) 2)))).
Definition lin_tan : tangents := fun q def =>
  obind (lin_matrix (pE (apar q)) (pnu (apar q)) (apt q def) 0) (fun C =>
  Ok (((fun a b => C a b * fz (athick q) 0), (fun a b => C a b * fz (athick q) 1)), ((fun a b => C a b * fz (athick q) 1), (fun a b => C a b * fz (athick q) 2)))).

(* entry (i,d) of the internal force: 2020-2023, 2038-2049 without the leading minus *)
Fixpoint aforce (res : resultants) (n : nat) (pts : list apoint) (x : coefs) (i d : nat) : outcome R :=
  match pts with
  | [] => Ok 0
  | q :: r =>
    let c := adef n q x in
    obind (res q c) (fun NM => obind (aforce res n r x i d) (fun y =>
      Ok (aw q * measure (aori q) * (dot3 (fst NM) (Em_der c (bvar d (abas q i))) + dot3 (snd NM) (Ef_der_dof c d (abas q i))) + y)))
  end.
(* entry ((i,d),(j,e)) of the matrix: 1749-1783 *)
Definition aentry (c : jet) (NM : vec * vec) (T : mat * mat * (mat * mat)) (d : nat) (p : sjet) (e : nat) (r : sjet) : R :=
  let v := bvar d p in let u := bvar e r in
  dot3 (vadd (rowmat (Em_der c v) (fst (fst T))) (rowmat (Ef_der_dof c d p) (snd (fst T)))) (Em_der c u) + flatdot v u (fst NM)
  + dot3 (vadd (rowmat (Em_der c v) (fst (snd T))) (rowmat (Ef_der_dof c d p) (snd (snd T)))) (Ef_der_dof c e r) + Ef_der2 c v u (snd NM).
Fixpoint astiff (res : resultants) (tan : tangents) (n : nat) (pts : list apoint) (x : coefs) (i d j e : nat) : outcome R :=
  match pts with
  | [] => Ok 0
  | q :: r =>
    let c := adef n q x in
    obind (res q c) (fun NM => obind (tan q c) (fun T => obind (astiff res tan n r x i d j e) (fun y =>
      Ok (aw q * measure (aori q) * aentry c NM T d (abas q i) e (abas q j) + y))))
  end.
(* mass (1462), elastic foundation vector (551-553) and follower pressure (456-458), entries with constant coefficients *)
Fixpoint asum (pts : list apoint) (f : apoint -> R) : R :=
  match pts with [] => 0 | q :: r => aw q * measure (aori q) * f q + asum r f end.
Definition amass (rho : R) (pts : list apoint) (i d j e : nat) : R := asum pts (fun q => Kmass rho (bvar d (abas q i)) (bvar e (abas q j))).
Definition afound (k : vec) (n : nat) (pts : list apoint) (x : coefs) (i d : nat) : R :=
  asum pts (fun q => Ffound k (aori q) (adef n q x) (bvar d (abas q i))).
Definition apress (p : R) (n : nat) (pts : list apoint) (x : coefs) (i d : nat) : R :=
  asum pts (fun q => Fpress p (adef n q x) (bvar d (abas q i))).

(* planar elements: jets whose third components vanish; the members are filled from the two-dimensional geometry (PtModel.half2) and only
   membrane terms are assembled, 1791-1835 (matrix), 2066-2110 (vector).  meas(ori) = |det jac| is the norm of the cross product. *)
Definition sgeo2 (c : jet) : geo2 := mkGeo2 (fun i => jcol c i).
Definition apt2 (q : apoint) (def : jet) : pdata := planar_pt (sgeo2 (aori q)) (sgeo2 def) (athick q) (apar q).
Section Planar.
Variables (vec_of : apoint -> jet -> outcome vec) (mat_of : apoint -> jet -> outcome mat).
Fixpoint pforce (n : nat) (pts : list apoint) (x : coefs) (i d : nat) : outcome R :=
  match pts with
  | [] => Ok 0
  | q :: r =>
    let c := adef n q x in
    obind (vec_of q c) (fun N => obind (pforce n r x i d) (fun y => Ok (aw q * measure (aori q) * Fint_mem c N (bvar d (abas q i)) + y)))
  end.
Fixpoint pstiff (n : nat) (pts : list apoint) (x : coefs) (i d j e : nat) : outcome R :=
  match pts with
  | [] => Ok 0
  | q :: r =>
    let c := adef n q x in
    obind (vec_of q c) (fun N => obind (mat_of q c) (fun A => obind (pstiff n r x i d j e) (fun y =>
      Ok (aw q * measure (aori q) * Kstiff_mem c A N (bvar d (abas q i)) (bvar e (abas q j)) + y))))
  end.
End Planar.
Definition plane_res close eps epsm eig comp imp w (q : apoint) (def : jet) : outcome vec :=
  ovec (arule q) (athick q) 0 (fun z => eval_stress close eps epsm eig comp imp w (apt2 q def) z).
Definition plane_tan eps epsm eig comp imp w (q : apoint) (def : jet) : outcome mat :=
  omat (arule q) (athick q) 0 (fun z => eval_matrix eps epsm eig comp imp w (apt2 q def) z).
(* the linear material in two dimensions *)
Definition plin_res (q : apoint) (def : jet) : outcome vec :=
  obind (lin_vector (pE (apar q)) (pnu (apar q)) KMembrane (apt2 q def) 0) (fun N => Ok (fun a => N a * fz (athick q) 0)).
Definition plin_tan (q : apoint) (def : jet) : outcome mat :=
  obind (lin_matrix (pE (apar q)) (pnu (apar q)) (apt2 q def) 0) (fun C => Ok (fun a b => C a b * fz (athick q) 0)).
