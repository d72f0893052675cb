(* Layout of the local matrices: how the expressions of gsThinShellUtils.h store the rows, columns and blocks that belong to the
   local degrees of freedom (component d of active j) of an element, and how they are multiplied and added up.
   Matrices are functions of the row and column number; a matrix that is only resized has arbitrary contents (arguments m0 below).
   One evaluation point; three components; the geometry is a jet (KinModel).
   Contracts of the core library (not in /repo):
   - values[0], values[1], values[2] of a scalar basis hold, per column, 1, 2, 3 numbers per active: value; derivatives 1, 2;
     second derivatives 11, 22, 12;
   - jac(space) has the 3x2 blocks of the actives side by side, component by component; tr() transposes the blocks;
     flat() turns 2x2 blocks X into rows [X00, X11, X01 + X10]; symmetrize() is X + X^T;
   - the assembler adds entry (r,s) of the local matrix to the global entry of the degrees of freedom of r and s. *)
From Coq Require Import Reals List Arith.
From Verif Require Import Tensor KinModel KinAsm.
Import ListNotations.
Open Scope R_scope.

Definition mtx := nat -> nat -> R.
(* for (index_t k = 0; k != n; ++k) body *)
Fixpoint for_ {S : Type} (n : nat) (body : nat -> S -> S) (s : S) : S :=
  match n with O => s | Datatypes.S k => body k (for_ k body s) end.
Definition setrow (r : nat) (v : vec) (m : mtx) : mtx := fun i j => if Nat.eqb i r then v j else m i j.
Definition setcol (c : nat) (v : vec) (m : mtx) : mtx := fun i j => if Nat.eqb j c then v i else m i j.
Definition setat (r c : nat) (x : R) (m : mtx) : mtx := fun i j => if andb (Nat.eqb i r) (Nat.eqb j c) then x else m i j.

(* data of a space at a point: number of actives, columns of values[0..2] *)
Record ldata := mkld { lA : nat; lv : nat -> R; lg : nat -> R; lh : nat -> R }.
(* the jet with which the variations see vecFun(d, grads.at(2*j)), vecFun(d, grads.at(2*j+1)): 168-169, 302-303, 430-431 *)
Definition gradjet (L : ldata) (d j : nat) : jet :=
  mkjet vzero (vecFun d (lg L (2 * j)%nat)) (vecFun d (lg L (2 * j + 1)%nat)) vzero vzero vzero.

(* var1_expr, space: 148-175; row d*A+j *)
Definition var1_mat (L : ldata) (c : jet) (m0 : mtx) : mtx :=
  for_ 3 (fun d => for_ (lA L) (fun j => setrow (d * lA L + j) (var1 c (gradjet L d j)))) m0.
(* deriv2dot_expr, space: 1327-1345; tmp(j,a) = values[2](3*j+a) (transpose of reshapeCol), block i*numAct of numAct rows *)
Definition setblock (r0 n : nat) (b : mtx) (m : mtx) : mtx := fun i j => if andb (Nat.leb r0 i) (Nat.ltb i (r0 + n)) then b (i - r0)%nat j else m i j.
Definition deriv2dot_mat (L : ldata) (n : vec) (m0 : mtx) : mtx :=
  for_ 3 (fun i => setblock (i * lA L) (lA L) (fun j a => lh L (3 * j + a)%nat * n i)) m0.
(* deriv2dot_expr, geometry: 1320-1324; vEv * tmp^T *)
Definition deriv2dot_geo (c : jet) (vEv : mtx) : mtx := fun r a => sum3 (fun k => vEv r k * jsec c a k).
(* deriv2_expr, space: 1541-1576; 3 x 3*cardinality, setZero, column d*(cardinality+1) + 3*i gets tmp.col(i) *)
Definition deriv2_mat (L : ldata) : mtx :=
  for_ 3 (fun d => for_ (lA L) (fun i => setcol (d * (3 * lA L + 1) + i * 3) (fun a => lh L (3 * i + a)%nat))) (fun _ _ => 0).
(* jac(space) and jac(space).tr() (core) *)
Definition jac_mat (L : ldata) : mtx := fun i q => let r := (q / 2)%nat in if Nat.eqb i (r / lA L)%nat then lg L (2 * (r mod lA L) + q mod 2)%nat else 0.
Definition jacT_mat (L : ldata) : mtx := fun a q => jac_mat L (q mod 3)%nat (2 * (q / 3) + a)%nat.
(* flatdot_expr: 1656-1666 *)
Definition flatdot_mat (n : nat) (eA eB : mtx) (eC : vec) (m0 : mtx) : mtx :=
  for_ n (fun i => for_ n (fun j =>
    let tmp := fun a b => sum3 (fun k => eB a (i * 3 + k)%nat * eA k (j * 2 + b)%nat) in
    setat i j (tmp 0%nat 0%nat * eC 0%nat + tmp 0%nat 1%nat * eC 2%nat + tmp 1%nat 0%nat * eC 2%nat + tmp 1%nat 1%nat * eC 1%nat))) m0.
(* flatdot2_expr: 1726-1734 *)
Definition flatdot2_mat (n : nat) (eA eB : mtx) (eC : vec) (m0 : mtx) : mtx :=
  for_ n (fun i => for_ n (fun j =>
    let tmp := fun a => sum3 (fun k => eA a (i * 3 + k)%nat * eB k j) in
    setat i j (dot3 eC (mult2 tmp)))) m0.
(* var2deriv2dot_expr: 422-467; loops j, i, d, c; entry (d*cardU+j, c*cardV+i) *)
Definition var2d_mat (L : ldata) (g : jet) (f : vec) (m0 : mtx) : mtx :=
  for_ (lA L) (fun j => for_ (lA L) (fun i => for_ 3 (fun d => for_ 3 (fun c =>
    setat (d * lA L + j) (c * lA L + i) (var2deriv2dot g (gradjet L d j) (gradjet L c i) f))))) m0.

(* contents of the result matrices before the loops *)
Record junk := mkju { u1 : mtx; u2 : mtx; u3 : mtx; u4 : mtx; u5 : mtx }.
(* m_Em_der: gsThinShellAssembler.hpp 1748, 2020 *)
Definition Em_mat (L : ldata) (c : jet) : mtx := fun r a =>
  let X := fun p q => sum3 (fun k => (match p with O => j1 c | _ => j2 c end) k * jac_mat L k (2 * r + q)%nat) in
  match a with 0%nat => X 0%nat 0%nat | 1%nat => X 1%nat 1%nat | _ => X 0%nat 1%nat + X 1%nat 0%nat end.
(* m_Ef_der: 1753, 2023 *)
Definition Ef_mat (U : junk) (L : ldata) (c : jet) : mtx := fun r =>
  mult2 (fun a => - (deriv2dot_mat L (unormal c) (u1 U) r a + deriv2dot_geo c (var1_mat L c (u2 U)) r a)).
(* m_Em_der2, m_Ef_der2: 1749, 1754-1755 *)
Definition Em2_mat (U : junk) (L : ldata) (N : vec) : mtx := flatdot_mat (3 * lA L) (jac_mat L) (jacT_mat L) N (u3 U).
Definition Ef2_mat (U : junk) (L : ldata) (c : jet) (M : vec) : mtx := fun r s =>
  let F := flatdot2_mat (3 * lA L) (deriv2_mat L) (fun k j => var1_mat L c (u2 U) j k) M (u4 U) in
  - (F r s + F s r + var2d_mat L c M (u5 U) r s).
(* local matrix and vector: 1757-1783, 2038-2049 (without weight and measure; the code subtracts the vector) *)
Definition local_K (U : junk) (L : ldata) (c : jet) (A B C D : mat) (N M : vec) : mtx := fun r s =>
  let Em := Em_mat L c in let Ef := Ef_mat U L c in
  dot3 (vadd (rowmat (Em r) A) (rowmat (Ef r) B)) (Em s) + Em2_mat U L N r s
  + dot3 (vadd (rowmat (Em r) C) (rowmat (Ef r) D)) (Ef s) + Ef2_mat U L c M r s.
Definition local_F (U : junk) (L : ldata) (c : jet) (N M : vec) : nat -> R := fun r =>
  dot3 N (Em_mat L c r) + dot3 M (Ef_mat U L c r).
(* membrane version: 1817-1835, 2106-2110 *)
Definition local_Km (U : junk) (L : ldata) (c : jet) (A : mat) (N : vec) : mtx := fun r s =>
  dot3 (rowmat (Em_mat L c r) A) (Em_mat L c s) + Em2_mat U L N r s.
Definition local_Fm (L : ldata) (c : jet) (N : vec) : nat -> R := fun r => dot3 N (Em_mat L c r).

(* deriv2_expr of a gsFeVariable: 1499-1519, the point k is not used; deriv2dot_expr of a gsFeVariable: 1348-1373.
   vals k: column k of values[2], nine numbers, component by component *)
Definition deriv2_var (vals : nat -> nat -> R) (k : nat) : mtx := fun a comp => vals 0%nat (comp * 3 + a)%nat.
Definition deriv2dot_var (vals : nat -> nat -> R) (k : nat) (w : vec) : vec := fun a => sum3 (fun comp => w comp * vals k (comp * 3 + a)%nat).

(* assembly: elements with the global numbers of their actives; points with the data of the space at the point *)
Record lelem := mkle { eact : nat -> nat; enum : nat; epts : list (qpoint * (ldata * junk)) }.
Definition gmat := nat -> nat -> nat -> nat -> R.
Definition gvec := nat -> nat -> R.
Definition addK (i d j e : nat) (x : R) (G : gmat) : gmat := fun i' d' j' e' =>
  if andb (andb (Nat.eqb i' i) (Nat.eqb d' d)) (andb (Nat.eqb j' j) (Nat.eqb e' e)) then G i' d' j' e' + x else G i' d' j' e'.
Definition addF (i d : nat) (x : R) (G : gvec) : gvec := fun i' d' => if andb (Nat.eqb i' i) (Nat.eqb d' d) then G i' d' + x else G i' d'.
Definition el_K (n : nat) (x : coefs) (el : lelem) : mtx := fun r s => psum (epts el) (fun p =>
  let q := fst p in let em := qem n q x in let ef := qef n q x in
  qw q * local_K (snd (snd p)) (fst (snd p)) (qdef n q x) (qA q em ef) (qB q em ef) (qC q em ef) (qD q em ef) (qN q em ef) (qM q em ef) r s).
Definition el_F (n : nat) (x : coefs) (el : lelem) : nat -> R := fun r => psum (epts el) (fun p =>
  let q := fst p in let em := qem n q x in let ef := qef n q x in
  qw q * local_F (snd (snd p)) (fst (snd p)) (qdef n q x) (qN q em ef) (qM q em ef) r).
Definition push_K (n : nat) (x : coefs) (el : lelem) (G : gmat) : gmat :=
  for_ (3 * enum el) (fun s => for_ (3 * enum el) (fun r =>
    addK (eact el (r mod enum el)) (r / enum el) (eact el (s mod enum el)) (s / enum el) (el_K n x el r s))) G.
Definition push_F (n : nat) (x : coefs) (el : lelem) (G : gvec) : gvec :=
  for_ (3 * enum el) (fun r => addF (eact el (r mod enum el)) (r / enum el) (el_F n x el r)) G.
Definition asm_K (n : nat) (x : coefs) (els : list lelem) : gmat := fold_left (fun G el => push_K n x el G) els (fun _ _ _ _ => 0).
Definition asm_F (n : nat) (x : coefs) (els : list lelem) : gvec := fold_left (fun G el => push_F n x el G) els (fun _ _ => 0).

(* ------------------------------------------------------------------ edges: o = outer normal, t = tangent of the edge (core), +- one column *)
(* tvar1_expr, space: 725-787; setZero, detection of the column, then the rows *)
Definition tvar1_row (sg : R) (i : nat) (t : vec) (v : jet) : vec :=
  let ut := normalize t in let dtan := vscal sg (jcol v i) in fun k => 1 / norm3 t * (dtan k - dot3 ut dtan * ut k).
Definition tvar1_mat (tol : R) (L : ldata) (c : jet) (o t : vec) : mtx :=
  match detect tol c o with
  | None => fun _ _ => 0
  | Some i => for_ 3 (fun d => for_ (lA L) (fun j => setrow (d * lA L + j) (tvar1_row (detect_sign c t i) i t (gradjet L d j)))) (fun _ _ => 0)
  end.
(* ovar1_expr, space: 930-962 *)
Definition ovar1_mat (tol : R) (L : ldata) (c : jet) (o t : vec) (m0 m1 : mtx) : mtx :=
  for_ 3 (fun d => for_ (lA L) (fun j => setrow (d * lA L + j)
    (vadd (cross3 (tvar1_mat tol L c o t (d * lA L + j)%nat) (unormal c)) (cross3 (normalize t) (var1_mat L c m0 (d * lA L + j)%nat))))) m1.
(* ovar2dot_expr: 1031-1168; setZero, loops j, i, d, c; eC * nvar2 *)
Definition ovar2dot_mat (tol : R) (L : ldata) (c : jet) (o t eC : vec) : mtx :=
  match detect tol c o with
  | None => fun _ _ => 0
  | Some k => for_ (lA L) (fun j => for_ (lA L) (fun i => for_ 3 (fun d => for_ 3 (fun e =>
      setat (d * lA L + j) (e * lA L + i) (dot3 eC (ovar2 (detect_sign c t k) k c (gradjet L d j) (gradjet L e i))))))) (fun _ _ => 0)
  end.
