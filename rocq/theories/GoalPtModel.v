(* Dual load vector of a goal functional given by points (src/gsThinShellAssemblerDWR.hpp 1107-1587): scatter into the numbering of the
   space.  The integrand of every goal is dual_dens of DwrModel.v.
   External contracts (G+Smo core): ev.eval of an expression linear in the space returns one row per active function and component,
   component after component (row i + j * actives.rows() belongs to active i, component j); localToGlobal applies the mapper entry by
   entry; reading a matrix outside its rows is undefined in release builds. *)
From Coq Require Import Reals List Arith.
From Verif Require Import Tensor SizeModel KinModel KinAsm DwrModel DofModel.
Import ListNotations.
Open Scope R_scope.

(* points.col(k) with basis(pIndex).active_into, pIndex = 0 (1110, 1244) *)
Record evalpt := mkev { ev_pt : gpoint; ev_act : list nat }.

(* for (i = 0; i < n; ++i) with a body that may be undefined *)
Fixpoint loop_o {S : Type} (n : nat) (body : nat -> S -> outcome S) (s : S) : outcome S :=
  match n with O => Ok s | Datatypes.S m => obind (loop_o m body s) (body m) end.

(* 1244-1251, the same in all twenty branches: tmp has the given number of rows, space.dim() = 3 *)
Definition scatter (m : mapper) (acts : list nat) (rows : nat) (tmp : nat -> R) (r0 : nat -> R) : outcome (nat -> R) :=
  loop_o 3 (fun j => loop_o (length acts) (fun i r =>
    let g := m_index m (nth i acts 0%nat) 0 j in
    if is_free m g
    then (if Nat.ltb (i + j * length acts) rows then Ok (write r g (r g + tmp (i + j * length acts)%nat)) else UB)
    else Ok r)) r0.

(* the value of the expression for active a, component d: 1239, 1254, ... (meas(Gori) is gw) *)
Definition dof_value (g : goal) (comp : nat) (def prim : gpoint -> jet) (p : gpoint) (a d : nat) : R :=
  gw p * dual_dens Point (glaw p) (gori p) (def p) (prim p) g comp
    (j0 (bvar d (gbas p a))) (Em_der (def p) (bvar d (gbas p a))) (Ef_der_dof (def p) d (gbas p a)).
(* tmp = ev.eval(expr,points.col(k)).  One component of the membrane force, 1462: N.tr()*uv has no space, a 1 x 1 result *)
Definition tmp_rows (g : goal) (comp : nat) (acts : list nat) : nat :=
  match g with GMembraneForce => if Nat.eqb comp 9 then (3 * length acts)%nat else 1%nat | _ => (3 * length acts)%nat end.
Definition tmp_of (g : goal) (comp : nat) (def prim : gpoint -> jet) (q : evalpt) (r : nat) : R :=
  let p := ev_pt q in let n := length (ev_act q) in
  let row := dof_value g comp def prim p (nth (r mod n)%nat (ev_act q) 0%nat) (r / n)%nat in
  match g with
  | GMembraneForce => if Nat.eqb comp 9 then row else gw p * lN (glaw p) (Em (gori p) (def p)) (Ef (gori p) (def p)) comp
  | _ => row
  end.
(* 1340: three columns times a vector of length 2; uv(comp,3) *)
Definition expr_status (g : goal) (comp : nat) : outcome unit :=
  match g, comp with
  | GPStress, 9%nat => UB
  | _, _ => if (Nat.eqb comp 9 || Nat.ltb comp 3)%bool then Ok tt else UB
  end.
Fixpoint point_loop (m : mapper) (g : goal) (comp : nat) (def prim : gpoint -> jet) (pts : list evalpt) (r : nat -> R) : outcome (nat -> R) :=
  match pts with
  | [] => Ok r
  | q :: pts' => obind (scatter m (ev_act q) (tmp_rows g comp (ev_act q)) (tmp_of g comp def prim q) r) (point_loop m g comp def prim pts')
  end.
(* length and entries of the result.  m0: mapper before space.setup(m_bcs, homogeneous, 0) (1143), the one initSystem/initVector use
   (1130-1136, returned unchanged without points); m: the mapper after it (1234-1235) *)
Definition point_dual (m0 m : mapper) (g : goal) (comp : nat) (def prim : gpoint -> jet) (pts : list evalpt) : outcome (nat * (nat -> R)) :=
  match pts with
  | [] => Ok (m_free m0, fun _ => 0)
  | _ => obind (expr_status g comp) (fun _ => obind (point_loop m g comp def prim pts (fun _ => 0)) (fun r => Ok (m_free m, r)))
  end.
