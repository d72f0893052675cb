(* Model of principal stretches / stresses / strains, tension-field classification and basis transformation
   of gsMaterialMatrixBaseDim (src/gsMaterialMatrixBaseDim.hpp). *)
From Coq Require Import Reals.
From Verif Require Import Tensor.
Open Scope R_scope.

(* gsMaterialMatrixBaseDim.hpp 1341-1345 / 1396-1400 / 1445-1449: B = sum_{k,l<2} X(k,l) g_k g_l^T *)
Definition Bten (X : mat) (g : nat -> vec) : mat := fun a b =>
  sum2 (fun k => sum2 (fun l => X k l * g k a * g l b)).

(* gsMaterialMatrixBaseDim.hpp 1349: condition of the shortcut; eps is numeric_limits<T>::epsilon() *)
Definition shortcut (eps : R) (B : mat) : bool :=
  if Rlt_dec (Rabs ((B 0%nat 0%nat - 1) + (B 1%nat 1%nat - 1))) (10 * eps) then true else false.

(* gsMaterialMatrixBaseDim.hpp 1328-1380: _evalStretch.  vals/vecs is what the eigen-solver returns for B
   (ascending eigenvalues vals k, eigenvectors vecs k). Result: stretches, stretch directions (columns). *)
Definition evalStretch (eps : R) (C : mat) (gcon : nat -> vec) (vals : vec) (vecs : nat -> vec) : vec * (nat -> vec) :=
  let B := Bten C gcon in
  let '(ev, evec) :=
    if shortcut eps B then
      ((fun k => match k with 0%nat => 0 | _ => 1 end),
       (fun k => match k with
                 | 0%nat => fun c => delta c 2
                 | 1%nat => fun c => delta c 1
                 | _ => fun c => delta c 0 end))
    else (vals, vecs) in
  ((fun k => match k with 0%nat => sqrt (ev 1%nat) | 1%nat => sqrt (ev 2%nat) | _ => sqrt (C 2%nat 2%nat) end),
   (fun k => match k with 0%nat => evec 1%nat | 1%nat => evec 2%nat | _ => gcon 2%nat end)).

(* gsMaterialMatrixBaseDim.hpp 1404-1411 / 1453-1458: index of the eigenvalue that is dropped *)
Definition maxabs (v : vec) : R := Rmax (Rabs (v 0%nat)) (Rmax (Rabs (v 1%nat)) (Rabs (v 2%nat))).
Definition zeroIdx (tol : R) (v : vec) : option nat :=
  let mx := if Req_EM_T (maxabs v) 0 then 1 else maxabs v in
  let small k := if Rlt_dec (Rabs (v k) / mx) tol then true else false in
  if small 2%nat then Some 2%nat else if small 1%nat then Some 1%nat else if small 0%nat then Some 0%nat else None.

(* gsMaterialMatrixBaseDim.hpp 1413-1423: the two remaining eigenvalues in order.  If no eigenvalue is small the
   release build (GISMO_ASSERT off) writes three entries into a vector of two (pstress): reported as UB. *)
Definition pvals (tol : R) (v : vec) : outcome (R * R) :=
  match zeroIdx tol v with
  | Some 0%nat => Ok (v 1%nat, v 2%nat)
  | Some 1%nat => Ok (v 0%nat, v 2%nat)
  | Some _     => Ok (v 0%nat, v 1%nat)
  | None => UB
  end.

(* gsMaterialMatrixBaseDim.hpp 344-393: _tensionField<0/1/2>; Sp has two entries, Ep three (the third is E(2,2) = 0, line 1463) *)
Definition near_zero (x mx : R) : bool := if Rle_dec (Rabs x) (mx * / 10 ^ 12) then true else false.
Definition pos (x : R) : bool := if Rlt_dec 0 x then true else false.
Definition neg (x : R) : bool := if Rlt_dec x 0 then true else false.
Inductive tstate := Taut | Slack | Wrinkled.
Definition tensionField (typ : nat) (Sp Ep : R * R) : tstate :=
  let Smax := Rmax (fst Sp) (snd Sp) in
  let Emax := Rmax (fst Ep) (Rmax (snd Ep) 0) in
  let tautS := (pos (fst Sp) || near_zero (fst Sp) Smax)%bool in
  let tautE := (pos (fst Ep) || near_zero (fst Ep) Emax)%bool in
  match typ with
  | 0%nat => if tautE then Taut else if neg (snd Ep) then Slack else Wrinkled
  | 1%nat => if tautS then Taut else if neg (snd Sp) then Slack else Wrinkled
  | _     => if tautS then Taut else if neg (snd Ep) then Slack else Wrinkled
  end.

(* gsMaterialMatrixBaseDim.hpp 294-342: the option selects the criterion; any other value leaves the result uninitialised *)
Definition eval_tensionfield (opt : nat) (Sp Ep : R * R) : outcome tstate :=
  if Nat.leb opt 2 then Ok (tensionField opt Sp Ep) else UB.

(* gsMaterialMatrixBaseDim.hpp 1502-1524: _transformation(basis1,basis2) *)
Definition transformation (b1 b2 : nat -> vec) : mat := fun i j =>
  let d a b := dot3 (b2 a) (b1 b) in
  match i, j with
  | 2%nat, 0%nat => d 1%nat 0%nat * d 0%nat 0%nat
  | 2%nat, 1%nat => d 0%nat 1%nat * d 1%nat 1%nat
  | 0%nat, 2%nat => 2 * d 0%nat 1%nat * d 0%nat 0%nat
  | 1%nat, 2%nat => 2 * d 1%nat 0%nat * d 1%nat 1%nat
  | 2%nat, 2%nat => d 0%nat 1%nat * d 1%nat 0%nat + d 0%nat 0%nat * d 1%nat 1%nat
  | _, _ => d i j * d i j
  end.
