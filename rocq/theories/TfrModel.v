(* Membrane of a tension-field material with a linear inner material: the value returned at one point and its assembly.
   The mid-surface only (z = 0): there the strain of the point is the membrane strain and the inner stress is C times the strain. *)
From Coq Require Import Reals List.
From Verif Require Import Tensor TFTModel KinModel KinSpec KinAsm PrincipalModel.
Import ListNotations.
Open Scope R_scope.

(* the inner stress: gsMaterialMatrixLinear.hpp 482-484 and 557-563 (_Sij), contraction of the moduli with the strain *)
Definition inner_stress (C : mat) (E : vec) : vec := fun i => sum3 (fun j => C i j * E j).

(* gsMaterialMatrixTFT.hpp 155-196 (eval3D_stress) for one point: the tension field value is [tf], the search returns [theta] *)
Definition tft_stress (mult : R) (C : mat) (E : vec) (tf : R) (theta : mat -> vec -> vec -> outcome R) : outcome vec :=
  stress_at (fun _ => tf) mult 1 (fun _ _ => C) (fun _ _ => E) theta 0 0 (inner_stress C E).
(* gsMaterialMatrixTFT.hpp 366-409 (eval3D_matrix, linear inner material) for one point *)
Definition tft_matrix (mult : R) (C : mat) (E : vec) (tf : R) (theta : mat -> vec -> vec -> outcome R) : outcome mat :=
  matrix_lin_at (fun _ => tf) mult 1 (fun _ _ => inner_stress C E) (fun _ _ => E) theta 0 0 C.

(* gsMaterialMatrixBaseDim.hpp 344-393: the number written for a taut, slack, wrinkled point *)
Definition tf_value (s : tstate) : R := match s with Taut => 1 | Slack => -1 | Wrinkled => 0 end.

(* a point of the membrane: weight * meas(ori), undeformed geometry, basis functions, thickness, moduli;
   tension field and search depend on the strain *)
Record mpoint := mkm {
  mw : R; mbas : nat -> sjet; mori : jet; mth : R; mC : mat;
  mtf : vec -> R; mtheta : mat -> vec -> vec -> outcome R }.
Definition mdef (n : nat) (q : mpoint) (x : coefs) : jet := jadd (mori q) (fieldjet n (mbas q) x).
Definition mem (n : nat) (q : mpoint) (x : coefs) : vec := mem_strain (mori q) (mdef n q x).

(* the values integrated over the thickness (gsMaterialMatrixIntegrate, see C68: thickness times the value) *)
Definition scale_out {A} (t : R) (f : R -> A -> A) (o : outcome A) : outcome A := match o with Ok v => Ok (f t v) | Throw => Throw | UB => UB end.
Definition mN (mult : R) (q : mpoint) (E : vec) : outcome vec :=
  scale_out (mth q) (fun t v i => t * v i) (tft_stress mult (mC q) E (mtf q E) (mtheta q)).
Definition mA (mult : R) (q : mpoint) (E : vec) : outcome mat :=
  scale_out (mth q) (fun t v i j => t * v i j) (tft_matrix mult (mC q) E (mtf q E) (mtheta q)).

(* sum over the points; an exception or undefined value at a point ends the assembly *)
Fixpoint osum (l : list mpoint) (f : mpoint -> outcome R) : outcome R :=
  match l with
  | [] => Ok 0
  | q :: r => match f q with Ok v => match osum r f with Ok s => Ok (v + s) | Throw => Throw | UB => UB end | Throw => Throw | UB => UB end
  end.
Definition omap {A B} (f : A -> B) (o : outcome A) : outcome B := match o with Ok v => Ok (f v) | Throw => Throw | UB => UB end.
(* entry (i,d) of the internal force, gsThinShellAssembler.hpp 2106-2110 without the leading minus *)
Definition Fmem (n : nat) (mult : R) (pts : list mpoint) (x : coefs) (i d : nat) : outcome R :=
  osum pts (fun q => omap (fun N => mw q * Fint_mem (mdef n q x) N (bvar d (mbas q i))) (mN mult q (mem n q x))).
(* entry ((i,d),(j,e)) of the matrix, 1817-1835 *)
Definition Kmem (n : nat) (mult : R) (pts : list mpoint) (x : coefs) (i d j e : nat) : outcome R :=
  osum pts (fun q => match mA mult q (mem n q x) with
    | Ok A => omap (fun N => mw q * Kstiff_mem (mdef n q x) A N (bvar d (mbas q i)) (bvar e (mbas q j))) (mN mult q (mem n q x))
    | Throw => Throw | UB => UB end).
