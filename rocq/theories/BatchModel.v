(* Model of the batched evaluation loops of the material classes:
     for k < u.cols()  for j < z.rows()  { ...; result.col(j*u.cols()+k) = value }
   with result allocated with [alloc] columns. *)
From Coq Require Import List Arith.
From Verif Require Import Tensor.
Import ListNotations.

(* result.col(c) = v : out of range access is undefined behaviour (release build) *)
Definition store (A : Type) := nat -> option A.
Definition empty {A} : store A := fun _ => None.
Definition write {A} (alloc c : nat) (v : A) (s : store A) : outcome (store A) :=
  if Nat.ltb c alloc then Ok (fun i => if Nat.eqb i c then Some v else s i) else UB.

(* colIdx = j * u.cols() + k, e.g. gsMaterialMatrixBaseDim.hpp 185, 211, 233, 256, 282 *)
Definition colIdx (n k j : nat) : nat := j * n + k.

Fixpoint inner {A} (n alloc k : nat) (F : nat -> nat -> A) (js : list nat) (s : store A) : outcome (store A) :=
  match js with
  | [] => Ok s
  | j :: js' => match write alloc (colIdx n k j) (F k j) s with Ok s' => inner n alloc k F js' s' | Throw => Throw | UB => UB end
  end.
Fixpoint outer {A} (n m alloc : nat) (F : nat -> nat -> A) (ks : list nat) (s : store A) : outcome (store A) :=
  match ks with
  | [] => Ok s
  | k :: ks' => match inner n alloc k F (seq 0 m) s with Ok s' => outer n m alloc F ks' s' | Throw => Throw | UB => UB end
  end.

(* n = u.cols(), m = z.rows(); F k j is the value computed for point k and thickness coordinate z(j,k) *)
Definition batch {A} (n m alloc : nat) (F : nat -> nat -> A) : outcome (store A) :=
  outer n m alloc F (seq 0 n) empty.

(* quantities allocated with u.cols()*z.rows() columns: eval3D_deformation (BaseDim.hpp 181), eval3D_strain (274),
   eval3D_pstretch (201), eval3D_matrix / eval3D_stress (gsMaterialMatrixLinear.hpp 470, gsMaterialMatrixNonlinear.hpp 783, 882) *)
Definition eval3D_full {A} (n m : nat) (F : nat -> nat -> A) := batch n m (n * m) F.
(* quantities allocated with u.cols() columns but looping over z.rows() as well: eval3D_spec2cov, eval3D_spec2con,
   eval3D_cov2cart, eval3D_con2cart (BaseDim.hpp 70, 92, 116, 139), TFT eval3D_theta, eval3D_gamma (gsMaterialMatrixTFT.hpp 306, 338) *)
Definition eval3D_short {A} (n m : nat) (F : nat -> nat -> A) := batch n m n F.

(* Stateful version: m_data.mine() holds the metric of the last _getMetric call (type G). *)
Section TwoPass.
  Context {G V W : Type}.
  Variables (metric : nat -> nat -> G) (S : nat -> nat -> G -> V) (P : G -> V -> W).

  (* the state after the loops of eval3D_stress / eval3D_strain (gsMaterialMatrixLinear.hpp 474-488, BaseDim.hpp 277-289),
     visiting the pairs k-major; g is the initial state *)
  Fixpoint visit_inner (k : nat) (js : list nat) (g : G) : G :=
    match js with [] => g | j :: js' => visit_inner k js' (metric k j) end.
  Fixpoint visit (m : nat) (ks : list nat) (g : G) : G :=
    match ks with [] => g | k :: ks' => visit m ks' (visit_inner k (seq 0 m) g) end.

  (* eval3D_pstress (gsMaterialMatrixLinear.hpp 361-391, gsMaterialMatrixNonlinear.hpp 616-640), eval3D_pstrain (BaseDim.hpp 242-267):
     the first pass computes the tensor components with the metric of each pair, the second pass does not call _getMetric *)
  Definition eval3D_two_pass (n m : nat) (g0 : G) : outcome (store W) :=
    let g := visit m (seq 0 n) g0 in
    batch n m (n * m) (fun k j => P g (S k j (metric k j))).

  (* eval3D_pstretch, eval3D_pstretchDir (BaseDim.hpp 198-239): the second pass calls _getMetric for each pair *)
  Definition eval3D_refreshed (n m : nat) (g0 : G) : outcome (store W) :=
    batch n m (n * m) (fun k j => P (metric k j) (S k j (metric k j))).
End TwoPass.
