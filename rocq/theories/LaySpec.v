(* Specification of the local numbering: what the entry of two degrees of freedom has to be. *)
From Coq Require Import Reals List Arith.
From Verif Require Import Tensor KinModel KinSpec KinAsm LayModel.
Import ListNotations.
Open Scope R_scope.

(* the scalar basis function with local number j at the point *)
Definition active (L : ldata) (j : nat) : sjet :=
  mksjet (lv L j) (lg L (2 * j)%nat) (lg L (2 * j + 1)%nat) (lh L (3 * j)%nat) (lh L (3 * j + 1)%nat) (lh L (3 * j + 2)%nat).
Definition szero : sjet := mksjet 0 0 0 0 0 0.
(* the number of component d of active j among 3*A local degrees of freedom *)
Definition dof (A d j : nat) : nat := (d * A + j)%nat.
(* the data of the points of an element agree with the global basis functions: actives are different, the others vanish *)
Definition elem_ok (el : lelem) : Prop :=
  (forall j k, (j < enum el)%nat -> (k < enum el)%nat -> eact el j = eact el k -> j = k) /\
  (forall p, In p (epts el) -> lA (fst (snd p)) = enum el /\
     (forall j, (j < enum el)%nat -> qbas (fst p) (eact el j) = active (fst (snd p)) j) /\
     (forall i, (forall j, (j < enum el)%nat -> eact el j <> i) -> qbas (fst p) i = szero)).
Definition all_pts (els : list lelem) : list qpoint := flat_map (fun el => map fst (epts el)) els.
