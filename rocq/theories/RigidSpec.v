(* Specification for the rigidity theorems: surfaces over an open parameter rectangle with consistent derivatives. *)
From Coq Require Import Reals.
From Coquelicot Require Import Coquelicot.
From Verif Require Import Tensor KinModel KinSpec.
Open Scope R_scope.

(* the open rectangle (p,q) x (p',q') *)
Record rect := mkrect { rp : R; rq : R; rp' : R; rq' : R }.
Definition inside (D : rect) (s t : R) : Prop := rp D < s < rq D /\ rp' D < t < rq' D.

(* the entries of the jets are the partial derivatives of the values, up to second order *)
Definition smooth (D : rect) (c : R -> R -> jet) : Prop := forall s t, inside D s t ->
  is_dvec (fun s => j0 (c s t)) s (j1 (c s t)) /\ is_dvec (fun t => j0 (c s t)) t (j2 (c s t)) /\
  is_dvec (fun s => j1 (c s t)) s (j11 (c s t)) /\ is_dvec (fun t => j1 (c s t)) t (j12 (c s t)) /\
  is_dvec (fun s => j2 (c s t)) s (j12 (c s t)) /\ is_dvec (fun t => j2 (c s t)) t (j22 (c s t)).
