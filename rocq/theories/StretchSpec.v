(* What the principal stretches of a compressible shell should be, at one height of one point. *)
From Coq Require Import Reals.
From Verif Require Import Tensor MetricModel PrincipalModel PrincipalSpec.
Open Scope R_scope.

(* l are the stretches of the deformation from surface go to surface gd at height h with plane-stress component c:
   the in-plane ones are principal, the transverse one has square c *)
Definition in_plane_stretches (go gd : geo) (h : R) (l : vec) : Prop :=
  exists v1 v2, principal_stretches (Bten (Gcov gd h) (gcon go h)) (normal go) (l 0%nat) (l 1%nat) v1 v2.
Definition transverse_stretch (c : R) (l : vec) : Prop := 0 <= l 2%nat /\ l 2%nat * l 2%nat = c.

(* contract of the eigen-solver on the tensor that occurs at height h *)
Definition solved (eig : mat -> vec * (nat -> vec)) (go gd : geo) (h : R) : Prop :=
  let B := Bten (Gcov gd h) (gcon go h) in eigen_decomposition B (fst (eig B)) (snd (eig B)).
