(* What tension-field theory asks for, in tensor notation: n the wrinkling direction, m the tension direction. *)
From Coq Require Import Reals List Bool.
From Coquelicot Require Import Coquelicot.
From Verif Require Import Tensor TFTModel.
Import ListNotations.
Open Scope R_scope.

Definition wdir (th : R) : vec := fun i => match i with 0%nat => cos th | _ => sin th end.
Definition tdir (th : R) : vec := fun i => match i with 0%nat => - sin th | _ => cos th end.

(* 2x2 tensors of the Voigt vectors *)
Definition stress_tensor (S : vec) : mat := fun a b =>
  match a, b with 0%nat, 0%nat => S 0%nat | 0%nat, _ | _, 0%nat => S 2%nat | _, _ => S 1%nat end.
Definition strain_tensor (E : vec) : mat := fun a b =>
  match a, b with 0%nat, 0%nat => E 0%nat | 0%nat, _ | _, 0%nat => E 2%nat / 2 | _, _ => E 1%nat end.
Definition along (X : mat) (u v : vec) : R := sum2 (fun a => sum2 (fun b => u a * X a b * v b)).

(* the stress is s * m (x) m *)
Definition uniaxial (S : vec) (th s : R) : Prop :=
  forall a b, (a < 2)%nat -> (b < 2)%nat -> stress_tensor S a b = s * tdir th a * tdir th b.

(* a wrinkled state of a linear membrane with stiffness C and strain E (engineering shear): with an additional contraction
   g n (x) n taken up by wrinkles the membrane is in uniaxial tension s along m *)
Definition dyad (th : R) : vec := fun i =>
  match i with 0%nat => wdir th 0%nat * wdir th 0%nat | 1%nat => wdir th 1%nat * wdir th 1%nat | _ => 2 * (wdir th 0%nat * wdir th 1%nat) end.
Definition wrinkled_state (C : mat) (E : vec) (th g s : R) : Prop :=
  0 < g /\ 0 < s /\ uniaxial (fun i => sum3 (fun j => C i j * (E j + g * dyad th j))) th s.

(* symmetric and positive definite 3x3 matrices *)
Definition sym3 (C : mat) : Prop := forall i j, (i < 3)%nat -> (j < 3)%nat -> C i j = C j i.
Definition posdef3 (C : mat) : Prop :=
  forall v : vec, (v 0%nat <> 0 \/ v 1%nat <> 0 \/ v 2%nat <> 0) ->
    0 < sum3 (fun i => sum3 (fun j => v i * C i j * v j)).
Definition injective3 (C : mat) : Prop :=
  forall v : vec, (forall i, (i < 3)%nat -> sum3 (fun j => C i j * v j) = 0) -> forall i, (i < 3)%nat -> v i = 0.

(* a deformation path through a wrinkled state: strain direction H; the inner material's stress and tangent
   along the path, and the wrinkling angle, which solves the wrinkling equation all along *)
Record path (root : mat -> vec -> R -> Prop) (C0 : mat) (dC : nat -> nat -> nat -> R) (H : vec)
            (th : R -> R) (Ct : R -> mat) (St : R -> vec) : Prop := {
  path_C0 : forall i j, (i < 3)%nat -> (j < 3)%nat -> Ct 0 i j = C0 i j;
  path_C : forall i j, (i < 3)%nat -> (j < 3)%nat ->
     is_derive (fun t => Ct t i j) 0 (sum3 (fun d => dC i j d * H d));
  path_S : forall i, (i < 3)%nat -> is_derive (fun t => St t i) 0 (sum3 (fun d => C0 i d * H d));
  path_th : ex_derive th 0;
  path_root : locally 0 (fun t => root (Ct t) (St t) (th t)) }.

(* closeness of a reported root *)
Definition near_root (f : R -> R) (x d : R) : Prop := exists r, f r = 0 /\ Rabs (x - r) <= d.

(* explicit mode: what a client should see.  The evaluations use the geometry set last, or the frozen one in explicit mode *)
Section Intended.
  Context {P V : Type}.
  Variable tf : option P -> outcome V.
  Definition completed (r : outcome V) : Prop := exists v, r = Ok v.
  (* what the evaluations of a client should return: own geometry, or the frozen one in explicit mode *)
  Fixpoint intended (own frozen : option P) (ex : bool) (cs : list (@tft_call P)) : list (outcome V) :=
    match cs with
    | [] => []
    | SetDeformed p :: cs' => intended p frozen ex cs'
    | UpdateDeformed p :: cs' => intended own p ex cs'
    | SetExplicit b :: cs' => intended own frozen b cs'
    | EvalTF :: cs' => tf (if ex then frozen else own) :: intended own frozen ex cs'
    end.

End Intended.
