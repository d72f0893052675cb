(* Which geometry an evaluation is expected to use *)
From Coq Require Import List Bool Arith.
From Verif Require Import ConfigModel EvalModel.
Import ListNotations.

Section S.
Context {G : Type} (np : G -> nat) (inner : nat -> option nat).
(* the deformed geometry given to an evaluator *)
Definition given (c : ctor G) : G :=
  match c with IntDef _ g | IntDefOne _ g | IntBoth _ _ g | IntBothOne _ _ g | EvalDef _ g | EvalDefOne _ g | EvalBoth _ _ g | EvalBothOne _ _ g => g end.
(* the undeformed geometry given to an evaluator, if any *)
Definition given0 (c : ctor G) : option G :=
  match c with IntBoth _ g0 _ | IntBothOne _ g0 _ | EvalBoth _ g0 _ | EvalBothOne _ g0 _ => Some g0 | _ => None end.
(* the evaluator uses material m on some piece of its geometry, directly or inside a tension-field wrapper *)
Definition uses (c : ctor G) (m : nat) : Prop :=
  exists p w, p < np (given c) /\ nth_error (mats np c) p = Some (Some w) /\ (w = m \/ inner w = Some m).
(* through-the-material evaluators as opposed to pointwise ones *)
Definition integrating (c : ctor G) : Prop := match c with IntDef _ _ | IntDefOne _ _ | IntBoth _ _ _ | IntBothOne _ _ _ => True | _ => False end.
End S.
