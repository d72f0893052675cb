(* Specification for the element-wise indicators. *)
From Coq Require Import Reals List Arith.
From Verif Require Import IndicatorModel.
Import ListNotations.
Open Scope R_scope.

(* the point lies in the closed box *)
Definition in_box (p : R * R) (e : elem) : Prop :=
  fst (elo e) <= fst p <= fst (eup e) /\ snd (elo e) <= snd p <= snd (eup e).
Definition list_sum (l : list R) : R := fold_right Rplus 0 l.
(* number of shares of the element with global number e: the number of patches from its own one to the last *)
Fixpoint shares (p : R * R) (patches : list (list elem)) (e : nat) : nat :=
  match patches with
  | [] => 0
  | es :: rest => if Nat.ltb e (length es) then (if contains p (nth e es (mkelem (0, 0) (0, 0))) then length patches else 0)
                  else shares p rest (e - length es)
  end.
Definition total_elems (patches : list (list elem)) : nat := length (concat patches).
Definition all_shares (p : R * R) (patches : list (list elem)) : nat :=
  fold_right Nat.add 0%nat (map (shares p patches) (seq 0 (total_elems patches))).
(* the values of a list of numbers *)
Definition are_numbers (l : list (option R)) (v : list R) : Prop := l = map Some v.
