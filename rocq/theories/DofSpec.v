(* Specification side of C43-C46, without the loops of the code. *)
From Coq Require Import Reals List Arith ZArith.
From Verif Require Import Tensor DofModel.
Import ListNotations.
Open Scope nat_scope.

(* function k of patch p, component c, is one of the functions of the discretisation *)
Definition slot (m : mapper) (d np p k c : nat) : Prop := p < np /\ c < d /\ k < m_size m p c.
(* every free number belongs to a function *)
Definition covers (m : mapper) (d np : nat) : Prop :=
  forall i, i < m_free m -> exists p k c, slot m d np p k c /\ m_index m k p c = i.
(* a field respects the couplings (equal numbers carry equal coefficients) ... *)
Definition coupled (m : mapper) (d np : nat) (u : mpatch) : Prop :=
  forall p k c p' k' c', slot m d np p k c -> slot m d np p' k' c' -> m_index m k p c = m_index m k' p' c' -> u p k c = u p' k' c'.
(* ... and the prescribed values *)
Definition prescribed (m : mapper) (d np : nat) (g : nat -> R) (u : mpatch) : Prop :=
  forall p k c, slot m d np p k c -> m_free m <= m_index m k p c -> u p k c = g (m_index m k p c - m_free m).
(* sums *)
Definition lsum {A : Type} (f : A -> R) (l : list A) : R := fold_right (fun a s => (f a + s)%R) 0%R l.
Fixpoint nsum (n : nat) (f : nat -> R) : R := match n with O => 0%R | S k => (nsum k f + f k)%R end.
(* component j at the point of the load l of the displacement with free values x and zero prescribed values *)
Definition at_point (m : mapper) (x : nat -> R) (l : pload) (j : nat) : R :=
  lsum (fun kb => let i := m_index m (fst kb) (l_patch l) j in (snd kb * if Nat.ltb i (m_free m) then x i else 0)%R) (l_act l).
(* work of a load *)
Definition work (m : mapper) (d : nat) (x : nat -> R) (l : pload) : R := nsum d (fun j => (l_val l j * at_point m x l j)%R).

(* number i belongs to component c of one of the sides *)
Definition on_sides (m : mapper) (c : nat) (sides : list pside) (i : nat) : Prop :=
  exists b k, In b sides /\ In k (s_funs b) /\ m_index m k (s_patch b) c = i.

(* C43: the five kinds of interface, and the list passed last for one of them *)
Inductive ikind := KStrongC0 | KStrongC1 | KWeakC0 | KWeakC1 | KUncoupled.
Definition ikind_eqb (a b : ikind) : bool :=
  match a, b with
  | KStrongC0, KStrongC0 | KStrongC1, KStrongC1 | KWeakC0, KWeakC0 | KWeakC1, KWeakC1 | KUncoupled, KUncoupled => true
  | _, _ => false
  end.
Fixpoint last_passed {I : Type} (h : list (ikind * list I)) (k : ikind) : option (list I) :=
  match h with
  | [] => None
  | (k0, l) :: r => match last_passed r k with Some x => Some x | None => if ikind_eqb k0 k then Some l else None end
  end.
