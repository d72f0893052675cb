(* What users expect of material selection, parameter names, storage and per-patch assignment, stated without the model's helpers. *)
From Coq Require Import ZArith String List Bool Arith Permutation.
From Verif Require Import ConfigModel.
Import ListNotations.

(* the combinations of hyperelastic law, implementation and compressibility that the documentation offers *)
Definition offered (mat impl : Z) (comp : bool) : Prop :=
  (1 <= impl <= 3)%Z /\
  (mat = 1 \/ mat = 3 \/ (mat = 2 /\ comp = true) \/ (mat = 4 /\ impl = 3))%Z.
Definition short_range (z : Z) : Prop := (-32768 <= z < 32768)%Z.

(* a material that can be stored: a known class, dimension 2 or 3, and no missing function *)
Definition storable_law (l : law) : Prop :=
  match l with
  | LLinear => True
  | LNonlinear id comp => (id = 11 \/ id = 13 \/ id = 34 \/ (id = 12 /\ comp = true))%Z
  | LComposite => False
  end.
Definition storable_cls (c : cls) : Prop := storable_law (c_law c) /\ (c_dim c = 2 \/ c_dim c = 3)%nat.
Definition complete {F} (m : material F) : Prop := m_thick m <> None /\ forall p, In p (m_pars m) -> p <> None.

(* the last value assigned to key k in a list of assignments *)
Fixpoint last_assigned {A} (k : nat) (l : list (nat * A)) : option A :=
  match l with
  | [] => None
  | (i, x) :: r => match last_assigned k r with Some y => Some y | None => if Nat.eqb i k then Some x else None end
  end.
(* all patch assignments of a list of groups, in document order *)
Definition flat (gs : list (nat * list nat)) : list (nat * nat) := flat_map (fun g => map (fun p => (p, fst g)) (snd g)) gs.

(* the named parameters of an Ogden material with the given terms *)
Definition ogden_names {F} (E nu : F) (terms : list (F * F)) : list (pname * F) :=
  (PYoungs, E) :: (PPoisson, nu) ::
  flat_map (fun it => [(PMu (fst it), fst (snd it)); (PAlpha (fst it), snd (snd it))]) (combine (seq 0 (length terms)) terms).
(* apply named setters one after the other *)
Fixpoint set_all {F} (m : material F) (l : list (pname * F)) : res (material F) :=
  match l with [] => Val m | (p, x) :: r => rbind (setNamed m p x) (fun m' => set_all m' r) end.

(* container histories, newest call first: the number of entries and the value last given to entry k (None: no such entry) *)
Fixpoint hsize {M} (n : nat) (h : list (cop M)) : nat :=
  match h with [] => n | CAdd _ :: r => S (hsize n r) | CSet _ _ :: r => hsize n r | CClear :: _ => 0 end.
Fixpoint hvalue {M} (n : nat) (h : list (cop M)) (k : nat) : option (option M) :=
  match h with
  | [] => if Nat.ltb k n then Some None else None
  | CAdd m :: r => if Nat.eqb k (hsize n r) then Some (Some m) else hvalue n r k
  | CSet i x :: r => if Nat.eqb k i then Some x else hvalue n r k
  | CClear :: _ => None
  end.
(* every set names an entry that exists at that time *)
Fixpoint hvalid {M} (n : nat) (h : list (cop M)) : Prop :=
  match h with [] => True | CSet i _ :: r => (i < hsize n r)%nat /\ hvalid n r | _ :: r => hvalid n r end.

(* the value passed by the last call that f recognises, or d *)
Fixpoint last_set {O F : Type} (f : O -> option F) (os : list O) (d : option F) : option F :=
  match os with
  | [] => d
  | o :: r => last_set f r (match f o with Some x => Some x | None => d end)
  end.
