(* Degrees of freedom: interface bookkeeping, solution vectors, point loads and boundary forces.
   Sources: src/gsThinShellAssembler.hpp 283-338 (interface containers), 1323-1385 (point loads), 2302-2445 (boundary force), 2625-2720 (solution construction).
   External contracts (G+Smo core): gsDofMapper::index(k,p,c) is the global number of function k of patch p, component c; numbers below
   freeSize() are free, the others are eliminated and global_to_bindex subtracts freeSize(); localToGlobal is index applied entry by
   entry; solution.extract(cc,p) reads the solution vector at free numbers and fixedPart() at eliminated ones; boundaryInterface
   has an equality test. *)
From Coq Require Import Reals List Arith ZArith Bool.
From Verif Require Import Tensor.
Import ListNotations.
Open Scope nat_scope.

(* for (i = 0; i != n; ++i) s = body i s *)
Fixpoint loop {S : Type} (n : nat) (body : nat -> S -> S) (s : S) : S :=
  match n with O => s | Datatypes.S m => body m (loop m body s) end.
Definition write {A : Type} (f : nat -> A) (i : nat) (x : A) : nat -> A := fun j => if Nat.eqb j i then x else f j.

(* ------------------------------------------------------------------ interfaces *)
Section Ifc.
Variable I : Type.
Variable eqb : I -> I -> bool.   (* boundaryInterface::operator== *)
(* the five containers read by initInterfaces *)
Record ifcs := mkifcs { strongC0 : list I; strongC1 : list I; weakC0 : list I; weakC1 : list I; uncoupled : list I }.
(* std::find(c.begin(),c.end(),*it) != c.end() *)
Definition has (c : list I) (x : I) : bool := existsb (fun y => eqb y x) c.
Definition assigned (s : ifcs) (x : I) : bool :=
  has (strongC0 s) x || has (strongC1 s) x || has (weakC0 s) x || has (weakC1 s) x || has (uncoupled s) x.
(* add* : 283-309, the container is replaced *)
Definition addStrongC0 (l : list I) (s : ifcs) := mkifcs l (strongC1 s) (weakC0 s) (weakC1 s) (uncoupled s).
Definition addStrongC1 (l : list I) (s : ifcs) := mkifcs (strongC0 s) l (weakC0 s) (weakC1 s) (uncoupled s).
Definition addWeakC0 (l : list I) (s : ifcs) := mkifcs (strongC0 s) (strongC1 s) l (weakC1 s) (uncoupled s).
Definition addWeakC1 (l : list I) (s : ifcs) := mkifcs (strongC0 s) (strongC1 s) (weakC0 s) l (uncoupled s).
Definition addUncoupled (l : list I) (s : ifcs) := mkifcs (strongC0 s) (strongC1 s) (weakC0 s) (weakC1 s) l.
(* initInterfaces 311-338: one loop over the interfaces of the topology; None = GISMO_ERROR *)
Fixpoint initInterfaces (ifcDefault : Z) (topo : list I) (s : ifcs) : option ifcs :=
  match topo with
  | [] => Some s
  | x :: r =>
      if assigned s x then initInterfaces ifcDefault r s
      else if Z.eqb ifcDefault (-1) then initInterfaces ifcDefault r s
      else if Z.eqb ifcDefault 0 then initInterfaces ifcDefault r (mkifcs (strongC0 s) (strongC1 s) (weakC0 s ++ [x]) (weakC1 s) (uncoupled s))
      else if Z.eqb ifcDefault 1 then initInterfaces ifcDefault r (mkifcs (strongC0 s) (strongC1 s) (weakC0 s) (weakC1 s ++ [x]) (uncoupled s))
      else None
  end.
End Ifc.

(* ------------------------------------------------------------------ solution vectors *)
Record mapper := mkmap { m_size : nat -> nat -> nat  (* patchSize(p,c) *); m_index : nat -> nat -> nat -> nat (* index(k,p,c) *); m_free : nat (* freeSize() *) }.
Definition is_free (m : mapper) (i : nat) : bool := Nat.ltb i (m_free m).
Definition bindex (m : mapper) (i : nat) : nat := i - m_free m.

(* coefficients of a multi-patch: patch, function, component *)
Definition mpatch := nat -> nat -> nat -> R.
(* constructMultiPatch, gsMultiBasis branch 2663-2673, and the loop 2645-2660 of the mapped branch *)
Definition constructMultiPatch (m : mapper) (ddofs sol : nat -> R) : mpatch := fun p k c =>
  let ii := m_index m k p c in
  if is_free m ii then sol ii else ddofs (bindex m ii).
(* constructSolutionVector 2700-2719: the vector is allocated without initialisation (None = indeterminate) *)
Definition constructSolutionVector (m : mapper) (d npatches : nat) (u : mpatch) : nat -> option R :=
  loop npatches (fun p => loop d (fun c => loop (m_size m p c) (fun k res =>
    if is_free m (m_index m k p c) then write res (m_index m k p c) (Some (u p k c)) else res)))
  (fun _ => None).
(* gsMappedBasis branch 2633-2662: cc is filled patch after patch (the same rows for every patch), then transformed by the mapping
   (global_coef_to_local_coef) and cut into patches (exportToPatches); local p k c is that linear map *)
Definition mapped_cc (m : mapper) (d npatches : nat) (ddofs sol : nat -> R) : nat -> nat -> R :=
  loop npatches (fun p => loop d (fun c => loop (m_size m p c) (fun i cc =>
    write cc i (write (cc i) c (if is_free m (m_index m i p c) then sol (m_index m i p c) else ddofs (bindex m (m_index m i p c)))))))
  (fun _ _ => 0%R).
Definition constructMapped (m : mapper) (d npatches : nat) (to_local : (nat -> nat -> R) -> mpatch) (ddofs sol : nat -> R) : mpatch :=
  to_local (mapped_cc m d npatches ddofs sol).

(* ------------------------------------------------------------------ point loads *)
(* one load: patch, value per component, active functions with their values at the point (active_into / eval_into) *)
Record pload := mkpl { l_patch : nat; l_val : nat -> R; l_act : list (nat * R) }.
(* _applyLoads 1371-1383 for one load; the test value[j] != 0.0 *)
Definition applyLoad (m : mapper) (d : nat) (l : pload) (rhs : nat -> R) : nat -> R :=
  loop d (fun j rhs =>
    if Req_EM_T (l_val l j) 0 then rhs
    else fold_left (fun r kb =>
           let g := m_index m (fst kb) (l_patch l) j in
           if is_free m g then write r g (r g + snd kb * l_val l j)%R else r) (l_act l) rhs) rhs.
Definition applyLoads (m : mapper) (d : nat) (ls : list pload) (rhs : nat -> R) : nat -> R :=
  fold_left (fun r l => applyLoad m d l r) ls rhs.

(* ------------------------------------------------------------------ boundary force *)
(* indices[c].insert(i): std::unordered_set; the order of iteration is unspecified, here the order of insertion *)
Definition insert (s : list nat) (i : nat) : list nat := if existsb (Nat.eqb i) s then s else s ++ [i].
(* a listed side: its patch and the functions that do not vanish on it (basis.boundary(side)) *)
Record pside := mkps { s_patch : nat; s_funs : list nat }.
Definition side_set (m : mapper) (c : nat) (sides : list pside) : list nat :=
  fold_left (fun s b => fold_left (fun s k => insert s (m_index m k (s_patch b) c)) (s_funs b) s) sides [].
(* F[c] += assembler.rhs().at( *it ): 2372-2374, 2436-2438.  rhs: the vector assembled on the unconstrained space, minus the internal force *)
Definition boundaryForce (m : mapper) (rhs : nat -> R) (sides : list pside) (c : nat) : R :=
  fold_left (fun F i => (F + rhs i)%R) (side_set m c sides) 0%R.
(* the same loop for another order of iteration *)
Definition boundaryForce_order (order : list nat) (rhs : nat -> R) : R := fold_left (fun F i => (F + rhs i)%R) order 0%R.
(* _constructSolution 2480-2488, constructSolution 2490-2500, updateMultiPatch 2502-2506: the undeformed argument is not used; constructSolution and updateMultiPatch are the same function *)
Definition constructSolution (patches : mpatch) (m : mapper) (ddofs sol : nat -> R) : mpatch := fun p k c =>
  (patches p k c + constructMultiPatch m ddofs sol p k c)%R.
Definition updateMultiPatch (patches : mpatch) (m : mapper) (ddofs sol : nat -> R) (mp : mpatch) : mpatch := constructSolution patches m ddofs sol.
