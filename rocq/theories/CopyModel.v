(* Copies, moves and destruction of gsThinShellAssembler objects: which basis an object's trial space is built from.

   Modelled: src/gsThinShellAssembler.hpp 33-54 (container constructor: m_spaceBasis = &m_basis), 75-95 (single-material constructor:
   m_spaceBasis = &basis), 98-142 (copy assignment), 145-192 (move assignment), 243-281 (_initialize reads the pointee of m_spaceBasis);
   src/gsThinShellAssembler.h 136-147 (copy and move constructors call operator=), setBasis, setSpaceBasis.
   Simplifications: only m_basis, m_spaceBasis, the integration elements and the space built by the last _initialize are kept; bases are
   identified by numbers.  Basis objects of the user (single-material constructor, setSpaceBasis) are assumed to stay alive and unchanged.
   Contract of the core library: a moved-from gsMultiBasis has unspecified content (None). The space held inside a copied gsExprAssembler
   before the copy's next _initialize is not modelled (field o_space is None then). *)
From Coq Require Import List Arith Bool.
Import ListNotations.

(* m_spaceBasis: address of the m_basis member of the assembler object at an address, or an object of the user *)
Inductive bptr := Member (a : nat) | User (b : nat).
Record obj := mkobj {
  o_basis : option nat;     (* m_basis; None = moved from *)
  o_ptr : bptr;             (* m_spaceBasis *)
  o_elems : option nat;     (* integration elements *)
  o_space : option nat      (* basis of the trial space; None = not rebuilt since a copy *)
}.
(* live objects *)
Definition heap := nat -> option obj.
Definition put (h : heap) (a : nat) (o : option obj) : heap := fun x => if Nat.eqb x a then o else h x.

(* the pointee of m_spaceBasis; None = dangling pointer or unspecified content *)
Definition deref (h : heap) (p : bptr) : option nat :=
  match p with
  | User b => Some b
  | Member a => match h a with Some o => o_basis o | None => None end
  end.
(* _initialize 243-281: setIntegrationElements(m_basis), getSpace of the pointee of m_spaceBasis; None = undefined behaviour *)
Definition initialize (a : nat) (h : heap) : option heap :=
  match h a with
  | None => None
  | Some o => match o_basis o, deref h (o_ptr o) with
              | Some b, Some s => Some (put h a (Some (mkobj (Some b) (o_ptr o) (Some b) (Some s))))
              | _, _ => None
              end
  end.

Inductive cmd :=
| NewContainer (a b : nat)      (* constructor with a gsMaterialMatrixContainer *)
| NewSingle (a b : nat)         (* constructor with a single material matrix *)
| Copy (dst src : nat)          (* copy constructor or copy assignment *)
| Move (dst src : nat)          (* move constructor or move assignment *)
| SetBasis (a b : nat)
| SetSpaceBasis (a b : nat)
| Reinit (a : nat)              (* any call that re-initialises without changing the bases, e.g. setGeometry *)
| Destroy (a : nat).

Definition exec (c : cmd) (h : heap) : option heap :=
  match c with
  | NewContainer a b => initialize a (put h a (Some (mkobj (Some b) (Member a) None None)))
  | NewSingle a b => initialize a (put h a (Some (mkobj (Some b) (User b) None None)))
  | Copy dst src =>                                       (* 98-142: the pointer is copied; this==&other does nothing *)
      if Nat.eqb dst src then match h src with Some _ => Some h | None => None end else
      match h src with
      | Some o => Some (put h dst (Some (mkobj (o_basis o) (o_ptr o) (o_basis o) None)))
      | None => None
      end
  | Move dst src =>                                       (* 145-192: give() of a pointer copies it; no self test (excluded here) *)
      if Nat.eqb dst src then None else
      match h src with
      | Some o => Some (put (put h src (Some (mkobj None (o_ptr o) None None))) dst (Some (mkobj (o_basis o) (o_ptr o) (o_basis o) None)))
      | None => None
      end
  | SetBasis a b =>                                       (* m_basis = basis; _initialize *)
      match h a with Some o => initialize a (put h a (Some (mkobj (Some b) (o_ptr o) (o_elems o) (o_space o)))) | None => None end
  | SetSpaceBasis a b =>
      match h a with Some o => initialize a (put h a (Some (mkobj (o_basis o) (User b) (o_elems o) (o_space o)))) | None => None end
  | Reinit a => initialize a h
  | Destroy a => match h a with Some _ => Some (put h a None) | None => None end
  end.
Fixpoint run (l : list cmd) (h : heap) : option heap :=
  match l with [] => Some h | c :: r => match exec c h with Some h' => run r h' | None => None end end.
Definition empty : heap := fun _ => None.
