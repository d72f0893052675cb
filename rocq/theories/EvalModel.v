(* Model of which geometry a material evaluation uses: constructors of gsMaterialMatrixIntegrate(Single) (src/gsMaterialMatrixIntegrate.hpp
   32-157) and gsMaterialMatrixEval(Single) (src/gsMaterialMatrixEval.hpp 24-172) register geometries with the shared material object
   (src/gsMaterialMatrixBase.h 776-800, src/gsMaterialMatrixTFT.h 205-233); evaluations read what is registered at that moment
   (m_patches and m_defpatches, gsMaterialMatrixBaseDim.hpp 388-400).
   Materials are numbered, geometries are elements of G, np g is g->nPieces().  A container is a list of possibly null pointers. *)
From Coq Require Import Reals List Bool Arith Lia.
From Verif Require Import Tensor KinModel ConfigModel.
Import ListNotations.
Open Scope nat_scope.

Section Eval.
Context {G : Type} (np : G -> nat).
(* inner w = Some m: material w is a tension-field wrapper around material m, which is not itself a wrapper *)
Context (inner : nat -> option nat).

(* m_patches and m_defpatches of every material *)
Record world := { und : nat -> option G; def : nat -> option G }.
(* does a setter call on material w reach material m (gsMaterialMatrixTFT.h 205-233: the wrapper forwards to the wrapped material) *)
Definition reaches (w m : nat) : bool := (w =? m) || match inner w with Some k => k =? m | None => false end.
Definition setDeformed (w : nat) (g : G) (s : world) : world :=
  {| und := und s; def := fun m => if reaches w m then Some g else def s m |}.
Definition setUndeformed (w : nat) (g : G) (s : world) : world :=
  {| und := fun m => if reaches w m then Some g else und s m; def := def s |}.

(* gsMaterialMatrixIntegrate.hpp 130-141 and 144-157; gsMaterialMatrixEval.hpp 126-147 and 149-172 (the undeformed argument is unused) *)
Definition int_def (m : nat) (g : G) (s : world) : world := setDeformed m g s.
Definition int_both (m : nat) (g0 g : G) (s : world) : world := setDeformed m g (setUndeformed m g0 s).
Definition eval_def (m : nat) (g : G) (s : world) : world := setDeformed m g s.
Definition eval_both (m : nat) (g0 g : G) (s : world) : world := setDeformed m g (setUndeformed m g s).

(* _makePieces (Integrate.hpp 111-126, Eval.hpp 110-124): one single-patch evaluator for each piece of the deformed geometry;
   container.piece(p) throws outside the container; a null material is dereferenced by the single-patch constructor *)
Fixpoint pieces (f : nat -> world -> world) (ms : list (option nat)) (n : nat) (s : world) {struct n} : res world :=
  match n with
  | 0 => Val s
  | S n' => match ms with
            | [] => Throws
            | None :: _ => Undef
            | Some m :: r => pieces f r n' (f m s)
            end
  end.

(* the constructors; ...One takes one material for all pieces *)
Inductive ctor :=
| IntDef (ms : list (option nat)) (g : G)          (* Integrate.hpp 32-47 *)
| IntDefOne (m : nat) (g : G)                      (* Integrate.hpp 49-60 *)
| IntBoth (ms : list (option nat)) (g0 g : G)      (* Integrate.hpp 70-79 *)
| IntBothOne (m : nat) (g0 g : G)                  (* Integrate.hpp 81-94 *)
| EvalDef (ms : list (option nat)) (g : G)         (* Eval.hpp 24-37 *)
| EvalDefOne (m : nat) (g : G)                     (* Eval.hpp 39-52 *)
| EvalBoth (ms : list (option nat)) (g0 g : G)     (* Eval.hpp 63-77 *)
| EvalBothOne (m : nat) (g0 g : G).                (* Eval.hpp 79-93 *)

(* Integrate.hpp 89-93: _makePieces runs over all pieces after each assignment, when later entries are still null *)
Fixpoint both_one_loop (m : nat) (g0 g : G) (n p k : nat) (s : world) : res world :=
  match k with
  | 0 => Val s
  | S k' => rbind (pieces (fun m s => int_both m g0 g s) (repeat (Some m) (S p) ++ repeat None (n - S p)) n s)
                  (fun s' => both_one_loop m g0 g n (S p) k' s')
  end.

Definition construct (c : ctor) (s : world) : res world :=
  match c with
  | IntDef ms g => pieces (fun m s => int_def m g s) ms (np g) s
  | IntDefOne m g => pieces (fun m s => int_def m g s) (repeat (Some m) (np g)) (np g) s
  | IntBoth ms g0 g => pieces (fun m s => int_both m g0 g s) ms (np g) s
  | IntBothOne m g0 g => both_one_loop m g0 g (np g) 0 (np g) s
  | EvalDef ms g => pieces (fun m s => eval_def m g s) ms (np g) s
  | EvalDefOne m g => pieces (fun m s => eval_def m g s) (repeat (Some m) (np g)) (np g) s
  | EvalBoth ms g0 g => pieces (fun m s => eval_both m g0 g s) ms (np g) s
  | EvalBothOne m g0 g => pieces (fun m s => eval_both m g0 g s) (repeat (Some m) (np g)) (np g) s
  end.
Fixpoint run (cs : list ctor) (s : world) : res world :=
  match cs with [] => Val s | c :: r => rbind (construct c s) (fun s' => run r s') end.

(* the materials an evaluator holds *)
Definition mats (c : ctor) : list (option nat) :=
  match c with
  | IntDef ms _ | IntBoth ms _ _ | EvalDef ms _ | EvalBoth ms _ _ => ms
  | IntDefOne m g | IntBothOne m _ g | EvalDefOne m g | EvalBothOne m _ g => repeat (Some m) (np g)
  end.
(* evaluation on patch p (Integrate.hpp 159-165, Eval.hpp 174-180): the material of that piece with the geometries registered now *)
Definition evaluate {V} (law : nat -> option G -> option G -> V) (c : ctor) (p : nat) (s : world) : option V :=
  match nth_error (mats c) p with Some (Some m) => Some (law m (und s m) (def s m)) | _ => None end.

(* gsMaterialMatrixTFT.h 91-104 with gsMaterialMatrixBase.h hasUndeformed (which tests m_defpatches): constructing wrapper w around m,
   whose own members are null before *)
Definition wrap_tft (w m : nat) (s : world) : world :=
  let s1 := match def s m with
            | Some _ => {| und := fun k => if k =? w then und s m else und s k; def := def s |}
            | None => s
            end in
  match def s m with Some g => {| und := und s1; def := fun k => if k =? w then Some g else def s1 k |} | None => s1 end.
End Eval.
Arguments world G : clear implicits.
Arguments ctor G : clear implicits.

(* gsThinShellAssembler.hpp 1879-1903 (assembleMatrix(deformed, previous, update)): six evaluators for the deformed configuration, then six
   for the previous one, all constructed before the assembly loop 1936 evaluates any of them *)
Definition mip_ctors {G} (ms : list (option nat)) (patches deformed previous : G) : list (ctor G) :=
  repeat (IntBoth ms patches deformed) 6 ++ repeat (IntBoth ms patches previous) 6.

(* the six coefficient values of a material at a point, given the registered geometries *)
Record coefs := mkc { cA : mat; cB : mat; cC : mat; cD : mat; cN : vec; cM : vec }.
(* entry (v,u) of the matrix density assembled after the twelve evaluators were constructed: A..D from the first group (1885-1888),
   Ap..Dp, N, M from the second (1898-1903) *)
Definition mip_density {G} (np : G -> nat) (law : nat -> option G -> option G -> coefs) (first second : ctor G) (p : nat) (s : world G) (c prev du v u : jet) : option R :=
  match evaluate np law first p s, evaluate np law second p s with
  | Some a, Some b => Some (Kmip c prev du (cA a) (cB a) (cC a) (cD a) (cA b) (cB b) (cC b) (cD b) (cN b) (cM b) v u)
  | _, _ => None
  end.
