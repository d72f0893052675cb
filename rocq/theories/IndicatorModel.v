(* Element-wise error indicators: distribution of the point-load contributions over the elements by parallel threads
   (gsThinShellAssemblerDWR.hpp 3657-3751) and the accessors of the helper (gsThinShellDWRHelper.h 143-183). *)
From Coq Require Import Reals List Arith Lia.
From Verif Require Import Tensor.
Import ListNotations.
Open Scope R_scope.

(* an element: lower and upper corner of its parameter box *)
Record elem := mkelem { elo : R * R; eup : R * R }.
Definition leb (a b : R) : bool := if Rle_dec a b then true else false.
(* test: 3700-3701, all coordinates of fp - lower and upper - fp are >= 0 *)
Definition contains (p : R * R) (e : elem) : bool :=
  (leb 0 (fst p - fst (elo e)) && leb 0 (snd p - snd (elo e)) && leb 0 (fst (eup e) - fst p) && leb 0 (snd (eup e) - snd p))%bool.

(* domIt += tid; for (; domIt < end; domIt += nt): 3693-3694; fuel bounds the number of steps.
   Without OpenMP (3696) this is tid = 0, nt = 1. *)
Fixpoint steps (fuel i nt n : nat) : list nat :=
  match fuel with
  | O => []
  | S f => if Nat.ltb i n then i :: steps f (i + nt) nt n else []
  end.
(* the elements of one patch that thread tid of nt adds to its private list: c = patch_cnt + local index (3691, 3704-3708) *)
Definition found (p : R * R) (tid nt pc : nat) (es : list elem) : list nat :=
  map (fun i => (pc + i)%nat) (filter (fun i => contains p (nth i es (mkelem (0, 0) (0, 0)))) (steps (length es) tid nt (length es))).
(* one thread: after each patch its whole private list is appended to the shared one (3710-3711); the private list is not
   cleared.  The result is the sequence of the lists it appends. *)
Fixpoint thread_run (p : R * R) (tid nt pc : nat) (patches : list (list elem)) (priv : list nat) : list (list nat) :=
  match patches with
  | [] => []
  | es :: rest => let priv' := priv ++ found p tid nt pc es in priv' :: thread_run p tid nt (pc + length es) rest priv'
  end.
Definition threads (p : R * R) (nt : nat) (patches : list (list elem)) : list (list (list nat)) :=
  map (fun tid => thread_run p tid nt 0 patches []) (seq 0 nt).
(* the critical sections are executed in any order that keeps the order of each thread *)
Inductive interleaves {A : Type} : list (list A) -> list A -> Prop :=
| il_done : forall ls, (forall l, In l ls -> l = []) -> interleaves ls []
| il_step : forall l1 x r l2 out, interleaves (l1 ++ r :: l2) out -> interleaves (l1 ++ (x :: r) :: l2) (x :: out).

(* errors.at(e) += v, on lists long enough (at throws otherwise) *)
Fixpoint add_at (errs : list R) (e : nat) (v : R) : list R :=
  match errs, e with
  | [], _ => []
  | x :: r, O => (x + v) :: r
  | x :: r, S e' => x :: add_at r e' v
  end.
Definition distribute (result : R) (elements : list nat) (errs : list R) : list R :=
  fold_left (fun er e => add_at er e (result / INR (length elements))) elements errs.
(* a load: parametric point (3668-3672; the patch number of the load is not used to select elements) and the value
   (zH - zL) . F at the point (3716-3719) *)
Record pload := mkload { lpt : R * R; lval : R }.
(* _applyLoadsToElWiseError for one load and one schedule of the critical sections *)
Inductive applyElWise (nt : nat) (patches : list (list elem)) (l : pload) (errs : list R) : outcome (list R) -> Prop :=
| aew : forall out, interleaves (threads (lpt l) nt patches) out ->
    applyElWise nt patches l errs
      (if forallb (fun e => Nat.ltb e (length errs)) (concat out) then Ok (distribute (lval l) (concat out) errs) else Throw).
(* all loads, in order *)
Inductive applyAll (nt : nat) (patches : list (list elem)) : list pload -> list R -> outcome (list R) -> Prop :=
| aa_nil : forall errs, applyAll nt patches [] errs (Ok errs)
| aa_cons : forall l r errs errs' o, applyElWise nt patches l errs (Ok errs') -> applyAll nt patches r errs' o -> applyAll nt patches (l :: r) errs o
| aa_throw : forall l r errs, applyElWise nt patches l errs Throw -> applyAll nt patches (l :: r) errs Throw.
(* _applyLoadsToError: 3728-3751 *)
Definition applyTotal (ls : list pload) (err : R) : R := fold_left (fun e l => e + lval l) ls err.

(* ------------------------------------------------------------------ helper accessors *)
(* floating point division: a zero divisor does not give a number *)
Definition fdiv (a b : R) : option R := if Req_EM_T b 0 then None else Some (a / b).
(* errors(normalize): 143-155 *)
Definition h_errors (normalize : bool) (errs : list R) (tot : R) : list (option R) :=
  if normalize then map (fun e => fdiv (Rabs e) (Rabs tot)) errs else map Some errs.
(* absErrors(normalize): 156-170 *)
Definition h_absErrors (normalize : bool) (errs : list R) (tot : R) : list (option R) :=
  if normalize then map (fun e => fdiv (Rabs e) (Rabs tot)) errs else map (fun e => Some (Rabs e)) errs.
(* sqErrors(normalize): 171-182 *)
Definition h_sqErrors (normalize : bool) (sqerrs : list R) (tot : R) : list (option R) :=
  if normalize then map (fun e => fdiv (Rabs e) (tot * tot)) sqerrs else map Some sqerrs.
