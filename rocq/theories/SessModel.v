(* Call-history model of gsThinShellAssemblerDWR and of gsThinShellDWRHelper::computeError: three assemblers in one object, the stored
   systems, and what each request reads and writes.

   Modelled: src/gsThinShellAssemblerDWR.h 90-129 (setters), 135-200 (assembly requests and accessors), 272 (setGoal), 314-364 (dual requests
   from a primal), 412-445 (members); src/gsThinShellAssemblerDWR.hpp 45-73 (constructor, _assembleMass), 125-193 (assembleL/H, _assemble,
   _assembleMatrix, _assemblePrimal), 195-222, 314-338, 643-678, 1102-1144, 1229-1260, 1584 (state changes of _assembleDual), 1621-1690 (construction);
   src/gsThinShellDWRHelper.h 67-141 (computeError).
   The three assemblers are the machine of AsmModel.v.  Not modelled: the estimators (EstModel.v), the goal values (DwrModel.v), plotting.

   External contract: a gsExprAssembler is copied by value (hpp 205, 657, 1122); whether the copy refers to the trial space of the original
   or owns one is left open (d_shared), every theorem holds for both.  initSystem gives a vector with the number of dofs of the current
   space; setup replaces the mapper; a vector entry is added at the index of the current mapper. *)
From Coq Require Import List ZArith Lia Bool.
From Verif Require Import AsmModel.
Import ListNotations.

(* the low and the high order assembler: members m_assemblerL / m_assemblerH and all members with suffix L / H *)
Inductive level := Lo | Hi.
Definition lev_eqb (a b : level) : bool := match a, b with Lo, Lo | Hi, Hi => true | _, _ => false end.
Definition put {A} (l : level) (x : A) (f : level -> A) : level -> A := fun k => if lev_eqb l k then x else f k.
(* enum class GoalFunction, gsThinShellAssemblerDWR.h 25-39: ten functionals with a dual load vector, two eigenvalue goals *)
Inductive gfun := Functional (g : nat) | Modal | Buckling.
(* the three overloads of assembleDual: h 160-188 *)
Inductive dsite := SInterior | SBoundary (bnds : list nat) | SPoints (pts : list nat).
Definition no_sites (x : dsite) : bool := match x with SBoundary [] | SPoints [] => true | _ => false end.

Section Session.
Variables M V : Type.
Notation st := (st M V). Notation env := (env M V).

Record senv := mksenv {
  d_env : env;
  d_shared : bool;                                                       (* a copied gsExprAssembler refers to the original's space *)
  d_dual : dsite -> nat -> nat -> cfg -> nat -> nat -> nat -> option V;  (* site, goal, component, configuration, rows, primal, deformed; None: an exception *)
  d_move : nat -> nat -> nat;                                            (* undeformed geometry plus displacement *)
  d_plus : V -> V -> option V;                                           (* None: sizes differ *)
  d_solve : M -> V -> V                                                  (* sparse solver *)
}.

Record sess := mks {
  s_base : st;                          (* the inherited gsThinShellAssembler: h 54 *)
  s_lev : level -> st;                  (* m_assemblerL, m_assemblerH *)
  s_bcs : nat; s_loads : list nat;      (* own members m_bcs (hiding the inherited one), m_pLoads: h 430, 421 *)
  s_mat : level -> option M; s_mass : level -> option M;     (* m_matrixL/H, m_massL/H: h 416-419 *)
  s_prim : level -> option V; s_dual : level -> option V;    (* m_pL/H, m_dL/H: h 415 *)
  s_goal : option (gfun * nat) }.       (* m_goalFunction, m_component: h 444-445; None = never written *)

Definition set_base x s := mks x (s_lev s) (s_bcs s) (s_loads s) (s_mat s) (s_mass s) (s_prim s) (s_dual s) (s_goal s).
Definition set_lev l x s := mks (s_base s) (put l x (s_lev s)) (s_bcs s) (s_loads s) (s_mat s) (s_mass s) (s_prim s) (s_dual s) (s_goal s).
Definition set_own_loads x s := mks (s_base s) (s_lev s) (s_bcs s) x (s_mat s) (s_mass s) (s_prim s) (s_dual s) (s_goal s).
Definition set_mat l x s := mks (s_base s) (s_lev s) (s_bcs s) (s_loads s) (put l x (s_mat s)) (s_mass s) (s_prim s) (s_dual s) (s_goal s).
Definition set_massm l x s := mks (s_base s) (s_lev s) (s_bcs s) (s_loads s) (s_mat s) (put l x (s_mass s)) (s_prim s) (s_dual s) (s_goal s).
Definition set_prim l x s := mks (s_base s) (s_lev s) (s_bcs s) (s_loads s) (s_mat s) (s_mass s) (put l x (s_prim s)) (s_dual s) (s_goal s).
Definition set_dual l x s := mks (s_base s) (s_lev s) (s_bcs s) (s_loads s) (s_mat s) (s_mass s) (s_prim s) (put l x (s_dual s)) (s_goal s).
Definition set_goal x s := mks (s_base s) (s_lev s) (s_bcs s) (s_loads s) (s_mat s) (s_mass s) (s_prim s) (s_dual s) x.
(* m_patches = patches (h 119): assignment to the inherited member, nothing is initialised *)
Definition set_geo (g : nat) (s : st) : st := set_problem M V g (basis _ _ s) (sb _ _ s) (bcs _ _ s) s.
(* the trial space of a level replaced *)
Definition set_spc (x : spc) (s : st) : st :=
  mkst M V (o_cont _ _ s) (m_cont _ _ s) (geo _ _ s) (basis _ _ s) (sb _ _ s) (bcs _ _ s) x (ddofs _ _ s)
    (found _ _ s) (foundInd _ _ s) (press _ _ s) (pressInd _ _ s) (ploads _ _ s) (pmass _ _ s) (sysM _ _ s) (sysV _ _ s) (mass _ _ s) (mrhs _ _ s) (stat _ _ s).

(* a request returns a status, or throws (the object survives), or has no defined behaviour *)
Inductive sres := Ret (r : status) (s : sess) | Thrown (s : sess) | Undef.

(* numDofsL/H: h 125-126, gsThinShellAssembler.h 191 (the dofs of the current space) *)
Definition numDofs (e : senv) (l : level) (s : sess) : nat := e_dofs _ _ (d_env e) (key (space _ _ (s_lev s l))).

(* a setter forwarded to both levels *)
Definition both (e : senv) (o : op) (s : sess) : sres :=
  match step _ _ (d_env e) o (s_lev s Lo), step _ _ (d_env e) o (s_lev s Hi) with
  | Done a, Done b => Ret Success (set_lev Hi b (set_lev Lo a s))
  | _, _ => Undef
  end.
Definition one (e : senv) (l : level) (o : op) (s : sess) : sres :=
  match step _ _ (d_env e) o (s_lev s l) with Done a => Ret Success (set_lev l a s) | Undefined => Undef end.
(* GISMO_ENSURE(status==Success, ...); an enum that was never written has no defined value *)
Definition ensure (x : option status) (s : sess) : sres :=
  match x with Some Success => Ret Success s | Some AssemblyError => Thrown s | None => Undef end.

(* assembleL/H with _assemble: hpp 125-153: nothing is stored if the assembly failed *)
Definition assembleS (e : senv) (l : level) (s : sess) : sres :=
  match assemble_lin _ _ (d_env e) (s_lev s l) with
  | Done a => match ensure (stat _ _ a) (set_lev l a s) with
              | Ret r s1 => Ret r (set_prim l (rhs _ _ a) (set_mat l (matrix _ _ a) s1))
              | x => x end
  | Undefined => Undef end.
(* _assembleMass: hpp 67-73: stored before the status is looked at *)
Definition massS (e : senv) (l : level) (lumped : bool) (s : sess) : sres :=
  match assemble_mass _ _ (d_env e) lumped (s_lev s l) with
  | Done a => ensure (stat _ _ a) (set_massm l (matrix _ _ a) (set_lev l a s))
  | Undefined => Undef end.
(* _assembleMatrix: hpp 155-171 *)
Definition matrixLinS (e : senv) (l : level) (s : sess) : sres :=
  match assemble_lin _ _ (d_env e) (s_lev s l) with
  | Done a => ensure (stat _ _ a) (set_mat l (matrix _ _ a) (set_lev l a s))
  | Undefined => Undef end.
Definition matrixS (e : senv) (l : level) (d : nat) (s : sess) : sres :=
  match assemble_mat _ _ (d_env e) d (s_lev s l) with
  | Done a => ensure (stat _ _ a) (set_mat l (matrix _ _ a) (set_lev l a s))
  | Undefined => Undef end.
(* _assemblePrimal: hpp 173-190: the linear version stores after the check, the nonlinear one before *)
Definition primalLinS (e : senv) (l : level) (s : sess) : sres :=
  match assemble_lin _ _ (d_env e) (s_lev s l) with
  | Done a => match ensure (stat _ _ a) (set_lev l a s) with
              | Ret r s1 => Ret r (set_prim l (rhs _ _ a) s1)
              | x => x end
  | Undefined => Undef end.
Definition primalS (e : senv) (l : level) (d : nat) (s : sess) : sres :=
  match assemble_vec _ _ (d_env e) d true (s_lev s l) with
  | Done a => ensure (stat _ _ a) (set_prim l (rhs _ _ a) (set_lev l a s))
  | Undefined => Undef end.

(* _assembleDual: space.setup(m_bcs, dirichlet::homogeneous, 0) (hpp 221, 678, 1143): own m_bcs, continuity 0 *)
Definition dual_space (l : level) (s : sess) : spc := mkspc (spbasis _ _ (s_lev s l)) (s_bcs s) 0 Homog.
(* geometry: the inherited m_patches (hpp 211, 663, 1128); integration elements of the level's assembler *)
Definition dual_cfg (l : level) (s : sess) : cfg := mkcfg (geo _ _ (s_base s)) (basis _ _ (s_lev s l)) (dual_space l s).
Definition dualS (e : senv) (l : level) (x : dsite) (pr df : nat) (s : sess) : sres :=
  let n0 := numDofs e l s in
  if no_sites x then Ret Success (set_dual l (Some (e_zeroV _ _ (d_env e) n0)) s)      (* hpp 669-673, 1134-1138: before the setup *)
  else
    let sp := dual_space l s in
    let n1 := e_dofs _ _ (d_env e) (key sp) in
    let s1 := if d_shared e then set_lev l (set_spc sp (s_lev s l)) s else s in
    match s_goal s with
    | None => Undef
    | Some (Functional g, c) =>
        match x with
        | SPoints _ =>
            (* hpp 1229-1230: result.resize(numDofs) after the setup; no try block *)
            match d_dual e x g c (dual_cfg l s) n1 pr df with
            | Some v => Ret Success (set_dual l (Some v) s1)
            | None => Thrown (set_dual l (Some (e_leftV _ _ (d_env e))) s1)
            end
        | _ =>
            (* initSystem before the setup (215-221): n0 rows, entries at the indices of the new mapper *)
            if Nat.ltb n0 n1 then Undef
            else match d_dual e x g c (dual_cfg l s) n0 pr df with
                 | Some v => Ret Success (set_dual l (Some v) s1)
                 | None => Ret AssemblyError s1             (* catch: result is not written *)
                 end
        end
    | Some (_, _) =>                                        (* GISMO_ERROR("Goal function not known"): 643, 1102, 1584 *)
        match x with SPoints _ => Thrown (set_dual l (Some (e_zeroV _ _ (d_env e) n1)) s1) | _ => Thrown s1 end
    end.

Inductive sop :=
| DSetOptions (c : Z)                       (* h 100 *)
| DOptions (l : level) (c : Z)              (* optionsL() / optionsH(): h 90-92 *)
| DPointLoads (x : list nat)                (* h 103 *)
| DFoundation (f : nat) | DPressure (p : nat)   (* h 106-109 *)
| DUpdateBCs (bc : nat)                     (* h 112: both levels, not the own m_bcs *)
| DSetBasis (l : level) (b : nat)           (* h 115-116 *)
| DSetSpaceBasis (l : level) (b : nat)      (* h 128-129 *)
| DSetUndeformed (g : nat)                  (* h 119 *)
| DHomogenize                               (* h 122 *)
| DSetGoal (g : gfun) (c : nat)             (* h 272 *)
| DConstruct (l : level)                    (* constructSolution, constructMultiPatch, constructDisplacement: hpp 1621-1690 *)
| DAssemble (l : level) | DMass (l : level) (lumped : bool)
| DMatrixLin (l : level) | DMatrix (l : level) (d : nat)
| DPrimalLin (l : level) | DPrimal (l : level) (d : nat)
| DDual (l : level) (x : dsite) (pr df : nat)
| DDualFrom (l : level) (x : dsite) (pr : nat)   (* h 314-364: deformed = m_patches + primal *)
| DInherited (o : op).                      (* a public function of the inherited assembler that is not overridden, e.g. assemble() *)

Definition sstep (e : senv) (o : sop) (s : sess) : sres :=
  match o with
  | DSetOptions c => both e (SetOptions c) s
  | DOptions l c => one e l (OptionsSet c) s
  | DPointLoads x => both e (SetPointLoads x) (set_own_loads x s)
  | DFoundation f => both e (SetFoundation f) s
  | DPressure p => both e (SetPressure p) s
  | DUpdateBCs bc => both e (UpdateBCs bc) s
  | DSetBasis l b => one e l (SetBasis b) s
  | DSetSpaceBasis l b => one e l (SetSpaceBasis b) s
  | DSetUndeformed g => both e (SetGeometry g) (set_base (set_geo g (s_base s)) s)
  | DHomogenize => both e HomogenizeDirichlet s
  | DSetGoal g c => Ret Success (set_goal (Some (g, c)) s)
  | DConstruct l => one e l Construct s
  | DAssemble l => assembleS e l s
  | DMass l lumped => massS e l lumped s
  | DMatrixLin l => matrixLinS e l s
  | DMatrix l d => matrixS e l d s
  | DPrimalLin l => primalLinS e l s
  | DPrimal l d => primalS e l d s
  | DDual l x pr df => dualS e l x pr df s
  | DDualFrom l x pr => dualS e l x pr (d_move e (geo _ _ (s_base s)) pr) s
  | DInherited o => match step _ _ (d_env e) o (s_base s) with Done b => Ret Success (set_base b s) | Undefined => Undef end
  end.
(* a user may catch the exception of a request and go on with the object *)
Fixpoint srun (e : senv) (h : list sop) (s : sess) : option sess :=
  match h with
  | [] => Some s
  | o :: r => match sstep e o s with Ret _ s1 | Thrown s1 => srun e r s1 | Undef => None end
  end.

(* constructor: hpp 45-64: three single-material assemblers; m_dL, m_dH = zero vectors; the goal is not initialised *)
Definition snew (e : senv) (g bL bH bc : nat) : sess :=
  let L := ctor M V false g bL bc in let H := ctor M V false g bH bc in
  mks (ctor M V false g bL bc) (fun l => match l with Lo => L | Hi => H end) bc [] (fun _ => None) (fun _ => None) (fun _ => None)
    (fun l => Some (e_zeroV _ _ (d_env e) (e_dofs _ _ (d_env e) (key (space _ _ (match l with Lo => L | Hi => H end)))))) None.

(* ------------------------------------------------------------------ gsThinShellDWRHelper::computeError, 67-141 *)
Inductive hres (A : Type) := HDone (a : A) (s : sess) | HThrown | HUndef.
Arguments HDone {A}. Arguments HThrown {A}. Arguments HUndef {A}.
(* assembleDualL(...); rhsL += dualL() (89-103, 115-129): the returned status is not looked at *)
Definition accumulate (e : senv) (l : level) (x : dsite) (pr df : nat) (rhs : V) (s : sess) : hres V :=
  match dualS e l x pr df s with
  | Ret _ s1 => match s_dual s1 l with
                | Some v => match d_plus e rhs v with Some w => HDone w s1 | None => HUndef end
                | None => HUndef end
  | Thrown _ => HThrown | Undef => HUndef end.
Definition optionally {A} (b : bool) (f : A -> sess -> hres A) (r : hres A) : hres A :=
  match r with HDone a s => if b then f a s else HDone a s | x => x end.
(* one level: dual matrix, right-hand side, solution (86-108, 112-135) *)
Definition dual_level (e : senv) (l : level) (rhs0 : V) (interior : bool) (bnds pts : list nat) (pr df : nat) (s : sess) : hres V :=
  match matrixS e l df s with
  | Ret _ s1 =>
      let nonempty (x : list nat) := match x with [] => false | _ => true end in
      match optionally (nonempty pts) (accumulate e l (SPoints pts) pr df)
             (optionally (nonempty bnds) (accumulate e l (SBoundary bnds) pr df)
               (optionally interior (accumulate e l SInterior pr df) (HDone rhs0 s1))) with
      | HDone w s2 => match s_mat s2 l with
                      | Some a => match one e l Construct s2 with Ret _ s3 => HDone (d_solve e a w) s3 | _ => HUndef end
                      | None => HUndef end
      | x => x
      end
  | Thrown _ => HThrown | Undef => HUndef
  end.
(* the two dual solutions handed to the estimator (138-140); rhsL, rhsH are zero vectors sized before anything is assembled (73-76) *)
Definition helper (e : senv) (interior : bool) (bnds pts : list nat) (pr df : nat) (s : sess) : hres (V * V) :=
  let zero l := e_zeroV _ _ (d_env e) (numDofs e l s) in
  match dual_level e Lo (zero Lo) interior bnds pts pr df s with
  | HDone zl s1 => match dual_level e Hi (zero Hi) interior bnds pts pr df s1 with
                   | HDone zh s2 => HDone (zl, zh) s2
                   | HThrown => HThrown | HUndef => HUndef end
  | HThrown => HThrown | HUndef => HUndef
  end.
End Session.
Arguments HDone {M V A}. Arguments HThrown {M V A}. Arguments HUndef {M V A}.
Arguments Ret {M V}. Arguments Thrown {M V}. Arguments Undef {M V}.
