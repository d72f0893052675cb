(* Call-history model of gsThinShellAssembler: what the object remembers between calls.

   Modelled: src/gsThinShellAssembler.hpp 33-95 (constructors), 185-270 (options, _initialize), 1303-1321 (Dirichlet set-up),
   1435-1522 (mass, legacy foundation), 1540-1702 (linear assembly), 1714-1846 (matrix), 1991-2130 (vector),
   2133-2300 (pressure / foundation vectors), 2456-2468 (assemble(deformed)), 2626-2631, 2686-2693 (solution construction);
   src/gsThinShellAssembler.h 165-185, 341-382, 401 (setters, rhs()).

   The numbers produced by the integration loops are arguments (the record env): a contribution is a function of the configuration
   that the loops read, or "throws".  Geometry, bases, boundary conditions, loads and deformed geometries are identified by
   numbers (the code stores copies or pointers to them).
   Contract of the core library (gsExprAssembler, not part of this repository): initSystem resets matrix and vector to zero with the
   number of dofs of the current space, initVector resets the vector only, cleanUp changes neither; setup(bc,mode,cont) fixes the
   mapper (a function of basis, bc, cont) and the eliminated values (zero for dirichlet::homogeneous, the projection of the boundary
   data for dirichlet::l2Projection). *)
From Coq Require Import List ZArith Lia Bool.
Import ListNotations.

(* dirichlet::homogeneous / dirichlet::l2Projection *)
Inductive dmode := Homog | Proj.
(* ThinShellAssemblerStatus: gsThinShellAssembler.h 30-40 *)
Inductive status := Success | AssemblyError.
(* m_spaceBasis points to the member m_basis (constructor 33-54: &m_basis) or to an object of the user (75-95: &basis; setSpaceBasis) *)
Inductive sbasis := Own | Ext (b : nat).

(* the space registered in m_assembler after setup *)
Record spc := mkspc { sp_basis : nat; sp_bcs : nat; sp_cont : Z; sp_mode : dmode }.
(* mapper of a set-up space: independent of the mode *)
Definition key (x : spc) : nat * nat * Z := (sp_basis x, sp_bcs x, sp_cont x).
(* everything the integration loops read *)
Record cfg := mkcfg { c_geo : nat; c_els : nat; c_space : spc }.

Section Machine.
Variables M V : Type.

(* contributions; None = an exception leaves the integration loops *)
Record env := mkenv {
  e_dofs : nat * nat * Z -> nat;                                        (* free dofs of a mapper *)
  e_zeroM : nat -> M; e_zeroV : nat -> V;                               (* after initSystem / initVector *)
  e_lin : cfg -> option nat -> option nat -> option (M * V);            (* assemble(): foundation, pressure *)
  e_mat : cfg -> nat -> option nat -> option nat -> option M;           (* assembleMatrix(def) *)
  e_vec : cfg -> nat -> option nat -> option nat -> option V;           (* assembleVector(def) *)
  e_mass : cfg -> bool -> option M;
  e_found : cfg -> nat -> option M;                                     (* legacy assembleFoundation() *)
  e_press : cfg -> nat -> nat -> option (V -> V);                       (* _assemblePressure<false>(p,def): adds to the vector *)
  e_loads : cfg -> list nat -> V -> option V;                           (* _applyLoads *)
  e_leftM : M; e_leftV : V                                              (* whatever an interrupted assembly leaves behind *)
}.

(* data members *)
Record st := mkst {
  o_cont : Z;                      (* m_options "Continuity" *)
  m_cont : Z;                      (* m_continuity *)
  geo : nat; basis : nat; sb : sbasis; bcs : nat;
  space : spc;                     (* m_assembler's trial space *)
  ddofs : nat * nat * Z;           (* what m_ddofs / m_mapper were computed from *)
  found : option nat; foundInd : bool;
  press : option nat; pressInd : bool;
  ploads : list nat;
  pmass : list nat;                (* m_pMass: stored, read only by _applyMass 1387-1432, whose two calls (1473, 1483) are inside the comment block 1466-1485 of assembleMass *)
  sysM : option M; sysV : option V; mass : option M;   (* m_assembler.matrix(), .rhs(), m_mass; None = empty *)
  mrhs : option V;                 (* m_rhs; None = size 0 *)
  stat : option status             (* m_status; None = never written (no initialiser, gsThinShellAssembler.h 703) *)
}.

Definition spbasis (s : st) : nat := match sb s with Own => basis s | Ext b => b end.
Definition config (s : st) : cfg := mkcfg (geo s) (basis s) (space s).
Definition act (b : bool) (x : option nat) : option nat := if b then x else None.

(* m_space.setup(m_bcs, mode, m_continuity) *)
Definition set_space (m : dmode) (s : st) : st :=
  mkst (o_cont s) (m_cont s) (geo s) (basis s) (sb s) (bcs s) (mkspc (spbasis s) (bcs s) (m_cont s) m) (ddofs s)
    (found s) (foundInd s) (press s) (pressInd s) (ploads s) (pmass s) (sysM s) (sysV s) (mass s) (mrhs s) (stat s).
(* _initialize 243-281 once m_continuity equals the option: Dirichlet set-up, m_ddofs, m_mapper, foundation and pressure off *)
Definition init (s : st) : st :=
  let t := set_space Proj s in
  mkst (o_cont t) (m_cont t) (geo t) (basis t) (sb t) (bcs t) (space t) (key (space t))
    (found t) false (press t) false (ploads t) (pmass t) (sysM t) (sysV t) (mass t) (mrhs t) (stat t).
Definition set_cont (c : Z) (s : st) : st :=
  mkst (o_cont s) c (geo s) (basis s) (sb s) (bcs s) (space s) (ddofs s)
    (found s) (foundInd s) (press s) (pressInd s) (ploads s) (pmass s) (sysM s) (sysV s) (mass s) (mrhs s) (stat s).
(* _getOptions 209-226: re-initialises if the option changed since the last call (the nested call inside _initialize sees no change) *)
Definition get_options (s : st) : st :=
  let t := set_cont (o_cont s) s in
  if Z.eqb (m_cont s) (o_cont s) then t else init t.
(* _assembleDirichlet 1304-1311, homogenizeDirichlet 1314-1321 *)
Definition dirichlet (m : dmode) (s : st) : st := set_space m (get_options s).
(* _initialize as called from outside: its _assembleDirichlet calls _getOptions *)
Definition initialize (s : st) : st := init (get_options s).

Definition set_opt (c : Z) (s : st) : st :=
  mkst c (m_cont s) (geo s) (basis s) (sb s) (bcs s) (space s) (ddofs s)
    (found s) (foundInd s) (press s) (pressInd s) (ploads s) (pmass s) (sysM s) (sysV s) (mass s) (mrhs s) (stat s).
Definition set_problem (g b : nat) (x : sbasis) (bc : nat) (s : st) : st :=
  mkst (o_cont s) (m_cont s) g b x bc (space s) (ddofs s)
    (found s) (foundInd s) (press s) (pressInd s) (ploads s) (pmass s) (sysM s) (sysV s) (mass s) (mrhs s) (stat s).
Definition set_ddofs (s : st) : st :=
  mkst (o_cont s) (m_cont s) (geo s) (basis s) (sb s) (bcs s) (space s) (key (space s))
    (found s) (foundInd s) (press s) (pressInd s) (ploads s) (pmass s) (sysM s) (sysV s) (mass s) (mrhs s) (stat s).
Definition set_loads (l : list nat) (s : st) : st :=
  mkst (o_cont s) (m_cont s) (geo s) (basis s) (sb s) (bcs s) (space s) (ddofs s)
    (found s) (foundInd s) (press s) (pressInd s) l (pmass s) (sysM s) (sysV s) (mass s) (mrhs s) (stat s).
Definition set_pmass (l : list nat) (s : st) : st :=
  mkst (o_cont s) (m_cont s) (geo s) (basis s) (sb s) (bcs s) (space s) (ddofs s)
    (found s) (foundInd s) (press s) (pressInd s) (ploads s) l (sysM s) (sysV s) (mass s) (mrhs s) (stat s).
Definition set_press (p : nat) (s : st) : st :=
  mkst (o_cont s) (m_cont s) (geo s) (basis s) (sb s) (bcs s) (space s) (ddofs s)
    (found s) (foundInd s) (Some p) true (ploads s) (pmass s) (sysM s) (sysV s) (mass s) (mrhs s) (stat s).
Definition set_found (f : nat) (s : st) : st :=
  mkst (o_cont s) (m_cont s) (geo s) (basis s) (sb s) (bcs s) (space s) (ddofs s)
    (Some f) true (press s) (pressInd s) (ploads s) (pmass s) (sysM s) (sysV s) (mass s) (mrhs s) (stat s).
Definition set_sys (a : option M) (v : option V) (s : st) : st :=
  mkst (o_cont s) (m_cont s) (geo s) (basis s) (sb s) (bcs s) (space s) (ddofs s)
    (found s) (foundInd s) (press s) (pressInd s) (ploads s) (pmass s) a v (mass s) (mrhs s) (stat s).
Definition set_mass (m : option M) (s : st) : st :=
  mkst (o_cont s) (m_cont s) (geo s) (basis s) (sb s) (bcs s) (space s) (ddofs s)
    (found s) (foundInd s) (press s) (pressInd s) (ploads s) (pmass s) (sysM s) (sysV s) m (mrhs s) (stat s).
Definition set_mrhs (v : option V) (s : st) : st :=
  mkst (o_cont s) (m_cont s) (geo s) (basis s) (sb s) (bcs s) (space s) (ddofs s)
    (found s) (foundInd s) (press s) (pressInd s) (ploads s) (pmass s) (sysM s) (sysV s) (mass s) v (stat s).
Definition set_stat (x : status) (s : st) : st :=
  mkst (o_cont s) (m_cont s) (geo s) (basis s) (sb s) (bcs s) (space s) (ddofs s)
    (found s) (foundInd s) (press s) (pressInd s) (ploads s) (pmass s) (sysM s) (sysV s) (mass s) (mrhs s) (Some x).

(* rhs(): gsThinShellAssembler.h 401.  (m_assembler.rhs() may itself be empty.) *)
Definition rhs (s : st) : option V := match mrhs s with None => sysV s | Some v => Some v end.
Definition matrix (s : st) : option M := sysM s.

(* tail of every vector assembly: "if (m_pLoads.numLoads() != 0) { m_rhs = m_assembler.rhs(); _applyLoads(); } m_status = Success",
   in a catch-all block; 1613-1624, 1689-1701, 2049-2061, 2117-2129 *)
Definition finish (e : env) (s : st) : st :=
  match ploads s, sysV s with
  | [], _ => set_stat Success s
  | l, Some v =>
      match e_loads e (config s) l v with
      | Some w => set_stat Success (set_mrhs (Some w) s)
      | None => set_stat AssemblyError (set_mrhs (Some (e_leftV e)) s)
      end
  | _, None => set_stat AssemblyError s   (* not reached: the vector was initialised *)
  end.

Definition initSystem (e : env) (s : st) : st :=
  set_sys (Some (e_zeroM e (e_dofs e (key (space s))))) (Some (e_zeroV e (e_dofs e (key (space s))))) s.
Definition initVector (e : env) (s : st) : st := set_sys (sysM s) (Some (e_zeroV e (e_dofs e (key (space s))))) s.

Inductive result (A : Type) := Done (a : A) | Undefined.
Arguments Done {A}. Arguments Undefined {A}.
(* entries are scattered with the current mapper into a system sized with an earlier one: defined only if the sizes agree *)
Definition sized (e : env) (before after : st) (k : st) : result st :=
  if Nat.eqb (e_dofs e (key (space before))) (e_dofs e (key (space after))) then Done k else Undefined.

(* assemble(): 1540-1702; the Dirichlet mode is whatever the previous calls left *)
Definition assemble_lin (e : env) (s0 : st) : result st :=
  let s := get_options s0 in
  let s1 := initSystem e s in
  match e_lin e (config s1) (act (foundInd s1) (found s1)) (act (pressInd s1) (press s1)) with
  | Some (a, v) => Done (finish e (set_sys (Some a) (Some v) s1))
  | None => Done (set_stat AssemblyError (set_sys (Some (e_leftM e)) (Some (e_leftV e)) s1))
  end.
(* assembleMatrix(def): 1714-1788, 1794-1846: initSystem first, homogenizeDirichlet (which may re-initialise) afterwards *)
Definition assemble_mat (e : env) (d : nat) (s : st) : result st :=
  let s1 := dirichlet Homog (initSystem e s) in
  sized e s s1
    match e_mat e (config s1) d (act (foundInd s1) (found s1)) (act (pressInd s1) (press s1)) with
    | Some a => set_stat Success (set_sys (Some a) (sysV s1) s1)
    | None => set_stat AssemblyError (set_sys (Some (e_leftM e)) (sysV s1) s1)
    end.
(* assembleVector(def, homogenize): 1991-2062, 2068-2130 *)
Definition assemble_vec (e : env) (d : nat) (h : bool) (s : st) : result st :=
  let s1 := dirichlet (if h then Homog else Proj) (initVector e s) in
  sized e s s1
    match e_vec e (config s1) d (act (foundInd s1) (found s1)) (act (pressInd s1) (press s1)) with
    | Some v => finish e (set_sys (sysM s1) (Some v) s1)
    | None => set_stat AssemblyError (set_sys (sysM s1) (Some (e_leftV e)) s1)
    end.
(* assemble(def, matrix, homogenize): 2456-2468 *)
Definition assemble_def (e : env) (d : nat) (m h : bool) (s : st) : result st :=
  if m then
    match assemble_mat e d s with
    | Done s1 => match stat s1 with Some Success => assemble_vec e d h s1 | _ => Done s1 end
    | Undefined => Undefined
    end
  else assemble_vec e d h s.
(* assembleMass: 1435-1491: no _getOptions; m_status is written only on failure *)
Definition assemble_mass (e : env) (lumped : bool) (s : st) : result st :=
  let s1 := set_space Homog (initSystem e s) in
  sized e s s1
    match e_mass e (config s1) lumped with
    | Some a => set_mass (Some a) (set_sys (Some a) (sysV s1) s1)
    | None => set_stat AssemblyError (set_sys (Some (e_leftM e)) (sysV s1) s1)
    end.
(* assembleFoundation(): 1496-1522 (dereferences m_foundFun whether or not it was set) *)
Definition assemble_found (e : env) (s : st) : result st :=
  match found s with
  | None => Undefined
  | Some f =>
    let s1 := initSystem e s in
    match e_found e (config s1) f with
    | Some a => Done (set_stat Success (set_sys (Some a) (sysV s1) s1))
    | None => Done (set_stat AssemblyError (set_sys (Some (e_leftM e)) (sysV s1) s1))
    end
  end.
(* assemblePressureVector(p, def): 2226-2254: adds to the existing vector, no initialisation *)
Definition assemble_pressvec (e : env) (p d : nat) (s0 : st) : result st :=
  let s := get_options s0 in
  match sysV s with
  | None => Undefined
  | Some v =>
    sized e s0 s
    match e_press e (config s) p d with
    | Some f => set_stat Success (set_sys (sysM s) (Some (f v)) s)
    | None => set_stat AssemblyError (set_sys (sysM s) (Some (e_leftV e)) s)
    end
  end.
(* constructMultiPatch 2626-2631 / fullSolutionVector 2688-2692 (const methods): the space is set up with the projected data again *)
Definition construct (s : st) : st := set_space Proj s.

Inductive op :=
| SetOptions (c : Z)                 (* setOptions(list with Continuity = c) 229-240 *)
| OptionsSet (c : Z)                 (* options().setInt("Continuity", c): gsThinShellAssembler.h 155 *)
| SetGeometry (g : nat)              (* setGeometry, setUndeformed *)
| SetBasis (b : nat)
| SetSpaceBasis (b : nat)
| UpdateBCs (bc : nat)
| SetPointLoads (l : list nat)
| SetPointMass (l : list nat)
| SetPressure (p : nat)
| SetFoundation (f : nat)
| HomogenizeDirichlet
| Assemble
| AssembleMatrix (d : nat)
| AssembleVector (d : nat) (h : bool)
| AssembleDef (d : nat) (m h : bool)
| AssembleMass (lumped : bool)
| AssembleFoundation
| PressureVector (p d : nat)
| Construct.

Definition step (e : env) (o : op) (s : st) : result st :=
  match o with
  | SetOptions c => Done (if Z.eqb (o_cont s) c then set_opt c s else initialize (set_opt c s))
  | OptionsSet c => Done (set_opt c s)
  | SetGeometry g => let s1 := get_options s in Done (initialize (set_problem g (basis s1) (sb s1) (bcs s1) s1))
  | SetBasis b => Done (initialize (get_options (set_problem (geo s) b (sb s) (bcs s) s)))
  | SetSpaceBasis b => Done (initialize (get_options (set_problem (geo s) (basis s) (Ext b) (bcs s) s)))
  | UpdateBCs bc => Done (set_ddofs (dirichlet Proj (set_problem (geo s) (basis s) (sb s) bc s)))
  | SetPointLoads l => Done (set_loads l s)
  | SetPointMass l => Done (set_pmass l s)
  | SetPressure p => Done (set_press p s)
  | SetFoundation f => Done (set_found f s)
  | HomogenizeDirichlet => Done (dirichlet Homog s)
  | Assemble => assemble_lin e s
  | AssembleMatrix d => assemble_mat e d s
  | AssembleVector d h => assemble_vec e d h s
  | AssembleDef d m h => assemble_def e d m h s
  | AssembleMass l => assemble_mass e l s
  | AssembleFoundation => assemble_found e s
  | PressureVector p d => assemble_pressvec e p d s
  | Construct => Done (construct s)
  end.
Fixpoint run (e : env) (h : list op) (s : st) : result st :=
  match h with
  | [] => Done s
  | o :: r => match step e o s with Done s1 => run e r s1 | Undefined => Undefined end
  end.

(* constructors 33-95: default Continuity = -1, no loads, everything else empty.
   own = true: gsMaterialMatrixContainer constructor (space basis = member), false: single-material constructor *)
Definition ctor (own : bool) (g b bc : nat) : st :=
  init (mkst (-1) (-1) g b (if own then Own else Ext b) bc (mkspc b bc (-1) Proj) (b, bc, (-1)%Z)
          None false None false [] [] None None None None None).
End Machine.
Arguments Done {A}. Arguments Undefined {A}.
