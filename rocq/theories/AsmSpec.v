(* What a user expects of the assembler: the problem that was configured, and the system of the last assembly.
   Written without reference to the members of the assembler. *)
From Coq Require Import List ZArith.
From Verif Require Import AsmModel.
Import ListNotations.

Section Spec.
Variables M V : Type.
(* the configured problem *)
Record prob := mkprob { p_geo : nat; p_basis : nat; p_sp : option nat (* explicit space basis *); p_bcs : nat; p_cont : Z;
  p_found : option nat; p_press : option nat; p_loads : list nat }.
(* x_vec: the vector of the last vector assembly, None if there is none or it failed *)
Record exp := mkexp { x_prob : prob; x_vec : option V }.

Definition space_of (p : prob) (m : dmode) : spc :=
  mkspc (match p_sp p with None => p_basis p | Some b => b end) (p_bcs p) (p_cont p) m.
Definition cfg_of (p : prob) (m : dmode) : cfg := mkcfg (p_geo p) (p_basis p) (space_of p m).

(* vector plus point loads *)
Definition with_loads (e : env M V) (p : prob) (m : dmode) (v : option V) : option V :=
  match v, p_loads p with
  | None, _ => None
  | Some v, [] => Some v
  | Some v, l => e_loads _ _ e (cfg_of p m) l v
  end.
(* the linear problem includes the prescribed (non-homogeneous) boundary values *)
Definition want_lin (e : env M V) (p : prob) : option V :=
  with_loads e p Proj (option_map snd (e_lin _ _ e (cfg_of p Proj) (p_found p) (p_press p))).
Definition want_vec (e : env M V) (p : prob) (d : nat) (h : bool) : option V :=
  let m := if h then Homog else Proj in
  with_loads e p m (e_vec _ _ e (cfg_of p m) d (p_found p) (p_press p)).
Definition want_mat (e : env M V) (p : prob) (d : nat) : option M := e_mat _ _ e (cfg_of p Homog) d (p_found p) (p_press p).

Definition upd (p : prob) (o : op) : prob :=
  match o with
  | SetOptions c | OptionsSet c => mkprob (p_geo p) (p_basis p) (p_sp p) (p_bcs p) c (p_found p) (p_press p) (p_loads p)
  | SetGeometry g => mkprob g (p_basis p) (p_sp p) (p_bcs p) (p_cont p) (p_found p) (p_press p) (p_loads p)
  | SetBasis b => mkprob (p_geo p) b (p_sp p) (p_bcs p) (p_cont p) (p_found p) (p_press p) (p_loads p)
  | SetSpaceBasis b => mkprob (p_geo p) (p_basis p) (Some b) (p_bcs p) (p_cont p) (p_found p) (p_press p) (p_loads p)
  | UpdateBCs b => mkprob (p_geo p) (p_basis p) (p_sp p) b (p_cont p) (p_found p) (p_press p) (p_loads p)
  | SetPointLoads l => mkprob (p_geo p) (p_basis p) (p_sp p) (p_bcs p) (p_cont p) (p_found p) (p_press p) l
  | SetPressure x => mkprob (p_geo p) (p_basis p) (p_sp p) (p_bcs p) (p_cont p) (p_found p) (Some x) (p_loads p)
  | SetFoundation x => mkprob (p_geo p) (p_basis p) (p_sp p) (p_bcs p) (p_cont p) (Some x) (p_press p) (p_loads p)
  | _ => p
  end.
Definition expect (e : env M V) (o : op) (x : exp) : exp :=
  let p := upd (x_prob x) o in
  mkexp p
    match o with
    | Assemble => want_lin e p
    | AssembleVector d h => want_vec e p d h
    | AssembleDef d m h => if m then match want_mat e p d with Some _ => want_vec e p d h | None => None end else want_vec e p d h
    | AssembleMatrix _ | AssembleMass _ | AssembleFoundation | PressureVector _ _ => None
    | _ => x_vec x
    end.
Fixpoint expects (e : env M V) (h : list op) (x : exp) : exp :=
  match h with [] => x | o :: r => expects e r (expect e o x) end.
Definition fresh (own : bool) (g b bc : nat) : exp := mkexp (mkprob g b (if own then None else Some b) bc (-1) None None []) None.
End Spec.

(* histories for which the expectation is met; only the calls made and the configured problem are used *)
Record ghost := mkghost { g_used : bool   (* a vector was assembled while point loads were registered *)
                        ; g_proj : bool   (* the last call that set the boundary mode was not a homogenising one *)
                        ; g_sys : bool }. (* some system was assembled *)
Definition gstep (p : prob) (o : op) (g : ghost) : ghost :=
  let loaded := match p_loads p with [] => false | _ => true end in
  match o with
  | SetOptions c => if Z.eqb (p_cont p) c then g else mkghost (g_used g) true (g_sys g)
  | SetGeometry _ | SetBasis _ | SetSpaceBasis _ | UpdateBCs _ | Construct => mkghost (g_used g) true (g_sys g)
  | HomogenizeDirichlet => mkghost (g_used g) false (g_sys g)
  | Assemble => mkghost (g_used g || loaded) (g_proj g) true
  | AssembleMatrix _ | AssembleMass _ => mkghost (g_used g) false true
  | AssembleFoundation => mkghost (g_used g) (g_proj g) true
  | AssembleVector _ h => mkghost (g_used g || loaded) (negb h) true
  | AssembleDef _ m h => mkghost (g_used g || loaded) (negb h && negb m) true
  | _ => g
  end.
Definition unloaded (p : prob) : Prop := p_found p = None /\ p_press p = None.
Definition allowed (p : prob) (g : ghost) (o : op) : Prop :=
  match o with
  | OptionsSet c => c = p_cont p
  | SetOptions c => c = p_cont p \/ unloaded p
  | SetGeometry _ | SetBasis _ | SetSpaceBasis _ => unloaded p
  | SetPointLoads [] => g_used g = false
  | Assemble => g_proj g = true
  | AssembleFoundation => p_found p <> None
  | PressureVector _ _ => g_sys g = true
  | _ => True
  end.
Fixpoint admissible (p : prob) (g : ghost) (h : list op) : Prop :=
  match h with [] => True | o :: r => allowed p g o /\ admissible (upd p o) (gstep p o g) r end.
Definition ghost0 := mkghost false true false.
