(* What a user of the error-estimation assembler expects: two discretisations of one problem, and for each of them the last matrix, mass
   matrix, primal vector and dual vector that were requested.  Uses the problem description of AsmSpec.v, not the members of the session. *)
From Coq Require Import List ZArith Bool.
From Verif Require Import AsmModel AsmSpec SessModel.
Import ListNotations.

(* the request a session call stands for, seen from one discretisation *)
Definition request (k : level) (o : sop) : option op :=
  let at_ l x := if lev_eqb l k then Some x else None in
  match o with
  | DSetOptions c => Some (SetOptions c)
  | DOptions l c => at_ l (OptionsSet c)
  | DPointLoads x => Some (SetPointLoads x)
  | DFoundation f => Some (SetFoundation f)
  | DPressure p => Some (SetPressure p)
  | DUpdateBCs bc => Some (UpdateBCs bc)
  | DSetBasis l b => at_ l (SetBasis b)
  | DSetSpaceBasis l b => at_ l (SetSpaceBasis b)
  | DSetUndeformed g => Some (SetGeometry g)
  | DHomogenize => Some HomogenizeDirichlet
  | DSetGoal _ _ => None
  | DConstruct l => at_ l Construct
  | DAssemble l | DMatrixLin l | DPrimalLin l => at_ l Assemble
  | DMass l b => at_ l (AssembleMass b)
  | DMatrix l d => at_ l (AssembleMatrix d)
  | DPrimal l d => at_ l (AssembleVector d true)
  | DDual l _ _ _ | DDualFrom l _ _ => at_ l HomogenizeDirichlet      (* dual problems have homogeneous conditions *)
  | DInherited _ => None
  end.

Section Spec.
Variables M V : Type.
Record view := mkview { v_prob : level -> prob; v_mat : level -> option M; v_mass : level -> option M;
  v_prim : level -> option V; v_dual : level -> option V; v_goal : option (gfun * nat) }.

Definition want_mass (e : env M V) (p : prob) (lumped : bool) : option M := e_mass _ _ e (cfg_of p Homog) lumped.
Definition want_linmat (e : env M V) (p : prob) : option M :=
  match want_lin _ _ e p with Some _ => option_map fst (e_lin _ _ e (cfg_of p Proj) (p_found p) (p_press p)) | None => None end.
(* the dual load vector of the configured problem, in the numbering of the homogeneous problem *)
Definition dofs_of (e : env M V) (p : prob) : nat := e_dofs _ _ e (key (space_of p Homog)).
Definition want_dual (e : senv M V) (p : prob) (x : dsite) (g : option (gfun * nat)) (pr df : nat) : option V :=
  if no_sites x then Some (e_zeroV _ _ (d_env _ _ e) (dofs_of (d_env _ _ e) p))
  else match g with
       | Some (Functional f, c) => d_dual _ _ e x f c (cfg_of p Homog) (dofs_of (d_env _ _ e) p) pr df
       | _ => None
       end.
Definition views (e : senv M V) (o : sop) (w : view) : view :=
  let p k := match request k o with Some r => upd (v_prob w k) r | None => v_prob w k end in
  let E := d_env _ _ e in
  mkview p
    (match o with DAssemble l | DMatrixLin l => put l (want_linmat E (p l)) (v_mat w)
                | DMatrix l d => put l (want_mat _ _ E (p l) d) (v_mat w) | _ => v_mat w end)
    (match o with DMass l b => put l (want_mass E (p l) b) (v_mass w) | _ => v_mass w end)
    (match o with DAssemble l | DPrimalLin l => put l (want_lin _ _ E (p l)) (v_prim w)
                | DPrimal l d => put l (want_vec _ _ E (p l) d true) (v_prim w) | _ => v_prim w end)
    (match o with DDual l x pr df => put l (want_dual e (p l) x (v_goal w) pr df) (v_dual w)
                | DDualFrom l x pr => put l (want_dual e (p l) x (v_goal w) pr (d_move _ _ e (p_geo (p l)) pr)) (v_dual w)
                | _ => v_dual w end)
    (match o with DSetGoal g c => Some (g, c) | _ => v_goal w end).
Fixpoint viewed (e : senv M V) (h : list sop) (w : view) : view := match h with [] => w | o :: r => viewed e r (views e o w) end.
Definition view0 (e : senv M V) (g bL bH bc : nat) : view :=
  let p l := x_prob V (fresh V false g (match l with Lo => bL | Hi => bH end) bc) in
  mkview p (fun _ => None) (fun _ => None) (fun _ => None) (fun l => Some (e_zeroV _ _ (d_env _ _ e) (dofs_of (d_env _ _ e) (p l)))) None.

(* the call succeeds: used for the mass matrix, whose status is that of the previous assembly *)
Definition succeeds (e : senv M V) (k : level) (o : sop) (w : view) (old : bool) : bool :=
  let p := match request k o with Some r => upd (v_prob w k) r | None => v_prob w k end in
  let E := d_env _ _ e in
  let good {A} (x : option A) := match x with Some _ => true | None => false end in
  match o with
  | DAssemble l | DMatrixLin l | DPrimalLin l => if lev_eqb l k then good (want_lin _ _ E p) else old
  | DMatrix l d => if lev_eqb l k then good (want_mat _ _ E p d) else old
  | DPrimal l d => if lev_eqb l k then good (want_vec _ _ E p d true) else old
  | DMass l b => if lev_eqb l k then old && good (want_mass E p b) else old
  | _ => old
  end.

(* histories for which the expectation is met *)
Record sghost := mksg { sg : level -> ghost; sg_ok : level -> bool }.
Definition sgstep (e : senv M V) (w : view) (o : sop) (g : sghost) : sghost :=
  mksg (fun k => match request k o with Some r => gstep (v_prob w k) r (sg g k) | None => sg g k end)
       (fun k => succeeds e k o w (sg_ok g k)).
(* bc0: the boundary conditions given to the constructor *)
Definition sallowed (bc0 : nat) (w : view) (g : sghost) (o : sop) : Prop :=
  (forall k r, request k o = Some r -> allowed (v_prob w k) (sg g k) r) /\
  match o with
  | DMass l _ => sg_ok g l = true
  | DDual l x _ _ | DDualFrom l x _ => no_sites x = true \/ (p_bcs (v_prob w l) = bc0 /\ p_cont (v_prob w l) = 0%Z /\ v_goal w <> None)
  | DInherited _ => False
  | _ => True
  end.
Fixpoint sadmissible (e : senv M V) (bc0 : nat) (w : view) (g : sghost) (h : list sop) : Prop :=
  match h with [] => True | o :: r => sallowed bc0 w g o /\ sadmissible e bc0 (views e o w) (sgstep e w o g) r end.
Definition sghost0 := mksg (fun _ => ghost0) (fun _ => false).

(* what the stored results have to be *)
Definition meets (e : senv M V) (s : sess M V) (w : view) : Prop := forall l,
  (forall a, v_mat w l = Some a -> s_mat _ _ s l = Some a) /\ (forall a, v_mass w l = Some a -> s_mass _ _ s l = Some a) /\
  (forall v, v_prim w l = Some v -> s_prim _ _ s l = Some v) /\ (forall v, v_dual w l = Some v -> s_dual _ _ s l = Some v) /\
  numDofs _ _ e l s = dofs_of (d_env _ _ e) (v_prob w l).

(* the right-hand side of a dual problem with several parts: acc plus the dual load vector of each part *)
Fixpoint sum_of (e : senv M V) (p : prob) (goal : option (gfun * nat)) (pr df : nat) (acc : V) (xs : list dsite) : option V :=
  match xs with
  | [] => Some acc
  | x :: r => match want_dual e p x goal pr df with
              | Some v => match d_plus _ _ e acc v with Some a => sum_of e p goal pr df a r | None => None end
              | None => None end
  end.
End Spec.

(* the four stored results of each level, and which of them a request may change *)
Inductive slot := KMat | KMass | KPrim | KDual.
Definition changes (o : sop) (l : level) (k : slot) : bool :=
  match o, k with
  | DAssemble m, (KMat | KPrim) => lev_eqb m l
  | DMass m _, KMass => lev_eqb m l
  | (DMatrixLin m | DMatrix m _), KMat => lev_eqb m l
  | (DPrimalLin m | DPrimal m _), KPrim => lev_eqb m l
  | (DDual m _ _ _ | DDualFrom m _ _), KDual => lev_eqb m l
  | _, _ => false
  end.
(* the parts of the goal requested from the helper (interior, element sides, points), and its calls on one level *)
Definition parts (interior : bool) (bnds pts : list nat) : list dsite :=
  (if interior then [SInterior] else []) ++ (match bnds with [] => [] | _ => [SBoundary bnds] end) ++ (match pts with [] => [] | _ => [SPoints pts] end).
Definition calls (l : level) (parts : list dsite) (pr df : nat) : list sop := DMatrix l df :: map (fun x => DDual l x pr df) parts ++ [DConstruct l].
