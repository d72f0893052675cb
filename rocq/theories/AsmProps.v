(* Properties C39-C42, C92: behaviour of the assembler object over call histories. *)
From Coq Require Import List ZArith Lia Bool.
From Verif Require Import AsmModel AsmSpec AsmProofs.
Import ListNotations.

(* free interpretation of the contributions: two vectors are equal only if they were produced by the same assembly *)
Inductive vterm :=
| VZero (n : nat) | VLin (c : cfg) (f p : option nat) | VVec (c : cfg) (d : nat) (f p : option nat)
| VLoads (c : cfg) (l : list nat) (v : vterm) | VPress (c : cfg) (p d : nat) (v : vterm) | VLeft.
Inductive mterm := MZero (n : nat) | MLin (c : cfg) (f p : option nat) | MMat (c : cfg) (d : nat) (f p : option nat) | MMass (c : cfg) (l : bool) | MFound (c : cfg) (f : nat) | MLeft.
(* deformed geometry 99 makes the integration loops throw; a mapper has (basis + continuity + 1) * 10 dofs *)
Definition free : env mterm vterm := mkenv _ _
  (fun k => let '(b, _, c) := k in 10 * (b + Z.to_nat (c + 1)))
  MZero VZero
  (fun c f p => Some (MLin c f p, VLin c f p))
  (fun c d f p => if Nat.eqb d 99 then None else Some (MMat c d f p))
  (fun c d f p => if Nat.eqb d 99 then None else Some (VVec c d f p))
  (fun c l => Some (MMass c l)) (fun c f => Some (MFound c f)) (fun c p d => Some (VPress c p d)) (fun c l v => Some (VLoads c l v))
  MLeft VLeft.
Definition new (own : bool) : st mterm vterm := ctor mterm vterm own 1 2 3.
Definition outcome_rhs (h : list op) : result (option vterm) :=
  match run _ _ free h (new true) with Done s => Done (rhs _ _ s) | Undefined => Undefined end.
Definition wanted (h : list op) : option vterm := x_vec _ (expects _ _ free h (fresh vterm true 1 2 3)).

(* ================================================================ C39 *)
Theorem C39_rhs_is_last_assembly : forall M V (e : env M V) own g b bc h,
  admissible (x_prob _ (fresh V own g b bc)) ghost0 h ->
  exists s, run _ _ e h (ctor M V own g b bc) = Done s /\
  forall v, x_vec _ (expects _ _ e h (fresh V own g b bc)) = Some v -> rhs _ _ s = Some v.
Proof. exact history_ok. Qed.
Print Assumptions C39_rhs_is_last_assembly.

(* from any state: with no point loads registered, a successful vector assembly is visible iff no earlier one had point loads *)
Theorem C39_stale_characterisation : forall M V (e : env M V) d h s s',
  assemble_vec _ _ e d h s = Done s' -> stat _ _ s' = Some Success -> ploads _ _ s = [] ->
  exists v, sysV _ _ s' = Some v /\ rhs _ _ s' = match mrhs _ _ s with None => Some v | Some old => Some old end.
Proof.
  intros M V e d h s s' H St L. unfold assemble_vec, sized in H.
  set (s1 := dirichlet M V (if h then Homog else Proj) (initVector M V e s)) in *.
  assert (L1 : ploads _ _ s1 = []). { unfold s1, dirichlet, get_options. destruct (Z.eqb _ _); cbn; exact L. }
  assert (R1 : mrhs _ _ s1 = mrhs _ _ s). { unfold s1, dirichlet, get_options. destruct (Z.eqb _ _); reflexivity. }
  clearbody s1. destruct (Nat.eqb _ _); [|discriminate]. injection H as H. subst s'. destruct (e_vec _ _ e _ _ _ _) as [v|]; [|discriminate].
  exists v. unfold finish. cbn [ploads set_sys]. rewrite L1. split; [reflexivity|]. unfold rhs. cbn. rewrite R1. reflexivity.
Qed.
Print Assumptions C39_stale_characterisation.

Theorem C39_clearing_point_loads_refuted : exists h v w, outcome_rhs h = Done (Some v) /\ wanted h = Some w /\ v <> w.
Proof.
  exists [SetPointLoads [7]; AssembleVector 0 true; SetPointLoads []; AssembleVector 1 true].
  do 2 eexists. split; [vm_compute; reflexivity|]. split; [vm_compute; reflexivity|]. discriminate.
Qed.
Print Assumptions C39_clearing_point_loads_refuted.

(* also after a change of basis: the vector returned belongs to the old discretisation *)
Theorem C39_old_discretisation_refuted : exists h c l v, outcome_rhs h = Done (Some (VLoads c l v)) /\
  (exists c' f p, wanted h = Some (VLin c' f p) /\ sp_basis (c_space c) <> sp_basis (c_space c')).
Proof.
  exists [SetPointLoads [7]; Assemble; SetPointLoads []; SetBasis 5; Assemble].
  do 3 eexists. split; [vm_compute; reflexivity|]. do 3 eexists. split; [vm_compute; reflexivity|]. discriminate.
Qed.
Print Assumptions C39_old_discretisation_refuted.

(* a pressure vector added to the system is not visible in rhs() once point loads were assembled, although the call succeeds *)
Theorem C39_pressure_vector_invisible : forall M V (e : env M V) p d s s' v,
  mrhs _ _ s = Some v -> assemble_pressvec _ _ e p d s = Done s' -> rhs _ _ s' = rhs _ _ s.
Proof.
  intros M V e p d s s' v R H. unfold assemble_pressvec, sized in H.
  assert (R1 : mrhs _ _ (get_options _ _ s) = mrhs _ _ s) by (unfold get_options; destruct (Z.eqb _ _); reflexivity).
  destruct (sysV _ _ (get_options _ _ s)) eqn:Sy; [|discriminate]. destruct (Nat.eqb _ _); [|discriminate]. injection H as H. subst s'.
  unfold rhs. destruct (e_press _ _ e _ p d); cbn; rewrite R1, R; reflexivity.
Qed.
Print Assumptions C39_pressure_vector_invisible.

(* otherwise rhs() returns the previous vector with the pressure contribution added *)
Theorem C39_pressure_vector_added : forall M V (e : env M V) p d s s' f v,
  mrhs _ _ s = None -> sysV _ _ s = Some v -> e_press _ _ e (config _ _ (get_options _ _ s)) p d = Some f -> assemble_pressvec _ _ e p d s = Done s' ->
  rhs _ _ s' = Some (f v) /\ matrix _ _ s' = matrix _ _ s /\ stat _ _ s' = Some Success.
Proof.
  intros M V e p d s s' f v R S F H. unfold assemble_pressvec, sized in H.
  assert (R1 : mrhs _ _ (get_options _ _ s) = mrhs _ _ s /\ sysV _ _ (get_options _ _ s) = sysV _ _ s /\ sysM _ _ (get_options _ _ s) = sysM _ _ s) by (unfold get_options; destruct (Z.eqb _ _); repeat split; reflexivity).
  destruct R1 as (A & B & C). rewrite B, S, F in H. destruct (Nat.eqb _ _); [|discriminate]. injection H as H. subst s'.
  unfold rhs, matrix. cbn. rewrite A, R, C. repeat split.
Qed.
Print Assumptions C39_pressure_vector_added.

(* assembling a matrix after a vector resets the vector: rhs() is zero unless point loads were ever assembled *)
Theorem C39_matrix_resets_vector : forall M V (e : env M V) d s s',
  assemble_mat _ _ e d s = Done s' -> mrhs _ _ s = None -> rhs _ _ s' = Some (e_zeroV _ _ e (e_dofs _ _ e (key (space _ _ s)))).
Proof.
  intros M V e d s s' H R. unfold assemble_mat, sized in H.
  set (s1 := dirichlet M V Homog (initSystem M V e s)) in *.
  assert (V1 : sysV _ _ s1 = Some (e_zeroV _ _ e (e_dofs _ _ e (key (space _ _ s))))) by (unfold s1, dirichlet, get_options; destruct (Z.eqb _ _); reflexivity).
  assert (R1 : mrhs _ _ s1 = None) by (unfold s1, dirichlet, get_options; destruct (Z.eqb _ _); exact R).
  clearbody s1. destruct (Nat.eqb _ _); [|discriminate]. injection H as H. subst s'. unfold rhs. destruct (e_mat _ _ e _ _ _ _); cbn; rewrite R1; exact V1.
Qed.
Print Assumptions C39_matrix_resets_vector.

Example ex_C39 : let h := [SetPressure 4; SetPointLoads [7]; AssembleDef 0 true true; Construct; SetPointLoads [8; 9]; UpdateBCs 6; Assemble; AssembleVector 1 false] in
  admissible (x_prob _ (fresh vterm true 1 2 3)) ghost0 h /\
  wanted h = Some (VLoads (mkcfg 1 2 (mkspc 2 6 (-1) Proj)) [8; 9] (VVec (mkcfg 1 2 (mkspc 2 6 (-1) Proj)) 1 None (Some 4))) /\ outcome_rhs h = Done (wanted h).
Proof. split; [cbn; repeat split; auto|split; vm_compute; reflexivity]. Qed.

(* ================================================================ C40 *)
Definition reinit (o : op) (c : Z) : bool :=
  match o with SetGeometry _ | SetBasis _ | SetSpaceBasis _ => true | SetOptions c' => negb (Z.eqb c c') | _ => false end.
Definition active_press {M V} (s : st M V) := act (pressInd _ _ s) (press _ _ s).
Definition active_found {M V} (s : st M V) := act (foundInd _ _ s) (found _ _ s).

(* exact effect of every call on the registered loads, in any state whose continuity option was already taken over *)
Theorem C40_registered_loads : forall M V (e : env M V) o s s', o_cont _ _ s = m_cont _ _ s -> step _ _ e o s = Done s' ->
  active_press s' = (if reinit o (o_cont _ _ s) then None else match o with SetPressure p => Some p | _ => active_press s end) /\
  active_found s' = (if reinit o (o_cont _ _ s) then None else match o with SetFoundation f => Some f | _ => active_found s end) /\
  ploads _ _ s' = match o with SetPointLoads l => l | _ => ploads _ _ s end.
Proof.
  intros M V e o s s' C H.
  assert (G : forall x : st M V, o_cont _ _ x = m_cont _ _ x -> get_options _ _ x = x).
  { intros x E. unfold get_options. rewrite E, Z.eqb_refl. destruct x; cbn in *; subst; reflexivity. }
  assert (Fp : forall x : st M V, active_press (finish _ _ e x) = active_press x /\ active_found (finish _ _ e x) = active_found x /\ ploads _ _ (finish _ _ e x) = ploads _ _ x).
  { intro x. destruct (finish_keep M V e x) as (_ & _ & _ & _ & _ & _ & _ & K8 & K9 & K10 & K11 & K12 & _). unfold active_press, active_found. rewrite K8, K9, K10, K11, K12. auto. }
  assert (Lin : forall t, assemble_lin _ _ e s = Done t -> active_press t = active_press s /\ active_found t = active_found s /\ ploads _ _ t = ploads _ _ s).
  { intros t E. unfold assemble_lin in E. rewrite (G s C) in E. destruct (e_lin _ _ e _ _ _) as [[a v]|]; injection E as E; subst t; [|auto].
    destruct (Fp (set_sys _ _ (Some a) (Some v) (initSystem _ _ e s))) as (F1 & F2 & F3). rewrite F1, F2, F3. auto. }
  assert (Mat : forall d x t, o_cont _ _ x = m_cont _ _ x -> assemble_mat _ _ e d x = Done t ->
     active_press t = active_press x /\ active_found t = active_found x /\ ploads _ _ t = ploads _ _ x /\ o_cont _ _ t = m_cont _ _ t).
  { intros d x t Cx E. unfold assemble_mat, sized, dirichlet in E. rewrite (G (initSystem _ _ e x) Cx) in E. destruct (Nat.eqb _ _); [|discriminate]. injection E as E. subst t.
    destruct (e_mat _ _ e _ _ _ _); auto. }
  assert (Vec : forall d h x t, o_cont _ _ x = m_cont _ _ x -> assemble_vec _ _ e d h x = Done t ->
     active_press t = active_press x /\ active_found t = active_found x /\ ploads _ _ t = ploads _ _ x).
  { intros d h x t Cx E. unfold assemble_vec, sized, dirichlet in E. rewrite (G (initVector _ _ e x) Cx) in E. destruct (Nat.eqb _ _); [|discriminate]. injection E as E. subst t.
    destruct (e_vec _ _ e _ _ _ _) as [v|]; [|auto].
    match goal with |- context [finish _ _ e ?y] => destruct (Fp y) as (F1 & F2 & F3); rewrite F1, F2, F3 end. auto. }
  destruct o as [c|c|gg|b|b|bc|l|pm|p|f| | |d|d h|d m h|l| |p d| ]; cbn [step reinit] in *.
  - injection H as H. subst s'. destruct (Z.eqb_spec (o_cont _ _ s) c) as [E|E]; cbn [negb]; [auto|].
    unfold initialize, init, active_press, active_found. cbn. unfold get_options. cbn. destruct (Z.eqb _ _); auto.
  - injection H as H. subst s'. auto.
  - injection H as H. subst s'. rewrite (G s C). unfold initialize. rewrite G by (cbn; exact C). auto.
  - injection H as H. subst s'. rewrite G by (cbn; exact C). unfold initialize. rewrite G by (cbn; exact C). auto.
  - injection H as H. subst s'. rewrite G by (cbn; exact C). unfold initialize. rewrite G by (cbn; exact C). auto.
  - injection H as H. subst s'. unfold dirichlet. rewrite G by (cbn; exact C). auto.
  - injection H as H. subst s'. auto.
  - injection H as H. subst s'. auto.
  - injection H as H. subst s'. auto.
  - injection H as H. subst s'. auto.
  - injection H as H. subst s'. unfold dirichlet. rewrite G by exact C. auto.
  - apply Lin. exact H.
  - destruct (Mat d s s' C H) as (A & B & D & _). auto.
  - apply (Vec d h s s' C H).
  - unfold assemble_def in H. destruct m; [|apply (Vec d h s s' C H)]. destruct (assemble_mat _ _ e d s) as [s1|] eqn:E; [|discriminate].
    destruct (Mat d s s1 C E) as (A1 & A2 & A3 & A4). destruct (stat _ _ s1) as [[]|]; [|injection H as H; subst s'; auto|injection H as H; subst s'; auto].
    destruct (Vec d h s1 s' A4 H) as (B1 & B2 & B3). rewrite B1, B2, B3. auto.
  - unfold assemble_mass, sized in H. destruct (Nat.eqb _ _); [|discriminate]. injection H as H. subst s'. destruct (e_mass _ _ e _ _); auto.
  - unfold assemble_found in H. destruct (found _ _ s) as [f0|] eqn:Fd; [|discriminate]. destruct (e_found _ _ e _ _); injection H as H; subst s'; unfold active_press, active_found; cbn; rewrite ?Fd; auto.
  - unfold assemble_pressvec, sized in H. rewrite (G s C) in H. destruct (sysV _ _ s); [|discriminate]. destruct (Nat.eqb _ _); [|discriminate]. injection H as H. subst s'.
    destruct (e_press _ _ e _ _ _); auto.
  - injection H as H. subst s'. auto.
Qed.
Print Assumptions C40_registered_loads.

Theorem C40_pressure_dropped_refuted : exists h, outcome_rhs h <> Done (wanted h) /\
  h = [SetPressure 4; SetGeometry 8; AssembleVector 0 true].
Proof. eexists. split; [|reflexivity]. vm_compute. discriminate. Qed.
Print Assumptions C40_pressure_dropped_refuted.

(* changing the option through options() takes effect inside the next assembly, which then ignores a pressure registered after the change *)
Theorem C40_late_option_refuted : exists h c, h = [OptionsSet 0; SetPressure 4; Assemble] /\
  outcome_rhs h = Done (Some (VLin c None None)) /\ wanted h = Some (VLin c None (Some 4)).
Proof. do 2 eexists. split; [reflexivity|]. split; vm_compute; reflexivity. Qed.
Print Assumptions C40_late_option_refuted.

(* ... and in assembleMatrix the system was already sized for the old mapper *)
Theorem C40_late_option_wrong_size_refuted : outcome_rhs [OptionsSet 0; AssembleMatrix 0] = Undefined.
Proof. vm_compute. reflexivity. Qed.
Print Assumptions C40_late_option_wrong_size_refuted.

Example ex_C40 : let s := new true in o_cont _ _ s = m_cont _ _ s /\
  exists s1 s2, step _ _ free (SetPressure 4) s = Done s1 /\ step _ _ free (AssembleDef 0 true true) s1 = Done s2 /\ active_press s2 = Some 4.
Proof. split; [reflexivity|]. do 2 eexists. split; [vm_compute; reflexivity|]. split; vm_compute; reflexivity. Qed.

(* ================================================================ C41 *)
Definition throws_vec {M V} (e : env M V) (s : st M V) (v : option V) : bool :=
  match v with None => true | Some v => match ploads _ _ s with [] => false | l => match e_loads _ _ e (config _ _ s) l v with None => true | Some _ => false end end end.
Theorem C41_status_of_assemblies : forall M V (e : env M V) s s',
  (assemble_lin _ _ e s = Done s' ->
     let t := get_options _ _ s in
     stat _ _ s' = Some (if throws_vec e t (option_map snd (e_lin _ _ e (config _ _ t) (active_found t) (active_press t))) then AssemblyError else Success)) /\
  (forall d, assemble_mat _ _ e d s = Done s' ->
     let t := dirichlet _ _ Homog s in
     stat _ _ s' = Some (match e_mat _ _ e (config _ _ t) d (active_found t) (active_press t) with None => AssemblyError | Some _ => Success end)) /\
  (forall d h, assemble_vec _ _ e d h s = Done s' ->
     let t := dirichlet _ _ (if h : bool then Homog else Proj) s in
     stat _ _ s' = Some (if throws_vec e t (e_vec _ _ e (config _ _ t) d (active_found t) (active_press t)) then AssemblyError else Success)).
Proof.
  intros M V e s s'. split; [|split].
  - intros H t. unfold assemble_lin in H. fold t in H. unfold active_found, active_press.
    change (config _ _ (initSystem _ _ e t)) with (config _ _ t) in H. change (foundInd _ _ (initSystem _ _ e t)) with (foundInd _ _ t) in H.
    change (found _ _ (initSystem _ _ e t)) with (found _ _ t) in H. change (pressInd _ _ (initSystem _ _ e t)) with (pressInd _ _ t) in H. change (press _ _ (initSystem _ _ e t)) with (press _ _ t) in H.
    destruct (e_lin _ _ e _ _ _) as [[a v]|]; injection H as H; subst s'; [|reflexivity].
    cbn [option_map snd throws_vec]. unfold finish, throws_vec. cbn [ploads set_sys initSystem sysV].
    change (config _ _ (set_sys _ _ (Some a) (Some v) (initSystem _ _ e t))) with (config _ _ t).
    destruct (ploads _ _ t) as [|x l]; [reflexivity|]. destruct (e_loads _ _ e _ _ _); reflexivity.
  - intros d H t. unfold assemble_mat, sized in H.
    set (u := dirichlet _ _ Homog (initSystem _ _ e s)) in *.
    assert (E : config _ _ u = config _ _ t /\ active_found u = active_found t /\ active_press u = active_press t).
    { unfold u, t, dirichlet, get_options. cbn. destruct (Z.eqb _ _); auto. }
    clearbody u. destruct E as (E1 & E2 & E3). unfold active_found, active_press in *. destruct (Nat.eqb _ _); [|discriminate]. injection H as H. subst s'.
    rewrite E1, E2, E3. destruct (e_mat _ _ e _ _ _ _); reflexivity.
  - intros d h H t. unfold assemble_vec, sized in H.
    set (u := dirichlet _ _ (if h then Homog else Proj) (initVector _ _ e s)) in *.
    assert (E : config _ _ u = config _ _ t /\ active_found u = active_found t /\ active_press u = active_press t /\ ploads _ _ u = ploads _ _ t).
    { unfold u, t, dirichlet, get_options. cbn. destruct (Z.eqb _ _); auto. }
    clearbody u. destruct E as (E1 & E2 & E3 & E4). unfold active_found, active_press in *. destruct (Nat.eqb _ _); [|discriminate]. injection H as H. subst s'. rewrite E1, E2, E3.
    destruct (e_vec _ _ e _ _ _ _) as [v|]; [|reflexivity]. unfold finish, throws_vec. cbn [ploads set_sys sysV].
    change (config _ _ (set_sys _ _ (sysM _ _ u) (Some v) u)) with (config _ _ u). rewrite E1, E4.
    destruct (ploads _ _ t) as [|x l]; [reflexivity|]. destruct (e_loads _ _ e _ _ _); reflexivity.
Qed.
Print Assumptions C41_status_of_assemblies.

Theorem C41_mass_status : forall M V (e : env M V) l s s', assemble_mass _ _ e l s = Done s' ->
  stat _ _ s' = match e_mass _ _ e (config _ _ (set_space _ _ Homog s)) l with None => Some AssemblyError | Some _ => stat _ _ s end.
Proof.
  intros M V e l s s' H. unfold assemble_mass, sized in H. destruct (Nat.eqb _ _); [|discriminate]. injection H as H. subst s'.
  change (config _ _ (set_space _ _ Homog (initSystem _ _ e s))) with (config _ _ (set_space _ _ Homog s)).
  destruct (e_mass _ _ e _ _); reflexivity.
Qed.
Print Assumptions C41_mass_status.

(* a successful mass assembly reports an old failure; as the first call it reports an indeterminate value *)
Theorem C41_mass_status_refuted :
  (exists s, run _ _ free [AssembleVector 99 true; AssembleMass false] (new true) = Done s /\ stat _ _ s = Some AssemblyError /\ mass _ _ s <> None) /\
  (exists s, run _ _ free [AssembleMass false] (new true) = Done s /\ stat _ _ s = None /\ mass _ _ s <> None).
Proof. split; eexists; (split; [vm_compute; reflexivity|]); split; vm_compute; try reflexivity; discriminate. Qed.
Print Assumptions C41_mass_status_refuted.
Example ex_C41 : exists s, assemble_vec _ _ free 0 true (new true) = Done s /\ stat _ _ s = Some Success.
Proof. eexists; split; vm_compute; reflexivity. Qed.

(* ================================================================ C42 *)
(* nonlinear assemblies: two histories that configure the same problem give the same vector and matrix *)
Theorem C42_nonlinear_history_free : forall M V (e : env M V) own g b bc h1 h2 d hom,
  let x := fresh V own g b bc in
  admissible (x_prob _ x) ghost0 h1 -> admissible (x_prob _ x) ghost0 h2 ->
  x_prob _ (expects _ _ e h1 x) = x_prob _ (expects _ _ e h2 x) ->
  forall v a, want_vec _ _ e (x_prob _ (expects _ _ e h1 x)) d hom = Some v -> want_mat _ _ e (x_prob _ (expects _ _ e h1 x)) d = Some a ->
  exists s1 s2, run _ _ e (h1 ++ [AssembleDef d true hom]) (ctor M V own g b bc) = Done s1 /\
                run _ _ e (h2 ++ [AssembleDef d true hom]) (ctor M V own g b bc) = Done s2 /\
                rhs _ _ s1 = Some v /\ rhs _ _ s2 = Some v /\ matrix _ _ s1 = Some a /\ matrix _ _ s2 = Some a.
Proof.
  intros M V e own g b bc h1 h2 d hom x A1 A2 E v a W Wm.
  assert (K : forall h, admissible (x_prob _ x) ghost0 h -> x_prob _ (expects _ _ e h x) = x_prob _ (expects _ _ e h1 x) ->
    exists s, run _ _ e (h ++ [AssembleDef d true hom]) (ctor M V own g b bc) = Done s /\ rhs _ _ s = Some v /\ matrix _ _ s = Some a).
  { intros h Ah Eh. destruct (run_agrees M V e h _ _ _ (ctor_agrees M V own g b bc) Ah) as (s & g' & R & A).
    destruct (mat_step M V e s _ _ d A) as (sm & Em & Am & St & Mt). destruct (vec_step M V e sm _ _ d hom Am) as (sv & Ev & Av).
    cbn [x_prob] in *. fold x in A, Em, Am, St, Mt, Ev, Av. rewrite Eh in *. exists sv. split; [|split].
    - assert (Q : forall l s0 s1 s2, run _ _ e l s0 = Done s1 -> step _ _ e (AssembleDef d true hom) s1 = Done s2 -> run _ _ e (l ++ [AssembleDef d true hom]) s0 = Done s2).
      { induction l; cbn [app run]; intros s0 s1 s2 R1 R2. injection R1 as R1; subst s1. rewrite R2. reflexivity.
        destruct (step _ _ e a0 s0); [|discriminate]. eapply IHl; eassumption. }
      apply (Q h _ s sv R). cbn [step]. unfold assemble_def. rewrite Em, St, Wm. exact Ev.
    - apply (a_vec _ _ _ _ _ Av). exact W.
    - assert (Ms : matrix _ _ sv = matrix _ _ sm).
      { unfold assemble_vec, sized in Ev. destruct (Nat.eqb _ _); [|discriminate]. injection Ev as Ev. rewrite <- Ev. unfold matrix.
        assert (S0 : sysM _ _ (dirichlet _ _ (if hom then Homog else Proj) (initVector _ _ e sm)) = sysM _ _ sm) by (unfold dirichlet, get_options; destruct (Z.eqb _ _); reflexivity).
        destruct (e_vec _ _ e _ _ _ _); [|exact S0].
        match goal with |- sysM _ _ (finish _ _ e ?y) = _ => destruct (finish_keep M V e y) as (_ & _ & _ & _ & _ & _ & _ & _ & _ & _ & _ & _ & _ & K & _) end. rewrite K. exact S0. }
      rewrite Ms. apply Mt. exact Wm. }
  destruct (K h1 A1 eq_refl) as (s1 & R1 & V1 & M1). destruct (K h2 A2 (eq_sym E)) as (s2 & R2 & V2 & M2).
  exists s1, s2. auto 10.
Qed.
Print Assumptions C42_nonlinear_history_free.

(* linear assembly: the boundary mode is the one left by the previous calls *)
Theorem C42_linear_uses_current_mode : forall M V (e : env M V) s s' a v, o_cont _ _ s = m_cont _ _ s -> ploads _ _ s = [] -> mrhs _ _ s = None ->
  e_lin _ _ e (config _ _ s) (active_found s) (active_press s) = Some (a, v) -> assemble_lin _ _ e s = Done s' ->
  rhs _ _ s' = Some v /\ matrix _ _ s' = Some a /\ space _ _ s' = space _ _ s.
Proof.
  intros M V e s s' a v C L R E H. unfold assemble_lin in H.
  assert (G : get_options _ _ s = s). { unfold get_options. rewrite C, Z.eqb_refl. destruct s; cbn in *; subst; reflexivity. }
  rewrite G in H. unfold active_found, active_press in E. change (config _ _ (initSystem _ _ e s)) with (config _ _ s) in H.
  change (foundInd _ _ (initSystem _ _ e s)) with (foundInd _ _ s) in H. change (found _ _ (initSystem _ _ e s)) with (found _ _ s) in H.
  change (pressInd _ _ (initSystem _ _ e s)) with (pressInd _ _ s) in H. change (press _ _ (initSystem _ _ e s)) with (press _ _ s) in H.
  rewrite E in H. injection H as H. subst s'. unfold finish. cbn [ploads set_sys initSystem]. rewrite L. unfold rhs, matrix. cbn. rewrite R. auto.
Qed.
Print Assumptions C42_linear_uses_current_mode.

(* same problem, same call, different systems: after a mass or nonlinear assembly the prescribed displacements are treated as zero *)
Theorem C42_linear_history_refuted : exists h c, outcome_rhs [Assemble] = Done (wanted [Assemble]) /\ wanted (h ++ [Assemble]) = wanted [Assemble] /\
  outcome_rhs (h ++ [Assemble]) = Done (Some (VLin c None None)) /\ sp_mode (c_space c) = Homog /\ h = [AssembleMass false].
Proof. do 2 eexists. repeat split; vm_compute; reflexivity. Qed.
Print Assumptions C42_linear_history_refuted.
(* ... and constructing a solution in between changes it back *)
Theorem C42_const_method_changes_next_assembly : exists c, outcome_rhs [AssembleMass false; Construct; Assemble] = Done (Some (VLin c None None)) /\ sp_mode (c_space c) = Proj.
Proof. eexists. split; vm_compute; reflexivity. Qed.
Print Assumptions C42_const_method_changes_next_assembly.
(* the values put at the eliminated degrees of freedom of a constructed solution belong to the boundary conditions and the space basis passed last,
   after every sequence of calls (whether or not the assembly treated them as zero) *)
Definition data_of (p : prob) (c : Z) : nat * nat * Z := (match p_sp p with None => p_basis p | Some b => b end, p_bcs p, c).
Theorem C42_prescribed_values_current : forall M V (e : env M V) own g b bc h s, run _ _ e h (ctor _ _ own g b bc) = Done s ->
  ddofs _ _ s = data_of (x_prob _ (expects _ _ e h (fresh V own g b bc))) (m_cont _ _ s).
Proof.
  intros M V e own g b bc.
  set (J := fun (s : st M V) (p : prob) => basis _ _ s = p_basis p /\ sb _ _ s = match p_sp p with None => Own | Some x => Ext x end /\ bcs _ _ s = p_bcs p /\
    ddofs _ _ s = data_of p (m_cont _ _ s)).
  assert (N : forall s p, basis _ _ s = p_basis p -> sb _ _ s = match p_sp p with None => Own | Some x => Ext x end -> bcs _ _ s = p_bcs p -> J (init _ _ s) p).
  { intros s p H1 H2 H3. unfold J, data_of, init, spbasis. cbn. unfold spbasis. rewrite H1, H2, H3. destruct (p_sp p); auto. }
  assert (Gt : forall s p, J s p -> J (get_options _ _ s) p).
  { intros s p (H1 & H2 & H3 & H4). unfold get_options. destruct (Z.eqb_spec (m_cont _ _ s) (o_cont _ _ s)) as [E|E]; [|apply N; assumption].
    unfold J. cbn. rewrite <- E. auto. }
  assert (G3 : forall s : st M V, basis _ _ (get_options _ _ s) = basis _ _ s /\ sb _ _ (get_options _ _ s) = sb _ _ s /\ bcs _ _ (get_options _ _ s) = bcs _ _ s).
  { intro s. unfold get_options. destruct (Z.eqb (m_cont _ _ s) (o_cont _ _ s)); cbn; auto. }
  assert (Ini : forall s p, basis _ _ s = p_basis p -> sb _ _ s = match p_sp p with None => Own | Some x => Ext x end -> bcs _ _ s = p_bcs p -> J (initialize _ _ s) p).
  { intros s p H1 H2 H3. destruct (G3 s) as (A & B & C). unfold initialize. apply N; congruence. }
  assert (Di : forall m s p, J s p -> J (dirichlet _ _ m s) p) by (intros m s p H; exact (Gt s p H)).
  assert (Fi : forall s p, J s p -> J (finish _ _ e s) p).
  { intros s p (H1 & H2 & H3 & H4). destruct (finish_keep M V e s) as (_ & K2 & _ & K4 & K5 & K6 & _ & _ & _ & _ & _ & _ & _ & _ & _ & K16 & _).
    unfold J. rewrite K2, K4, K5, K6, K16. auto. }
  assert (Mat : forall d s p t, J s p -> assemble_mat _ _ e d s = Done t -> J t p).
  { intros d s p t H E. unfold assemble_mat, sized in E. destruct (Nat.eqb _ _); [|discriminate]. injection E as E. subst t.
    assert (Q := Di Homog (initSystem _ _ e s) p H). destruct (e_mat _ _ e _ _ _ _); exact Q. }
  assert (Vec : forall d h s p t, J s p -> assemble_vec _ _ e d h s = Done t -> J t p).
  { intros d h s p t H E. unfold assemble_vec, sized in E. destruct (Nat.eqb _ _); [|discriminate]. injection E as E. subst t.
    assert (Q := Di (if h then Homog else Proj) (initVector _ _ e s) p H). destruct (e_vec _ _ e _ _ _ _); [apply Fi|]; exact Q. }
  assert (S : forall o s s1 x, J s (x_prob _ x) -> step _ _ e o s = Done s1 -> J s1 (x_prob _ (expect _ _ e o x))).
  { intros o s s1 x H E. assert (H' := H). destruct H as (H1 & H2 & H3 & H4).
    destruct o as [c|c|gg|bb|bb|bc'|l|pm|p|f| | |d|d h|d m h|l| |p d| ]; cbn [step] in E; cbn [expect x_prob upd].
    - injection E as E. subst s1. destruct (Z.eqb _ _); [exact H'|]. apply Ini; assumption.
    - injection E as E. subst s1. exact H'.
    - injection E as E. subst s1. destruct (G3 s) as (A & B & C). apply Ini; cbn; congruence.
    - injection E as E. subst s1. destruct (G3 (set_problem _ _ (geo _ _ s) bb (sb _ _ s) (bcs _ _ s) s)) as (A & B & C). apply Ini; [rewrite A|rewrite B|rewrite C]; cbn; auto.
    - injection E as E. subst s1. destruct (G3 (set_problem _ _ (geo _ _ s) (basis _ _ s) (Ext bb) (bcs _ _ s) s)) as (A & B & C). apply Ini; [rewrite A|rewrite B|rewrite C]; cbn; auto.
    - injection E as E. subst s1. unfold dirichlet. destruct (G3 (set_problem _ _ (geo _ _ s) (basis _ _ s) (sb _ _ s) bc' s)) as (A & B & C).
      unfold J, data_of. cbn. unfold key, spbasis. cbn. rewrite A, B, C. cbn. rewrite H1, H2. destruct (p_sp (x_prob _ x)); auto.
    - injection E as E. subst s1. exact H'.
    - injection E as E. subst s1. exact H'.
    - injection E as E. subst s1. exact H'.
    - injection E as E. subst s1. exact H'.
    - injection E as E. subst s1. apply Di. exact H'.
    - unfold assemble_lin in E. assert (Q := Gt s _ H'). destruct (e_lin _ _ e _ _ _) as [[a v]|]; injection E as E; subst s1; [apply Fi|]; exact Q.
    - apply (Mat d s); assumption.
    - apply (Vec d h s); assumption.
    - unfold assemble_def in E. destruct m; [|apply (Vec d h s); assumption]. destruct (assemble_mat _ _ e d s) as [s2|] eqn:Em; [|discriminate].
      assert (Q := Mat d s _ s2 H' Em). destruct (stat _ _ s2) as [[]|]; [apply (Vec d h s2); assumption|injection E as E; subst s1; exact Q|injection E as E; subst s1; exact Q].
    - unfold assemble_mass, sized in E. destruct (Nat.eqb _ _); [|discriminate]. injection E as E. subst s1. destruct (e_mass _ _ e _ _); exact H'.
    - unfold assemble_found in E. destruct (found _ _ s); [|discriminate]. destruct (e_found _ _ e _ _); injection E as E; subst s1; exact H'.
    - unfold assemble_pressvec, sized in E. assert (Q := Gt s _ H'). destruct (sysV _ _ (get_options _ _ s)); [|discriminate]. destruct (Nat.eqb _ _); [|discriminate]. injection E as E. subst s1.
      destruct (e_press _ _ e _ _ _); exact Q.
    - injection E as E. subst s1. exact H'. }
  assert (Rn : forall h s s1 x, J s (x_prob _ x) -> run _ _ e h s = Done s1 -> J s1 (x_prob _ (expects _ _ e h x))).
  { induction h as [|o h IH]; intros s s1 x H E; cbn [run expects] in *; [injection E as E; subst s1; exact H|].
    destruct (step _ _ e o s) as [s2|] eqn:Es; [|discriminate]. eapply IH; [|exact E]. eapply S; eassumption. }
  intros h s E. apply (Rn h _ _ (fresh V own g b bc)) in E; [apply E|].
  unfold ctor, fresh. cbn [x_prob]. apply N; destruct own; reflexivity.
Qed.
Print Assumptions C42_prescribed_values_current.
Example ex_C42_values : exists s, run _ _ free [AssembleMass false; UpdateBCs 7; AssembleVector 0 true] (ctor _ _ true 1 2 3) = Done s /\ ddofs _ _ s = (2, 7, (-1)%Z) /\ sp_mode (space _ _ s) = Homog.
Proof. eexists. split; [vm_compute; reflexivity|]. split; vm_compute; reflexivity. Qed.
Example ex_C42 : let x := fresh vterm true 1 2 3 in
  admissible (x_prob _ x) ghost0 [AssembleMass true; HomogenizeDirichlet; SetPressure 4] /\ admissible (x_prob _ x) ghost0 [SetPressure 4; Construct] /\
  x_prob _ (expects _ _ free [AssembleMass true; HomogenizeDirichlet; SetPressure 4] x) = x_prob _ (expects _ _ free [SetPressure 4; Construct] x).
Proof. cbn. repeat split; auto. Qed.

(* ================================================================ C92 *)
Theorem C92_set_basis_container : forall M V (e : env M V) b s s', sb _ _ s = Own -> step _ _ e (SetBasis b) s = Done s' ->
  sp_basis (space _ _ s') = b /\ basis _ _ s' = b.
Proof.
  intros M V e b s s' O H. cbn in H. injection H as H. subst s'. unfold initialize, init, get_options. cbn.
  repeat (destruct (Z.eqb _ _); cbn); unfold spbasis; cbn; rewrite O; auto.
Qed.
Print Assumptions C92_set_basis_container.
Theorem C92_set_basis_single_material : forall M V (e : env M V) b b0 s s', sb _ _ s = Ext b0 -> step _ _ e (SetBasis b) s = Done s' ->
  sp_basis (space _ _ s') = b0 /\ basis _ _ s' = b.
Proof.
  intros M V e b b0 s s' O H. cbn in H. injection H as H. subst s'. unfold initialize, init, get_options. cbn.
  repeat (destruct (Z.eqb _ _); cbn); unfold spbasis; cbn; rewrite O; auto.
Qed.
Print Assumptions C92_set_basis_single_material.
(* the constructors differ: with a single material, setBasis changes the quadrature elements but not the space *)
Theorem C92_set_basis_refuted : exists s, run _ _ free [SetBasis 5] (new false) = Done s /\ basis _ _ s = 5 /\ sp_basis (space _ _ s) = 2.
Proof. eexists. split; [vm_compute; reflexivity|split; vm_compute; reflexivity]. Qed.
Print Assumptions C92_set_basis_refuted.
Example ex_C92 : sb _ _ (new true) = Own /\ sb _ _ (new false) = Ext 2. Proof. split; reflexivity. Qed.

(* ================================================================ C93 *)
(* point masses: two histories that differ only in setPointMass calls give the same matrices, vectors, mass matrix and status *)
Fixpoint drop_mass (h : list op) : list op := match h with [] => [] | SetPointMass _ :: r => drop_mass r | o :: r => o :: drop_mass r end.
Definition same_but_mass {M V} (r1 r2 : result (st M V)) : Prop :=
  match r1, r2 with
  | Done s, Done t => exists l, t = set_pmass _ _ l s
  | Undefined, Undefined => True
  | _, _ => False
  end.
Definition rmap {M V} (f : st M V -> st M V) (r : result (st M V)) : result (st M V) := match r with Done s => Done (f s) | Undefined => Undefined end.
Lemma pmass_get : forall M V l (s : st M V), get_options _ _ (set_pmass _ _ l s) = set_pmass _ _ l (get_options _ _ s).
Proof. intros. unfold get_options. cbn. destruct (Z.eqb _ _); reflexivity. Qed.
Lemma pmass_finish : forall M V (e : env M V) l s, finish _ _ e (set_pmass _ _ l s) = set_pmass _ _ l (finish _ _ e s).
Proof.
  intros. unfold finish. change (ploads _ _ (set_pmass _ _ l s)) with (ploads _ _ s). change (sysV _ _ (set_pmass _ _ l s)) with (sysV _ _ s). change (config _ _ (set_pmass _ _ l s)) with (config _ _ s).
  destruct (ploads _ _ s); [reflexivity|]. destruct (sysV _ _ s); [|reflexivity]. destruct (e_loads _ _ e _ _ _); reflexivity.
Qed.
Lemma pmass_mat : forall M V (e : env M V) d l s, assemble_mat _ _ e d (set_pmass _ _ l s) = rmap (set_pmass _ _ l) (assemble_mat _ _ e d s).
Proof.
  intros. unfold assemble_mat, dirichlet, sized. change (initSystem _ _ e (set_pmass _ _ l s)) with (set_pmass _ _ l (initSystem _ _ e s)). rewrite pmass_get.
  set (t := get_options _ _ (initSystem _ _ e s)). clearbody t. change (set_space _ _ Homog (set_pmass _ _ l t)) with (set_pmass _ _ l (set_space _ _ Homog t)). set (u := set_space _ _ Homog t). clearbody u.
  cbn [space set_pmass]. destruct (Nat.eqb _ _); [|reflexivity]. cbn [rmap].
  change (config _ _ (set_pmass _ _ l u)) with (config _ _ u). cbn [foundInd found pressInd press set_pmass]. destruct (e_mat _ _ e _ _ _ _); reflexivity.
Qed.
Lemma pmass_vec : forall M V (e : env M V) d h l s, assemble_vec _ _ e d h (set_pmass _ _ l s) = rmap (set_pmass _ _ l) (assemble_vec _ _ e d h s).
Proof.
  intros. unfold assemble_vec, dirichlet, sized. change (initVector _ _ e (set_pmass _ _ l s)) with (set_pmass _ _ l (initVector _ _ e s)). rewrite pmass_get.
  set (t := get_options _ _ (initVector _ _ e s)). clearbody t. set (mo := if h then Homog else Proj). change (set_space _ _ mo (set_pmass _ _ l t)) with (set_pmass _ _ l (set_space _ _ mo t)). set (u := set_space _ _ mo t). clearbody u.
  cbn [space set_pmass]. destruct (Nat.eqb _ _); [|reflexivity]. cbn [rmap].
  change (config _ _ (set_pmass _ _ l u)) with (config _ _ u). cbn [foundInd found pressInd press set_pmass]. destruct (e_vec _ _ e _ _ _ _); [|reflexivity].
  change (set_sys _ _ (sysM _ _ (set_pmass _ _ l u)) (Some v) (set_pmass _ _ l u)) with (set_pmass _ _ l (set_sys _ _ (sysM _ _ u) (Some v) u)). rewrite pmass_finish. reflexivity.
Qed.
Lemma pmass_step : forall M V (e : env M V) o l s, (forall l', o <> SetPointMass l') -> step _ _ e o (set_pmass _ _ l s) = rmap (set_pmass _ _ l) (step _ _ e o s).
Proof.
  intros M V e o l s H. destruct o as [c|c|gg|b|b|bc|l0|pm|p|f| | |d|d h|d m h|lu| |p d| ]; cbn [step].
  - cbn. destruct (Z.eqb _ _); [reflexivity|]. unfold initialize. change (set_opt _ _ c (set_pmass _ _ l s)) with (set_pmass _ _ l (set_opt _ _ c s)). rewrite pmass_get. reflexivity.
  - reflexivity.
  - rewrite pmass_get. set (t := get_options _ _ s). clearbody t. unfold initialize. cbn [rmap].
    change (set_problem _ _ gg (basis _ _ (set_pmass _ _ l t)) (sb _ _ (set_pmass _ _ l t)) (bcs _ _ (set_pmass _ _ l t)) (set_pmass _ _ l t)) with (set_pmass _ _ l (set_problem _ _ gg (basis _ _ t) (sb _ _ t) (bcs _ _ t) t)). rewrite pmass_get. reflexivity.
  - change (set_problem _ _ (geo _ _ (set_pmass _ _ l s)) b (sb _ _ (set_pmass _ _ l s)) (bcs _ _ (set_pmass _ _ l s)) (set_pmass _ _ l s)) with (set_pmass _ _ l (set_problem _ _ (geo _ _ s) b (sb _ _ s) (bcs _ _ s) s)).
    unfold initialize. rewrite !pmass_get. reflexivity.
  - change (set_problem _ _ (geo _ _ (set_pmass _ _ l s)) (basis _ _ (set_pmass _ _ l s)) (Ext b) (bcs _ _ (set_pmass _ _ l s)) (set_pmass _ _ l s)) with (set_pmass _ _ l (set_problem _ _ (geo _ _ s) (basis _ _ s) (Ext b) (bcs _ _ s) s)).
    unfold initialize. rewrite !pmass_get. reflexivity.
  - change (set_problem _ _ (geo _ _ (set_pmass _ _ l s)) (basis _ _ (set_pmass _ _ l s)) (sb _ _ (set_pmass _ _ l s)) bc (set_pmass _ _ l s)) with (set_pmass _ _ l (set_problem _ _ (geo _ _ s) (basis _ _ s) (sb _ _ s) bc s)).
    unfold dirichlet. rewrite !pmass_get. reflexivity.
  - reflexivity.
  - exfalso. apply (H pm). reflexivity.
  - reflexivity.
  - reflexivity.
  - unfold dirichlet. rewrite pmass_get. reflexivity.
  - unfold assemble_lin. rewrite pmass_get. set (t := get_options _ _ s). clearbody t. change (initSystem _ _ e (set_pmass _ _ l t)) with (set_pmass _ _ l (initSystem _ _ e t)). set (u := initSystem _ _ e t). clearbody u.
    change (config _ _ (set_pmass _ _ l u)) with (config _ _ u). cbn [foundInd found pressInd press set_pmass]. destruct (e_lin _ _ e _ _ _) as [[a v]|]; [|reflexivity].
    change (set_sys _ _ (Some a) (Some v) (set_pmass _ _ l u)) with (set_pmass _ _ l (set_sys _ _ (Some a) (Some v) u)). rewrite pmass_finish. reflexivity.
  - apply pmass_mat.
  - apply pmass_vec.
  - unfold assemble_def. destruct m; [|apply pmass_vec]. rewrite pmass_mat. destruct (assemble_mat _ _ e d s) as [t|]; [|reflexivity]. cbn [rmap]. change (stat _ _ (set_pmass _ _ l t)) with (stat _ _ t).
    destruct (stat _ _ t) as [[]|]; [apply pmass_vec|reflexivity|reflexivity].
  - unfold assemble_mass, sized. change (initSystem _ _ e (set_pmass _ _ l s)) with (set_pmass _ _ l (initSystem _ _ e s)). set (t := initSystem _ _ e s). clearbody t. change (set_space _ _ Homog (set_pmass _ _ l t)) with (set_pmass _ _ l (set_space _ _ Homog t)).
    set (u := set_space _ _ Homog t). clearbody u. cbn [space set_pmass]. destruct (Nat.eqb _ _); [|reflexivity]. change (config _ _ (set_pmass _ _ l u)) with (config _ _ u). destruct (e_mass _ _ e _ _); reflexivity.
  - unfold assemble_found. change (found _ _ (set_pmass _ _ l s)) with (found _ _ s). destruct (found _ _ s); [|reflexivity]. change (config _ _ (initSystem _ _ e (set_pmass _ _ l s))) with (config _ _ (initSystem _ _ e s)). destruct (e_found _ _ e _ _); reflexivity.
  - unfold assemble_pressvec, sized. rewrite pmass_get. set (t := get_options _ _ s). clearbody t. change (sysV _ _ (set_pmass _ _ l t)) with (sysV _ _ t). destruct (sysV _ _ t); [|reflexivity]. cbn [space set_pmass].
    destruct (Nat.eqb _ _); [|reflexivity]. change (config _ _ (set_pmass _ _ l t)) with (config _ _ t). destruct (e_press _ _ e _ _ _); reflexivity.
  - reflexivity.
Qed.
Lemma pmass_run : forall M V (e : env M V) h l s, same_but_mass (run _ _ e h s) (run _ _ e (drop_mass h) (set_pmass _ _ l s)).
Proof.
  induction h as [|o r IH]; intros l s; [exists l; reflexivity|].
  assert (K : (forall l', o <> SetPointMass l') -> same_but_mass (run _ _ e (o :: r) s) (run _ _ e (o :: drop_mass r) (set_pmass _ _ l s))).
  { intro N. cbn [run]. rewrite pmass_step by exact N. destruct (step _ _ e o s) as [t|]; [apply IH|exact I]. }
  destruct o; try (apply K; discriminate). cbn [drop_mass run step].
  assert (E : set_pmass _ _ l s = set_pmass _ _ l (set_pmass _ _ l0 s)) by reflexivity. rewrite E. apply IH.
Qed.
Theorem C93_point_mass_ignored : forall M V (e : env M V) own g b bc h,
  match run _ _ e h (ctor M V own g b bc), run _ _ e (drop_mass h) (ctor M V own g b bc) with
  | Done s, Done t => mass _ _ s = mass _ _ t /\ matrix _ _ s = matrix _ _ t /\ rhs _ _ s = rhs _ _ t /\ stat _ _ s = stat _ _ t
  | Undefined, Undefined => True
  | _, _ => False
  end.
Proof.
  intros M V e own g b bc h. assert (K := pmass_run M V e h [] (ctor M V own g b bc)).
  assert (E : set_pmass _ _ [] (ctor M V own g b bc) = ctor M V own g b bc) by reflexivity. rewrite E in K. unfold same_but_mass in K.
  destruct (run _ _ e h _) as [s|]; destruct (run _ _ e (drop_mass h) _) as [t|]; try exact K. destruct K as [l ->]. repeat split.
Qed.
Print Assumptions C93_point_mass_ignored.
(* so the mass matrix with a registered point mass is the one without *)
Theorem C93_point_mass_refuted : exists l s t, l <> [] /\ run _ _ free [SetPointMass l; AssembleMass false] (new true) = Done s /\ run _ _ free [AssembleMass false] (new true) = Done t /\
  pmass _ _ s = l /\ mass _ _ s = mass _ _ t.
Proof. exists [1]. do 2 eexists. split; [discriminate|]. split; [vm_compute; reflexivity|]. split; [vm_compute; reflexivity|]. split; reflexivity. Qed.
Print Assumptions C93_point_mass_refuted.
