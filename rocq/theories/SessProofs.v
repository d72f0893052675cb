(* Sessions meet the expectation of SessSpec on admissible histories. *)
From Coq Require Import List ZArith Lia Bool.
From Verif Require Import AsmModel AsmSpec AsmProofs AsmProps SessModel SessSpec.
Import ListNotations.

Section P.
Variables M V : Type.
Notation st := (st M V). Notation env := (env M V). Notation senv := (senv M V). Notation sess := (sess M V).

Lemma lev_refl : forall l, lev_eqb l l = true. Proof. destruct l; reflexivity. Qed.
Lemma lev_true : forall l k, lev_eqb l k = true -> l = k. Proof. destruct l, k; cbn; congruence. Qed.
Lemma put_eq : forall A l (x : A) f, put l x f l = x. Proof. intros. unfold put. rewrite lev_refl. reflexivity. Qed.
Lemma put_ne : forall A l k (x : A) f, lev_eqb l k = false -> put l x f k = f k. Proof. intros. unfold put. rewrite H. reflexivity. Qed.

Notation agr s p g := (agrees M V s (mkexp V p None) g).

(* more about the single assembler *)
Lemma lin_config : forall s p g, agr s p g -> g_proj g = true -> get_options _ _ s = s /\ config _ _ s = cfg_of p Proj.
Proof.
  intros s p g A H. split. exact (get_same _ _ _ _ _ A). destruct (a_space _ _ _ _ _ A) as (m & Sp & Hm). rewrite (Hm H) in Sp.
  exact (config_of _ _ _ _ _ _ A Sp).
Qed.
Lemma throws_want : forall (e : env) s p g m v, agr s p g -> config _ _ s = cfg_of p m -> throws_vec e s v = match with_loads _ _ e p m v with Some _ => false | None => true end.
Proof.
  intros e s p g m v A C. unfold throws_vec, with_loads. rewrite C, (a_loads _ _ _ _ _ A). cbn [x_prob]. destruct v; [|reflexivity]. destruct (p_loads p); [reflexivity|]. destruct (e_loads _ _ e _ _ _); reflexivity.
Qed.
Lemma lin_more : forall (e : env) s p g, agr s p g -> g_proj g = true -> exists s', assemble_lin _ _ e s = Done s' /\
  agrees M V s' (expect _ _ e Assemble (mkexp V p None)) (gstep p Assemble g) /\
  stat _ _ s' = Some (match want_lin _ _ e p with Some _ => Success | None => AssemblyError end) /\
  (forall v, want_lin _ _ e p = Some v -> rhs _ _ s' = Some v) /\ (forall a, want_linmat _ _ e p = Some a -> matrix _ _ s' = Some a).
Proof.
  intros e s p g A H. destruct (step_agrees M V e Assemble s _ g A H) as (s' & E & A'). exists s'. cbn [step] in E. split; [exact E|].
  split; [exact A'|]. destruct (lin_config s p g A H) as [GO C]. split; [|split].
  - destruct (C41_status_of_assemblies M V e s s') as (Q & _ & _). specialize (Q E). cbn zeta in Q. rewrite GO in Q. rewrite Q.
    rewrite (throws_want e s p g Proj _ A C). unfold want_lin. unfold active_found, active_press. rewrite C, (a_found _ _ _ _ _ A), (a_press _ _ _ _ _ A). cbn [x_prob].
    destruct (with_loads _ _ e p Proj _); reflexivity.
  - intros v W. apply (a_vec _ _ _ _ _ A'). exact W.
  - intros a W. unfold want_linmat in W. destruct (want_lin _ _ e p); [|discriminate].
    unfold assemble_lin in E. rewrite GO in E. change (config _ _ (initSystem _ _ e s)) with (config _ _ s) in E.
    change (foundInd _ _ (initSystem _ _ e s)) with (foundInd _ _ s) in E. change (found _ _ (initSystem _ _ e s)) with (found _ _ s) in E.
    change (pressInd _ _ (initSystem _ _ e s)) with (pressInd _ _ s) in E. change (press _ _ (initSystem _ _ e s)) with (press _ _ s) in E.
    rewrite C, (a_found _ _ _ _ _ A), (a_press _ _ _ _ _ A) in E. cbn [x_prob] in E.
    destruct (e_lin _ _ e _ _ _) as [[a0 v0]|]; [|discriminate]. cbn in W. injection W as W. subst a0. injection E as E. subst s'.
    match goal with |- matrix _ _ (finish _ _ e ?y) = _ => destruct (finish_keep M V e y) as (_ & _ & _ & _ & _ & _ & _ & _ & _ & _ & _ & _ & _ & K & _) end.
    unfold matrix. rewrite K. reflexivity.
Qed.
Lemma vec_more : forall (e : env) s p g d, agr s p g -> exists s', assemble_vec _ _ e d true s = Done s' /\
  agrees M V s' (expect _ _ e (AssembleVector d true) (mkexp V p None)) (gstep p (AssembleVector d true) g) /\
  stat _ _ s' = Some (match want_vec _ _ e p d true with Some _ => Success | None => AssemblyError end) /\
  (forall v, want_vec _ _ e p d true = Some v -> rhs _ _ s' = Some v).
Proof.
  intros e s p g d A. destruct (step_agrees M V e (AssembleVector d true) s _ g A I) as (s' & E & A'). exists s'. cbn [step] in E. split; [exact E|].
  split; [exact A'|]. split.
  - destruct (C41_status_of_assemblies M V e s s') as (_ & _ & Q). specialize (Q d true E). cbn zeta in Q. rewrite Q. clear Q.
    assert (GO := get_same _ _ _ _ _ A). unfold dirichlet. rewrite GO.
    assert (Sp := space_now _ _ s _ g Homog A). cbn [x_prob] in Sp.
    assert (C : config _ _ (set_space _ _ Homog s) = cfg_of p Homog).
    { unfold config, cfg_of. rewrite Sp. cbn. rewrite (a_geo _ _ _ _ _ A), (a_basis _ _ _ _ _ A). reflexivity. }
    unfold throws_vec. rewrite C. change (ploads _ _ (set_space _ _ Homog s)) with (ploads _ _ s). rewrite (a_loads _ _ _ _ _ A).
    unfold active_found, active_press. change (act (foundInd _ _ (set_space _ _ Homog s)) (found _ _ (set_space _ _ Homog s))) with (act (foundInd _ _ s) (found _ _ s)).
    change (act (pressInd _ _ (set_space _ _ Homog s)) (press _ _ (set_space _ _ Homog s))) with (act (pressInd _ _ s) (press _ _ s)).
    rewrite (a_found _ _ _ _ _ A), (a_press _ _ _ _ _ A). cbn [x_prob]. unfold want_vec, with_loads.
    destruct (e_vec _ _ e _ _ _ _); [|reflexivity]. destruct (p_loads p); [reflexivity|]. destruct (e_loads _ _ e _ _ _); reflexivity.
  - intros v W. apply (a_vec _ _ _ _ _ A'). exact W.
Qed.
Lemma mass_more : forall (e : env) s p g b, agr s p g -> exists s', assemble_mass _ _ e b s = Done s' /\
  agrees M V s' (expect _ _ e (AssembleMass b) (mkexp V p None)) (gstep p (AssembleMass b) g) /\
  stat _ _ s' = match want_mass _ _ e p b with Some _ => stat _ _ s | None => Some AssemblyError end /\
  (forall a, want_mass _ _ e p b = Some a -> matrix _ _ s' = Some a).
Proof.
  intros e s p g b A. destruct (step_agrees M V e (AssembleMass b) s _ g A I) as (s' & E & A'). exists s'. cbn [step] in E. split; [exact E|]. split; [exact A'|].
  assert (Sp := space_now _ _ s _ g Homog A). cbn [x_prob] in Sp.
  assert (C : config _ _ (set_space _ _ Homog s) = cfg_of p Homog).
  { unfold config, cfg_of. rewrite Sp. cbn. rewrite (a_geo _ _ _ _ _ A), (a_basis _ _ _ _ _ A). reflexivity. }
  split.
  - rewrite (C41_mass_status M V e b s s' E). rewrite C. unfold want_mass. destruct (e_mass _ _ e _ _); reflexivity.
  - intros a W. unfold assemble_mass, sized in E. destruct (Nat.eqb _ _); [|discriminate]. injection E as E. subst s'.
    change (config _ _ (set_space _ _ Homog (initSystem _ _ e s))) with (config _ _ (set_space _ _ Homog s)). rewrite C. unfold want_mass in W. rewrite W. reflexivity.
Qed.
Lemma setter_stat : forall (e : env) o s s', step _ _ e o s = Done s' ->
  match o with SetOptions _ | OptionsSet _ | SetGeometry _ | SetBasis _ | SetSpaceBasis _ | UpdateBCs _ | SetPointLoads _ | SetPressure _ | SetFoundation _ | HomogenizeDirichlet | Construct => True | _ => False end ->
  stat _ _ s' = stat _ _ s.
Proof.
  intros e o s s' E H. destruct o; try contradiction; cbn [step] in E; injection E as E; subst s';
  unfold initialize, init, set_space, dirichlet, get_options, construct; repeat (try destruct (Z.eqb _ _); cbn); reflexivity.
Qed.

(* ------------------------------------------------------------------ invariant *)
Record inv (e : senv) (bc0 : nat) (s : sess) (w : view M V) (g : sghost) : Prop := mkinv {
  i_lev : forall l, agr (s_lev _ _ s l) (v_prob _ _ w l) (sg g l);
  i_mat : forall l a, v_mat _ _ w l = Some a -> s_mat _ _ s l = Some a;
  i_mass : forall l a, v_mass _ _ w l = Some a -> s_mass _ _ s l = Some a;
  i_prim : forall l a, v_prim _ _ w l = Some a -> s_prim _ _ s l = Some a;
  i_dual : forall l a, v_dual _ _ w l = Some a -> s_dual _ _ s l = Some a;
  i_goal : s_goal _ _ s = v_goal _ _ w;
  i_bcs : s_bcs _ _ s = bc0;
  i_geo : forall l, geo _ _ (s_base _ _ s) = p_geo (v_prob _ _ w l);
  i_ok : forall l, sg_ok g l = true -> stat _ _ (s_lev _ _ s l) = Some Success }.

Lemma inv_dofs : forall e bc0 s w g l, inv e bc0 s w g -> numDofs _ _ e l s = dofs_of _ _ (d_env _ _ e) (v_prob _ _ w l).
Proof. intros e bc0 s w g l I. unfold numDofs, dofs_of. rewrite (key_now _ _ _ _ _ Homog (i_lev _ _ _ _ _ I l)). reflexivity. Qed.

(* setters forwarded to both levels *)
Definition setter (o : op) : Prop := match o with SetOptions _ | OptionsSet _ | SetGeometry _ | SetBasis _ | SetSpaceBasis _ | UpdateBCs _ | SetPointLoads _ | SetPressure _ | SetFoundation _ | HomogenizeDirichlet | Construct => True | _ => False end.
Lemma setter_agrees : forall (e : env) o s p g, setter o -> agr s p g -> allowed p g o ->
  exists s', step _ _ e o s = Done s' /\ agr s' (upd p o) (gstep p o g) /\ stat _ _ s' = stat _ _ s.
Proof.
  intros e o s p g So A Al. destruct (step_agrees M V e o s _ g A Al) as (s' & E & A'). exists s'. split; [exact E|]. split.
  - exact (agrees_none _ _ _ _ _ A').
  - apply (setter_stat e o s s' E). exact So.
Qed.
Lemma one_ok : forall e l o s p g, setter o -> agr (s_lev _ _ s l) p g -> allowed p g o ->
  exists a, step _ _ (d_env _ _ e) o (s_lev _ _ s l) = Done a /\ one _ _ e l o s = Ret Success (set_lev _ _ l a s) /\ agr a (upd p o) (gstep p o g) /\ stat _ _ a = stat _ _ (s_lev _ _ s l).
Proof.
  intros e l o s p g So A Al. destruct (setter_agrees (d_env _ _ e) o _ p g So A Al) as (a & E & A' & St). exists a. unfold one. rewrite E. auto.
Qed.
Definition same_but_base (s1 s2 : sess) : Prop := s_lev _ _ s1 = s_lev _ _ s2 /\ s_bcs _ _ s1 = s_bcs _ _ s2 /\ s_mat _ _ s1 = s_mat _ _ s2 /\ s_mass _ _ s1 = s_mass _ _ s2 /\
  s_prim _ _ s1 = s_prim _ _ s2 /\ s_dual _ _ s1 = s_dual _ _ s2 /\ s_goal _ _ s1 = s_goal _ _ s2.

Definition is_setter (o : sop) (r : op) : Prop := match o with DSetOptions c => r = SetOptions c | DPointLoads x => r = SetPointLoads x | DFoundation f => r = SetFoundation f
  | DPressure p => r = SetPressure p | DUpdateBCs b => r = UpdateBCs b | DSetUndeformed x => r = SetGeometry x | DHomogenize => r = HomogenizeDirichlet | _ => False end.
Lemma both_inv : forall e bc0 s w g o r s0, inv e bc0 s w g -> sallowed M V bc0 w g o -> is_setter o r -> same_but_base s s0 ->
  (forall l, geo _ _ (s_base _ _ s0) = p_geo (upd (v_prob _ _ w l) r)) ->
  exists s', both _ _ e r s0 = Ret Success s' /\ inv e bc0 s' (views _ _ e o w) (sgstep M V e w o g).
Proof.
  intros e bc0 s w g o r s0 I [Al _] Is (B1 & B2 & B3 & B4 & B5 & B6 & B7) Hg.
  assert (Rq : forall k, request k o = Some r) by (intro k; destruct o; cbn in Is; try contradiction; subst r; reflexivity).
  assert (So : setter r) by (destruct o; cbn in Is; try contradiction; subst r; exact Logic.I).
  destruct (setter_agrees (d_env _ _ e) r _ _ _ So (i_lev _ _ _ _ _ I Lo) (Al Lo r (Rq Lo))) as (a & Ea & Aa & Sa).
  destruct (setter_agrees (d_env _ _ e) r _ _ _ So (i_lev _ _ _ _ _ I Hi) (Al Hi r (Rq Hi))) as (b & Eb & Ab & Sb).
  eexists. split; [unfold both; rewrite <- B1, Ea, Eb; reflexivity|].
  assert (Vm : v_mat _ _ (views _ _ e o w) = v_mat _ _ w /\ v_mass _ _ (views _ _ e o w) = v_mass _ _ w /\ v_prim _ _ (views _ _ e o w) = v_prim _ _ w /\ v_dual _ _ (views _ _ e o w) = v_dual _ _ w /\ v_goal _ _ (views _ _ e o w) = v_goal _ _ w).
  { destruct o; cbn in Is; try contradiction; repeat split. }
  destruct Vm as (V1 & V2 & V3 & V4 & V5).
  assert (Vp : forall l, v_prob _ _ (views _ _ e o w) l = upd (v_prob _ _ w l) r) by (intro l; cbn; rewrite Rq; reflexivity).
  assert (Vk : forall l, sg_ok (sgstep M V e w o g) l = sg_ok g l) by (intro l; destruct o; cbn in Is; try contradiction; reflexivity).
  assert (Vg : forall l, sg (sgstep M V e w o g) l = gstep (v_prob _ _ w l) r (sg g l)) by (intro l; cbn; rewrite Rq; reflexivity).
  constructor; cbn [s_lev s_mat s_mass s_prim s_dual s_goal s_bcs s_base set_lev]; rewrite ?V1, ?V2, ?V3, ?V4, ?V5, <- ?B2, <- ?B3, <- ?B4, <- ?B5, <- ?B6, <- ?B7.
  - intro l. rewrite Vp, Vg. destruct l; cbn [put lev_eqb]; [exact Aa|exact Ab].
  - apply (i_mat _ _ _ _ _ I). - apply (i_mass _ _ _ _ _ I). - apply (i_prim _ _ _ _ _ I). - apply (i_dual _ _ _ _ _ I). - apply (i_goal _ _ _ _ _ I). - apply (i_bcs _ _ _ _ _ I).
  - intro l. rewrite Vp. apply Hg.
  - intros l. rewrite Vk. intro Q. destruct l; cbn; rewrite ?Sa, ?Sb; apply (i_ok _ _ _ _ _ I); exact Q.
Qed.
Lemma sbb_refl : forall s : sess, same_but_base s s. Proof. intro. repeat split. Qed.

(* requests on one level *)
Lemma level_inv : forall e bc0 s w g o l r a (s' : sess), inv e bc0 s w g ->
  (forall k, request k o = if lev_eqb l k then Some r else None) -> p_geo (upd (v_prob _ _ w l) r) = p_geo (v_prob _ _ w l) ->
  agr a (upd (v_prob _ _ w l) r) (gstep (v_prob _ _ w l) r (sg g l)) ->
  s_lev _ _ s' = put l a (s_lev _ _ s) -> s_base _ _ s' = s_base _ _ s -> s_bcs _ _ s' = s_bcs _ _ s -> s_goal _ _ s' = v_goal _ _ (views _ _ e o w) ->
  (succeeds _ _ e l o w (sg_ok g l) = true -> stat _ _ a = Some Success) -> (forall k, lev_eqb l k = false -> succeeds _ _ e k o w (sg_ok g k) = sg_ok g k) ->
  (forall k x, v_mat _ _ (views _ _ e o w) k = Some x -> s_mat _ _ s' k = Some x) -> (forall k x, v_mass _ _ (views _ _ e o w) k = Some x -> s_mass _ _ s' k = Some x) ->
  (forall k x, v_prim _ _ (views _ _ e o w) k = Some x -> s_prim _ _ s' k = Some x) -> (forall k x, v_dual _ _ (views _ _ e o w) k = Some x -> s_dual _ _ s' k = Some x) ->
  inv e bc0 s' (views _ _ e o w) (sgstep M V e w o g).
Proof.
  intros e bc0 s w g o l r a s' I Rq Hg A Hl Hb Hc Hgo St1 St2 S1 S2 S3 S4.
  constructor; auto.
  - intro k. rewrite Hl. cbn [views v_prob sgstep sg]. rewrite Rq. destruct (lev_eqb l k) eqn:E.
    + apply lev_true in E. subst k. rewrite put_eq. exact A.
    + rewrite put_ne by exact E. apply (i_lev _ _ _ _ _ I).
  - rewrite Hc. apply (i_bcs _ _ _ _ _ I).
  - intro k. rewrite Hb. cbn [views v_prob]. rewrite Rq. destruct (lev_eqb l k) eqn:E.
    + apply lev_true in E. subst k. rewrite Hg. apply (i_geo _ _ _ _ _ I).
    + apply (i_geo _ _ _ _ _ I).
  - intros k. cbn [sgstep sg_ok]. rewrite Hl. destruct (lev_eqb l k) eqn:E.
    + apply lev_true in E. subst k. rewrite put_eq. exact St1.
    + rewrite put_ne by exact E. rewrite St2 by exact E. apply (i_ok _ _ _ _ _ I).
Qed.
Lemma put_some : forall A l k (x : A) f h y, put l (Some x) f k = Some y -> (forall k y, f k = Some y -> h k = Some y) -> put l (Some x) h k = Some y.
Proof. intros A l k x f h y H Q. unfold put in *. destruct (lev_eqb l k); [exact H|apply Q; exact H]. Qed.
(* storing z where want is expected: fine if want agrees with z when it is defined *)
Lemma put_want : forall A l (want z : option A) f h, (forall k y, f k = Some y -> h k = Some y) -> (forall y, want = Some y -> z = Some y) ->
  forall k y, put l want f k = Some y -> put l z h k = Some y.
Proof. intros A l want z f h Q W k y H. unfold put in *. destruct (lev_eqb l k); [apply W; exact H|apply Q; exact H]. Qed.
Lemma put_skip : forall A l (want : option A) f h, (forall k y, f k = Some y -> h k = Some y) -> want = None -> forall k y, put l want f k = Some y -> h k = Some y.
Proof. intros A l want f h Q W k y H. unfold put in *. destruct (lev_eqb l k); [congruence|apply Q; exact H]. Qed.

Lemma one_inv : forall e bc0 s w g o l r, inv e bc0 s w g -> sallowed M V bc0 w g o ->
  match o with DOptions m c => m = l /\ r = OptionsSet c | DSetBasis m b => m = l /\ r = SetBasis b | DSetSpaceBasis m b => m = l /\ r = SetSpaceBasis b | DConstruct m => m = l /\ r = Construct | _ => False end ->
  exists s', one _ _ e l r s = Ret Success s' /\ inv e bc0 s' (views _ _ e o w) (sgstep M V e w o g).
Proof.
  intros e bc0 s w g o l r I [Al _] Is.
  assert (Rq : forall k, request k o = if lev_eqb l k then Some r else None) by (intro k; destruct o; try contradiction; destruct Is as [-> ->]; reflexivity).
  assert (So : setter r) by (destruct o; try contradiction; destruct Is as [_ ->]; exact Logic.I).
  assert (Hal := Al l r ltac:(rewrite Rq, lev_refl; reflexivity)).
  destruct (one_ok e l r s _ _ So (i_lev _ _ _ _ _ I l) Hal) as (a & _ & E & A & St).
  exists (set_lev _ _ l a s). split; [exact E|].
  apply (level_inv e bc0 s w g o l r a); auto; try (destruct o; try contradiction; destruct Is as [-> ->]; reflexivity);
  try (destruct o; try contradiction; destruct Is as [-> ->]; cbn [views v_mat v_mass v_prim v_dual v_goal]; first [apply (i_mat _ _ _ _ _ I)|apply (i_mass _ _ _ _ _ I)|apply (i_prim _ _ _ _ _ I)|apply (i_dual _ _ _ _ _ I)|apply (i_goal _ _ _ _ _ I)]).
  intro Q. rewrite St. apply (i_ok _ _ _ _ _ I). destruct o; try contradiction; exact Q.
Qed.

Lemma upd_assembly : forall p r, match r with Assemble | AssembleMass _ | AssembleMatrix _ | AssembleVector _ _ | HomogenizeDirichlet => True | _ => False end -> upd p r = p.
Proof. intros p [] H; try contradiction; reflexivity. Qed.

(* result of a request whose store differs from the expectation only where the expectation is open *)
Definition returns (x : sres M V) (ok : bool) (s' : sess) : Prop := match x with Ret r s1 => s1 = s' /\ ok = true /\ r = Success | Thrown s1 => s1 = s' /\ ok = false | Undef => False end.
Lemma ensure_some : forall (b : bool) (s : sess), ensure _ _ (Some (if b then Success else AssemblyError)) s = if b then Ret Success s else Thrown s.
Proof. intros [] s; reflexivity. Qed.

Lemma assembly_inv : forall e bc0 s w g o, inv e bc0 s w g -> sallowed M V bc0 w g o ->
  match o with DAssemble _ | DMass _ _ | DMatrixLin _ | DMatrix _ _ | DPrimalLin _ | DPrimal _ _ => True | _ => False end ->
  exists s', (sstep _ _ e o s = Ret Success s' \/ sstep _ _ e o s = Thrown s') /\ inv e bc0 s' (views _ _ e o w) (sgstep M V e w o g).
Proof.
  intros e bc0 s w g o I [Al Ex] Is. set (E := d_env _ _ e).
  destruct o as [| | | | | | | | | | | |l|l b|l|l d|l|l d| | |]; try contradiction; cbn [sstep].
  - (* DAssemble *) unfold assembleS.
    assert (Hp : g_proj (sg g l) = true) by (apply (Al l Assemble); cbn; rewrite lev_refl; reflexivity).
    destruct (lin_more E _ _ _ (i_lev _ _ _ _ _ I l) Hp) as (a & Ea & Aa & St & Rh & Ma). fold E. rewrite Ea, St.
    assert (Lm : want_lin _ _ E (v_prob _ _ w l) = None -> want_linmat _ _ E (v_prob _ _ w l) = None) by (unfold want_linmat; intros ->; reflexivity).
    destruct (want_lin _ _ E (v_prob _ _ w l)) eqn:W; cbn [ensure].
    + eexists. split; [left; reflexivity|]. apply (level_inv e bc0 s w g (DAssemble l) l Assemble a); auto; try reflexivity; try exact (agrees_none _ _ _ _ _ Aa); try exact (i_goal _ _ _ _ _ I).
      * intros k Hk. cbn. rewrite Hk. reflexivity.
      * cbn [views v_mat request]. rewrite lev_refl. cbn. fold E. apply put_want; [apply (i_mat _ _ _ _ _ I)|exact Ma].
      * exact (i_mass _ _ _ _ _ I).
      * cbn [views v_prim request]. rewrite lev_refl. cbn. fold E. rewrite W. apply put_want; [apply (i_prim _ _ _ _ _ I)|exact Rh].
      * exact (i_dual _ _ _ _ _ I).
    + eexists. split; [right; reflexivity|]. apply (level_inv e bc0 s w g (DAssemble l) l Assemble a); auto; try reflexivity; try exact (agrees_none _ _ _ _ _ Aa); try exact (i_goal _ _ _ _ _ I).
      * cbn. rewrite lev_refl. cbn. fold E. rewrite W. discriminate.
      * intros k Hk. cbn. rewrite Hk. reflexivity.
      * cbn [views v_mat request]. rewrite lev_refl. cbn. fold E. apply put_skip; [apply (i_mat _ _ _ _ _ I)|apply Lm; reflexivity].
      * exact (i_mass _ _ _ _ _ I).
      * cbn [views v_prim request]. rewrite lev_refl. cbn. fold E. rewrite W. apply put_skip; [apply (i_prim _ _ _ _ _ I)|reflexivity].
      * exact (i_dual _ _ _ _ _ I).
  - (* DMass *) unfold massS. destruct (mass_more E _ _ _ b (i_lev _ _ _ _ _ I l)) as (a & Ea & Aa & St & Ma). fold E. rewrite Ea.
    rewrite (i_ok _ _ _ _ _ I l Ex) in St. 
    exists (set_massm _ _ l (matrix _ _ a) (set_lev _ _ l a s)). split; [rewrite St; destruct (want_mass _ _ E (v_prob _ _ w l) b); cbn; auto|].
    apply (level_inv e bc0 s w g (DMass l b) l (AssembleMass b) a); auto; try reflexivity; try exact (agrees_none _ _ _ _ _ Aa); try exact (i_goal _ _ _ _ _ I).
      * cbn. rewrite lev_refl. cbn. fold E. rewrite Ex, St. destruct (want_mass _ _ E _ b); [reflexivity|discriminate].
      * intros k Hk. cbn. rewrite Hk. reflexivity.
      * exact (i_mat _ _ _ _ _ I).
      * cbn [views v_mass request]. rewrite lev_refl. cbn. fold E. apply put_want; [apply (i_mass _ _ _ _ _ I)|exact Ma].
      * exact (i_prim _ _ _ _ _ I).
      * exact (i_dual _ _ _ _ _ I).
  - (* DMatrixLin *) unfold matrixLinS.
    assert (Hp : g_proj (sg g l) = true) by (apply (Al l Assemble); cbn; rewrite lev_refl; reflexivity).
    destruct (lin_more E _ _ _ (i_lev _ _ _ _ _ I l) Hp) as (a & Ea & Aa & St & Rh & Ma). fold E. rewrite Ea.
    exists (set_mat _ _ l (matrix _ _ a) (set_lev _ _ l a s)). split; [rewrite St; destruct (want_lin _ _ E (v_prob _ _ w l)); cbn; auto|].
    apply (level_inv e bc0 s w g (DMatrixLin l) l Assemble a); auto; try reflexivity; try exact (agrees_none _ _ _ _ _ Aa); try exact (i_goal _ _ _ _ _ I).
      * cbn. rewrite lev_refl. cbn. fold E. rewrite St. destruct (want_lin _ _ E _); [reflexivity|discriminate].
      * intros k Hk. cbn. rewrite Hk. reflexivity.
      * cbn [views v_mat request]. rewrite lev_refl. cbn. fold E. apply put_want; [apply (i_mat _ _ _ _ _ I)|exact Ma].
      * exact (i_mass _ _ _ _ _ I). * exact (i_prim _ _ _ _ _ I). * exact (i_dual _ _ _ _ _ I).
  - (* DMatrix *) unfold matrixS.
    destruct (mat_step M V E _ _ _ d (i_lev _ _ _ _ _ I l)) as (a & Ea & Aa & St & Ma). cbn [x_prob] in *. fold E. rewrite Ea.
    exists (set_mat _ _ l (matrix _ _ a) (set_lev _ _ l a s)). split; [rewrite St; destruct (want_mat _ _ E (v_prob _ _ w l) d); cbn; auto|].
    apply (level_inv e bc0 s w g (DMatrix l d) l (AssembleMatrix d) a); auto; try reflexivity; try exact (agrees_none _ _ _ _ _ Aa); try exact (i_goal _ _ _ _ _ I).
      * cbn. rewrite lev_refl. cbn. fold E. rewrite St. destruct (want_mat _ _ E _ d); [reflexivity|discriminate].
      * intros k Hk. cbn. rewrite Hk. reflexivity.
      * cbn [views v_mat request]. rewrite lev_refl. cbn. fold E. apply put_want; [apply (i_mat _ _ _ _ _ I)|exact Ma].
      * exact (i_mass _ _ _ _ _ I). * exact (i_prim _ _ _ _ _ I). * exact (i_dual _ _ _ _ _ I).
  - (* DPrimalLin *) unfold primalLinS.
    assert (Hp : g_proj (sg g l) = true) by (apply (Al l Assemble); cbn; rewrite lev_refl; reflexivity).
    destruct (lin_more E _ _ _ (i_lev _ _ _ _ _ I l) Hp) as (a & Ea & Aa & St & Rh & Ma). fold E. rewrite Ea, St.
    destruct (want_lin _ _ E (v_prob _ _ w l)) eqn:W; cbn [ensure].
    + eexists. split; [left; reflexivity|]. apply (level_inv e bc0 s w g (DPrimalLin l) l Assemble a); auto; try reflexivity; try exact (agrees_none _ _ _ _ _ Aa); try exact (i_goal _ _ _ _ _ I).
      * intros k Hk. cbn. rewrite Hk. reflexivity.
      * exact (i_mat _ _ _ _ _ I). * exact (i_mass _ _ _ _ _ I).
      * cbn [views v_prim request]. rewrite lev_refl. cbn. fold E. rewrite W. apply put_want; [apply (i_prim _ _ _ _ _ I)|exact Rh].
      * exact (i_dual _ _ _ _ _ I).
    + eexists. split; [right; reflexivity|]. apply (level_inv e bc0 s w g (DPrimalLin l) l Assemble a); auto; try reflexivity; try exact (agrees_none _ _ _ _ _ Aa); try exact (i_goal _ _ _ _ _ I).
      * cbn. rewrite lev_refl. cbn. fold E. rewrite W. discriminate.
      * intros k Hk. cbn. rewrite Hk. reflexivity.
      * exact (i_mat _ _ _ _ _ I). * exact (i_mass _ _ _ _ _ I).
      * cbn [views v_prim request]. rewrite lev_refl. cbn. fold E. rewrite W. apply put_skip; [apply (i_prim _ _ _ _ _ I)|reflexivity].
      * exact (i_dual _ _ _ _ _ I).
  - (* DPrimal *) unfold primalS.
    destruct (vec_more E _ _ _ d (i_lev _ _ _ _ _ I l)) as (a & Ea & Aa & St & Rh). fold E. rewrite Ea.
    exists (set_prim _ _ l (rhs _ _ a) (set_lev _ _ l a s)). split; [rewrite St; destruct (want_vec _ _ E (v_prob _ _ w l) d true); cbn; auto|].
    apply (level_inv e bc0 s w g (DPrimal l d) l (AssembleVector d true) a); auto; try reflexivity; try exact (agrees_none _ _ _ _ _ Aa); try exact (i_goal _ _ _ _ _ I).
      * cbn. rewrite lev_refl. cbn. fold E. rewrite St. destruct (want_vec _ _ E _ d true); [reflexivity|discriminate].
      * intros k Hk. cbn. rewrite Hk. reflexivity.
      * exact (i_mat _ _ _ _ _ I). * exact (i_mass _ _ _ _ _ I).
      * cbn [views v_prim request]. rewrite lev_refl. cbn. fold E. apply put_want; [apply (i_prim _ _ _ _ _ I)|exact Rh].
      * exact (i_dual _ _ _ _ _ I).
Qed.

(* dual requests *)
Lemma agr_homog : forall s p g, agr s p g -> agr s p (mkghost (g_used g) false (g_sys g)).
Proof. intros s p g []. constructor; cbn in *; auto. destruct a_space as (m & Q & _). exists m. split; [exact Q|discriminate]. Qed.
Lemma agr_setspc : forall s p g, agr s p g -> agr (set_spc _ _ (space_of p Homog) s) p (mkghost (g_used g) false (g_sys g)).
Proof. intros s p g []. constructor; cbn in *; auto. exists Homog. split; [reflexivity|discriminate]. Qed.
Lemma dual_inv : forall e bc0 s w g o l x pr df, inv e bc0 s w g -> sallowed M V bc0 w g o ->
  (o = DDual l x pr df \/ (o = DDualFrom l x pr /\ df = d_move _ _ e (geo _ _ (s_base _ _ s)) pr)) ->
  exists s', ((exists r, dualS _ _ e l x pr df s = Ret r s') \/ (dualS _ _ e l x pr df s = Thrown s' /\ want_dual _ _ e (v_prob _ _ w l) x (v_goal _ _ w) pr df = None)) /\ inv e bc0 s' (views _ _ e o w) (sgstep M V e w o g).
Proof.
  intros e bc0 s w g o l x pr df I [_ Ex] Ho. set (E := d_env _ _ e). set (p := v_prob _ _ w l).
  assert (Rq : forall k, request k o = if lev_eqb l k then Some HomogenizeDirichlet else None) by (intro k; destruct Ho as [->|[-> _]]; reflexivity).
  assert (Sg : forall k b, succeeds _ _ e k o w b = b) by (intros; destruct Ho as [->|[-> _]]; reflexivity).
  assert (Vs : v_mat _ _ (views _ _ e o w) = v_mat _ _ w /\ v_mass _ _ (views _ _ e o w) = v_mass _ _ w /\ v_prim _ _ (views _ _ e o w) = v_prim _ _ w /\ v_goal _ _ (views _ _ e o w) = v_goal _ _ w /\
    v_dual _ _ (views _ _ e o w) = put l (want_dual _ _ e p x (v_goal _ _ w) pr df) (v_dual _ _ w)).
  { destruct Ho as [->|[-> Hd]]; cbn [views v_mat v_mass v_prim v_goal v_dual request]; rewrite lev_refl; cbn [upd]; repeat split. fold p. subst df. rewrite (i_geo _ _ _ _ _ I l). reflexivity. }
  destruct Vs as (V1 & V2 & V3 & V4 & V5).
  assert (Ex' : no_sites x = true \/ (p_bcs p = bc0 /\ p_cont p = 0%Z /\ v_goal _ _ w <> None)) by (destruct Ho as [->|[-> _]]; exact Ex). clear Ex.
  (* generic conclusion *)
  assert (Fin : forall a s', agr a p (mkghost (g_used (sg g l)) false (g_sys (sg g l))) -> stat _ _ a = stat _ _ (s_lev _ _ s l) -> s_lev _ _ s' = put l a (s_lev _ _ s) ->
     s_base _ _ s' = s_base _ _ s -> s_bcs _ _ s' = s_bcs _ _ s -> s_goal _ _ s' = s_goal _ _ s -> s_mat _ _ s' = s_mat _ _ s -> s_mass _ _ s' = s_mass _ _ s -> s_prim _ _ s' = s_prim _ _ s ->
     (forall k y, put l (want_dual _ _ e p x (v_goal _ _ w) pr df) (v_dual _ _ w) k = Some y -> s_dual _ _ s' k = Some y) -> inv e bc0 s' (views _ _ e o w) (sgstep M V e w o g)).
  { intros a s' A St Hl Hb Hc Hg H1 H2 H3 H4. apply (level_inv e bc0 s w g o l HomogenizeDirichlet a); auto.
    - rewrite V4, Hg. apply (i_goal _ _ _ _ _ I).
    - rewrite Sg. intro Q. rewrite St. apply (i_ok _ _ _ _ _ I l Q).
    - rewrite V1, H1. apply (i_mat _ _ _ _ _ I). - rewrite V2, H2. apply (i_mass _ _ _ _ _ I). - rewrite V3, H3. apply (i_prim _ _ _ _ _ I). - rewrite V5. exact H4. }
  assert (Pid : put l (s_lev _ _ s l) (s_lev _ _ s) = s_lev _ _ s -> True) by auto. clear Pid.
  assert (Nd := inv_dofs e bc0 s w g l I). fold E p in Nd.
  unfold dualS. rewrite Nd. destruct (no_sites x) eqn:Ns.
  - eexists. split; [left; eexists; reflexivity|].
    assert (Inv' : forall k y, put l (want_dual _ _ e p x (v_goal _ _ w) pr df) (v_dual _ _ w) k = Some y -> put l (Some (e_zeroV _ _ E (dofs_of _ _ E p))) (s_dual _ _ s) k = Some y).
    { apply put_want; [apply (i_dual _ _ _ _ _ I)|]. unfold want_dual. rewrite Ns. auto. }
    constructor; cbn [set_dual s_lev s_mat s_mass s_prim s_dual s_goal s_bcs s_base]; rewrite ?V1, ?V2, ?V3, ?V4, ?V5;
    try first [apply (i_mat _ _ _ _ _ I)|apply (i_mass _ _ _ _ _ I)|apply (i_prim _ _ _ _ _ I)|apply (i_goal _ _ _ _ _ I)|apply (i_bcs _ _ _ _ _ I)|exact Inv'].
    + intro k. cbn [views v_prob sgstep sg]. rewrite Rq. destruct (lev_eqb l k) eqn:Q; [|apply (i_lev _ _ _ _ _ I)]. apply lev_true in Q. subst k. apply (agr_homog _ _ _ (i_lev _ _ _ _ _ I l)).
    + intro k. cbn [views v_prob]. rewrite Rq. destruct (lev_eqb l k); apply (i_geo _ _ _ _ _ I).
    + intro k. cbn [sgstep sg_ok]. rewrite Sg. apply (i_ok _ _ _ _ _ I).
  - destruct Ex' as [Ex|(Eb & Ec & Eg)]; [discriminate|].
    assert (A := i_lev _ _ _ _ _ I l). fold p in A.
    assert (Sp : dual_space _ _ l s = space_of p Homog).
    { unfold dual_space, space_of. rewrite (spb _ _ _ _ _ A), (i_bcs _ _ _ _ _ I), Ec, Eb. reflexivity. }
    assert (Cf : dual_cfg _ _ l s = cfg_of p Homog).
    { unfold dual_cfg, cfg_of. rewrite Sp, (a_basis _ _ _ _ _ A), (i_geo _ _ _ _ _ I l). reflexivity. }
    rewrite Sp, Cf. fold E. change (e_dofs _ _ E (key (space_of p Homog))) with (dofs_of _ _ E p).
    set (s1 := if d_shared _ _ e then set_lev _ _ l (set_spc _ _ (space_of p Homog) (s_lev _ _ s l)) s else s).
    assert (K : exists a, agr a p (mkghost (g_used (sg g l)) false (g_sys (sg g l))) /\ stat _ _ a = stat _ _ (s_lev _ _ s l) /\ (forall k, s_lev _ _ s1 k = put l a (s_lev _ _ s) k) /\
      s_base _ _ s1 = s_base _ _ s /\ s_bcs _ _ s1 = s_bcs _ _ s /\ s_goal _ _ s1 = s_goal _ _ s /\ s_mat _ _ s1 = s_mat _ _ s /\ s_mass _ _ s1 = s_mass _ _ s /\ s_prim _ _ s1 = s_prim _ _ s /\ s_dual _ _ s1 = s_dual _ _ s).
    { unfold s1. destruct (d_shared _ _ e).
      - exists (set_spc _ _ (space_of p Homog) (s_lev _ _ s l)). split; [exact (agr_setspc _ _ _ A)|]. repeat split.
      - exists (s_lev _ _ s l). split; [exact (agr_homog _ _ _ A)|]. repeat split. intro k. unfold put. destruct (lev_eqb l k) eqn:Q; [|reflexivity]. apply lev_true in Q. subst k. reflexivity. }
    clearbody s1. destruct K as (a & Aa & Sa & La & Ba & Ca & Ga & Ma & Mb & Mc & Md).
    assert (Fin2 : forall s', s_lev _ _ s' = s_lev _ _ s1 -> s_base _ _ s' = s_base _ _ s1 -> s_bcs _ _ s' = s_bcs _ _ s1 -> s_goal _ _ s' = s_goal _ _ s1 -> s_mat _ _ s' = s_mat _ _ s1 -> s_mass _ _ s' = s_mass _ _ s1 -> s_prim _ _ s' = s_prim _ _ s1 ->
       (forall k y, put l (want_dual _ _ e p x (v_goal _ _ w) pr df) (v_dual _ _ w) k = Some y -> s_dual _ _ s' k = Some y) -> inv e bc0 s' (views _ _ e o w) (sgstep M V e w o g)).
    { intros s' Q1 Q2 Q3 Q4 Q5 Q6 Q7 Q8.
      assert (I2 : inv e bc0 (set_dual _ _ l (s_dual _ _ s' l) (mks _ _ (s_base _ _ s) (put l a (s_lev _ _ s)) (s_bcs _ _ s) (s_loads _ _ s') (s_mat _ _ s) (s_mass _ _ s) (s_prim _ _ s) (s_dual _ _ s') (s_goal _ _ s))) (views _ _ e o w) (sgstep M V e w o g)).
      { apply (Fin a); try assumption; try reflexivity. intros k y H. specialize (Q8 k y H). cbn. unfold put. destruct (lev_eqb l k) eqn:Z; [|exact Q8]. apply lev_true in Z. subst k. exact Q8. }
      destruct I2. constructor; cbn [set_dual s_lev s_mat s_mass s_prim s_dual s_goal s_bcs s_base] in *; rewrite ?Q1, ?Q2, ?Q3, ?Q4, ?Q5, ?Q6, ?Q7, ?Ba, ?Ca, ?Ga, ?Ma, ?Mb, ?Mc; auto.
      - intro k. rewrite La. apply i_lev0.
      - rewrite V5. exact Q8.
      - intros k. rewrite La. apply i_ok0. }
    rewrite (i_goal _ _ _ _ _ I). destruct (v_goal _ _ w) as [[[f| |] c]|] eqn:G; [| | |congruence].
    + destruct x as [|[|b0 bnds]|[|p0 pts]]; cbn in Ns; try discriminate.
      * rewrite Nat.ltb_irrefl. destruct (d_dual _ _ e SInterior f c (cfg_of p Homog) (dofs_of _ _ E p) pr df) as [v|] eqn:D.
        -- eexists. split; [left; eexists; reflexivity|]. apply Fin2; try reflexivity. cbn. rewrite Md. fold E. rewrite D. apply put_want; [apply (i_dual _ _ _ _ _ I)|auto].
        -- eexists. split; [left; eexists; reflexivity|]. apply Fin2; try reflexivity. cbn. rewrite Md. fold E. rewrite D. apply put_skip; [apply (i_dual _ _ _ _ _ I)|reflexivity].
      * rewrite Nat.ltb_irrefl. destruct (d_dual _ _ e (SBoundary (b0 :: bnds)) f c (cfg_of p Homog) (dofs_of _ _ E p) pr df) as [v|] eqn:D.
        -- eexists. split; [left; eexists; reflexivity|]. apply Fin2; try reflexivity. cbn. rewrite Md. fold E. rewrite D. apply put_want; [apply (i_dual _ _ _ _ _ I)|auto].
        -- eexists. split; [left; eexists; reflexivity|]. apply Fin2; try reflexivity. cbn. rewrite Md. fold E. rewrite D. apply put_skip; [apply (i_dual _ _ _ _ _ I)|reflexivity].
      * destruct (d_dual _ _ e (SPoints (p0 :: pts)) f c (cfg_of p Homog) (dofs_of _ _ E p) pr df) as [v|] eqn:D.
        -- eexists. split; [left; eexists; reflexivity|]. apply Fin2; try reflexivity. cbn. rewrite Md. fold E. rewrite D. apply put_want; [apply (i_dual _ _ _ _ _ I)|auto].
        -- eexists. split; [right; split; [reflexivity|exact D]|]. apply Fin2; try reflexivity. cbn. rewrite Md. fold E. rewrite D. apply put_want; [apply (i_dual _ _ _ _ _ I)|discriminate].
    + assert (W : want_dual _ _ e p x (Some (Modal, c)) pr df = None) by (unfold want_dual; rewrite Ns; reflexivity).
      destruct x; eexists; (split; [right; split; [reflexivity|exact W]|]); apply Fin2; try reflexivity; cbn [set_dual s_dual]; rewrite Md, W; first [apply put_skip; [apply (i_dual _ _ _ _ _ I)|reflexivity]|apply put_want; [apply (i_dual _ _ _ _ _ I)|discriminate]].
    + assert (W : want_dual _ _ e p x (Some (Buckling, c)) pr df = None) by (unfold want_dual; rewrite Ns; reflexivity).
      destruct x; eexists; (split; [right; split; [reflexivity|exact W]|]); apply Fin2; try reflexivity; cbn [set_dual s_dual]; rewrite Md, W; first [apply put_skip; [apply (i_dual _ _ _ _ _ I)|reflexivity]|apply put_want; [apply (i_dual _ _ _ _ _ I)|discriminate]].
Qed.

Lemma sstep_inv : forall e bc0 s w g o, inv e bc0 s w g -> sallowed M V bc0 w g o ->
  exists s', ((exists r, sstep _ _ e o s = Ret r s') \/ sstep _ _ e o s = Thrown s') /\ inv e bc0 s' (views _ _ e o w) (sgstep M V e w o g).
Proof.
  intros e bc0 s w g o I Al.
  destruct o as [c|l c|x|f|p|bc|l b|l b|x| |gf c|l|l|l b|l|l d|l|l d|l x pr df|l x pr|o].
  - destruct (both_inv e bc0 s w g (DSetOptions c) _ s I Al eq_refl (sbb_refl s) (i_geo _ _ _ _ _ I)) as (s' & E & I'). exists s'. eauto.
  - destruct (one_inv e bc0 s w g (DOptions l c) l _ I Al (conj eq_refl eq_refl)) as (s' & E & I'). exists s'. eauto.
  - destruct (both_inv e bc0 s w g (DPointLoads x) _ (set_own_loads _ _ x s) I Al eq_refl ltac:(repeat split) (i_geo _ _ _ _ _ I)) as (s' & E & I'). exists s'. eauto.
  - destruct (both_inv e bc0 s w g (DFoundation f) _ s I Al eq_refl (sbb_refl s) (i_geo _ _ _ _ _ I)) as (s' & E & I'). exists s'. eauto.
  - destruct (both_inv e bc0 s w g (DPressure p) _ s I Al eq_refl (sbb_refl s) (i_geo _ _ _ _ _ I)) as (s' & E & I'). exists s'. eauto.
  - destruct (both_inv e bc0 s w g (DUpdateBCs bc) _ s I Al eq_refl (sbb_refl s) (i_geo _ _ _ _ _ I)) as (s' & E & I'). exists s'. eauto.
  - destruct (one_inv e bc0 s w g (DSetBasis l b) l _ I Al (conj eq_refl eq_refl)) as (s' & E & I'). exists s'. eauto.
  - destruct (one_inv e bc0 s w g (DSetSpaceBasis l b) l _ I Al (conj eq_refl eq_refl)) as (s' & E & I'). exists s'. eauto.
  - destruct (both_inv e bc0 s w g (DSetUndeformed x) _ (set_base _ _ (set_geo _ _ x (s_base _ _ s)) s) I Al eq_refl ltac:(repeat split) ltac:(reflexivity)) as (s' & E & I'). exists s'. eauto.
  - destruct (both_inv e bc0 s w g DHomogenize _ s I Al eq_refl (sbb_refl s) (i_geo _ _ _ _ _ I)) as (s' & E & I'). exists s'. eauto.
  - eexists. split; [left; eexists; reflexivity|]. destruct I. constructor; auto.
  - destruct (one_inv e bc0 s w g (DConstruct l) l _ I Al (conj eq_refl eq_refl)) as (s' & E & I'). exists s'. eauto.
  - destruct (assembly_inv e bc0 s w g (DAssemble l) I Al Logic.I) as (s' & [E|E] & I'); exists s'; eauto.
  - destruct (assembly_inv e bc0 s w g (DMass l b) I Al Logic.I) as (s' & [E|E] & I'); exists s'; eauto.
  - destruct (assembly_inv e bc0 s w g (DMatrixLin l) I Al Logic.I) as (s' & [E|E] & I'); exists s'; eauto.
  - destruct (assembly_inv e bc0 s w g (DMatrix l d) I Al Logic.I) as (s' & [E|E] & I'); exists s'; eauto.
  - destruct (assembly_inv e bc0 s w g (DPrimalLin l) I Al Logic.I) as (s' & [E|E] & I'); exists s'; eauto.
  - destruct (assembly_inv e bc0 s w g (DPrimal l d) I Al Logic.I) as (s' & [E|E] & I'); exists s'; eauto.
  - destruct (dual_inv e bc0 s w g (DDual l x pr df) l x pr df I Al (or_introl eq_refl)) as (s' & [E|[E _]] & I'); exists s'; auto.
  - destruct (dual_inv e bc0 s w g (DDualFrom l x pr) l x pr _ I Al (or_intror (conj eq_refl eq_refl))) as (s' & [E|[E _]] & I'); exists s'; auto.
  - destruct Al as [_ []].
Qed.
Lemma snew_inv : forall e g bL bH bc, inv e bc (snew _ _ e g bL bH bc) (view0 _ _ e g bL bH bc) sghost0.
Proof.
  intros. constructor; cbn; try discriminate; auto.
  - intro l. destruct l; apply (ctor_agrees M V false).
  - intros l v H. rewrite <- H. destruct l; reflexivity.
Qed.
Lemma srun_inv : forall e bc0 h s w g, inv e bc0 s w g -> sadmissible _ _ e bc0 w g h ->
  exists s' g', srun _ _ e h s = Some s' /\ inv e bc0 s' (viewed _ _ e h w) g'.
Proof.
  induction h as [|o r IH]; intros s w g I H; cbn.
  - exists s, g. auto.
  - destruct H as [H1 H2]. destruct (sstep_inv e bc0 s w g o I H1) as (s1 & [(q & E)|E] & I1); rewrite E; apply (IH s1 _ _ I1 H2).
Qed.
Lemma inv_meets : forall e bc0 s w g, inv e bc0 s w g -> meets _ _ e s w.
Proof. intros e bc0 s w g I l. destruct I eqn:Q. repeat split; auto. exact (inv_dofs e bc0 s w g l I). Qed.

(* the helper *)
Lemma accumulate_ok : forall e bc0 s w g l x pr df rhs v r, inv e bc0 s w g ->
  p_bcs (v_prob _ _ w l) = bc0 -> p_cont (v_prob _ _ w l) = 0%Z -> v_goal _ _ w <> None ->
  want_dual _ _ e (v_prob _ _ w l) x (v_goal _ _ w) pr df = Some v -> d_plus _ _ e rhs v = Some r ->
  exists s' g', accumulate _ _ e l x pr df rhs s = HDone r s' /\ inv e bc0 s' (views _ _ e (DDual l x pr df) w) g'.
Proof.
  intros e bc0 s w g l x pr df rhs v r I Hb Hc Hg W P.
  assert (Al : sallowed M V bc0 w g (DDual l x pr df)).
  { split; [|right; auto]. intros k q Q. cbn in Q. destruct (lev_eqb l k); [|discriminate]. injection Q as <-. exact Logic.I. }
  destruct (dual_inv e bc0 s w g (DDual l x pr df) l x pr df I Al (or_introl eq_refl)) as (s' & [(q & E)|[_ E]] & I'); [|congruence].
  exists s'. eexists. split; [|exact I']. unfold accumulate. rewrite E.
  assert (D := i_dual _ _ _ _ _ I' l v). cbn [views v_dual request] in D. rewrite lev_refl, put_eq in D. cbn [upd] in D. rewrite (D W), P. reflexivity.
Qed.
Lemma views_prob_same : forall e o w k, match o with DMatrix _ _ | DDual _ _ _ _ | DConstruct _ => True | _ => False end -> v_prob _ _ (views M V e o w) k = v_prob _ _ w k.
Proof. intros e o w k H. destruct o; try contradiction; cbn; destruct (lev_eqb l k); reflexivity. Qed.
Lemma views_goal_same : forall e o w, match o with DMatrix _ _ | DDual _ _ _ _ | DConstruct _ => True | _ => False end -> v_goal _ _ (views M V e o w) = v_goal _ _ w.
Proof. intros e o w H. destruct o; try contradiction; reflexivity. Qed.
Lemma views_mat_same : forall e l x pr df w, v_mat _ _ (views M V e (DDual l x pr df) w) = v_mat _ _ w.
Proof. reflexivity. Qed.
Lemma matrix_ok : forall e bc0 s w g l d a, inv e bc0 s w g -> want_mat _ _ (d_env _ _ e) (v_prob _ _ w l) d = Some a ->
  exists s' g', matrixS _ _ e l d s = Ret Success s' /\ inv e bc0 s' (views _ _ e (DMatrix l d) w) g'.
Proof.
  intros e bc0 s w g l d a I W.
  assert (Al : sallowed M V bc0 w g (DMatrix l d)).
  { split; [|exact Logic.I]. intros k q Q. cbn in Q. destruct (lev_eqb l k); [|discriminate]. injection Q as <-. exact Logic.I. }
  destruct (assembly_inv e bc0 s w g (DMatrix l d) I Al Logic.I) as (s' & [E|E] & I'); exists s'; eexists; (split; [|exact I']); cbn [sstep] in E; [exact E|].
  exfalso. unfold matrixS in E. destruct (mat_step M V (d_env _ _ e) _ _ _ d (i_lev _ _ _ _ _ I l)) as (b & Eb & _ & St & _). cbn [x_prob] in St. rewrite Eb, St, W in E. discriminate E.
Qed.
Lemma fold_ok : forall e bc0 l pr df, forall xs s w g acc r (rest : list sop), inv e bc0 s w g ->
  p_bcs (v_prob _ _ w l) = bc0 -> p_cont (v_prob _ _ w l) = 0%Z -> v_goal _ _ w <> None ->
  sum_of _ _ e (v_prob _ _ w l) (v_goal _ _ w) pr df acc xs = Some r ->
  exists s' g' w', fold_left (fun z x => match z with HDone a t => accumulate _ _ e l x pr df a t | q => q end) xs (HDone acc s) = HDone r s' /\ inv e bc0 s' w' g' /\
    w' = viewed _ _ e (map (fun x => DDual l x pr df) xs) w /\ (forall k, v_prob _ _ w' k = v_prob _ _ w k) /\ v_goal _ _ w' = v_goal _ _ w /\ v_mat _ _ w' = v_mat _ _ w.
Proof.
  intros e bc0 l pr df xs. induction xs as [|x xs IH]; intros s w g acc r rest I Hb Hc Hg S; cbn in S.
  - injection S as ->. exists s, g, w. split; [reflexivity|]. split; [exact I|]. repeat split.
  - destruct (want_dual _ _ e _ x _ pr df) as [v|] eqn:W; [|discriminate]. destruct (d_plus _ _ e acc v) as [a|] eqn:P; [|discriminate].
    destruct (accumulate_ok e bc0 s w g l x pr df acc v a I Hb Hc Hg W P) as (s1 & g1 & E & I1).
    set (w1 := views _ _ e (DDual l x pr df) w) in *.
    assert (Q : forall k, v_prob _ _ w1 k = v_prob _ _ w k) by (intro k; apply views_prob_same; exact Logic.I).
    assert (QG : v_goal _ _ w1 = v_goal _ _ w) by reflexivity.
    destruct (IH s1 w1 g1 a r rest I1) as (s2 & g2 & w2 & F & I2 & Ew & Q2 & G2 & M2); rewrite ?Q, ?QG; auto.
    exists s2, g2, w2. cbn [fold_left map viewed]. rewrite E. split; [exact F|]. split; [exact I2|]. split; [exact Ew|]. split; [intro k; rewrite Q2; apply Q|]. split; [rewrite G2; exact QG|]. rewrite M2. reflexivity.
Qed.
Lemma stages_fold : forall e l pr df interior bnds pts (z : hres M V V),
  let nonempty (x : list nat) := match x with [] => false | _ => true end in
  optionally _ _ (nonempty pts) (accumulate _ _ e l (SPoints pts) pr df) (optionally _ _ (nonempty bnds) (accumulate _ _ e l (SBoundary bnds) pr df) (optionally _ _ interior (accumulate _ _ e l SInterior pr df) z)) =
  fold_left (fun z x => match z with HDone a t => accumulate _ _ e l x pr df a t | q => q end) (parts interior bnds pts) z.
Proof.
  intros. set (F := fun z x => match z with HDone a t => accumulate _ _ e l x pr df a t | q => q end).
  assert (O : forall b x z, optionally _ _ b (accumulate _ _ e l x pr df) z = fold_left F (if b then [x] else []) z) by (intros [] x []; reflexivity).
  unfold parts. rewrite !fold_left_app, !O. destruct bnds, pts; reflexivity.
Qed.
Lemma viewed_app : forall e a b w, viewed M V e (a ++ b) w = viewed _ _ e b (viewed _ _ e a w).
Proof. intros e a. induction a as [|o a IH]; intros b w; [reflexivity|apply IH]. Qed.
Lemma level_ok : forall e bc0 s w g l rhs0 interior bnds pts pr df a v, inv e bc0 s w g ->
  p_bcs (v_prob _ _ w l) = bc0 -> p_cont (v_prob _ _ w l) = 0%Z -> v_goal _ _ w <> None -> want_mat _ _ (d_env _ _ e) (v_prob _ _ w l) df = Some a ->
  sum_of _ _ e (v_prob _ _ w l) (v_goal _ _ w) pr df rhs0 (parts interior bnds pts) = Some v ->
  exists s' g' w', dual_level _ _ e l rhs0 interior bnds pts pr df s = HDone (d_solve _ _ e a v) s' /\ inv e bc0 s' w' g' /\
    w' = viewed _ _ e (calls l (parts interior bnds pts) pr df) w /\ (forall k, v_prob _ _ w' k = v_prob _ _ w k) /\ v_goal _ _ w' = v_goal _ _ w.
Proof.
  intros e bc0 s w g l rhs0 interior bnds pts pr df a v I Hb Hc Hg W S.
  destruct (matrix_ok e bc0 s w g l df a I W) as (s1 & g1 & E1 & I1).
  set (w1 := views _ _ e (DMatrix l df) w) in *.
  assert (Q : forall k, v_prob _ _ w1 k = v_prob _ _ w k) by (intro k; apply views_prob_same; exact Logic.I).
  assert (QG : v_goal _ _ w1 = v_goal _ _ w) by reflexivity.
  destruct (fold_ok e bc0 l pr df (parts interior bnds pts) s1 w1 g1 rhs0 v [] I1) as (s2 & g2 & w2 & F & I2 & Ew & Q2 & G2 & M2); rewrite ?Q, ?QG; auto.
  assert (Al : sallowed M V bc0 w2 g2 (DConstruct l)).
  { split; [|exact Logic.I]. intros k q Z. cbn in Z. destruct (lev_eqb l k); [|discriminate]. injection Z as <-. exact Logic.I. }
  destruct (one_inv e bc0 s2 w2 g2 (DConstruct l) l Construct I2 Al (conj eq_refl eq_refl)) as (s3 & E3 & I3).
  assert (Hm : s_mat _ _ s2 l = Some a).
  { apply (i_mat _ _ _ _ _ I2). rewrite M2. unfold w1. cbn [views v_mat request]. rewrite lev_refl, put_eq. exact W. }
  exists s3. eexists. exists (views _ _ e (DConstruct l) w2).
  assert (F' := stages_fold e l pr df interior bnds pts (HDone rhs0 s1)). cbv zeta in F'.
  unfold dual_level. rewrite E1. cbv zeta. rewrite F', F, Hm, E3.
  split; [reflexivity|]. split; [exact I3|]. split.
  - unfold calls. cbn [viewed]. rewrite viewed_app. rewrite Ew. reflexivity.
  - split; [intro k; rewrite views_prob_same by exact Logic.I; rewrite Q2; apply Q|]. rewrite views_goal_same by exact Logic.I. rewrite G2. exact QG.
Qed.
Lemma helper_ok : forall e bc0 s w g interior bnds pts pr df aL aH vL vH, inv e bc0 s w g ->
  (forall l, p_bcs (v_prob _ _ w l) = bc0 /\ p_cont (v_prob _ _ w l) = 0%Z) -> v_goal _ _ w <> None ->
  want_mat _ _ (d_env _ _ e) (v_prob _ _ w Lo) df = Some aL -> want_mat _ _ (d_env _ _ e) (v_prob _ _ w Hi) df = Some aH ->
  sum_of _ _ e (v_prob _ _ w Lo) (v_goal _ _ w) pr df (e_zeroV _ _ (d_env _ _ e) (dofs_of _ _ (d_env _ _ e) (v_prob _ _ w Lo))) (parts interior bnds pts) = Some vL ->
  sum_of _ _ e (v_prob _ _ w Hi) (v_goal _ _ w) pr df (e_zeroV _ _ (d_env _ _ e) (dofs_of _ _ (d_env _ _ e) (v_prob _ _ w Hi))) (parts interior bnds pts) = Some vH ->
  exists s' g', helper _ _ e interior bnds pts pr df s = HDone (d_solve _ _ e aL vL, d_solve _ _ e aH vH) s' /\
    inv e bc0 s' (viewed _ _ e (calls Lo (parts interior bnds pts) pr df ++ calls Hi (parts interior bnds pts) pr df) w) g'.
Proof.
  intros e bc0 s w g interior bnds pts pr df aL aH vL vH I Hp Hg WL WH SL SH.
  rewrite <- (inv_dofs e bc0 s w g Lo I) in SL. rewrite <- (inv_dofs e bc0 s w g Hi I) in SH.
  destruct (level_ok e bc0 s w g Lo _ interior bnds pts pr df aL vL I (proj1 (Hp Lo)) (proj2 (Hp Lo)) Hg WL SL) as (s1 & g1 & w1 & E1 & I1 & Ew & Q & QG).
  assert (SH' : sum_of _ _ e (v_prob _ _ w1 Hi) (v_goal _ _ w1) pr df (e_zeroV _ _ (d_env _ _ e) (numDofs _ _ e Hi s)) (parts interior bnds pts) = Some vH) by (rewrite Q, QG; exact SH).
  destruct (level_ok e bc0 s1 w1 g1 Hi (e_zeroV _ _ (d_env _ _ e) (numDofs _ _ e Hi s)) interior bnds pts pr df aH vH I1) as (s2 & g2 & w2 & E2 & I2 & Ew2 & _ & _); rewrite ?Q, ?QG; auto; try apply Hp.
  exists s2, g2. unfold helper. rewrite E1, E2. split; [reflexivity|]. rewrite viewed_app, <- Ew, <- Ew2. exact I2.
Qed.
End P.
