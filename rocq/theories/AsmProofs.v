(* The assembler meets the expectation of AsmSpec on admissible histories. *)
From Coq Require Import List ZArith Lia Bool.
From Verif Require Import AsmModel AsmSpec.
Import ListNotations.

Section P.
Variables M V : Type.
Notation st := (st M V). Notation env := (env M V).

Record agrees (s : st) (x : exp V) (g : ghost) : Prop := mkagrees {
  a_opt : o_cont _ _ s = p_cont (x_prob _ x);
  a_cont : m_cont _ _ s = p_cont (x_prob _ x);
  a_geo : geo _ _ s = p_geo (x_prob _ x);
  a_basis : basis _ _ s = p_basis (x_prob _ x);
  a_sb : sb _ _ s = match p_sp (x_prob _ x) with None => Own | Some b => Ext b end;
  a_bcs : bcs _ _ s = p_bcs (x_prob _ x);
  a_space : exists m, space _ _ s = space_of (x_prob _ x) m /\ (g_proj g = true -> m = Proj);
  a_found : act (foundInd _ _ s) (found _ _ s) = p_found (x_prob _ x);
  a_press : act (pressInd _ _ s) (press _ _ s) = p_press (x_prob _ x);
  a_loads : ploads _ _ s = p_loads (x_prob _ x);
  a_sys : g_sys g = true -> sysV _ _ s <> None;
  a_used : g_used g = false -> mrhs _ _ s = None;
  a_stale : g_used g = true -> p_loads (x_prob _ x) <> [];
  a_vec : forall v, x_vec _ x = Some v -> rhs _ _ s = Some v }.

Lemma spb : forall s x g, agrees s x g -> spbasis _ _ s = match p_sp (x_prob _ x) with None => p_basis (x_prob _ x) | Some b => b end.
Proof. intros s x g A. unfold spbasis. rewrite (a_sb _ _ _ A), (a_basis _ _ _ A). destruct (p_sp (x_prob V x)); reflexivity. Qed.
Lemma set_cont_same : forall s : st, set_cont _ _ (m_cont _ _ s) s = s.
Proof. intros []; reflexivity. Qed.
Lemma get_same : forall s x g, agrees s x g -> get_options _ _ s = s.
Proof.
  intros s x g A. unfold get_options. rewrite (a_opt _ _ _ A), (a_cont _ _ _ A), Z.eqb_refl.
  rewrite <- (a_cont _ _ _ A). apply set_cont_same.
Qed.
Lemma act_some : forall b x y, act b x = Some y -> x = Some y.
Proof. intros [] x y H; [exact H|discriminate]. Qed.
Lemma unl_flags : forall (s : st) x g, agrees s x g -> act false (found _ _ s) = None. Proof. reflexivity. Qed.

(* every vector assembly: the new vector is what rhs() returns *)
Lemma finish_ok : forall (e : env) s v, sysV _ _ s = Some v ->
  ploads _ _ s <> [] \/ mrhs _ _ s = None ->
  (forall w, with_loads _ _ e (mkprob (c_geo (config _ _ s)) (c_els (config _ _ s)) (Some (sp_basis (space _ _ s))) (sp_bcs (space _ _ s)) (sp_cont (space _ _ s)) None None (ploads _ _ s))
     (sp_mode (space _ _ s)) (Some v) = Some w -> rhs _ _ (finish _ _ e s) = Some w).
Proof.
  intros e s v Hv H w W. unfold finish. rewrite Hv. unfold with_loads in W. cbn [p_loads] in W.
  destruct (ploads _ _ s) as [|l0 l] eqn:L.
  - injection W as W. subst w. destruct H as [H|H]; [congruence|]. unfold rhs, set_stat. cbn. rewrite H. exact Hv.
  - assert (C : cfg_of (mkprob (c_geo (config _ _ s)) (c_els (config _ _ s)) (Some (sp_basis (space _ _ s))) (sp_bcs (space _ _ s)) (sp_cont (space _ _ s)) None None (l0 :: l)) (sp_mode (space _ _ s)) = config _ _ s).
    { unfold cfg_of, space_of, config. cbn. destruct (space M V s); reflexivity. }
    rewrite C in W. rewrite W. reflexivity.
Qed.
Lemma with_loads_eq : forall (e : env) p q m v, cfg_of p m = cfg_of q m -> p_loads p = p_loads q -> with_loads _ _ e p m v = with_loads _ _ e q m v.
Proof. intros e p q m v C L. unfold with_loads. rewrite C, L. reflexivity. Qed.

Lemma finish_keep : forall (e : env) s,
  o_cont _ _ (finish _ _ e s) = o_cont _ _ s /\ m_cont _ _ (finish _ _ e s) = m_cont _ _ s /\ geo _ _ (finish _ _ e s) = geo _ _ s /\
  basis _ _ (finish _ _ e s) = basis _ _ s /\ sb _ _ (finish _ _ e s) = sb _ _ s /\ bcs _ _ (finish _ _ e s) = bcs _ _ s /\
  space _ _ (finish _ _ e s) = space _ _ s /\ found _ _ (finish _ _ e s) = found _ _ s /\ foundInd _ _ (finish _ _ e s) = foundInd _ _ s /\
  press _ _ (finish _ _ e s) = press _ _ s /\ pressInd _ _ (finish _ _ e s) = pressInd _ _ s /\ ploads _ _ (finish _ _ e s) = ploads _ _ s /\
  sysV _ _ (finish _ _ e s) = sysV _ _ s /\ sysM _ _ (finish _ _ e s) = sysM _ _ s /\ mass _ _ (finish _ _ e s) = mass _ _ s /\
  ddofs _ _ (finish _ _ e s) = ddofs _ _ s /\ (ploads _ _ s = [] -> mrhs _ _ (finish _ _ e s) = mrhs _ _ s).
Proof.
  intros e s. unfold finish. destruct (ploads _ _ s) as [|a l] eqn:L; [|destruct (sysV _ _ s) eqn:W; [destruct (e_loads _ _ e _ _ _)|]];
  cbn; rewrite ?L, ?W; repeat split; intros; try reflexivity; try discriminate.
Qed.

Ltac fields := match goal with |- agrees _ _ _ => constructor end; cbn; try reflexivity; try assumption; try discriminate; auto.
Lemma keyspace : forall p m n, key (space_of p m) = key (space_of p n). Proof. reflexivity. Qed.


(* a state that agrees, with the space set to mode m and any contents of the system *)
Lemma agrees_space : forall s x g m a v b, agrees s x g -> (b = true -> m = Proj) ->
  agrees (set_sys _ _ a (Some v) (set_space _ _ m s)) (mkexp _ (x_prob _ x) None) (mkghost (g_used g) b true).
Proof.
  intros s x g m a v b A B. assert (S := spb _ _ _ A). destruct A. constructor; cbn; auto; try discriminate.
  exists m. split; [|exact B]. unfold space_of. rewrite S, a_bcs0, a_cont0. reflexivity.
Qed.
Lemma agrees_sys : forall s x g a v, agrees s x g ->
  agrees (set_sys _ _ a (Some v) s) (mkexp _ (x_prob _ x) None) (mkghost (g_used g) (g_proj g) true).
Proof. intros s x g a v []. constructor; cbn; auto; try discriminate. Qed.
Lemma agrees_stat : forall s x g r, agrees s x g -> agrees (set_stat _ _ r s) x g.
Proof. intros s x g r []. constructor; auto. Qed.
Lemma agrees_mass : forall s x g r, agrees s x g -> agrees (set_mass _ _ r s) x g.
Proof. intros s x g r []. constructor; auto. Qed.
Lemma agrees_used : forall s p g, agrees s (mkexp _ p None) g -> agrees s (mkexp _ p None) (mkghost (g_used g || match p_loads p with [] => false | _ => true end) (g_proj g) (g_sys g)).
Proof.
  intros s p g []. constructor; cbn in *; auto; try discriminate.
  - intro H. apply a_used0. apply orb_false_iff in H. tauto.
  - intro H. apply orb_true_iff in H. destruct H as [H|H]; [auto|]. intro E. rewrite E in H. discriminate.
Qed.
Lemma agrees_finish : forall (e : env) s p g v m, agrees s (mkexp _ p None) g -> sysV _ _ s = Some v -> space _ _ s = space_of p m ->
  agrees (finish _ _ e s) (mkexp _ p (with_loads _ _ e p m (Some v))) (mkghost (g_used g || match p_loads p with [] => false | _ => true end) (g_proj g) (g_sys g)).
Proof.
  intros e s p g v m A Sv Sp. destruct (finish_keep e s) as (K1 & K2 & K3 & K4 & K5 & K6 & K7 & K8 & K9 & K10 & K11 & K12 & K13 & K14 & K15 & K16 & K17).
  assert (A' := A). destruct A. cbn in *.
  constructor; cbn -[with_loads]; rewrite ?K1, ?K2, ?K3, ?K4, ?K5, ?K6, ?K7, ?K8, ?K9, ?K10, ?K11, ?K12, ?K13; auto.
  - intro H. apply orb_false_iff in H. destruct H as [H1 H2]. rewrite K17; auto. rewrite a_loads0. destruct (p_loads p); [reflexivity|discriminate].
  - intro H. apply orb_true_iff in H. destruct H as [H|H]; [auto|]. intro E. rewrite E in H. discriminate.
  - intros w W. apply (finish_ok e s v Sv).
    + rewrite a_loads0. destruct (p_loads p) eqn:L; [right|left; discriminate]. apply a_used0. destruct (g_used g); [|reflexivity]. exfalso. apply a_stale0; reflexivity.
    + assert (m = sp_mode (space _ _ s)) by (rewrite Sp; reflexivity). subst m. transitivity (with_loads _ _ e p (sp_mode (space _ _ s)) (Some v)); [apply with_loads_eq|exact W].
      * unfold cfg_of at 1, space_of at 1, config. cbn. unfold cfg_of. rewrite <- Sp, a_geo0, a_basis0. destruct (space M V s); reflexivity.
      * exact a_loads0.
Qed.

Lemma config_of : forall s p g m, agrees s (mkexp _ p None) g -> space _ _ s = space_of p m -> config _ _ s = cfg_of p m.
Proof. intros s p g m A Sp. unfold config, cfg_of. rewrite Sp, (a_geo _ _ _ A), (a_basis _ _ _ A). reflexivity. Qed.
Lemma agrees_none : forall s x g, agrees s x g -> agrees s (mkexp _ (x_prob _ x) None) g.
Proof. intros s x g []. constructor; auto; try discriminate. Qed.
Lemma sized_same : forall (e : env) s t k, key (space _ _ s) = key (space _ _ t) -> sized _ _ e s t k = Done k.
Proof. intros e s t k H. unfold sized. rewrite H, Nat.eqb_refl. reflexivity. Qed.
Lemma initV_get : forall (e : env) s x g, agrees s x g -> get_options _ _ (initVector _ _ e s) = initVector _ _ e s.
Proof.
  intros e s x g A. unfold get_options. cbn. rewrite (a_opt _ _ _ A), (a_cont _ _ _ A), Z.eqb_refl. rewrite <- (a_cont _ _ _ A). unfold set_cont, initVector, set_sys. destruct s; reflexivity.
Qed.
Lemma initS_get : forall (e : env) s x g, agrees s x g -> get_options _ _ (initSystem _ _ e s) = initSystem _ _ e s.
Proof.
  intros e s x g A. unfold get_options. cbn. rewrite (a_opt _ _ _ A), (a_cont _ _ _ A), Z.eqb_refl. rewrite <- (a_cont _ _ _ A). unfold set_cont, initSystem, set_sys. destruct s; reflexivity.
Qed.
Lemma space_now : forall (s : st) x g m, agrees s x g -> space _ _ (set_space _ _ m s) = space_of (x_prob _ x) m.
Proof. intros s x g m A. cbn. unfold space_of. rewrite (spb _ _ _ A), (a_bcs _ _ _ A), (a_cont _ _ _ A). reflexivity. Qed.
Lemma key_now : forall (s : st) x g m, agrees s x g -> key (space _ _ s) = key (space_of (x_prob _ x) m).
Proof. intros s x g m A. destruct (a_space _ _ _ A) as (m0 & E & _). rewrite E. reflexivity. Qed.

Lemma vec_step : forall (e : env) s x g d h, agrees s x g ->
  exists s', assemble_vec _ _ e d h s = Done s' /\
  agrees s' (mkexp _ (x_prob _ x) (want_vec _ _ e (x_prob _ x) d h))
    (mkghost (g_used g || match p_loads (x_prob _ x) with [] => false | _ => true end) (negb h) true).
Proof.
  intros e s x g d h A. set (p := x_prob _ x). set (m := if h then Homog else Proj).
  assert (B : negb h = true -> m = Proj) by (unfold m; destruct h; [discriminate|reflexivity]).
  unfold assemble_vec, dirichlet. rewrite (initV_get e s x g A). fold m.
  set (s1 := set_space _ _ m (initVector _ _ e s)).
  assert (E1 : s1 = set_sys _ _ (sysM _ _ s) (Some (e_zeroV _ _ e (e_dofs _ _ e (key (space _ _ s))))) (set_space _ _ m s)) by reflexivity.
  assert (A1 : forall a v, agrees (set_sys _ _ a (Some v) s1) (mkexp _ p None) (mkghost (g_used g) (negb h) true)).
  { intros a v. apply (agrees_space s x g m a v (negb h) A B). }
  assert (S1 : space _ _ s1 = space_of p m) by (apply (space_now s x g m A)).
  rewrite sized_same by (rewrite S1; apply (key_now s x g m A)).
  assert (C1 : config _ _ s1 = cfg_of p m) by (unfold config, cfg_of; rewrite S1; cbn; rewrite (a_geo _ _ _ A), (a_basis _ _ _ A); reflexivity).
  assert (F1 : act (foundInd _ _ s1) (found _ _ s1) = p_found p) by (apply (a_found _ _ _ A)).
  assert (P1 : act (pressInd _ _ s1) (press _ _ s1) = p_press p) by (apply (a_press _ _ _ A)).
  rewrite C1, F1, P1. eexists. split; [reflexivity|]. unfold want_vec. fold m.
  destruct (e_vec _ _ e (cfg_of p m) d (p_found p) (p_press p)) as [v|].
  - apply (agrees_finish e _ p (mkghost (g_used g) (negb h) true) v m); [apply A1|reflexivity|exact S1].
  - cbn [with_loads]. apply agrees_stat. apply (agrees_used _ p (mkghost (g_used g) (negb h) true)). apply A1.
Qed.

Lemma mat_step : forall (e : env) s x g d, agrees s x g ->
  exists s', assemble_mat _ _ e d s = Done s' /\ agrees s' (mkexp _ (x_prob _ x) None) (mkghost (g_used g) false true) /\
  stat _ _ s' = Some (match want_mat _ _ e (x_prob _ x) d with Some _ => Success | None => AssemblyError end) /\
  (forall a, want_mat _ _ e (x_prob _ x) d = Some a -> matrix _ _ s' = Some a).
Proof.
  intros e s x g d A. set (p := x_prob _ x).
  unfold assemble_mat, dirichlet. rewrite (initS_get e s x g A).
  set (s1 := set_space _ _ Homog (initSystem _ _ e s)).
  assert (A1 : forall a v, agrees (set_sys _ _ a (Some v) s1) (mkexp _ p None) (mkghost (g_used g) false true)).
  { intros a v. apply (agrees_space s x g Homog a v false A). discriminate. }
  assert (S1 : space _ _ s1 = space_of p Homog) by (apply (space_now s x g Homog A)).
  rewrite sized_same by (rewrite S1; apply (key_now s x g Homog A)).
  assert (C1 : config _ _ s1 = cfg_of p Homog) by (unfold config, cfg_of; rewrite S1; cbn; rewrite (a_geo _ _ _ A), (a_basis _ _ _ A); reflexivity).
  assert (F1 : act (foundInd _ _ s1) (found _ _ s1) = p_found p) by (apply (a_found _ _ _ A)).
  assert (P1 : act (pressInd _ _ s1) (press _ _ s1) = p_press p) by (apply (a_press _ _ _ A)).
  assert (V1 : sysV _ _ s1 = Some (e_zeroV _ _ e (e_dofs _ _ e (key (space _ _ s))))) by reflexivity.
  rewrite C1, F1, P1, V1. eexists. split; [reflexivity|]. unfold want_mat.
  destruct (e_mat _ _ e (cfg_of p Homog) d (p_found p) (p_press p)); (split; [apply agrees_stat; apply A1|split; [reflexivity|intros a' Q; first [discriminate Q|injection Q as Q; subst; reflexivity]]]).
Qed.

Lemma agrees_weaken : forall s p w g b1 b2, agrees s (mkexp _ p w) (mkghost (g_used g || b1) b2 true) ->
  forall b3, (b3 = true -> b2 = true) -> agrees s (mkexp _ p w) (mkghost (g_used g || b1) b3 true).
Proof.
  intros s p w g b1 b2 [] b3 H. constructor; cbn in *; auto. destruct a_space0 as (m & E & F). exists m. split; [exact E|]. auto.
Qed.

Lemma init_agrees : forall s x g p', agrees s x g ->
  forall geo' basis' sb' bcs', p_found p' = None -> p_press p' = None ->
  geo' = p_geo p' -> basis' = p_basis p' -> sb' = match p_sp p' with None => Own | Some b => Ext b end -> bcs' = p_bcs p' ->
  p_cont p' = p_cont (x_prob _ x) -> p_loads p' = p_loads (x_prob _ x) ->
  agrees (initialize _ _ (set_problem _ _ geo' basis' sb' bcs' s)) (mkexp _ p' (x_vec _ x)) (mkghost (g_used g) true (g_sys g)).
Proof.
  intros s x g p' A geo' basis' sb' bcs' Hf Hp -> -> -> -> Hc Hl.
  assert (G : get_options _ _ (set_problem _ _ (p_geo p') (p_basis p') (match p_sp p' with None => Own | Some b => Ext b end) (p_bcs p') s) =
     set_problem _ _ (p_geo p') (p_basis p') (match p_sp p' with None => Own | Some b => Ext b end) (p_bcs p') s).
  { unfold get_options. cbn. rewrite (a_opt _ _ _ A), (a_cont _ _ _ A), Z.eqb_refl. rewrite <- (a_cont _ _ _ A). destruct s; reflexivity. }
  unfold initialize. rewrite G. destruct A. constructor; cbn; rewrite ?Hf, ?Hp, ?Hc, ?Hl; auto.
  exists Proj. split; [|reflexivity]. unfold space_of, spbasis; cbn. rewrite a_cont0, Hc. destruct (p_sp p'); reflexivity.
Qed.

Lemma step_agrees : forall (e : env) o s x g, agrees s x g -> allowed (x_prob _ x) g o ->
  exists s', step _ _ e o s = Done s' /\ agrees s' (expect _ _ e o x) (gstep (x_prob _ x) o g).
Proof.
  intros e o s x g A H. assert (GO := get_same s x g A).
  destruct o as [c|c|gg|b|b|bc|l|pm|p|f| | |d|d h|d m h|l| |p d| ]; cbn [step allowed gstep] in *.
  - (* SetOptions *) unfold expect. cbn [upd]. rewrite (a_opt _ _ _ A). destruct (Z.eqb_spec (p_cont (x_prob _ x)) c) as [E|E].
    + eexists; split; [reflexivity|]. subst c. destruct A. constructor; cbn; auto.
    + destruct H as [H|[H1 H2]]; [congruence|]. eexists; split; [reflexivity|].
      unfold initialize, get_options. cbn. rewrite (a_cont _ _ _ A). destruct (Z.eqb_spec (p_cont (x_prob _ x)) c); [contradiction|].
      destruct A. constructor; cbn; rewrite ?H1, ?H2; auto. exists Proj. split; [|reflexivity]. unfold space_of, spbasis; cbn. rewrite a_sb0, a_bcs0, a_basis0. destruct (p_sp (x_prob V x)); reflexivity.
  - (* OptionsSet *) eexists; split; [reflexivity|]. subst c. unfold expect. destruct A. constructor; cbn; auto.
  - (* SetGeometry *) destruct H as [H1 H2]. rewrite GO. eexists; split; [reflexivity|]. unfold expect.
    apply (init_agrees s x g (upd (x_prob _ x) (SetGeometry gg)) A); cbn; auto; destruct A; auto.
  - (* SetBasis *) destruct H as [H1 H2]. eexists; split; [reflexivity|]. unfold expect.
    assert (G : get_options _ _ (set_problem _ _ (geo _ _ s) b (sb _ _ s) (bcs _ _ s) s) = set_problem _ _ (geo _ _ s) b (sb _ _ s) (bcs _ _ s) s).
    { unfold get_options. cbn. rewrite (a_opt _ _ _ A), (a_cont _ _ _ A), Z.eqb_refl. rewrite <- (a_cont _ _ _ A). destruct s; reflexivity. }
    rewrite G. apply (init_agrees s x g (upd (x_prob _ x) (SetBasis b)) A); cbn; auto; destruct A; auto.
  - (* SetSpaceBasis *) destruct H as [H1 H2]. eexists; split; [reflexivity|]. unfold expect.
    assert (G : get_options _ _ (set_problem _ _ (geo _ _ s) (basis _ _ s) (Ext b) (bcs _ _ s) s) = set_problem _ _ (geo _ _ s) (basis _ _ s) (Ext b) (bcs _ _ s) s).
    { unfold get_options. cbn. rewrite (a_opt _ _ _ A), (a_cont _ _ _ A), Z.eqb_refl. rewrite <- (a_cont _ _ _ A). destruct s; reflexivity. }
    rewrite G. apply (init_agrees s x g (upd (x_prob _ x) (SetSpaceBasis b)) A); cbn; auto; destruct A; auto.
  - (* UpdateBCs *) eexists; split; [reflexivity|]. unfold expect, dirichlet.
    assert (G : get_options _ _ (set_problem _ _ (geo _ _ s) (basis _ _ s) (sb _ _ s) bc s) = set_problem _ _ (geo _ _ s) (basis _ _ s) (sb _ _ s) bc s).
    { unfold get_options. cbn. rewrite (a_opt _ _ _ A), (a_cont _ _ _ A), Z.eqb_refl. rewrite <- (a_cont _ _ _ A). destruct s; reflexivity. }
    rewrite G. destruct A. constructor; cbn; auto. exists Proj. split; [|reflexivity]. unfold space_of, spbasis; cbn. rewrite a_sb0, a_cont0, a_basis0. destruct (p_sp (x_prob V x)); reflexivity.
  - (* SetPointLoads *) eexists; split; [reflexivity|]. unfold expect. destruct A. constructor; cbn; auto.
    intro U. destruct l; [cbn in H; congruence|discriminate].
  - eexists; split; [reflexivity|]. unfold expect. destruct A. constructor; cbn; auto.
  - eexists; split; [reflexivity|]. unfold expect. destruct A. constructor; cbn; auto.
  - eexists; split; [reflexivity|]. unfold expect. destruct A. constructor; cbn; auto.
  - (* HomogenizeDirichlet *) eexists; split; [reflexivity|]. unfold dirichlet. rewrite GO. unfold expect. assert (S := space_now s x g Homog A). destruct A. constructor; cbn in *; auto.
    exists Homog. split; [exact S|discriminate].
  - (* Assemble *) unfold assemble_lin. rewrite GO. unfold expect. cbn [upd]. set (p := x_prob _ x).
    destruct (a_space _ _ _ A) as (m & Sp & Hm). specialize (Hm H). subst m.
    assert (A1 : forall a v, agrees (set_sys _ _ a (Some v) (initSystem _ _ e s)) (mkexp _ p None) (mkghost (g_used g) (g_proj g) true)).
    { intros a v. apply (agrees_sys s x g a v A). }
    assert (C1 : config _ _ (initSystem _ _ e s) = cfg_of p Proj).
    { unfold config, cfg_of. cbn. rewrite Sp, (a_geo _ _ _ A), (a_basis _ _ _ A). reflexivity. }
    assert (F1 : act (foundInd _ _ (initSystem _ _ e s)) (found _ _ (initSystem _ _ e s)) = p_found p) by (apply (a_found _ _ _ A)).
    assert (P1 : act (pressInd _ _ (initSystem _ _ e s)) (press _ _ (initSystem _ _ e s)) = p_press p) by (apply (a_press _ _ _ A)).
    rewrite C1, F1, P1. unfold want_lin. fold p. destruct (e_lin _ _ e (cfg_of p Proj) (p_found p) (p_press p)) as [[a v]|].
    + eexists; split; [reflexivity|]. apply (agrees_finish e _ p (mkghost (g_used g) (g_proj g) true) v Proj); [apply A1|reflexivity|exact Sp].
    + eexists; split; [reflexivity|]. apply agrees_stat. apply (agrees_used _ p (mkghost (g_used g) (g_proj g) true)). apply A1.
  - destruct (mat_step e s x g d A) as (s' & E & A1 & _). exists s'. split; [exact E|exact A1].
  - apply vec_step. exact A.
  - unfold assemble_def, expect. cbn [upd]. destruct m.
    + destruct (mat_step e s x g d A) as (s1 & E & A1 & St & _). rewrite E, St. destruct (want_mat _ _ e (x_prob _ x) d).
      * destruct (vec_step e s1 _ _ d h A1) as (s2 & E2 & A2). exists s2. split; [exact E2|]. cbn [x_prob g_used] in A2.
        apply (agrees_weaken _ _ _ _ _ _ A2). rewrite andb_false_r. discriminate.
      * exists s1. split; [reflexivity|]. rewrite andb_false_r. apply (agrees_used _ _ _ A1).
    + destruct (vec_step e s x g d h A) as (s2 & E2 & A2). exists s2. split; [exact E2|]. rewrite andb_true_r. exact A2.
  - (* AssembleMass *) unfold assemble_mass, expect. cbn [upd]. set (p := x_prob _ x).
    set (s1 := set_space _ _ Homog (initSystem _ _ e s)).
    assert (A1 : forall a v, agrees (set_sys _ _ a (Some v) s1) (mkexp _ p None) (mkghost (g_used g) false true)).
    { intros a v. apply (agrees_space s x g Homog a v false A). discriminate. }
    assert (S1 : space _ _ s1 = space_of p Homog) by (apply (space_now s x g Homog A)).
    rewrite sized_same by (rewrite S1; apply (key_now s x g Homog A)).
    assert (V1 : sysV _ _ s1 = Some (e_zeroV _ _ e (e_dofs _ _ e (key (space _ _ s))))) by reflexivity.
    rewrite V1. eexists; split; [reflexivity|]. destruct (e_mass _ _ e (config _ _ s1) l); [apply agrees_mass; apply A1|apply agrees_stat; apply A1].
  - (* AssembleFoundation *) unfold assemble_found, expect. cbn [upd]. set (p := x_prob _ x).
    assert (Fn := a_found _ _ _ A). fold p in Fn, H. destruct (p_found p) as [f|]; [|congruence]. apply act_some in Fn. rewrite Fn.
    cbn [sysV initSystem set_sys]. destruct (e_found _ _ e _ f); eexists; (split; [reflexivity|]); apply agrees_stat; apply (agrees_sys s x g _ _ A).
  - (* PressureVector *) unfold assemble_pressvec, expect. cbn [upd]. rewrite GO. assert (Sy := a_sys _ _ _ A H). destruct (sysV _ _ s) as [v|]; [|congruence].
    rewrite sized_same by reflexivity. eexists; split; [reflexivity|].
    assert (Gg : g = mkghost (g_used g) (g_proj g) true) by (destruct g; cbn in *; rewrite H; reflexivity). rewrite Gg.
    destruct (e_press _ _ e (config _ _ s) p d); apply agrees_stat; apply (agrees_sys s x g _ _ A).
  - (* Construct *) eexists; split; [reflexivity|]. unfold expect, construct. assert (S := space_now s x g Proj A). destruct A. constructor; cbn in *; auto.
    exists Proj. split; [exact S|reflexivity].
Qed.

Lemma run_agrees : forall (e : env) h s x g, agrees s x g -> admissible (x_prob _ x) g h ->
  exists s' g', run _ _ e h s = Done s' /\ agrees s' (expects _ _ e h x) g'.
Proof.
  induction h as [|o r IH]; intros s x g A H; cbn.
  - exists s, g. split; [reflexivity|exact A].
  - destruct H as [H1 H2]. destruct (step_agrees e o s x g A H1) as (s1 & E & A1). rewrite E.
    apply (IH s1 (expect _ _ e o x) (gstep (x_prob _ x) o g) A1). exact H2.
Qed.
Lemma ctor_agrees : forall own g b bc, agrees (ctor M V own g b bc) (fresh V own g b bc) ghost0.
Proof.
  intros. constructor; cbn; auto; try discriminate; destruct own; auto; exists Proj; split; reflexivity.
Qed.
Lemma history_ok : forall (e : env) own g b bc h, admissible (x_prob _ (fresh V own g b bc)) ghost0 h ->
  exists s, run _ _ e h (ctor M V own g b bc) = Done s /\ forall v, x_vec _ (expects _ _ e h (fresh V own g b bc)) = Some v -> rhs _ _ s = Some v.
Proof.
  intros e own g b bc h H. destruct (run_agrees e h _ _ _ (ctor_agrees own g b bc) H) as (s & g' & E & A). exists s. split; [exact E|apply (a_vec _ _ _ A)].
Qed.
End P.
