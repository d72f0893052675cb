(* Properties C114 and C115: the error-estimation assembler and its helper over call histories. *)
From Coq Require Import List ZArith Lia Bool.
From Verif Require Import AsmModel AsmSpec AsmProofs SessModel SessSpec SessProofs.
Import ListNotations.

(* free interpretation of the contributions: equal only if produced by the same request *)
Inductive vt :=
| VZ (n : nat) | VL (c : cfg) (f p : option nat) | VV (c : cfg) (d : nat) (f p : option nat)
| VP (c : cfg) (l : list nat) (v : vt) | VD (x : dsite) (g c : nat) (k : cfg) (rows pr df : nat) | VSum (a b : vt) | VSol (a : mt) (b : vt) | VX
with mt := MZ (n : nat) | ML (c : cfg) (f p : option nat) | MM (c : cfg) (d : nat) (f p : option nat) | MA (c : cfg) (l : bool) | MX.
(* ten times the basis, one less if the patches are glued *)
Definition ndofs (k : nat * nat * Z) : nat := let '(b, _, c) := k in 10 * b - (if Z.leb 0 c then 1 else 0).
Fixpoint rows (v : vt) : nat :=
  match v with VZ n => n | VL c _ _ | VV c _ _ _ | VP c _ _ => ndofs (key (c_space c)) | VD _ _ _ _ n _ _ => n | VSum a _ => rows a | VSol _ b => rows b | VX => 0 end.
(* deformed geometry 99 makes the loops throw; goal 9 has no boundary or point version *)
Definition sfree (shared : bool) : senv mt vt := mksenv _ _
  (mkenv _ _ ndofs MZ VZ
    (fun c f p => Some (ML c f p, VL c f p))
    (fun c d f p => if Nat.eqb d 99 then None else Some (MM c d f p))
    (fun c d f p => if Nat.eqb d 99 then None else Some (VV c d f p))
    (fun c l => Some (MA c l)) (fun c f => None) (fun c p d => None) (fun c l v => Some (VP c l v)) MX VX)
  shared
  (fun x g c k n pr df => match x with SInterior => Some (VD x g c k n pr df) | _ => if Nat.eqb g 9 then None else Some (VD x g c k n pr df) end)
  (fun g d => 100 * g + d)
  (fun a b => if Nat.eqb (rows a) (rows b) then Some (VSum a b) else None)
  VSol.
(* geometry 1, bases 2 and 3, boundary conditions 4 *)
Definition start (shared : bool) : sess mt vt := snew _ _ (sfree shared) 1 2 3 4.
Definition wview (shared : bool) (h : list sop) : view mt vt := viewed _ _ (sfree shared) h (view0 _ _ (sfree shared) 1 2 3 4).
Definition good (shared : bool) (h : list sop) : Prop := sadmissible _ _ (sfree shared) 4 (view0 _ _ (sfree shared) 1 2 3 4) sghost0 h.

(* ================================================================ C114 *)
Theorem C114_session : forall M V (e : senv M V) g bL bH bc h,
  sadmissible _ _ e bc (view0 _ _ e g bL bH bc) sghost0 h ->
  exists s, srun _ _ e h (snew _ _ e g bL bH bc) = Some s /\ meets _ _ e s (viewed _ _ e h (view0 _ _ e g bL bH bc)).
Proof.
  intros M V e g bL bH bc h H. destruct (srun_inv M V e bc h _ _ _ (snew_inv M V e g bL bH bc) H) as (s & g' & E & I).
  exists s. split; [exact E|]. exact (inv_meets M V e bc s _ g' I).
Qed.
Print Assumptions C114_session.
Definition hist1 : list sop :=
  [DSetOptions 0; DPressure 5; DPointLoads [6]; DSetGoal (Functional 1) 2; DAssemble Lo; DMass Lo true; DMatrix Hi 7; DPrimal Hi 7; DDual Lo SInterior 8 9; DDualFrom Hi (SPoints [3]) 8; DMass Hi false; DDual Lo (SBoundary []) 8 9].
Example ex_C114_session : forall b, good b hist1.
Proof. intro b. unfold good. cbn. repeat split; auto; try discriminate; try (intros [] r Q; cbn in Q; try discriminate; injection Q as <-; cbn; auto); try (right; repeat split; auto; discriminate); try (right; split; reflexivity). Qed.
Example ex_C114_session_values : forall b, let w := wview b hist1 in
  v_mass _ _ w Hi = Some (MA (mkcfg 1 3 (mkspc 3 4 0 Homog)) false) /\ v_mat _ _ w Hi = Some (MM (mkcfg 1 3 (mkspc 3 4 0 Homog)) 7 None (Some 5)) /\
  v_dual _ _ w Hi = Some (VD (SPoints [3]) 1 2 (mkcfg 1 3 (mkspc 3 4 0 Homog)) 29 8 108) /\ v_dual _ _ w Lo = Some (VZ 19).
Proof. intros []; repeat split. Qed.

(* every request leaves all stored results other than its own as they were, whether it succeeds, fails or throws *)
Definition stored {M V} (s : sess M V) (l : level) (k : slot) : option (M + V) :=
  match k with KMat => option_map inl (s_mat _ _ s l) | KMass => option_map inl (s_mass _ _ s l) | KPrim => option_map inr (s_prim _ _ s l) | KDual => option_map inr (s_dual _ _ s l) end.
Definition after {M V} (x : sres M V) (s' : sess M V) : Prop := match x with Ret _ s1 => s1 = s' | Thrown s1 => s1 = s' | Undef => False end.
Theorem C114_slots_independent : forall M V (e : senv M V) o s s' l k,
  after (sstep _ _ e o s) s' -> changes o l k = false -> stored s' l k = stored s l k.
Proof.
  intros M V e o s s' l k H C.
  assert (En : forall x (t : sess M V), after (ensure _ _ x t) s' -> s' = t) by (intros [[]|] t Q; cbn in Q; [auto|auto|contradiction]).
  assert (Hb : forall r (t : sess M V), after (both _ _ e r t) s' -> stored s' l k = stored t l k).
  { intros r t Q. unfold both in Q. destruct (step _ _ _ r _); [|contradiction]. destruct (step _ _ _ r _); [|contradiction]. cbn in Q. subst s'. destruct k; reflexivity. }
  assert (Ho : forall m r (t : sess M V), after (one _ _ e m r t) s' -> stored s' l k = stored t l k).
  { intros m r t Q. unfold one in Q. destruct (step _ _ _ r _); [|contradiction]. cbn in Q. subst s'. destruct k; reflexivity. }
  assert (Hd : forall m x pr df, (k = KDual -> lev_eqb m l = false) -> after (dualS _ _ e m x pr df s) s' -> stored s' l k = stored s l k).
  { intros m x pr df N Q. unfold dualS in Q. destruct (no_sites x).
    - cbn in Q. subst s'. destruct k; try reflexivity. cbn. rewrite put_ne by auto. reflexivity.
    - set (s1 := if d_shared _ _ e then _ else s) in Q.
      assert (S1 : forall l k, stored s1 l k = stored s l k) by (intros; unfold s1; destruct (d_shared _ _ e), k0; reflexivity). clearbody s1.
      assert (S2 : forall y, stored (set_dual _ _ m y s1) l k = stored s l k).
      { intro y. rewrite <- S1. destruct k; try reflexivity. cbn. rewrite put_ne by auto. reflexivity. }
      destruct (s_goal _ _ s) as [[[f| |] c]|]; [| | |contradiction].
      + destruct x; [destruct (Nat.ltb _ _); [contradiction|]|destruct (Nat.ltb _ _); [contradiction|]|]; destruct (d_dual _ _ e _ _ _ _ _ _ _); cbn in Q; subst s'; auto.
      + destruct x; cbn in Q; subst s'; auto. + destruct x; cbn in Q; subst s'; auto. }
  destruct o; cbn [sstep] in H; try (rewrite (Hb _ _ H); destruct k; reflexivity); try (rewrite (Ho _ _ _ H); destruct k; reflexivity).
  - cbn in H. subst s'. destruct k; reflexivity.
  - unfold assembleS in H. destruct (assemble_lin _ _ _ _) as [a|]; [|contradiction]. destruct (stat _ _ a) as [[]|]; cbn in H; try contradiction; subst s'; destruct k; cbn in C |- *; rewrite ?put_ne by exact C; reflexivity.
  - unfold massS in H. destruct (assemble_mass _ _ _ _ _) as [a|]; [|contradiction]. rewrite (En _ _ H). destruct k; cbn in C |- *; rewrite ?put_ne by exact C; reflexivity.
  - unfold matrixLinS in H. destruct (assemble_lin _ _ _ _) as [a|]; [|contradiction]. rewrite (En _ _ H). destruct k; cbn in C |- *; rewrite ?put_ne by exact C; reflexivity.
  - unfold matrixS in H. destruct (assemble_mat _ _ _ _ _) as [a|]; [|contradiction]. rewrite (En _ _ H). destruct k; cbn in C |- *; rewrite ?put_ne by exact C; reflexivity.
  - unfold primalLinS in H. destruct (assemble_lin _ _ _ _) as [a|]; [|contradiction]. destruct (stat _ _ a) as [[]|]; cbn in H; try contradiction; subst s'; destruct k; cbn in C |- *; rewrite ?put_ne by exact C; reflexivity.
  - unfold primalS in H. destruct (assemble_vec _ _ _ _ _ _) as [a|]; [|contradiction]. rewrite (En _ _ H). destruct k; cbn in C |- *; rewrite ?put_ne by exact C; reflexivity.
  - apply (Hd l0 x pr df); [|exact H]. intros ->. exact C.
  - apply (Hd l0 x pr (d_move _ _ e (geo _ _ (s_base _ _ s)) pr)); [|exact H]. intros ->. exact C.
  - destruct (step _ _ _ o _); [|contradiction]. cbn in H. subst s'. destruct k; reflexivity.
Qed.
Print Assumptions C114_slots_independent.
Example ex_C114_slots : exists s s', srun _ _ (sfree true) hist1 (start true) = Some s /\ after (sstep _ _ (sfree true) (DMatrix Lo 99) s) s' /\
  stored s' Hi KMat <> None /\ stored s' Lo KMat <> stored s Lo KMat /\ changes (DMatrix Lo 99) Hi KMat = false.
Proof. eexists. eexists. split; [vm_compute; reflexivity|]. split; [vm_compute; reflexivity|]. split; [discriminate|]. split; [discriminate|reflexivity]. Qed.

(* what a failed request leaves behind *)
Theorem C114_failure_keeps : forall M V (e : senv M V) o s s',
  (sstep _ _ e o s = Ret AssemblyError s' \/ (sstep _ _ e o s = Thrown s' /\ match o with DAssemble _ | DPrimalLin _ | DDual _ SInterior _ _ | DDual _ (SBoundary _) _ _ => True | _ => False end)) ->
  forall l k, stored s' l k = stored s l k.
Proof.
  intros M V e o s s' H l k.
  assert (Hd : forall m x pr df, (dualS _ _ e m x pr df s = Ret AssemblyError s' \/ (dualS _ _ e m x pr df s = Thrown s' /\ match x with SPoints _ => False | _ => True end)) -> stored s' l k = stored s l k).
  { clear H. intros m x pr df H. unfold dualS in H. destruct (no_sites x); [destruct H as [H|[H _]]; discriminate|].
    set (s1 := if d_shared _ _ e then _ else s) in H.
    assert (S1 : stored s1 l k = stored s l k) by (unfold s1; destruct (d_shared _ _ e), k; reflexivity). clearbody s1.
    destruct (s_goal _ _ s) as [[[f| |] c]|]; [| | |destruct H as [H|[H _]]; discriminate].
    - destruct x; [destruct (Nat.ltb _ _); [destruct H as [H|[H _]]; discriminate|]|destruct (Nat.ltb _ _); [destruct H as [H|[H _]]; discriminate|]|];
      destruct (d_dual _ _ e _ _ _ _ _ _ _); destruct H as [H|[H N]]; try discriminate; try contradiction; injection H as <-; exact S1.
    - destruct x; destruct H as [H|[H N]]; try discriminate; try contradiction; injection H as <-; exact S1.
    - destruct x; destruct H as [H|[H N]]; try discriminate; try contradiction; injection H as <-; exact S1. }
  assert (En : forall x (t : sess M V), ensure _ _ x t <> Ret AssemblyError s') by (intros [[]|] t; discriminate).
  destruct H as [H|[H N]].
  - destruct o; cbn [sstep] in H; try (exfalso; unfold both, one in H; repeat (destruct (step _ _ _ _ _) in H; try discriminate H); fail); try discriminate.
    + unfold assembleS in H. destruct (assemble_lin _ _ _ _) as [a|]; [|discriminate]. destruct (stat _ _ a) as [[]|]; discriminate.
    + unfold massS in H. destruct (assemble_mass _ _ _ _ _) as [a|]; [|discriminate]. destruct (En _ _ H).
    + unfold matrixLinS in H. destruct (assemble_lin _ _ _ _) as [a|]; [|discriminate]. destruct (En _ _ H).
    + unfold matrixS in H. destruct (assemble_mat _ _ _ _ _) as [a|]; [|discriminate]. destruct (En _ _ H).
    + unfold primalLinS in H. destruct (assemble_lin _ _ _ _) as [a|]; [|discriminate]. destruct (stat _ _ a) as [[]|]; discriminate.
    + unfold primalS in H. destruct (assemble_vec _ _ _ _ _ _) as [a|]; [|discriminate]. destruct (En _ _ H).
    + exact (Hd l0 x pr df (or_introl H)).
    + exact (Hd l0 x pr _ (or_introl H)).
  - destruct o as [| | | | | | | | | | | |m|m b|m|m d|m|m d|m x pr df|m x pr|o]; try contradiction; cbn [sstep] in H.
    + unfold assembleS in H. destruct (assemble_lin _ _ _ _) as [a|]; [|discriminate]. destruct (stat _ _ a) as [[]|]; try discriminate. cbn in H. injection H as <-. destruct k; reflexivity.
    + unfold primalLinS in H. destruct (assemble_lin _ _ _ _) as [a|]; [|discriminate]. destruct (stat _ _ a) as [[]|]; try discriminate. cbn in H. injection H as <-. destruct k; reflexivity.
    + apply (Hd m x pr df). right. split; [exact H|]. destruct x; auto.
Qed.
Print Assumptions C114_failure_keeps.
Theorem C114_failure_overwrites : forall M V (e : senv M V) l d s s', sstep _ _ e (DMatrix l d) s = Thrown s' -> s_mat _ _ s' l = Some (e_leftM _ _ (d_env _ _ e)).
Proof.
  intros M V e l d s s' H. cbn in H. unfold matrixS, assemble_mat, sized in H. destruct (Nat.eqb _ _); [|discriminate]. destruct (e_mat _ _ _ _ _ _ _); cbn in H; [discriminate|].
  injection H as <-. cbn. apply put_eq.
Qed.
Print Assumptions C114_failure_overwrites.
Example ex_C114_failures : exists s s' s'', srun _ _ (sfree false) [DSetOptions 0; DSetGoal (Functional 9) 0; DMatrix Lo 1; DDual Lo SInterior 1 1] (start false) = Some s /\
  sstep _ _ (sfree false) (DMatrix Lo 99) s = Thrown s' /\ stored s Lo KMat <> None /\ stored s' Lo KMat = Some (inl MX) /\
  sstep _ _ (sfree false) (DDual Lo (SBoundary [5]) 1 1) s = Ret AssemblyError s'' /\ stored s'' Lo KDual = Some (inr (VD SInterior 9 0 (mkcfg 1 2 (mkspc 2 4 0 Homog)) 19 1 1)).
Proof. do 3 eexists. split; [vm_compute; reflexivity|]. split; [vm_compute; reflexivity|]. split; [discriminate|]. split; [reflexivity|]. split; vm_compute; reflexivity. Qed.

(* the inherited assembler receives none of the settings, only the undeformed geometry *)
Definition inherited_geo (h : list sop) (g : nat) : nat := fold_left (fun x o => match o with DSetUndeformed y => y | _ => x end) h g.
Theorem C114_base_isolated : forall M V (e : senv M V) g bL bH bc h s,
  (forall o, ~ In (DInherited o) h) -> srun _ _ e h (snew _ _ e g bL bH bc) = Some s ->
  s_base _ _ s = set_geo _ _ (inherited_geo h g) (ctor M V false g bL bc).
Proof.
  intros M V e g bL bH bc h s N H.
  assert (G : forall h (s0 s : sess M V), (forall o, ~ In (DInherited o) h) -> srun _ _ e h s0 = Some s -> s_base _ _ s = set_geo _ _ (inherited_geo h (geo _ _ (s_base _ _ s0))) (s_base _ _ s0)).
  { clear. induction h as [|o r IH]; intros s0 s N H; cbn in H.
    - injection H as <-. unfold inherited_geo, set_geo. cbn. destruct (s_base _ _ s0). reflexivity.
    - assert (St : forall s1, after (sstep _ _ e o s0) s1 -> s_base _ _ s1 = match o with DSetUndeformed y => set_geo _ _ y (s_base _ _ s0) | _ => s_base _ _ s0 end).
      { clear H IH. intros s1 H.
        assert (En : forall x (t : sess M V), after (ensure _ _ x t) s1 -> s1 = t) by (intros [[]|] t Q; cbn in Q; [auto|auto|contradiction]).
        assert (Hb : forall q (t : sess M V), after (both _ _ e q t) s1 -> s_base _ _ s1 = s_base _ _ t).
        { intros q t Q. unfold both in Q. destruct (step _ _ _ q _); [|contradiction]. destruct (step _ _ _ q _); [|contradiction]. cbn in Q. subst s1. reflexivity. }
        assert (Ho : forall m q (t : sess M V), after (one _ _ e m q t) s1 -> s_base _ _ s1 = s_base _ _ t).
        { intros m q t Q. unfold one in Q. destruct (step _ _ _ q _); [|contradiction]. cbn in Q. subst s1. reflexivity. }
        assert (Hd : forall m x pr df, after (dualS _ _ e m x pr df s0) s1 -> s_base _ _ s1 = s_base _ _ s0).
        { intros m x pr df Q. unfold dualS in Q. destruct (no_sites x); [cbn in Q; subst s1; reflexivity|].
          set (t := if d_shared _ _ e then _ else s0) in Q.
          assert (S1 : s_base _ _ t = s_base _ _ s0) by (unfold t; destruct (d_shared _ _ e); reflexivity). clearbody t.
          destruct (s_goal _ _ s0) as [[[f| |] c]|]; [| | |contradiction].
          + destruct x; [destruct (Nat.ltb _ _); [contradiction|]|destruct (Nat.ltb _ _); [contradiction|]|]; destruct (d_dual _ _ e _ _ _ _ _ _ _); cbn in Q; subst s1; exact S1.
          + destruct x; cbn in Q; subst s1; exact S1. + destruct x; cbn in Q; subst s1; exact S1. }
        destruct o; cbn [sstep] in H; try (rewrite (Hb _ _ H); reflexivity); try (rewrite (Ho _ _ _ H); reflexivity).
        - cbn in H. subst s1. reflexivity.
        - unfold assembleS in H. destruct (assemble_lin _ _ _ _) as [a|]; [|contradiction]. destruct (stat _ _ a) as [[]|]; cbn in H; try contradiction; subst s1; reflexivity.
        - unfold massS in H. destruct (assemble_mass _ _ _ _ _) as [a|]; [|contradiction]. rewrite (En _ _ H). reflexivity.
        - unfold matrixLinS in H. destruct (assemble_lin _ _ _ _) as [a|]; [|contradiction]. rewrite (En _ _ H). reflexivity.
        - unfold matrixS in H. destruct (assemble_mat _ _ _ _ _) as [a|]; [|contradiction]. rewrite (En _ _ H). reflexivity.
        - unfold primalLinS in H. destruct (assemble_lin _ _ _ _) as [a|]; [|contradiction]. destruct (stat _ _ a) as [[]|]; cbn in H; try contradiction; subst s1; reflexivity.
        - unfold primalS in H. destruct (assemble_vec _ _ _ _ _ _) as [a|]; [|contradiction]. rewrite (En _ _ H). reflexivity.
        - exact (Hd _ _ _ _ H).
        - exact (Hd _ _ _ _ H).
        - exfalso. apply (N o). left. reflexivity. }
      assert (N' : forall o, ~ In (DInherited o) r) by (intros q Q; apply (N q); right; exact Q).
      destruct (sstep _ _ e o s0) as [q s1|s1|] eqn:Q; [| |discriminate]; specialize (St s1 eq_refl); rewrite (IH _ _ N' H), St; destruct o; reflexivity. }
  rewrite (G h _ s N H). reflexivity.
Qed.
Print Assumptions C114_base_isolated.
(* so the inherited assembly ignores a pressure that both levels apply *)
Theorem C114_inherited_refuted : forall b, exists s c c', srun _ _ (sfree b) [DPressure 5; DAssemble Lo; DInherited Assemble] (start b) = Some s /\
  s_prim _ _ s Lo = Some (VL c None (Some 5)) /\ rhs _ _ (s_base _ _ s) = Some (VL c' None None).
Proof. intros []; do 3 eexists; (split; [vm_compute; reflexivity|]); split; reflexivity. Qed.
Print Assumptions C114_inherited_refuted.
Example ex_C114_base : exists s, srun _ _ (sfree true) ([DPressure 5; DSetUndeformed 11] ++ hist1) (start true) = Some s /\ geo _ _ (s_base _ _ s) = 11 /\ pressInd _ _ (s_base _ _ s) = false.
Proof. eexists. split; [vm_compute; reflexivity|]. split; reflexivity. Qed.

(* with the default options the dual vector is assembled in another numbering than the matrix of the same level *)
Theorem C114_default_continuity_refuted : forall b, exists s k k', srun _ _ (sfree b) [DSetGoal (Functional 1) 0; DMatrix Lo 7; DDual Lo SInterior 8 7] (start b) = Some s /\
  s_mat _ _ s Lo = Some (MM k 7 None None) /\ s_dual _ _ s Lo = Some (VD SInterior 1 0 k' 20 8 7) /\ ndofs (key (c_space k)) = 20 /\ ndofs (key (c_space k')) = 19.
Proof. intros []; do 3 eexists; (split; [vm_compute; reflexivity|]); repeat split. Qed.
Print Assumptions C114_default_continuity_refuted.
(* boundary conditions given to updateBCs reach the matrix, not the dual vector *)
Theorem C114_update_bcs_refuted : forall b, exists s k k', srun _ _ (sfree b) [DSetOptions 0; DUpdateBCs 6; DSetGoal (Functional 1) 0; DMatrix Lo 7; DDual Lo SInterior 8 7] (start b) = Some s /\
  s_mat _ _ s Lo = Some (MM k 7 None None) /\ s_dual _ _ s Lo = Some (VD SInterior 1 0 k' 19 8 7) /\ sp_bcs (c_space k) = 6 /\ sp_bcs (c_space k') = 4.
Proof. intros []; do 3 eexists; (split; [vm_compute; reflexivity|]); repeat split. Qed.
Print Assumptions C114_update_bcs_refuted.
(* the mass matrix as the first request reads a status that was never written *)
Theorem C114_mass_first : forall M V (e : senv M V) g bL bH bc l lumped c,
  c = mkcfg g (match l with Lo => bL | Hi => bH end) (mkspc (match l with Lo => bL | Hi => bH end) bc (-1) Homog) -> e_mass _ _ (d_env _ _ e) c lumped <> None ->
  sstep _ _ e (DMass l lumped) (snew _ _ e g bL bH bc) = Undef.
Proof.
  intros M V e g bL bH bc l lumped c -> H. destruct l; cbn in H |- *; unfold massS, assemble_mass, sized; cbn; rewrite Nat.eqb_refl;
  match goal with |- context [e_mass _ _ _ ?k _] => change k with (mkcfg g bL (mkspc bL bc (-1) Homog)) || change k with (mkcfg g bH (mkspc bH bc (-1) Homog)) end; destruct (e_mass _ _ _ _ _); [reflexivity|congruence| |]; try reflexivity; congruence.
Qed.
Print Assumptions C114_mass_first.
Example ex_C114_mass_first : e_mass _ _ (d_env _ _ (sfree true)) (mkcfg 1 2 (mkspc 2 4 (-1) Homog)) true <> None.
Proof. discriminate. Qed.
(* and after a failed assembly the mass matrix is assembled and stored, but the call throws *)
Theorem C114_mass_stale_refuted : forall b, exists s s' c, srun _ _ (sfree b) [DMatrix Lo 99] (start b) = Some s /\
  sstep _ _ (sfree b) (DMass Lo false) s = Thrown s' /\ s_mass _ _ s' Lo = Some (MA c false).
Proof. intros []; do 3 eexists; (split; [vm_compute; reflexivity|]); (split; [vm_compute; reflexivity|]); reflexivity. Qed.
Print Assumptions C114_mass_stale_refuted.

(* ================================================================ C115 *)
(* dual solution of one level: dual matrix and sum of the requested dual load vectors, of the configured problem *)
Definition want_solution {M V} (e : senv M V) (w : view M V) (l : level) (xs : list dsite) (pr df : nat) : option V :=
  let p := v_prob _ _ w l in
  match want_mat _ _ (d_env _ _ e) p df, sum_of _ _ e p (v_goal _ _ w) pr df (e_zeroV _ _ (d_env _ _ e) (dofs_of _ _ (d_env _ _ e) p)) xs with
  | Some a, Some v => Some (d_solve _ _ e a v)
  | _, _ => None
  end.
Theorem C115_helper : forall M V (e : senv M V) g bL bH bc h interior bnds pts pr df zl zh,
  let w := viewed _ _ e h (view0 _ _ e g bL bH bc) in let xs := parts interior bnds pts in
  sadmissible _ _ e bc (view0 _ _ e g bL bH bc) sghost0 h ->
  (forall l, p_bcs (v_prob _ _ w l) = bc /\ p_cont (v_prob _ _ w l) = 0%Z) -> v_goal _ _ w <> None ->
  want_solution e w Lo xs pr df = Some zl -> want_solution e w Hi xs pr df = Some zh ->
  exists s s', srun _ _ e h (snew _ _ e g bL bH bc) = Some s /\ helper _ _ e interior bnds pts pr df s = HDone (zl, zh) s' /\
    meets _ _ e s' (viewed _ _ e (calls Lo xs pr df ++ calls Hi xs pr df) w).
Proof.
  intros M V e g bL bH bc h interior bnds pts pr df zl zh w xs H Hp Hg WL WH.
  destruct (srun_inv M V e bc h _ _ _ (snew_inv M V e g bL bH bc) H) as (s & g' & E & I). fold w in I.
  unfold want_solution in WL, WH.
  destruct (want_mat _ _ _ (v_prob _ _ w Lo) df) as [aL|] eqn:AL; [|discriminate]. destruct (sum_of _ _ e (v_prob _ _ w Lo) _ _ _ _ _) as [vL|] eqn:SL; [|discriminate].
  destruct (want_mat _ _ _ (v_prob _ _ w Hi) df) as [aH|] eqn:AH; [|discriminate]. destruct (sum_of _ _ e (v_prob _ _ w Hi) _ _ _ _ _) as [vH|] eqn:SH; [|discriminate].
  injection WL as <-. injection WH as <-.
  destruct (helper_ok M V e bc s w g' interior bnds pts pr df aL aH vL vH I Hp Hg AL AH SL SH) as (s' & g2 & F & I2).
  exists s, s'. split; [exact E|]. split; [exact F|]. exact (inv_meets M V e bc s' _ g2 I2).
Qed.
Print Assumptions C115_helper.
Definition hist2 : list sop := [DSetOptions 0; DPressure 5; DSetGoal (Functional 1) 2; DMatrix Lo 7; DPrimal Lo 7].
Example ex_C115_helper : forall b, good b hist2 /\ (forall l, p_bcs (v_prob _ _ (wview b hist2) l) = 4 /\ p_cont (v_prob _ _ (wview b hist2) l) = 0%Z) /\
  exists zl zh, want_solution (sfree b) (wview b hist2) Lo (parts true [5] [6; 7]) 8 7 = Some zl /\ want_solution (sfree b) (wview b hist2) Hi (parts true [5] [6; 7]) 8 7 = Some zh.
Proof.
  intro b. split; [|split].
  - unfold good. cbn. repeat split; auto; try discriminate; try (intros [] r Q; cbn in Q; try discriminate; injection Q as <-; cbn; auto); try (right; split; reflexivity).
  - intros []; split; reflexivity.
  - do 2 eexists. destruct b; split; vm_compute; reflexivity.
Qed.

(* a part whose assembly fails is not reported: the previous part is added a second time *)
Theorem C115_failed_part_refuted : forall b, exists s s' k v zh, srun _ _ (sfree b) [DSetOptions 0; DSetGoal (Functional 9) 0] (start b) = Some s /\
  helper _ _ (sfree b) true [5] [] 8 7 s = HDone (VSol (MM k 7 None None) (VSum (VSum (VZ 19) v) v), zh) s' /\
  want_dual _ _ (sfree b) (v_prob _ _ (wview b [DSetOptions 0; DSetGoal (Functional 9) 0]) Lo) (SBoundary [5]) (Some (Functional 9, 0)) 8 7 = None.
Proof. intros []; do 5 eexists; (split; [vm_compute; reflexivity|]); (split; [vm_compute; reflexivity|]); reflexivity. Qed.
Print Assumptions C115_failed_part_refuted.
(* with the default options the system solved mixes two numberings *)
Theorem C115_default_continuity_refuted : forall b, exists s s' k k' zh, srun _ _ (sfree b) [DSetGoal (Functional 1) 0] (start b) = Some s /\
  helper _ _ (sfree b) true [] [] 8 7 s = HDone (VSol (MM k 7 None None) (VSum (VZ 20) (VD SInterior 1 0 k' 20 8 7)), zh) s' /\ ndofs (key (c_space k)) = 20 /\ ndofs (key (c_space k')) = 19.
Proof. intros []; do 5 eexists; (split; [vm_compute; reflexivity|]); (split; [vm_compute; reflexivity|]); split; reflexivity. Qed.
Print Assumptions C115_default_continuity_refuted.
(* and if copies share the space, vectors of different sizes are added *)
Theorem C115_sizes_refuted : exists s, srun _ _ (sfree true) [DSetGoal (Functional 1) 0] (start true) = Some s /\ helper _ _ (sfree true) true [5] [] 8 7 s = HUndef.
Proof. eexists. split; vm_compute; reflexivity. Qed.
Print Assumptions C115_sizes_refuted.
