(* Properties C66, C96, C97: geometry used by evaluators that share a material *)
From Coq Require Import Reals List Bool Arith Lia Lra.
From Verif Require Import Tensor MetricModel LinearModel KinModel KinSpec KinAsm KinProofs KinStiff KinLoads KinMore KinProps.
From Verif Require Import ConfigModel EvalModel EvalSpec EvalProofs.
Import ListNotations.
Open Scope nat_scope.

(* ---- C96 ---- *)
(* an evaluator uses its own geometry as long as no later evaluator of the same material was given another one *)
Theorem C96_own_geometry : forall G np inner (cs1 cs2 : list (ctor G)) c s s' p m V (law : nat -> option G -> option G -> V),
  run np inner (cs1 ++ c :: cs2) s = Val s' -> p < np (given c) -> nth_error (mats np c) p = Some (Some m) ->
  (forall c', In c' cs2 -> uses np inner c' m -> given c' = given c) ->
  evaluate np law c p s' = Some (law m (und s' m) (Some (given c))).
Proof.
  intros G np inner cs1 cs2 c s s' p m V law E Hp Hn H. unfold evaluate. rewrite Hn. do 2 f_equal.
  rewrite run_app in E. destruct (run np inner cs1 s) as [s1| | |] eqn:E1; try discriminate E. cbn in E.
  destruct (construct np inner c s1) as [s2| | |] eqn:E2; try discriminate E. cbn in E.
  apply (run_keeps_def np inner cs2 m (given c) H s2 s' E).
  destruct (construct_spec np inner c s1 s2 E2 m) as [A _]. rewrite A.
  assert (Ht : touched inner (mats np c) (np (given c)) m = true) by (apply touched_uses; eapply own_uses; eassumption). rewrite Ht. reflexivity.
Qed.
Print Assumptions C96_own_geometry.
(* otherwise it uses the geometry of the evaluator constructed last for that material *)
Theorem C96_last_constructed_wins : forall G np inner (cs1 cs2 : list (ctor G)) c cl s s' p m V (law : nat -> option G -> option G -> V),
  run np inner (cs1 ++ cl :: cs2) s = Val s' -> nth_error (mats np c) p = Some (Some m) ->
  uses np inner cl m -> (forall c', In c' cs2 -> ~ uses np inner c' m) ->
  evaluate np law c p s' = Some (law m (und s' m) (Some (given cl))).
Proof.
  intros G np inner cs1 cs2 c cl s s' p m V law E Hn Hu H. unfold evaluate. rewrite Hn. do 2 f_equal.
  rewrite run_app in E. destruct (run np inner cs1 s) as [s1| | |] eqn:E1; try discriminate E. cbn in E.
  destruct (construct np inner cl s1) as [s2| | |] eqn:E2; try discriminate E. cbn in E.
  apply (run_keeps_def np inner cs2 m (given cl) (fun c' Hc' Hu' => False_ind _ (H c' Hc' Hu')) s2 s' E).
  destruct (construct_spec np inner cl s1 s2 E2 m) as [A _]. rewrite A. apply (touched_uses np inner) in Hu. rewrite Hu. reflexivity.
Qed.
Print Assumptions C96_last_constructed_wins.
(* two evaluators of one material with different geometries: the first evaluates with the geometry of the second,
   also when the second works on a tension-field wrapper around the material *)
Theorem C96_independent_refuted : exists (inner : nat -> option nat) (a b : ctor nat) s s',
  run (fun _ => 1) inner [a; b] s = Val s' /\ given a = 10 /\ given b = 20 /\ mats (fun _ => 1) a <> mats (fun _ => 1) b /\
  evaluate (fun _ => 1) (fun _ u d => d) a 0 s' = Some (Some 20) /\
  exists s1, run (fun _ => 1) inner [a] s = Val s1 /\ evaluate (fun _ => 1) (fun _ u d => d) a 0 s1 = Some (Some 10).
Proof.
  exists (fun w => if w =? 7 then Some 3 else None), (IntDefOne 3 10), (EvalDef [Some 7] 20), {| und := fun _ => Some 0; def := fun _ => None |}.
  eexists. split; [reflexivity|]. repeat split; try discriminate. eexists. split; reflexivity.
Qed.
Print Assumptions C96_independent_refuted.
(* construction fails exactly when some piece of the deformed geometry has no material *)
Theorem C96_construction_succeeds_iff : forall G np inner (ms : list (option nat)) (g0 g : G) s,
  (exists s', construct np inner (IntBoth ms g0 g) s = Val s') <-> (forall p, p < np g -> exists m, nth_error ms p = Some (Some m)).
Proof.
  intros G np inner ms g0 g s. cbn. generalize (np g) as n. intros n. revert ms s. induction n as [|n IH]; intros ms s; cbn.
  - split; [intros _ p Hp; lia|eauto].
  - destruct ms as [|[m|] ms].
    + split; [intros [s' E]; discriminate|]. intros H. destruct (H 0 ltac:(lia)) as [m Hm]. discriminate.
    + rewrite IH. split; intros H p Hp.
      * destruct p as [|p]; [eexists; reflexivity|]. apply H. lia.
      * destruct (H (S p) ltac:(lia)) as [k Hk]. exists k. exact Hk.
    + split; [intros [s' E]; discriminate|]. intros H. destruct (H 0 ltac:(lia)) as [m Hm]. discriminate.
Qed.
Print Assumptions C96_construction_succeeds_iff.
(* how it fails: a container that is too short throws, a null entry that is reached is undefined behaviour *)
Theorem C96_short_container_throws : forall G np inner (ms : list nat) (g0 g : G) s, length ms < np g ->
  construct np inner (IntBoth (map Some ms) g0 g) s = Throws /\ construct np inner (IntDef (map Some ms) g) s = Throws /\
  construct np inner (EvalBoth (map Some ms) g0 g) s = Throws /\ construct np inner (EvalDef (map Some ms) g) s = Throws.
Proof.
  intros G np inner ms g0 g s. cbn. generalize (np g) as n.
  assert (T : forall (f : nat -> world G -> world G) ms n s, length ms < n -> pieces f (map Some ms) n s = Throws).
  { intros f l. induction l as [|m l IH]; intros [|n] s0 H; cbn in *; try lia; try reflexivity. apply IH. lia. }
  intros n H. rewrite !T by exact H. auto.
Qed.
Print Assumptions C96_short_container_throws.
Theorem C96_null_material_undefined : forall G np inner (ms : list nat) rest (g0 g : G) s, length ms < np g ->
  construct np inner (IntBoth (map Some ms ++ None :: rest) g0 g) s = Undef /\ construct np inner (IntDef (map Some ms ++ None :: rest) g) s = Undef /\
  construct np inner (EvalBoth (map Some ms ++ None :: rest) g0 g) s = Undef /\ construct np inner (EvalDef (map Some ms ++ None :: rest) g) s = Undef.
Proof.
  intros G np inner ms rest g0 g s. cbn. generalize (np g) as n.
  assert (T : forall (f : nat -> world G -> world G) ms n s, length ms < n -> pieces f (map Some ms ++ None :: rest) n s = Undef).
  { intros f l. induction l as [|m l IH]; intros [|n] s0 H; cbn in *; try lia; try reflexivity. apply IH. lia. }
  intros n H. rewrite !T by exact H. auto.
Qed.
Print Assumptions C96_null_material_undefined.
(* with a single material and an undeformed geometry, geometries with more than one piece crash *)
Theorem C96_single_material_multipatch : forall G np inner m (g0 g : G) s,
  construct np inner (IntBothOne m g0 g) s = Undef <-> 2 <= np g.
Proof.
  intros. cbn. destruct (np g) as [|[|n]]; cbn; split; intros H; try discriminate H; try lia; reflexivity.
Qed.
Print Assumptions C96_single_material_multipatch.
Example ex_C96 : exists s', run (fun _ => 2) (fun _ => None) [IntBoth [Some 1; Some 2] 0 10; EvalDef [Some 1; Some 4] 20] {| und := fun _ => None; def := fun _ => None |} = Val s'
  /\ evaluate (fun _ => 2) (fun _ u d => (u, d)) (IntBoth [Some 1; Some 2] 0 10) 0 s' = Some (Some 0, Some 20)
  /\ evaluate (fun _ => 2) (fun _ u d => (u, d)) (IntBoth [Some 1; Some 2] 0 10) 1 s' = Some (Some 0, Some 10).
Proof. eexists. repeat split. Qed.

(* ---- C66 ---- *)
Theorem C66_integrating_evaluators : forall G np inner (cs : list (ctor G)) ms (g0 g : G) s s' p m V (law : nat -> option G -> option G -> V),
  run np inner (cs ++ [IntBoth ms g0 g]) s = Val s' -> p < np g -> nth_error ms p = Some (Some m) ->
  evaluate np law (IntBoth ms g0 g) p s' = Some (law m (Some g0) (Some g)).
Proof.
  intros G np inner cs ms g0 g s s' p m V law E Hp Hn. unfold evaluate. cbn [mats]. rewrite Hn. rewrite run_app in E.
  destruct (run np inner cs s) as [s1| | |] eqn:E1; try discriminate E. cbn [rbind run] in E.
  destruct (construct np inner (IntBoth ms g0 g) s1) as [s2| | |] eqn:E2; try discriminate E. injection E as <-.
  destruct (construct_spec np inner _ s1 s2 E2 m) as [A B]. rewrite A, B.
  assert (Ht : touched inner (mats np (IntBoth ms g0 g)) (np (given (IntBoth ms g0 g))) m = true).
  { apply touched_uses. exists p, m. auto. } rewrite Ht. reflexivity.
Qed.
Print Assumptions C66_integrating_evaluators.
(* the pointwise evaluators register the deformed geometry as undeformed geometry: whatever undeformed geometry is given is ignored *)
Theorem C66_pointwise_evaluators : forall G np inner (cs : list (ctor G)) ms (g0 g : G) s s' p m V (law : nat -> option G -> option G -> V),
  run np inner (cs ++ [EvalBoth ms g0 g]) s = Val s' -> p < np g -> nth_error ms p = Some (Some m) ->
  evaluate np law (EvalBoth ms g0 g) p s' = Some (law m (Some g) (Some g)).
Proof.
  intros G np inner cs ms g0 g s s' p m V law E Hp Hn. unfold evaluate. cbn [mats]. rewrite Hn. rewrite run_app in E.
  destruct (run np inner cs s) as [s1| | |] eqn:E1; try discriminate E. cbn [rbind run] in E.
  destruct (construct np inner (EvalBoth ms g0 g) s1) as [s2| | |] eqn:E2; try discriminate E. injection E as <-.
  destruct (construct_spec np inner _ s1 s2 E2 m) as [A B]. rewrite A, B.
  assert (Ht : touched inner (mats np (EvalBoth ms g0 g)) (np (given (EvalBoth ms g0 g))) m = true).
  { apply touched_uses. exists p, m. auto. } rewrite Ht. reflexivity.
Qed.
Print Assumptions C66_pointwise_evaluators.

(* for the linear law this means: strain zero and stress zero, whatever the two geometries are *)
Theorem C66_strain_reported_zero : forall G np inner (cs : list (ctor G)) ms (g0 g : G) s s' p m (gv : G -> geo) z k Ey nu A,
  run np inner (cs ++ [EvalBoth ms g0 g]) s = Val s' -> p < np g -> nth_error ms p = Some (Some m) ->
  exists e, evaluate np (fun _ u d => match u, d with Some gu, Some gd => E_tensor (gv gu) (gv gd) z k | _, _ => fun _ _ => 0%R end) (EvalBoth ms g0 g) p s' = Some e
    /\ (forall i j, e i j = 0%R) /\ (forall i, Svoigt Ey nu A e i = 0%R).
Proof.
  intros G np inner cs ms g0 g s s' p m gv z k Ey nu A E Hp Hn. eexists. split; [eapply C66_pointwise_evaluators; eassumption|].
  assert (Z : forall i j, E_tensor (gv g) (gv g) z k i j = 0%R) by (intros i j; unfold E_tensor; destruct k; lra).
  split; [exact Z|]. intros i. unfold Svoigt, Sij, sum2. destruct i as [|[|i]]; rewrite !Z; lra.
Qed.
Print Assumptions C66_strain_reported_zero.
(* a uniformly stretched sheet: the integrating evaluator sees the strain, the pointwise one does not *)
Theorem C66_refuted : exists (g0 g : geo) s1 s2 ea eb,
  let law := fun (_ : nat) u d => match u, d with Some gu, Some gd => E_tensor gu gd 0 KMembrane | _, _ => fun _ _ => 0%R end in
  let w := {| und := fun _ => Some g0; def := fun _ => None |} in
  run (fun _ => 1) (fun _ => None) [IntBoth [Some 0] g0 g] w = Val s1 /\ run (fun _ => 1) (fun _ => None) [EvalBoth [Some 0] g0 g] w = Val s2 /\
  evaluate (fun _ => 1) law (IntBoth [Some 0] g0 g) 0 s1 = Some ea /\ evaluate (fun _ => 1) law (EvalBoth [Some 0] g0 g) 0 s2 = Some eb /\
  ea 0 0 <> 0%R /\ eb 0 0 = 0%R.
Proof.
  exists (mkGeo (fun a i => if Nat.eqb a i then 1%R else 0%R) (fun _ _ => 0%R)), (mkGeo (fun a i => if Nat.eqb a i then 2%R else 0%R) (fun _ _ => 0%R)).
  do 4 eexists. cbv zeta. split; [reflexivity|]. split; [reflexivity|]. split; [reflexivity|]. split; [reflexivity|].
  cbn -[Rmult Rplus Rminus Rinv]. unfold E_tensor, Acov, dot3, sum3. cbn -[Rmult Rplus Rminus Rinv]. split; lra.
Qed.
Print Assumptions C66_refuted.

(* the copy of the geometries made when a tension-field wrapper is constructed: the undeformed one is dropped unless a deformed one is set *)
Theorem C66_wrapper_copies_undeformed_iff : forall G (w m : nat) (s : world G), w <> m -> und s w = None -> def s w = None ->
  def (wrap_tft w m s) w = def s m /\
  (und (wrap_tft w m s) w = und s m <-> (def s m <> None \/ und s m = None)).
Proof.
  intros G w m s Hwm Hu Hd. unfold wrap_tft. destruct (def s m) as [g|] eqn:E; cbn; rewrite ?Nat.eqb_refl.
  - split; [reflexivity|]. split; [intros _; left; discriminate|reflexivity].
  - rewrite Hu, Hd. split; [reflexivity|]. split; [intros H; right; symmetry; exact H|intros [H|H]; [congruence|symmetry; exact H]].
Qed.
Print Assumptions C66_wrapper_copies_undeformed_iff.
Theorem C66_wrapper_refuted : exists (s : world nat), und s 1 = Some 5 /\ und (wrap_tft 2 1 s) 2 = None.
Proof. exists {| und := fun k => if k =? 1 then Some 5 else None; def := fun _ => None |}. split; reflexivity. Qed.
Print Assumptions C66_wrapper_refuted.

(* ---- C97 ---- *)
(* all coefficients of the mixed-integration-point matrix are evaluated at the previous configuration *)
Theorem C97_all_coefficients_at_previous : forall G np inner (cs : list (ctor G)) ms (patches deformed previous : G) s s' c p m V (law : nat -> option G -> option G -> V),
  run np inner (cs ++ mip_ctors ms patches deformed previous) s = Val s' -> In c (mip_ctors ms patches deformed previous) ->
  p < np previous -> nth_error ms p = Some (Some m) ->
  evaluate np law c p s' = Some (law m (Some patches) (Some previous)).
Proof.
  intros G np inner cs ms patches deformed previous s s' c p m V law E Hc Hp Hn.
  assert (Hm : mats np c = ms).
  { unfold mip_ctors in Hc. apply in_app_or in Hc. destruct Hc as [Hc|Hc]; apply repeat_spec in Hc; subst; reflexivity. }
  unfold evaluate. rewrite Hm, Hn.
  assert (S1 : mip_ctors ms patches deformed previous = (repeat (IntBoth ms patches deformed) 6 ++ repeat (IntBoth ms patches previous) 5) ++ [IntBoth ms patches previous]) by reflexivity.
  rewrite S1, app_assoc in E.
  pose proof (C66_integrating_evaluators G np inner _ ms patches previous s s' p m V law E Hp Hn) as K. unfold evaluate in K. cbn [mats] in K. rewrite Hn in K. exact K.
Qed.
Print Assumptions C97_all_coefficients_at_previous.

Theorem C97_matrix_of_previous_material : forall G np inner ms (patches deformed previous : G) s s' p m law c prev du v u,
  run np inner (mip_ctors ms patches deformed previous) s = Val s' -> p < np previous -> nth_error ms p = Some (Some m) ->
  let k := law m (Some patches) (Some previous) in
  mip_density np law (IntBoth ms patches deformed) (IntBoth ms patches previous) p s' c prev du v u =
  Some (Kstiff c (cA k) (cB k) (cC k) (cD k) (mip_N prev du (cA k) (cB k) (cN k)) (mip_M prev du (cC k) (cD k) (cM k)) v u).
Proof.
  intros G np inner ms patches deformed previous s s' p m law c prev du v u E Hp Hn k. unfold mip_density.
  assert (I1 : In (IntBoth ms patches deformed) (mip_ctors ms patches deformed previous)) by (left; reflexivity).
  assert (I2 : In (IntBoth ms patches previous) (mip_ctors ms patches deformed previous)) by (do 6 right; left; reflexivity).
  rewrite (C97_all_coefficients_at_previous G np inner [] ms patches deformed previous s s' _ p m coefs law E I1 Hp Hn).
  rewrite (C97_all_coefficients_at_previous G np inner [] ms patches deformed previous s s' _ p m coefs law E I2 Hp Hn). reflexivity.
Qed.
Print Assumptions C97_matrix_of_previous_material.

(* were the evaluators of the previous configuration given other materials, the entry would be the one the code intends: tangents of the
   deformed configuration, tangents of the increment and stresses of the previous one *)
Theorem C97_separate_materials : forall G np inner ms1 ms2 (patches deformed previous : G) s s' p m1 m2 law c prev du v u,
  run np inner (repeat (IntBoth ms1 patches deformed) 6 ++ repeat (IntBoth ms2 patches previous) 6) s = Val s' ->
  p < np deformed -> p < np previous -> nth_error ms1 p = Some (Some m1) -> nth_error ms2 p = Some (Some m2) ->
  ~ uses np inner (IntBoth ms2 patches previous) m1 ->
  let kd := law m1 (und s' m1) (Some deformed) in let kp := law m2 (und s' m2) (Some previous) in
  mip_density np law (IntBoth ms1 patches deformed) (IntBoth ms2 patches previous) p s' c prev du v u =
  Some (Kstiff c (cA kd) (cB kd) (cC kd) (cD kd) (mip_N prev du (cA kp) (cB kp) (cN kp)) (mip_M prev du (cC kp) (cD kp) (cM kp)) v u).
Proof.
  intros G np inner ms1 ms2 patches deformed previous s s' p m1 m2 law c prev du v u E H1 H2 N1 N2 U kd kp. unfold mip_density.
  assert (E1 := E). assert (E2 := E).
  change (repeat (IntBoth ms1 patches deformed) 6 ++ repeat (IntBoth ms2 patches previous) 6)
    with (repeat (IntBoth ms1 patches deformed) 5 ++ IntBoth ms1 patches deformed :: repeat (IntBoth ms2 patches previous) 6) in E1.
  change (repeat (IntBoth ms1 patches deformed) 6 ++ repeat (IntBoth ms2 patches previous) 6)
    with ((repeat (IntBoth ms1 patches deformed) 6 ++ repeat (IntBoth ms2 patches previous) 5) ++ IntBoth ms2 patches previous :: []) in E2.
  rewrite (C96_own_geometry G np inner _ _ _ s s' p m1 coefs law E1 H1 N1).
  2:{ intros c' Hc Hu. apply repeat_spec in Hc. subst c'. contradiction. }
  rewrite (C96_own_geometry G np inner _ _ _ s s' p m2 coefs law E2 H2 N2) by (intros c' []). reflexivity.
Qed.
Print Assumptions C97_separate_materials.
Example C97_ex_separate : exists s', run (fun _ : nat => 1) (fun _ => None) (repeat (IntBoth [Some 0] 0 1) 6 ++ repeat (IntBoth [Some 5] 0 2) 6)
    {| und := fun _ => None; def := fun _ => None |} = Val s' /\ ~ uses (fun _ : nat => 1) (fun _ => None) (IntBoth [Some 5] 0 2) 0 /\
  def s' 0 = Some 1 /\ def s' 5 = Some 2.
Proof.
  eexists. split; [reflexivity|]. split; [|split; reflexivity].
  intro U. apply touched_uses in U. discriminate U.
Qed.

(* sample run: one patch, one material whose tangent is 1 in the (0,0) entry at every configuration except the previous one *)
Definition law97 (m : nat) (_ d : option nat) : coefs :=
  mkc (fun a b => if (a =? 0) && (b =? 0) then match d with Some 2 => 0%R | _ => 1%R end else 0%R) (fun _ _ => 0%R) (fun _ _ => 0%R) (fun _ _ => 0%R) (fun _ => 0%R) (fun _ => 0%R).
Definition ext1 : jet := tjet e1 vzero.
Lemma Kstiff97 : forall x, Kstiff flat_jet (fun a b => if (a =? 0) && (b =? 0) then x else 0%R) (fun _ _ => 0%R) (fun _ _ => 0%R) (fun _ _ => 0%R) (fun _ => 0%R) (fun _ => 0%R) ext1 ext1 = x.
Proof.
  intro x. unfold Kstiff, Ef_der2, flatdot2, var2deriv2dot, flatdot.
  set (ef := Ef_der flat_jet ext1). clearbody ef.
  cbn [dot3 sum3 vadd rowmat Em_der Nat.eqb andb]. unfold dot3, sum3, vadd, rowmat, Em_der, sum3. cbn [Nat.eqb andb].
  replace (dot3 (j1 flat_jet) (j1 ext1)) with 1%R by (unfold ext1; jd).
  replace (dot3 (j2 flat_jet) (j2 ext1)) with 0%R by (unfold ext1; jd).
  ring.
Qed.
Lemma Kmip97 : forall x,
  let A y := fun a b => if (a =? 0) && (b =? 0) then y else 0%R in let Z := fun _ _ : nat => 0%R in let z := fun _ : nat => 0%R in
  Kmip flat_jet flat_jet jzero (A x) Z Z Z (A 0%R) Z Z Z z z ext1 ext1 = x.
Proof.
  intros x A Z z. unfold Kmip.
  assert (EN : mip_N flat_jet jzero (A 0%R) Z z = z).
  { apply FunctionalExtensionality.functional_extensionality. intro b. unfold mip_N, vadd, rowmat, sum3, A, Z, z.
    cbn [Nat.eqb andb]. destruct (b =? 0); ring. }
  assert (EM : mip_M flat_jet jzero Z Z z = z).
  { apply FunctionalExtensionality.functional_extensionality. intro b. unfold mip_M, vadd, rowmat, sum3, Z, z. ring. }
  rewrite EN, EM. apply Kstiff97.
Qed.
(* with the evaluators actually constructed, the entry is not the one written in the code (1879-1888, 1929-1938), whose material
   tangents belong to the deformed configuration (geometry number 1; previous = 2) *)
Theorem C97_refuted : exists (law : nat -> option nat -> option nat -> coefs) s s' c prev du v u k,
  run (fun _ => 1) (fun _ => None) (mip_ctors [Some 0] 0 1 2) s = Val s' /\
  mip_density (fun _ => 1) law (IntBoth [Some 0] 0 1) (IntBoth [Some 0] 0 2) 0 s' c prev du v u = Some k /\
  regular c /\ regular prev /\
  let kd := law 0 (Some 0) (Some 1) in let kp := law 0 (Some 0) (Some 2) in
  k <> Kmip c prev du (cA kd) (cB kd) (cC kd) (cD kd) (cA kp) (cB kp) (cC kp) (cD kp) (cN kp) (cM kp) v u.
Proof.
  exists law97, {| und := fun _ => None; def := fun _ => None |}. eexists.
  exists flat_jet, flat_jet, jzero, ext1, ext1. eexists.
  split; [reflexivity|]. split; [reflexivity|]. split; [exact flat_ok|]. split; [exact flat_ok|]. cbv zeta.
  unfold law97. cbn [cA cB cC cD cN cM]. 
  pose proof (Kmip97 0%R) as H0. pose proof (Kmip97 1%R) as H1. cbv zeta in H0, H1. rewrite H1.
  intro K. exact (R1_neq_R0 (eq_trans (eq_sym K) H0)).
Qed.
Print Assumptions C97_refuted.
(* the hypotheses of C97_matrix_of_previous_material are met by that run *)
Example C97_ex : exists s', run (fun _ => 1) (fun _ => None) (mip_ctors [Some 0] 0 1 2) {| und := fun _ => None; def := fun _ => None |} = Val s' /\
  mip_density (fun _ => 1) law97 (IntBoth [Some 0] 0 1) (IntBoth [Some 0] 0 2) 0 s' flat_jet flat_jet jzero ext1 ext1 = Some 0%R.
Proof.
  eexists. split; [reflexivity|]. pose proof (Kmip97 0%R) as H0. cbv zeta in H0.
  unfold mip_density. cbn. f_equal. exact H0.
Qed.
