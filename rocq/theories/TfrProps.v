(* C138, C139: the tension field as the material of a membrane that carries no compression. *)
From Coq Require Import Reals Lra Lia List Psatz FunctionalExtensionality.
From Coquelicot Require Import Coquelicot.
From Verif Require Import Tensor MetricSpec MetricProofs LinearSpec LinearModel PrincipalModel PrincipalSpec PrincipalProofs TFTModel TFTSpec TFTProofs TFTRoot TFTBranch TFTWrinkle TFTImplicit TFTBranchProps KinModel KinSpec KinProofs KinAsm KinStiff TfrModel TfrSpec TfrProofs TfrTangent TfrClass TfrAsm TfrMem.
Import ListNotations.
Open Scope R_scope.

(* every strain is taut, slack or wrinkled, and the least energy over added wrinkle strains exists and is unique *)
Theorem C138_relaxed_energy : forall C E, sym3 C -> posdef3 C ->
  (exists tf th, describes C E tf th) /\ exists w, relaxed C E w /\ forall w', relaxed C E w' -> w' = w.
Proof.
  intros C E HS HP. destruct (state_exists C E HS HP) as (tf & th & D). split; [exists tf, th; exact D|].
  exists (inner_energy C (plus3 E (wrinkle_strain C E tf th))).
  assert (K := kkt_relaxed _ _ _ HS HP (describes_kkt _ _ _ _ HS HP D)). split; [exact K|]. intros w' H. exact (relaxed_unique _ _ _ _ H K).
Qed.
Print Assumptions C138_relaxed_energy.

(* the returned stress (SlackMultiplier 0, the default) is that of the minimiser, never compressive and without work on the wrinkles *)
Theorem C138_returned_stress : forall C E tf th theta, sym3 C -> posdef3 C -> describes C E tf th ->
  (tf = 0 -> theta C (inner_stress C E) E = Ok th) ->
  exists S P, tft_stress 0 C E tf theta = Ok S /\ psd_strain P /\ relaxed C E (inner_energy C (plus3 E P)) /\
    (forall i, (i < 3)%nat -> S i = inner_stress C (plus3 E P) i) /\ psd_stress S /\ dot3 S P = 0.
Proof.
  intros C E tf th theta HS HP D T. destruct (stress_returned 0 C E tf th theta D T) as (S & K & SE).
  assert (KK := describes_kkt _ _ _ _ HS HP D). exists S, (wrinkle_strain C E tf th).
  assert (Q : forall i, (i < 3)%nat -> S i = inner_stress C (plus3 E (wrinkle_strain C E tf th)) i).
  { intros i Hi. rewrite (SE i Hi). destruct (Req_EM_T tf (-1)); ring. }
  split; [exact K|]. split; [apply KK|]. split; [apply kkt_relaxed; assumption|]. split; [exact Q|]. split.
  - apply (psds_ext (inner_stress C (plus3 E (wrinkle_strain C E tf th)))); [intros; symmetry; apply Q; assumption|apply KK].
  - destruct KK as (_ & _ & Z). rewrite <- Z. unfold dot3, sum3. rewrite !Q by lia. reflexivity.
Qed.
Print Assumptions C138_returned_stress.

(* it is the gradient of the relaxed energy along every differentiable path of strains, also at the transitions *)
Theorem C138_stress_is_gradient : forall mult C tf th theta Wr e H, sym3 C -> posdef3 C -> describes C (e 0) tf th ->
  (tf = 0 -> theta C (inner_stress C (e 0)) (e 0) = Ok th) -> (mult = 0 \/ tf <> -1) ->
  (forall E, relaxed C E (Wr E)) -> is_dvec e 0 H ->
  exists S, tft_stress mult C (e 0) tf theta = Ok S /\ is_derive (fun t => Wr (e t)) 0 (dot3 S H).
Proof.
  intros mult C tf th theta Wr e H HS HP D T M HW DE. destruct (stress_returned mult C (e 0) tf th theta D T) as (S & K & SE).
  exists S. split; [exact K|]. assert (KK := describes_kkt _ _ _ _ HS HP D).
  evar_last; [exact (relaxed_derive C Wr e H _ HS HP HW DE KK)|]. unfold dot3, sum3.
  assert (Q : forall i, (i < 3)%nat -> S i = inner_stress C (plus3 (e 0) (wrinkle_strain C (e 0) tf th)) i).
  { intros i Hi. rewrite (SE i Hi). destruct (Req_EM_T tf (-1)) as [X|X]; [|ring]. destruct M as [M|M]; [rewrite M; ring|contradiction]. }
  rewrite !Q by lia. reflexivity.
Qed.
Print Assumptions C138_stress_is_gradient.

(* the stress is monotone and never changes more than the inner material's would, across all three states; in particular it is
   continuous and does not depend on which description or angle is used *)
Theorem C138_nonexpansive : forall C E E' tf tf' th th' theta theta', sym3 C -> posdef3 C ->
  describes C E tf th -> (tf = 0 -> theta C (inner_stress C E) E = Ok th) ->
  describes C E' tf' th' -> (tf' = 0 -> theta' C (inner_stress C E') E' = Ok th') ->
  exists S S' X, tft_stress 0 C E tf theta = Ok S /\ tft_stress 0 C E' tf' theta' = Ok S' /\
    (forall i, (i < 3)%nat -> S' i - S i = inner_stress C X i) /\ inner_energy C X <= inner_energy C (minus3 E' E) /\
    2 * inner_energy C X <= dot3 (minus3 S' S) (minus3 E' E).
Proof.
  intros C E E' tf tf' th th' theta theta' HS HP D T D' T'.
  destruct (C138_returned_stress C E tf th theta HS HP D T) as (S & P0 & K & _).
  destruct (C138_returned_stress C E' tf' th' theta' HS HP D' T') as (S' & P0' & K' & _). clear P0 P0'.
  destruct (stress_returned 0 C E tf th theta D T) as (S1 & K1 & SE). rewrite K in K1. inversion K1; subst S1.
  destruct (stress_returned 0 C E' tf' th' theta' D' T') as (S1' & K1' & SE'). rewrite K' in K1'. inversion K1'; subst S1'.
  assert (KK := describes_kkt _ _ _ _ HS HP D). assert (KK' := describes_kkt _ _ _ _ HS HP D').
  set (P := wrinkle_strain C E tf th) in *. set (P' := wrinkle_strain C E' tf' th') in *.
  assert (Q : forall i, (i < 3)%nat -> S i = inner_stress C (plus3 E P) i) by (intros i Hi; rewrite (SE i Hi); destruct (Req_EM_T tf (-1)); ring).
  assert (Q' : forall i, (i < 3)%nat -> S' i = inner_stress C (plus3 E' P') i) by (intros i Hi; rewrite (SE' i Hi); destruct (Req_EM_T tf' (-1)); ring).
  exists S, S', (minus3 (plus3 E' P') (plus3 E P)). split; [exact K|]. split; [exact K'|].
  assert (NE := proj2 (kkt_pair C E P E' P' HS HP KK KK')).
  split; [|split; [exact NE|]].
  - intros i Hi. rewrite (Q i Hi), (Q' i Hi). unfold inner_stress, minus3, sum3. ring.
  - destruct KK as (A & B & Z), KK' as (A' & B' & Z'). assert (R1 := psd_dot _ _ B A'). assert (R2 := psd_dot _ _ B' A).
    assert (X : dot3 (minus3 (inner_stress C (plus3 E' P')) (inner_stress C (plus3 E P))) (minus3 E' E)
      = 2 * inner_energy C (minus3 (plus3 E' P') (plus3 E P)) - (dot3 (inner_stress C (plus3 E' P')) P' - dot3 (inner_stress C (plus3 E' P')) P - dot3 (inner_stress C (plus3 E P)) P' + dot3 (inner_stress C (plus3 E P)) P)).
    { unfold inner_energy, inner_stress, dot3, minus3, plus3, sum3. field. }
    replace (dot3 (minus3 S' S) (minus3 E' E)) with (dot3 (minus3 (inner_stress C (plus3 E' P')) (inner_stress C (plus3 E P))) (minus3 E' E)).
    + rewrite X. lra.
    + unfold dot3, minus3, sum3. rewrite !Q, !Q' by lia. reflexivity.
Qed.
Print Assumptions C138_nonexpansive.

(* the default criterion describes every strain, unless the smaller principal stress is negative but within the tolerance of taut,
   or the larger principal strain is exactly 0 *)
Theorem C138_classified : forall gcov gcon C E vS wS vE wE tol tol' Sp Ep, frame gcov gcon -> sym3 C -> posdef3 C ->
  eigen_decomposition (Bten (stress_tensor (inner_stress C E)) gcov) vS wS -> pvals tol vS = Ok Sp ->
  eigen_decomposition (Bten (strain_tensor E) gcon) vE wE -> pvals tol' vE = Ok Ep ->
  (tensionField 2 Sp Ep = Taut -> 0 <= fst Sp) -> (tensionField 2 Sp Ep = Wrinkled -> snd Ep <> 0) ->
  exists th, describes C E (tf_value (tensionField 2 Sp Ep)) th.
Proof.
  intros gcov gcon C E vS wS vE wE tol tol' [p q] [p' q'] F HS HP ES VS EE VE HT HW. assert (F' := frame_swap _ _ F).
  assert (YS := stress_symmetric (inner_stress C E)). assert (YE := strain_symmetric E).
  destruct (tensionField 2 (p, q) (p', q')) eqn:TF; cbn [tf_value fst snd] in *.
  - exists 0. apply is_taut; [reflexivity|]. exact (min_nonneg gcon gcov _ vS wS tol p q F' YS ES VS (HT eq_refl)).
  - exists 0. apply is_slack; [reflexivity|]. intro a.
    assert (N : q' < 0). { unfold tensionField in TF. cbn [fst snd] in TF. destruct (_ || _)%bool; [discriminate|]. unfold neg in TF. destruct (Rlt_dec q' 0); [assumption|discriminate]. }
    assert (K := max_neg gcov gcon _ vE wE tol' p' q' F YE EE VE N a).
    replace (along (strain_tensor (fun i => - E i)) (wdir a) (wdir a)) with (- along (strain_tensor E) (wdir a) (wdir a)) by (unfold along, sum2, strain_tensor; field). lra.
  - assert (N : p < 0 /\ 0 <= q').
    { unfold tensionField in TF. cbn [fst snd] in TF. destruct (pos p) eqn:EP; [cbn in TF; discriminate|]. destruct (near_zero p (Rmax p q)) eqn:EN; [cbn in TF; discriminate|].
      cbn in TF. destruct (neg q') eqn:EQ; [discriminate|]. unfold pos in EP. destruct (Rlt_dec 0 p); [discriminate|].
      unfold neg in EQ. destruct (Rlt_dec q' 0); [discriminate|]. split; [|lra].
      destruct (Req_dec p 0) as [Z|Z]; [exfalso|lra]. unfold near_zero in EN. destruct (Rle_dec _ _) as [L|L]; [discriminate|]. apply L.
      rewrite Z, Rabs_R0. apply Rmult_le_pos; [apply Rmax_l|]. left. apply Rinv_0_lt_compat, pow_lt. lra. }
    destruct N as (N & N'). specialize (HW eq_refl).
    assert (A := min_neg gcon gcov _ vS wS tol p q F' YS ES VS N). assert (B := max_pos gcov gcon _ vE wE tol' p' q' F YE EE VE ltac:(lra)).
    destruct (proj2 (C120_exists_iff C E HS HP) (conj A B)) as (th & g & s & W). exists th. eapply is_wrinkled; [reflexivity|exact W].
Qed.
Print Assumptions C138_classified.

(* ---------------- the two other criteria ---------------- *)
Definition iso3 : mat := fun i j => match i, j with
  | 0%nat, 0%nat => 100/91 | 1%nat, 1%nat => 100/91 | 0%nat, 1%nat => 30/91 | 1%nat, 0%nat => 30/91 | 2%nat, 2%nat => 35/91 | _, _ => 0 end.
Lemma iso3_is : forall i j, (i < 3)%nat -> (j < 3)%nat -> voigt (Cijkl 1 (3/10) delta) i j = iso3 i j.
Proof.
  intros i j Hi Hj. three i Hi; three j Hj; unfold voigt, Cijkl, iso3, delta, Cconstant, lambda_of, mu_of; cbn; field; lra.
Qed.
Lemma iso3_sym : sym3 iso3.
Proof. intros i j Hi Hj. three i Hi; three j Hj; reflexivity. Qed.
Lemma iso3_posdef : posdef3 iso3.
Proof.
  intros v Hv. unfold sum3, iso3.
  replace (_ + _) with (70/91 * (v 0%nat * v 0%nat) + 70/91 * (v 1%nat * v 1%nat) + 30/91 * ((v 0%nat + v 1%nat) * (v 0%nat + v 1%nat)) + 35/91 * (v 2%nat * v 2%nat)) by field.
  assert (Q : forall x, 0 <= x * x) by (intro; apply Rle_0_sqr). assert (Q' : forall x, x <> 0 -> 0 < x * x) by (intros x X; apply Rsqr_pos_lt; exact X).
  generalize (Q (v 0%nat)) (Q (v 1%nat)) (Q (v 2%nat)) (Q (v 0%nat + v 1%nat)). destruct Hv as [X|[X|X]]; apply Q' in X; lra.
Qed.
Definition cart (i : nat) : vec := fun a => delta i a.
Lemma cart_frame : frame cart cart.
Proof.
  unfold frame, dual_bases, cart. split; [|split].
  - intros i j Hi Hj. three i Hi; three j Hj; unfold dot3, sum3, delta; cbn; ring.
  - unfold dot3, sum3, delta; cbn; ring.
  - intros i Hi. destruct i as [|[|i]]; [| |lia]; unfold dot3, sum3, delta; cbn; ring.
Qed.
Ltac eig := unfold eigen_decomposition, v3; split; [|split; [|split]];
  [intros k a Hk Ha; three k Hk; three a Ha; unfold mvec3, Bten, cart, delta, inner_stress, iso3, sum2, sum3; cbn; field
  |intros k a Hk Ha; three k Hk; three a Ha; unfold dot3, cart, delta, sum3; cbn; ring
  |intros k a Hk Ha; three k Hk; three a Ha; unfold cart, delta, sum3; cbn; ring
  |lra].


Ltac pv a b c := unfold pvals, zeroIdx, maxabs, v3; cbv iota beta; rewrite ?Rabs_R0;
  rewrite ?(Rabs_pos_eq a), ?(Rabs_pos_eq b), ?(Rabs_pos_eq c), ?(Rabs_left a), ?(Rabs_left b), ?(Rabs_left c) by lra;
  try replace (- (-97/100)) with (97/100) by lra;
  unfold Rmax; repeat (destruct (Rle_dec _ _)); destruct (Req_EM_T _ 0);
  repeat (match goal with |- context [Rlt_dec ?x ?y] => destruct (Rlt_dec x y) end); try reflexivity; exfalso; lra.

(* TensionField = 0 (strains only): a wrinkled value although the inner stress is positive in every direction *)
Theorem C138_strain_criterion_refuted : exists C E vS wS vE wE tol Sp Ep, sym3 C /\ posdef3 C /\
  eigen_decomposition (Bten (stress_tensor (inner_stress C E)) cart) vS wS /\ pvals tol vS = Ok Sp /\
  eigen_decomposition (Bten (strain_tensor E) cart) vE wE /\ pvals tol vE = Ok Ep /\
  (forall th, ~ describes C E (tf_value (tensionField 0 Sp Ep)) th) /\ exists th, describes C E (tf_value (tensionField 2 Sp Ep)) th.
Proof.
  exists iso3, (v3 1 (-1/10) 0), (v3 0 (20/91) (97/91)), (fun k => match k with 0%nat => cart 2 | 1%nat => cart 1 | _ => cart 0 end),
    (v3 (-1/10) 0 1), (fun k => match k with 0%nat => cart 1 | 1%nat => cart 2 | _ => cart 0 end), (1/1000), (20/91, 97/91), (-1/10, 1).
  split; [exact iso3_sym|]. split; [exact iso3_posdef|].
  assert (ES : eigen_decomposition (Bten (stress_tensor (inner_stress iso3 (v3 1 (-1/10) 0))) cart) (v3 0 (20/91) (97/91)) (fun k => match k with 0%nat => cart 2 | 1%nat => cart 1 | _ => cart 0 end)) by eig.
  assert (EE : eigen_decomposition (Bten (strain_tensor (v3 1 (-1/10) 0)) cart) (v3 (-1/10) 0 1) (fun k => match k with 0%nat => cart 1 | 1%nat => cart 2 | _ => cart 0 end)) by eig.
  assert (VS : pvals (1/1000) (v3 0 (20/91) (97/91)) = Ok (20/91, 97/91)) by pv 0 (20/91) (97/91).
  assert (VE : pvals (1/1000) (v3 (-1/10) 0 1) = Ok (-1/10, 1)) by pv (-1/10) 0 1.
  split; [exact ES|]. split; [exact VS|]. split; [exact EE|]. split; [exact VE|].
  assert (T2 : tensionField 2 (20/91, 97/91) (-1/10, 1) = Taut).
  { unfold tensionField, pos. cbn [fst snd]. destruct (Rlt_dec 0 (20/91)); [reflexivity|lra]. }
  assert (T0 : tensionField 0 (20/91, 97/91) (-1/10, 1) = Wrinkled).
  { unfold tensionField, pos, neg, near_zero. cbn [fst snd]. rewrite (Rmax_left 1 0), Rmax_right by lra. rewrite (Rabs_left (-1/10)) by lra.
    destruct (Rlt_dec 0 (-1/10)); [lra|]. destruct (Rlt_dec 1 0); [lra|].
    destruct (Rle_dec (- (-1/10)) _) as [L|L]; [exfalso|reflexivity]. assert (P : 10 < 10 ^ 12) by (simpl; lra). apply Rinv_lt_contravar in P; [|apply Rmult_lt_0_compat; [lra|apply pow_lt; lra]]. lra. }
  split.
  - intros th D. rewrite T0 in D. cbn [tf_value] in D.
    assert (PS : pos_stress (hooke iso3 (v3 1 (-1/10) 0))).
    { refine (proj2 (pd_entries _ (stress_sym (hooke iso3 (v3 1 (-1/10) 0)))) _). unfold stress_tensor, hooke, iso3, v3, sum3. split; lra. }
    assert (Q := taut_only _ _ _ _ iso3_sym iso3_posdef PS D). lra.
  - apply (C138_classified cart cart iso3 _ _ _ _ _ _ _ _ _ cart_frame iso3_sym iso3_posdef ES VS EE VE).
    + intros _. cbn [fst]. lra.
    + rewrite T2. discriminate.
Qed.
Print Assumptions C138_strain_criterion_refuted.

(* TensionField = 1 (stresses only): a slack value, hence no stress, although the strain is positive in a direction *)
Theorem C138_stress_criterion_refuted : exists C E vS wS vE wE tol Sp Ep, sym3 C /\ posdef3 C /\
  eigen_decomposition (Bten (stress_tensor (inner_stress C E)) cart) vS wS /\ pvals tol vS = Ok Sp /\
  eigen_decomposition (Bten (strain_tensor E) cart) vE wE /\ pvals tol vE = Ok Ep /\
  (forall th, ~ describes C E (tf_value (tensionField 1 Sp Ep)) th) /\ exists th, describes C E (tf_value (tensionField 2 Sp Ep)) th.
Proof.
  exists iso3, (v3 (-97/100) (1/5) 0), (v3 (-1) (-1/10) 0), (fun k => match k with 0%nat => cart 0 | 1%nat => cart 1 | _ => cart 2 end),
    (v3 (-97/100) 0 (1/5)), (fun k => match k with 0%nat => cart 0 | 1%nat => cart 2 | _ => cart 1 end), (1/1000), (-1, -1/10), (-97/100, 1/5).
  split; [exact iso3_sym|]. split; [exact iso3_posdef|].
  assert (ES : eigen_decomposition (Bten (stress_tensor (inner_stress iso3 (v3 (-97/100) (1/5) 0))) cart) (v3 (-1) (-1/10) 0) (fun k => match k with 0%nat => cart 0 | 1%nat => cart 1 | _ => cart 2 end)) by eig.
  assert (EE : eigen_decomposition (Bten (strain_tensor (v3 (-97/100) (1/5) 0)) cart) (v3 (-97/100) 0 (1/5)) (fun k => match k with 0%nat => cart 0 | 1%nat => cart 2 | _ => cart 1 end)) by eig.
  assert (VS : pvals (1/1000) (v3 (-1) (-1/10) 0) = Ok (-1, -1/10)) by pv (-1) (-1/10) 0.
  assert (VE : pvals (1/1000) (v3 (-97/100) 0 (1/5)) = Ok (-97/100, 1/5)) by pv (-97/100) 0 (1/5).
  split; [exact ES|]. split; [exact VS|]. split; [exact EE|]. split; [exact VE|].
  assert (NZ : forall x, x < 0 -> near_zero (-1) x = false).
  { intros x Hx. unfold near_zero. destruct (Rle_dec (Rabs (-1)) _) as [L|L]; [exfalso|reflexivity]. rewrite (Rabs_left (-1)) in L by lra.
    assert (P : 0 < / 10 ^ 12) by (apply Rinv_0_lt_compat, pow_lt; lra). nra. }
  assert (T2 : tensionField 2 (-1, -1/10) (-97/100, 1/5) = Wrinkled).
  { unfold tensionField, pos, neg. cbn [fst snd]. rewrite NZ by (rewrite Rmax_right; lra). destruct (Rlt_dec 0 (-1)); [lra|]. destruct (Rlt_dec (1/5) 0); [lra|reflexivity]. }
  assert (T1 : tensionField 1 (-1, -1/10) (-97/100, 1/5) = Slack).
  { unfold tensionField, pos, neg. cbn [fst snd]. rewrite NZ by (rewrite Rmax_right; lra). destruct (Rlt_dec 0 (-1)); [lra|]. destruct (Rlt_dec (-1/10) 0); [reflexivity|lra]. }
  split.
  - intros th D. rewrite T1 in D. cbn [tf_value] in D. destruct D as [A B|A B|g s A B]; [lra| |lra].
    specialize (B (PI / 2)). unfold along, sum2, strain_tensor, wdir, v3 in B. rewrite cos_PI2, sin_PI2 in B. lra.
  - apply (C138_classified cart cart iso3 _ _ _ _ _ _ _ _ _ cart_frame iso3_sym iso3_posdef ES VS EE VE).
    + rewrite T2. discriminate.
    + intros _. cbn [snd]. lra.
Qed.
Print Assumptions C138_stress_criterion_refuted.

(* with a SlackMultiplier other than 0 a slack point carries compression *)
Theorem C138_slack_multiplier_refuted : exists mult C E S, 0 < mult /\ sym3 C /\ posdef3 C /\ describes C E (-1) 0 /\
  (forall theta, tft_stress mult C E (-1) theta = Ok S) /\ ~ psd_stress S.
Proof.
  exists (1/10), iso3, (v3 (-1) (-1) 0), (smul (1/10) (inner_stress iso3 (v3 (-1) (-1) 0))).
  split; [lra|]. split; [exact iso3_sym|]. split; [exact iso3_posdef|]. split; [|split].
  - apply is_slack; [reflexivity|]. intro a. unfold along, sum2, strain_tensor, wdir, v3.
    assert (X := sin2_cos2 a). unfold Rsqr in X. nra.
  - intro theta. unfold tft_stress, stress_at, dispatch. destruct (Req_EM_T (-1) 1); [lra|]. destruct (Req_EM_T (-1) (-1)); [reflexivity|lra].
  - intro H. specialize (H 0). unfold along, sum2, stress_tensor, wdir, smul, inner_stress, iso3, v3, sum3 in H. rewrite cos_0, sin_0 in H. lra.
Qed.
Print Assumptions C138_slack_multiplier_refuted.

(* the derivative of the stress of a wrinkled point is symmetric and non-negative; the matrix of the code has it plus the coupling term *)
Theorem C138_tangent : forall C E th g s, sym3 C -> posdef3 C -> wrinkled_state C E th g s ->
  let T := fun i j => compute_C_lin th C (inner_stress C E) i j - coupling_term th C (inner_stress C E) i j in
  (forall i j, (i < 3)%nat -> (j < 3)%nat -> T i j = T j i) /\ (forall H, 0 <= sum3 (fun i => sum3 (fun j => H i * T i j * H j))).
Proof.
  intros C E th g s HS HP W T. split.
  - intros i j Hi Hj. change (T i j) with (wtan th C (hooke C E) i j). change (T j i) with (wtan th C (hooke C E) j i).
    assert (P : physical C (hooke C E) E th) by (apply (state_iff _ _ _ HS HP); eauto). destruct P as (R0 & N0 & M0).
    destruct (physical_state th C (hooke C E) E HS HP (fun i _ => eq_refl) R0 N0 M0) as (_ & _ & F0).
    apply wtan_sym; [exact HS|exact Hi|exact Hj|assert (X := posdef_D C th HP); lra|lra].
  - intro H. exact (wtan_nonneg th C E g s H HS HP W).
Qed.
Print Assumptions C138_tangent.

(* the code's own matrix need not be symmetric: an isotropic material in a skewed parametrisation *)
Theorem C138_matrix_symmetric_refuted : exists E nu (A : mat) F th g s i j, 0 < det2 A /\ 0 < A 0%nat 0%nat /\ A 0%nat 1%nat = A 1%nat 0%nat /\
  (i < 3)%nat /\ (j < 3)%nat /\
  let C := voigt (Cijkl E nu A) in sym3 C /\ posdef3 C /\ wrinkled_state C F th g s /\
    compute_C_lin th C (inner_stress C F) i j <> compute_C_lin th C (inner_stress C F) j i.
Proof.
  exists 1, 0, (fun i j => match i, j with 0%nat, 0%nat => 1 | 1%nat, 1%nat => 2 | _, _ => 1 end), (v3 (5/100) (6/100) (-12/100)), 0, (1/100), (6/100), 0%nat, 1%nat.
  set (A := fun i j => _). split; [unfold det2, A; lra|]. split; [unfold A; lra|]. split; [reflexivity|]. split; [lia|]. split; [lia|].
  cbv zeta. set (C := voigt (Cijkl 1 0 A)).
  assert (C00 : C 0%nat 0%nat = 1) by (unfold C, voigt, Cijkl, A, mu_of, Cconstant, lambda_of, mu_of; field; lra).
  assert (C01 : C 0%nat 1%nat = 1) by (unfold C, voigt, Cijkl, A, mu_of, Cconstant, lambda_of, mu_of; field; lra).
  assert (C02 : C 0%nat 2%nat = 1) by (unfold C, voigt, Cijkl, A, mu_of, Cconstant, lambda_of, mu_of; field; lra).
  assert (C11 : C 1%nat 1%nat = 4) by (unfold C, voigt, Cijkl, A, mu_of, Cconstant, lambda_of, mu_of; field; lra).
  assert (C12 : C 1%nat 2%nat = 2) by (unfold C, voigt, Cijkl, A, mu_of, Cconstant, lambda_of, mu_of; field; lra).
  assert (C22 : C 2%nat 2%nat = 3/2) by (unfold C, voigt, Cijkl, A, mu_of, Cconstant, lambda_of, mu_of; field; lra).
  assert (C10 : C 1%nat 0%nat = 1) by (rewrite <- C01; reflexivity).
  assert (C20 : C 2%nat 0%nat = 1) by (rewrite <- C02; reflexivity).
  assert (C21 : C 2%nat 1%nat = 2) by (rewrite <- C12; reflexivity).
  clearbody C. clear A.
  split; [|split; [|split]].
  - intros i j Hi Hj. three i Hi; three j Hj; congruence.
  - intros v Hv. unfold sum3. rewrite C00, C01, C02, C10, C11, C12, C20, C21, C22.
    replace (_ + _) with ((v 0%nat + v 1%nat + v 2%nat) * (v 0%nat + v 1%nat + v 2%nat) + / 2 * ((2 * v 1%nat + v 2%nat) * (2 * v 1%nat + v 2%nat)) + v 1%nat * v 1%nat) by field.
    assert (Q : forall x, 0 <= x * x) by (intro; apply Rle_0_sqr).
    assert (Q' : forall x, x <> 0 -> 0 < x * x) by (intros x X; apply Rsqr_pos_lt; exact X).
    generalize (Q (v 0%nat + v 1%nat + v 2%nat)) (Q (2 * v 1%nat + v 2%nat)) (Q (v 1%nat)). intros.
    destruct (Req_dec (v 1%nat) 0) as [Z1|Z1]; [|apply Q' in Z1; lra].
    destruct (Req_dec (v 2%nat) 0) as [Z2|Z2]; [|assert (X := Q' (2 * v 1%nat + v 2%nat) ltac:(lra)); lra].
    destruct Hv as [X|[X|X]]; [|contradiction|contradiction].
    assert (Y := Q' (v 0%nat + v 1%nat + v 2%nat) ltac:(lra)). lra.
  - unfold wrinkled_state. split; [lra|]. split; [lra|]. intros i j Hi Hj. 
    idx2 i Hi; idx2 j Hj; unfold stress_tensor, tdir, dyad, wdir, v3, sum3; cbn; rewrite sin_0, cos_0, ?C00, ?C01, ?C02, ?C10, ?C11, ?C12, ?C20, ?C21, ?C22; field.
  - assert (S0 : inner_stress C (v3 (5/100) (6/100) (-12/100)) 0%nat = -1/100) by (unfold inner_stress, v3, sum3; rewrite C00, C01, C02; field).
    assert (S1 : inner_stress C (v3 (5/100) (6/100) (-12/100)) 1%nat = 5/100) by (unfold inner_stress, v3, sum3; rewrite C10, C11, C12; field).
    assert (S2 : inner_stress C (v3 (5/100) (6/100) (-12/100)) 2%nat = -1/100) by (unfold inner_stress, v3, sum3; rewrite C20, C21, C22; field).
    set (S := inner_stress C (v3 (5/100) (6/100) (-12/100))) in *. clearbody S.
    assert (D : quad (n1v 0) C (n1v 0) = 1) by (unfold n1v; t3; rewrite sin_0, cos_0, C00, C01, C02, C10, C11, C12, C20, C21, C22; ring).
    assert (K : quad (n2v 0) C (n1v 0) = 1) by (unfold n1v, n2v; t3; rewrite sin_0, cos_0, C00, C01, C02, C10, C11, C12, C20, C21, C22; ring).
    assert (K4 : quad (n4v 0) C (n1v 0) = 1) by (unfold n1v, n4v; t3; rewrite sin_0, cos_0, C00, C01, C02, C10, C11, C12, C20, C21, C22; ring).
    assert (K2 : quad (n2v 0) C (n2v 0) = 3/2) by (unfold n2v; t3; rewrite sin_0, cos_0, C00, C01, C02, C10, C11, C12, C20, C21, C22; ring).
    assert (G : gamma 0 C S = 1/100). { unfold gamma. rewrite D. unfold n1v. t3. rewrite sin_0, cos_0, S0, S1, S2. field. }
    assert (GT : dgammadT 0 C S = -2/100). { unfold dgammadT, tmpc. rewrite G, D, K. field. }
    assert (FT : dfdT 0 C S = 7/100). { unfold dfdT. rewrite GT, G, K, K2, K4. unfold n4v. t3. rewrite sin_0, cos_0, S0, S1, S2. field. }
    unfold compute_C_lin, dn1_lin, dTdE_lin, dfdE_lin, dgammadE_lin. rewrite G, GT, FT, D, K. unfold n1v, n2v. t3.
    rewrite sin_0, cos_0, ?C00, ?C01, ?C02, ?C10, ?C11, ?C12, ?C20, ?C21, ?C22. lra.
Qed.
Print Assumptions C138_matrix_symmetric_refuted.

(* ================= C139: the assembled membrane ================= *)
(* no regularity of the deformed surface and no distance from the transitions is needed: the assembled internal force exists
   and is the gradient of the total relaxed energy *)
Theorem C139_force_is_gradient : forall n mult pts Wr x y,
  (forall q, In q pts -> sym3 (mC q) /\ posdef3 (mC q) /\ answers (mC q) (mtf q) (mtheta q) /\ (forall E, relaxed (mC q) E (Wr q E)) /\
     (mult = 0 \/ mtf q (mem n q x) <> -1)) ->
  exists f, (forall i d, Fmem n mult pts x i d = Ok (f i d)) /\
    is_derive (fun t => psum pts (fun q => mw q * (mth q * Wr q (mem n q (cmove x y t))))) 0 (rsum n (fun i => sum3 (fun d => f i d * y i d))).
Proof.
  intros n mult pts Wr x y H. exists (fun i d => rval (Fmem n mult pts x i d)). split.
  - intros i d. rewrite Fmem_ok by (intros q Hq; apply (H q Hq)). reflexivity.
  - exact (force_gradient n mult pts Wr x y H).
Qed.
Print Assumptions C139_force_is_gradient.

(* away from the transitions the force is differentiable in every direction, its derivative is symmetric, and the assembled
   matrix is that derivative plus the coupling terms of the wrinkled points *)
Theorem C139_jacobian : forall n mult pts x,
  (forall q, In q pts -> sym3 (mC q) /\ posdef3 (mC q) /\ answers (mC q) (mtf q) (mtheta q) /\ settled (mC q) (mem n q x)) ->
  exists K, (forall i d j e, K i d j e = K j e i d) /\
    (forall y i d, is_derive (fun t => rval (Fmem n mult pts (cmove x y t) i d)) 0 (rsum n (fun j => sum3 (fun e => K i d j e * y j e)))) /\
    (forall i d j e, Kmem n mult pts x i d j e = Ok (K i d j e +
      psum pts (fun q => mw q * (mth q * dot3 (rowmat (Em_der (mdef n q x) (bvar d (mbas q i))) (extra_at q (mem n q x))) (Em_der (mdef n q x) (bvar e (mbas q j))))))).
Proof.
  intros n mult pts x H. exists (Kexact n mult pts x). split; [|split].
  - intros. apply Kexact_sym. intros q Hq. destruct (H q Hq) as (A & B & D & _). auto.
  - intros y i d. apply force_derive. exact H.
  - intros. apply matrix_ok. intros q Hq. apply (H q Hq).
Qed.
Print Assumptions C139_jacobian.

(* so the assembled matrix is the derivative of the assembled force if no wrinkled point has a coupling between its wrinkling direction
   and the shear across it, as for an isotropic material in an orthonormal parametrisation (C34_orthonormal_isotropic) *)
Theorem C139_exact : forall n mult pts x,
  (forall q, In q pts -> sym3 (mC q) /\ posdef3 (mC q) /\ answers (mC q) (mtf q) (mtheta q) /\ settled (mC q) (mem n q x) /\
     (forall th, quad (n2v th) (mC q) (n1v th) = 0)) ->
  forall i d, exists K, (forall j e, Kmem n mult pts x i d j e = Ok (K j e)) /\
    forall y, is_derive (fun t => rval (Fmem n mult pts (cmove x y t) i d)) 0 (rsum n (fun j => sum3 (fun e => K j e * y j e))).
Proof.
  intros n mult pts x H i d. destruct (C139_jacobian n mult pts x) as (K & _ & D & M).
  { intros q Hq. destruct (H q Hq) as (A & B & C & S & _). auto. }
  exists (K i d). split; [|intro y; apply D]. intros j e. rewrite M. apply f_equal.
  replace (psum pts _) with 0; [ring|]. symmetry. transitivity (psum pts (fun _ : mpoint => 0)); [|clear; induction pts; cbn [psum]; [reflexivity|rewrite IHpts; ring]]. apply psum_same. intros q Hq. destruct (H q Hq) as (HS & HP & AN & ST & NC).
  assert (Z : forall a b, extra_at q (mem n q x) a b = 0).
  { intros a b. unfold extra_at. destruct (Req_EM_T _ 0); [|reflexivity]. unfold coupling_term. rewrite NC. unfold Rdiv. ring. }
  unfold dot3, rowmat, sum3. rewrite !Z. ring.
Qed.
Print Assumptions C139_exact.

(* ---------------- an instance: unit modulus, Poisson ratio 0, orthonormal parametrisation ---------------- *)
Definition oC : mat := fun i j => match i, j with 0%nat, 0%nat => 1 | 1%nat, 1%nat => 1 | 2%nat, 2%nat => / 2 | _, _ => 0 end.
Lemma oC_is : forall i j, (i < 3)%nat -> (j < 3)%nat -> voigt (Cijkl 1 0 delta) i j = oC i j.
Proof. intros i j Hi Hj. three i Hi; three j Hj; unfold voigt, Cijkl, oC, delta, Cconstant, lambda_of, mu_of; cbn; field; lra. Qed.
Lemma oC_sym : sym3 oC.
Proof. intros i j Hi Hj. three i Hi; three j Hj; reflexivity. Qed.
Lemma oC_posdef : posdef3 oC.
Proof.
  intros v Hv. unfold sum3, oC. assert (Q : forall x, 0 <= x * x) by (intro; apply Rle_0_sqr). assert (Q' : forall x, x <> 0 -> 0 < x * x) by (intros x X; apply Rsqr_pos_lt; exact X).
  generalize (Q (v 0%nat)) (Q (v 1%nat)) (Q (v 2%nat)). destruct Hv as [X|[X|X]]; apply Q' in X; lra.
Qed.
Definition orad (E : vec) : R := sqrt ((E 0%nat - E 1%nat) / 2 * ((E 0%nat - E 1%nat) / 2) + E 2%nat / 2 * (E 2%nat / 2)).
Definition olo (E : vec) : R := (E 0%nat + E 1%nat) / 2 - orad E.
Definition ohi (E : vec) : R := (E 0%nat + E 1%nat) / 2 + orad E.
Definition otf (E : vec) : R := if Rle_dec 0 (olo E) then 1 else if Rle_dec (ohi E) 0 then -1 else 0.
Definition oang (E : vec) : R := if Req_EM_T (E 2%nat) 0 then (if Rle_dec (E 0%nat) (E 1%nat) then 0 else PI / 2) else atan ((olo E - E 0%nat) / (E 2%nat / 2)).
Definition otheta (_ : mat) (_ E : vec) : outcome R := Ok (oang E).

(* principal axes *)
Lemma oaxes (E : vec) : let c := cos (oang E) in let s := sin (oang E) in
  E 0%nat = olo E * (c * c) + ohi E * (s * s) /\ E 1%nat = olo E * (s * s) + ohi E * (c * c) /\ E 2%nat / 2 = (olo E - ohi E) * (c * s).
Proof.
  assert (RR : orad E * orad E = (E 0%nat - E 1%nat) / 2 * ((E 0%nat - E 1%nat) / 2) + E 2%nat / 2 * (E 2%nat / 2)).
  { unfold orad. apply sqrt_sqrt. assert (Q : forall x, 0 <= x * x) by (intro; apply Rle_0_sqr). generalize (Q ((E 0%nat - E 1%nat) / 2)) (Q (E 2%nat / 2)). lra. }
  assert (RP : 0 <= orad E) by apply sqrt_pos.
  unfold oang, olo, ohi. set (r := orad E) in *. clearbody r. destruct (Req_EM_T (E 2%nat) 0) as [Z|Z]; cbv zeta.
  - rewrite Z in *. destruct (Rle_dec (E 0%nat) (E 1%nat)) as [L|L].
    + rewrite cos_0, sin_0. assert (r = (E 1%nat - E 0%nat) / 2) by nra. subst r. split; [|split]; field.
    + rewrite cos_PI2, sin_PI2. assert (r = (E 0%nat - E 1%nat) / 2) by nra. subst r. split; [|split]; field.
  - set (b := E 2%nat / 2) in *. assert (Hb : b <> 0) by (unfold b; lra). clearbody b. set (a := E 0%nat) in *. set (d := E 1%nat) in *. clearbody a d.
    set (k := ((a + d) / 2 - r - a) / b). rewrite cos_atan, sin_atan.
    assert (P : 0 < 1 + k * k) by (assert (0 <= k * k) by apply Rle_0_sqr; lra).
    assert (SQ : sqrt (1 + k²) * sqrt (1 + k²) = 1 + k * k) by (unfold Rsqr; apply sqrt_sqrt; lra).
    assert (NZ : sqrt (1 + k²) <> 0) by (intro X; rewrite X in SQ; lra).
    assert (CC : 1 / sqrt (1 + k²) * (1 / sqrt (1 + k²)) = / (1 + k * k)) by (rewrite <- SQ; field; exact NZ).
    assert (SS : k / sqrt (1 + k²) * (k / sqrt (1 + k²)) = k * k / (1 + k * k)) by (rewrite <- SQ; field; exact NZ).
    assert (CS : 1 / sqrt (1 + k²) * (k / sqrt (1 + k²)) = k / (1 + k * k)) by (rewrite <- SQ; field; exact NZ).
    rewrite CC, SS, CS. assert (KB : b * k = (d - a) / 2 - r) by (unfold k; field; exact Hb).
    assert (RR' : r * r = (a - d) / 2 * ((a - d) / 2) + b * b) by exact RR.
    assert (KB2 : b * b * (k * k) = ((d - a) / 2 - r) * ((d - a) / 2 - r)) by (rewrite <- KB; ring).
    assert (D : ((d - a) / 2 + r) * k = - b).
    { apply (Rmult_eq_reg_l b); [|exact Hb]. replace (b * (((d - a) / 2 + r) * k)) with (((d - a) / 2 + r) * (b * k)) by ring. rewrite KB. nra. }
    assert (KK : ((d - a) / 2 + r) * (k * k) = (a - d) / 2 + r). { replace (((d - a) / 2 + r) * (k * k)) with (((d - a) / 2 + r) * k * k) by ring. rewrite D. lra. }
    clearbody k.
    assert (U : forall x y, x * (1 + k * k) = y -> x = y / (1 + k * k)) by (intros x y <-; field; lra).
    split; [|split].
    + transitivity (((a + d) / 2 - r + ((a + d) / 2 + r) * (k * k)) / (1 + k * k)); [|field; lra]. apply U. lra.
    + transitivity ((((a + d) / 2 - r) * (k * k) + ((a + d) / 2 + r)) / (1 + k * k)); [|field; lra]. apply U. lra.
    + transitivity (((a + d) / 2 - r - ((a + d) / 2 + r)) * k / (1 + k * k)); [|field; lra]. apply U. nra.
Qed.
Lemma oC_answers : answers oC otf otheta.
Proof.
  intro E. exists (oang E). split; [|reflexivity]. assert (A := oaxes E). cbv zeta in A. destruct A as (A0 & A1 & A2).
  assert (RP : 0 <= orad E) by apply sqrt_pos. assert (LH : olo E <= ohi E) by (unfold olo, ohi; lra).
  set (c := cos (oang E)) in *. set (s := sin (oang E)) in *. assert (CS : c * c + s * s = 1) by (assert (X := sin2_cos2 (oang E)); unfold Rsqr in X; unfold c, s; lra).
  assert (FO : forall a, along (strain_tensor E) (wdir a) (wdir a) = olo E * ((c * cos a + s * sin a) * (c * cos a + s * sin a)) + ohi E * ((c * sin a - s * cos a) * (c * sin a - s * cos a))).
  { intro a. unfold along, sum2, strain_tensor, wdir. change (E 2%nat * / 2) with (E 2%nat / 2). rewrite A2, A0, A1. ring. }
  assert (Q : forall x, 0 <= x * x) by (intro; apply Rle_0_sqr).
  unfold otf. destruct (Rle_dec 0 (olo E)) as [L|L].
  - apply is_taut; [reflexivity|]. intro a. replace (along (stress_tensor _) (wdir a) (wdir a)) with (along (strain_tensor E) (wdir a) (wdir a)).
    + rewrite FO. apply Rplus_le_le_0_compat; apply Rmult_le_pos; (lra || apply Q).
    + unfold along, sum2, strain_tensor, stress_tensor, wdir, oC, sum3. field.
  - destruct (Rle_dec (ohi E) 0) as [M|M].
    + apply is_slack; [reflexivity|]. intro a. replace (along (strain_tensor (fun i => - E i)) (wdir a) (wdir a)) with (- along (strain_tensor E) (wdir a) (wdir a)) by (unfold along, sum2, strain_tensor; field).
      rewrite FO. generalize (Q (c * cos a + s * sin a)) (Q (c * sin a - s * cos a)). nra.
    + apply (is_wrinkled _ _ _ _ (- olo E) (ohi E)); [reflexivity|]. unfold wrinkled_state. split; [lra|]. split; [lra|].
      assert (A2' : E 2%nat = 2 * ((olo E - ohi E) * (c * s))) by lra.
      intros i j Hi Hj. idx2 i Hi; idx2 j Hj; unfold stress_tensor, tdir, dyad, wdir, oC, sum3; cbn; fold c; fold s; rewrite ?A2'; rewrite ?A0 at 1; rewrite ?A1 at 1; field.
Qed.
Definition oWr (E : vec) : R := inner_energy oC (plus3 E (wrinkle_strain oC E (otf E) (oang E))).
Lemma oWr_relaxed : forall E, relaxed oC E (oWr E).
Proof.
  intro E. destruct (oC_answers E) as (th & D & T). unfold oWr. apply kkt_relaxed; [exact oC_sym|exact oC_posdef|].
  apply describes_kkt; [exact oC_sym|exact oC_posdef|]. destruct D as [A B|A B|g s A B].
  - apply is_taut; assumption.
  - apply is_slack; assumption.
  - specialize (T A). inversion T; subst. eapply is_wrinkled; eassumption.
Qed.

(* the three states of this material, and the derivative at a transition *)
Example C138_states : otf (v3 1 (1/2) 0) = 1 /\ otf (v3 (-1) (-1/2) 0) = -1 /\ otf (v3 (-1) (1/2) 0) = 0.
Proof.
  assert (R : forall a d x, 0 <= x -> (a - d) / 2 * ((a - d) / 2) = x * x -> orad (v3 a d 0) = x).
  { intros a d x Hx E. unfold orad, v3. replace (0 / 2 * (0 / 2)) with 0 by field. rewrite Rplus_0_r, E. apply sqrt_square, Hx. }
  unfold otf, olo, ohi. rewrite (R 1 (1/2) (1/4)), (R (-1) (-1/2) (1/4)), (R (-1) (1/2) (3/4)) by lra. unfold v3.
  split; [|split]; repeat (destruct (Rle_dec _ _)); (reflexivity || (exfalso; lra)).
Qed.
Example C138_gradient_at_transition : exists S, tft_stress 0 oC (v3 1 0 0) (otf (v3 1 0 0)) otheta = Ok S /\
  is_derive (fun t => oWr (v3 1 t 0)) 0 (S 1%nat) /\ S 0%nat = 1 /\ S 1%nat = 0.
Proof.
  assert (R : orad (v3 1 0 0) = /2).
  { unfold orad, v3. replace ((1 - 0) / 2 * ((1 - 0) / 2) + 0 / 2 * (0 / 2)) with (/2 * /2) by field. apply sqrt_square. lra. }
  assert (T : otf (v3 1 0 0) = 1). { unfold otf, olo. rewrite R. unfold v3. destruct (Rle_dec 0 _); [reflexivity|lra]. }
  destruct (oC_answers (v3 1 0 0)) as (th & D & A).
  destruct (C138_stress_is_gradient 0 oC (otf (v3 1 0 0)) th otheta oWr (fun t => v3 1 t 0) (v3 0 1 0) oC_sym oC_posdef D A (or_introl eq_refl) oWr_relaxed) as (S & K & DV).
  { intros i Hi. three i Hi; unfold v3; auto_derive; (exact I || ring). }
  exists S. split; [exact K|]. split; [|].
  - evar_last; [exact DV|]. unfold dot3, v3, sum3. ring.
  - cbv beta in K. rewrite T in K. unfold tft_stress, stress_at, dispatch in K. destruct (Req_EM_T 1 1); [|lra]. inversion K. unfold inner_stress, oC, v3, sum3. split; ring.
Qed.

(* a point compressed in one direction and stretched in the other *)
Definition ex_bas (i : nat) : sjet := match i with 0%nat => mksjet 0 1 0 0 0 0 | _ => mksjet 0 0 1 0 0 0 end.
Definition ex_ori : jet := mkjet (v3 0 0 0) (v3 1 0 0) (v3 0 1 0) (v3 0 0 0) (v3 0 0 0) (v3 0 0 0).
Definition ex_pt : mpoint := mkm 1 ex_bas ex_ori 2 oC otf otheta.
Definition ex_x : coefs := fun i d => match i, d with 0%nat, 0%nat => -1/10 | 1%nat, 1%nat => 1/10 | _, _ => 0 end.
Lemma ex_j1 : forall a, (a < 3)%nat -> j1 (mdef 2 ex_pt ex_x) a = v3 (9/10) 0 0 a.
Proof.
  intros a Ha. unfold mdef, ex_pt. cbn [mori mbas fieldjet j1 jadd jscal bvar ex_bas ex_ori s0 s1 s2 s11 s22 s12 jzero].
  three a Ha; unfold vadd, vscal, ex_x, vecFun, v3, vzero; cbn [Nat.eqb]; field.
Qed.
Lemma ex_j2 : forall a, (a < 3)%nat -> j2 (mdef 2 ex_pt ex_x) a = v3 0 (11/10) 0 a.
Proof.
  intros a Ha. unfold mdef, ex_pt. cbn [mori mbas fieldjet j2 jadd jscal bvar ex_bas ex_ori s0 s1 s2 s11 s22 s12 jzero].
  three a Ha; unfold vadd, vscal, ex_x, vecFun, v3, vzero; cbn [Nat.eqb]; field.
Qed.
Lemma ex_mem : forall a, (a < 3)%nat -> mem 2 ex_pt ex_x a = v3 (-19/200) (21/200) 0 a.
Proof.
  intros a Ha. unfold mem, mem_strain. change (mori ex_pt) with ex_ori. three a Ha; unfold dot3, sum3; rewrite ?ex_j1, ?ex_j2 by lia; unfold ex_ori, v3; cbn [j1 j2]; field.
Qed.
Lemma ex_tf : otf (mem 2 ex_pt ex_x) = 0 /\ oang (mem 2 ex_pt ex_x) = 0.
Proof.
  assert (R : orad (mem 2 ex_pt ex_x) = 1/10).
  { unfold orad. rewrite !ex_mem by lia. unfold v3. replace (_ + _) with (1/10 * (1/10)) by field. apply sqrt_square. lra. }
  unfold otf, oang, olo, ohi. rewrite R, !ex_mem by lia. unfold v3. split.
  - destruct (Rle_dec 0 _); [lra|]. destruct (Rle_dec _ 0); [lra|reflexivity].
  - destruct (Req_EM_T 0 0); [|lra]. destruct (Rle_dec _ _); [reflexivity|lra].
Qed.
Example C139_compressed : exists f K, (forall i d, Fmem 2 0 [ex_pt] ex_x i d = Ok (f i d)) /\ f 0%nat 0%nat = 0 /\ f 1%nat 1%nat = 231/1000 /\
  (forall j e, Kmem 2 0 [ex_pt] ex_x 1 1 j e = Ok (K j e)) /\
  forall y, is_derive (fun t => rval (Fmem 2 0 [ex_pt] (cmove ex_x y t) 1 1)) 0 (rsum 2 (fun j => sum3 (fun e => K j e * y j e))).
Proof.
  destruct (C139_exact 2 0 [ex_pt] ex_x) with (i := 1%nat) (d := 1%nat) as (K & M & DK).
  { intros q [<-|[]]. split; [exact oC_sym|]. split; [exact oC_posdef|]. split; [exact oC_answers|]. split.
    - right; right. destruct (oC_answers (mem 2 ex_pt ex_x)) as (th & D & _). destruct D as [A _|A _|g s _ W]; [rewrite (proj1 ex_tf) in A; lra|rewrite (proj1 ex_tf) in A; lra|eauto].
    - intro th. cbn [mC ex_pt]. unfold n1v, n2v, oC. t3. field. }
  exists (fun i d => rval (Fmem 2 0 [ex_pt] ex_x i d)), K.
  assert (OK := Fmem_ok 2 0 [ex_pt] ex_x). 
  assert (AN : forall q, In q [ex_pt] -> answers (mC q) (mtf q) (mtheta q)) by (intros q [<-|[]]; exact oC_answers).
  split; [intros i d; rewrite (OK i d AN); reflexivity|].
  assert (SV : forall a, (a < 3)%nat -> Sof 0 ex_pt (mem 2 ex_pt ex_x) a = v3 0 (21/200) 0 a).
  { intros a Ha. unfold Sof, tft_stress, stress_at, dispatch. cbn [mtf mtheta mC ex_pt]. rewrite (proj1 ex_tf).
    destruct (Req_EM_T 0 1); [lra|]. destruct (Req_EM_T 0 (-1)); [lra|]. destruct (Req_EM_T 0 0); [|lra]. unfold otheta. cbn [bindo oval]. rewrite (proj2 ex_tf).
    unfold compute_S, gamma, n1v. t3. unfold inner_stress, sum3. rewrite !ex_mem by lia. rewrite sin_0, cos_0. three a Ha; unfold oC, v3; field. }
  split; [|split; [|split; [exact M|exact DK]]].
  - rewrite (OK 0%nat 0%nat AN). cbn [rval psum mw mth mbas]. unfold Fint_mem, dot3 at 1, sum3 at 1. cbn [mth mw mbas ex_pt]. rewrite !SV by lia.
    unfold v3. unfold Em_der. change (ex_bas 0) with (mksjet 0 1 0 0 0 0). unfold bvar. cbn [j1 j2 s1 s2]. unfold dot3, sum3, vecFun. cbn [Nat.eqb]. field.
  - rewrite (OK 1%nat 1%nat AN). cbn [rval psum mw mth mbas]. unfold Fint_mem, dot3 at 1, sum3 at 1. cbn [mth mw mbas ex_pt]. rewrite !SV by lia.
    unfold v3. unfold Em_der. change (ex_bas 1) with (mksjet 0 0 1 0 0 0). unfold bvar. cbn [j1 j2 s1 s2]. unfold dot3, sum3, vecFun. cbn [Nat.eqb]. rewrite !ex_j1, !ex_j2 by lia. unfold v3. field.
Qed.
