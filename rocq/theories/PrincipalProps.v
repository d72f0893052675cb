(* Property theorems C14, C15, C70, C71 (principal quantities, tension-field classification, basis transformation). *)
From Coq Require Import Reals Lra Lia Arith.
From Verif Require Import Tensor MetricModel MetricSpec MetricProofs LinearSpec PrincipalModel PrincipalSpec PrincipalProofs.
Open Scope R_scope.

(* C14: exactly which ordered principal pairs are taut (0 strain based, 1 stress based, 2 mixed) ... *)
Theorem C14_taut_iff : forall typ Sp Ep, (typ <= 2)%nat -> fst Sp <= snd Sp -> fst Ep <= snd Ep ->
  let x := match typ with 0%nat => fst Ep | _ => fst Sp end in
  let y := match typ with 0%nat => Rmax (snd Ep) 0 | _ => snd Sp end in
  (tensionField typ Sp Ep = Taut <-> 0 <= x \/ (- (y * / 10 ^ 12) <= x < 0 /\ 0 < y)).
Proof. exact tf_taut. Qed.
Print Assumptions C14_taut_iff.

(* ... a slack point has both decisive principal values negative, and conversely ... *)
Theorem C14_slack_sound : forall typ Sp Ep, (typ <= 2)%nat -> fst Sp <= snd Sp -> fst Ep <= snd Ep ->
  tensionField typ Sp Ep = Slack -> (match typ with 1%nat => snd Sp | _ => snd Ep end) < 0.
Proof. exact tf_slack. Qed.
Print Assumptions C14_slack_sound.
Theorem C14_slack_complete : forall typ Sp Ep, (typ <= 2)%nat -> fst Sp <= snd Sp -> fst Ep <= snd Ep ->
  match typ with 1%nat => snd Sp < 0 | 0%nat => snd Ep < 0 | _ => snd Sp < 0 /\ snd Ep < 0 end -> tensionField typ Sp Ep = Slack.
Proof. exact tf_slack_conv. Qed.
Print Assumptions C14_slack_complete.

(* ... raising principal values never leaves the taut state, positive rescaling never changes the state ... *)
Theorem C14_monotone : forall typ Sp Ep Sp' Ep', (typ <= 2)%nat -> fst Sp <= snd Sp -> fst Ep <= snd Ep -> fst Sp' <= snd Sp' -> fst Ep' <= snd Ep' ->
  fst Sp <= fst Sp' -> snd Sp <= snd Sp' -> fst Ep <= fst Ep' -> snd Ep <= snd Ep' ->
  tensionField typ Sp Ep = Taut -> tensionField typ Sp' Ep' = Taut.
Proof. exact tf_monotone. Qed.
Print Assumptions C14_monotone.
Theorem C14_scale_invariant : forall typ s e Sp Ep, 0 < s -> 0 < e ->
  tensionField typ (s * fst Sp, s * snd Sp) (e * fst Ep, e * snd Ep) = tensionField typ Sp Ep.
Proof. exact tf_homogeneous. Qed.
Print Assumptions C14_scale_invariant.

(* ... on the isotropic plane-stress law the three criteria are ordered ... *)
Theorem C14_criteria_consistent : forall E nu Ep, 0 < E -> 0 <= nu < 1 -> fst Ep <= snd Ep ->
  let Sp := iso_principal E nu Ep in
  fst Sp <= snd Sp /\
  (tensionField 0 Sp Ep = Slack <-> tensionField 2 Sp Ep = Slack) /\
  (tensionField 2 Sp Ep = Slack -> tensionField 1 Sp Ep = Slack) /\
  (tensionField 1 Sp Ep = Taut <-> tensionField 2 Sp Ep = Taut) /\
  (0 < fst Ep -> tensionField 2 Sp Ep = Taut).
Proof. exact tf_mixed_consistent. Qed.
Print Assumptions C14_criteria_consistent.

(* ... and an option value other than 0, 1, 2 leaves the answer uninitialised. *)
Theorem C14_option_guard : forall opt Sp Ep, eval_tensionfield opt Sp Ep = UB <-> (2 < opt)%nat.
Proof. exact tf_option. Qed.
Print Assumptions C14_option_guard.

Example C14_all_states : tensionField 2 (1, 2) (1, 2) = Taut /\ tensionField 2 (-1, 2) (-1, 1) = Wrinkled /\ tensionField 2 (-2, -1) (-2, -1) = Slack.
Proof.
  repeat split.
  - apply (C14_taut_iff 2 (1,2) (1,2)); cbn; [lia|lra|lra|left; lra].
  - destruct (tensionField 2 (-1, 2) (-1, 1)) eqn:E; [| |reflexivity].
    + apply (C14_taut_iff 2 (-1,2) (-1,1)) in E; cbn in *; try lia; try lra.
    + apply (C14_slack_sound 2 (-1,2) (-1,1)) in E; cbn in *; try lia; try lra.
  - apply (C14_slack_complete 2 (-2,-1) (-2,-1)); cbn; [lia|lra|lra|lra].
Qed.

(* C15: away from the shortcut the returned stretches and directions are the principal ones. *)
Theorem C15_stretch_correct : forall eps g z C vals vecs, regular g -> det3 (Gcov g z) <> 0 -> spd2 C ->
  eigen_decomposition (Bten C (gcon g z)) vals vecs -> shortcut eps (Bten C (gcon g z)) = false ->
  let r := evalStretch eps C (gcon g z) vals vecs in
  principal_stretches (Bten C (gcon g z)) (normal g) (fst r 0%nat) (fst r 1%nat) (snd r 0%nat) (snd r 1%nat).
Proof. exact stretch_correct. Qed.
Print Assumptions C15_stretch_correct.

(* C15: whenever the shortcut fires for a deformed state it reports unit stretches, at least one of them wrongly. *)
Theorem C15_shortcut_wrong : forall eps g z C vals vecs, regular g -> det3 (Gcov g z) <> 0 -> spd2 C ->
  eigen_decomposition (Bten C (gcon g z)) vals vecs -> shortcut eps (Bten C (gcon g z)) = true ->
  (exists i j, (i < 2)%nat /\ (j < 2)%nat /\ C i j <> Gcov g z i j) ->
  let r := evalStretch eps C (gcon g z) vals vecs in
  fst r 0%nat = 1 /\ fst r 1%nat = 1 /\ (sqrt (vals 1%nat) <> fst r 0%nat \/ sqrt (vals 2%nat) <> fst r 1%nat).
Proof. exact stretch_shortcut_wrong. Qed.
Print Assumptions C15_shortcut_wrong.

(* C15 refuted: a flat point stretched by sqrt(3/2) and sqrt(1/2) takes the shortcut. *)
Theorem C15_principal_stretches_refuted : exists g C vals vecs, regular g /\ det3 (Gcov g 0) <> 0 /\ spd2 C /\
  eigen_decomposition (Bten C (gcon g 0)) vals vecs /\
  forall eps, 0 < eps -> let r := evalStretch eps C (gcon g 0) vals vecs in
    ~ principal_stretches (Bten C (gcon g 0)) (normal g) (fst r 0%nat) (fst r 1%nat) (snd r 0%nat) (snd r 1%nat).
Proof. exact stretch_refuted. Qed.
Print Assumptions C15_principal_stretches_refuted.

(* hypotheses of C15_stretch_correct are met by a genuine stretch (2 and 3) of the same flat point *)
Example C15_correct_case : exists g C vals vecs, regular g /\ det3 (Gcov g 0) <> 0 /\ spd2 C /\
  eigen_decomposition (Bten C (gcon g 0)) vals vecs /\ shortcut (/ 10 ^ 15) (Bten C (gcon g 0)) = false.
Proof. exact stretch_case. Qed.

(* C70: _transformation(b1,b2) times the (11,22,12) components on basis b1 are the components along basis b2,
   i.e. it maps FROM its first TO its second argument. *)
Theorem C70_transformation : forall b1 b2 X r, symmetric 2 X -> (r < 3)%nat ->
  mvec3 (transformation b1 b2) (voigt3 X) r = voigt3 (tensor_on X b1 b2) r.
Proof. exact transformation_correct. Qed.
Print Assumptions C70_transformation.

(* C70: for dual pairs of in-plane bases the transformation with the dual bases swapped undoes it. *)
Theorem C70_transformation_inverse : forall b1 b2 d1 d2, coplanar_duals b1 d1 b2 d2 -> forall s r, (r < 3)%nat ->
  mvec3 (transformation d2 d1) (mvec3 (transformation b1 b2) s) r = s r.
Proof. exact transformation_inverse. Qed.
Print Assumptions C70_transformation_inverse.

(* C70 refuted: the direction in the doc comment (from basis2 to basis1) is wrong. *)
Theorem C70_documented_direction_refuted : exists b1 b2 X, symmetric 2 X /\
  mvec3 (transformation b1 b2) (voigt3 X) 0%nat <> voigt3 (tensor_on X b2 b1) 0%nat.
Proof. exact transformation_direction_refuted. Qed.
Print Assumptions C70_documented_direction_refuted.

(* C71: principal stress / strain values.  For every symmetric in-plane tensor on a shell point the two values returned are
   eigenvalues in ascending order and the dropped eigenvalue is (relatively) negligible; no out-of-range write happens. *)
Theorem C71_principal_values : forall tol g z X vals vecs, 0 < tol -> regular g -> det3 (Gcov g z) <> 0 -> symmetric 2 X ->
  eigen_decomposition (Bten X (gcon g z)) vals vecs ->
  exists p q d, pvals tol vals = Ok (p, q) /\ p <= q /\
    ((p, q, d) = (vals 1%nat, vals 2%nat, vals 0%nat) \/ (p, q, d) = (vals 0%nat, vals 2%nat, vals 1%nat) \/ (p, q, d) = (vals 0%nat, vals 1%nat, vals 2%nat)) /\
    (Rabs d < tol * maxabs vals \/ maxabs vals = 0).
Proof. exact principal_values. Qed.
Print Assumptions C71_principal_values.
(* C71: hence their sum is the trace of the tensor up to the dropped value *)
Theorem C71_trace : forall tol g z X vals vecs p q, 0 < tol -> regular g -> det3 (Gcov g z) <> 0 -> symmetric 2 X ->
  eigen_decomposition (Bten X (gcon g z)) vals vecs -> pvals tol vals = Ok (p, q) ->
  Rabs (p + q - sum2 (fun k => sum2 (fun l => X k l * Gcon g z k l))) <= tol * maxabs vals.
Proof. exact principal_trace. Qed.
Print Assumptions C71_trace.

(* hypotheses of C70_transformation_inverse: a skew pair of bases of the plane against the Cartesian one *)
Example C70_case : coplanar_duals
  (fun i c => match i, c with 0%nat, 0%nat => 2 | 1%nat, 0%nat => 1 | 1%nat, 1%nat => 1 | _, _ => 0 end)
  (fun i c => match i, c with 0%nat, 0%nat => 1/2 | 0%nat, 1%nat => -1/2 | 1%nat, 1%nat => 1 | _, _ => 0 end)
  (fun i c => delta i c) (fun i c => delta i c).
Proof.
  split; intros i j Hi Hj; [idx2 i Hi; idx2 j Hj|idx2 i Hi; idx3 j Hj]; cbv [dot3 sum2 sum3 delta Nat.eqb]; lra.
Qed.
Example C71_case : exists g X vals vecs, regular g /\ det3 (Gcov g 0) <> 0 /\ symmetric 2 X /\ eigen_decomposition (Bten X (gcon g 0)) vals vecs /\ vals 2%nat = 9.
Proof.
  exists flat, (dg 9 4), (dg_vals 9 4), dg_vecs. split; [exact flat_regular|]. split; [rewrite flat_det; lra|].
  split; [exact (proj1 (dg_spd 9 4 ltac:(lra) ltac:(lra)))|]. split; [apply dg_eigen; lra|reflexivity].
Qed.
