(* C120, C121: existence, uniqueness and smoothness of the wrinkled state of a linear membrane. *)
From Coq Require Import Reals Lra Lia List Psatz ZArith.
From Coquelicot Require Import Coquelicot.
From Verif Require Import Tensor MetricModel LinearModel LinearSpec LinearProofs TFTModel TFTSpec TFTProofs TFTRoot TFTBranch TFTWrinkle TFTImplicit TFTProps.
Import ListNotations.
Open Scope R_scope.

Lemma dyad_n1 th i : dyad th i = n1v th i.
Proof. destruct i as [|[|i]]; unfold dyad, n1v, v3, wdir; ring. Qed.
Lemma state_S C E th g i : sum3 (fun j => C i j * (E j + g * dyad th j)) = hooke C E i + mvec3 C (fun k => g * n1v th k) i.
Proof. unfold hooke, mvec3, sum3. rewrite !dyad_n1. ring. Qed.
Lemma uniaxial_ext S S' th s : (forall i, (i < 3)%nat -> S i = S' i) -> uniaxial S th s -> uniaxial S' th s.
Proof. intros H U a b Ha Hb. rewrite <- (U a b Ha Hb). unfold stress_tensor. destruct a, b; rewrite ?H by lia; reflexivity. Qed.

Lemma state_iff C E th : sym3 C -> posdef3 C ->
  (physical C (hooke C E) E th <-> exists g s, wrinkled_state C E th g s) /\
  (forall g s, wrinkled_state C E th g s -> g = gamma th C (hooke C E) /\ uniaxial (compute_S th C (hooke C E)) th s).
Proof.
  intros HS HP. assert (D := posdef_D C th HP).
  assert (B : forall g s, wrinkled_state C E th g s -> g = gamma th C (hooke C E) /\ uniaxial (compute_S th C (hooke C E)) th s).
  { intros g s (G & Ps & U).
    assert (U1 : uniaxial (fun i => hooke C E i + mvec3 C (fun k => g * n1v th k) i) th s) by (eapply uniaxial_ext; [|exact U]; intros; apply state_S).
    assert (Q : dot3 (n1v th) (fun i => hooke C E i + mvec3 C (fun k => g * n1v th k) i) = 0).
    { rewrite (dot_uniaxial _ _ _ _ U1). unfold tdir, Rsqr. ring. }
    assert (GE : g = gamma th C (hooke C E)).
    { unfold gamma. apply (Rmult_eq_reg_r (quad (n1v th) C (n1v th))); [|lra]. unfold Rdiv. rewrite Rmult_assoc, Rinv_l by lra.
      replace (dot3 (n1v th) (fun i => hooke C E i + mvec3 C (fun k => g * n1v th k) i)) with (dot3 (n1v th) (hooke C E) + g * quad (n1v th) C (n1v th)) in Q by (t3; ring). lra. }
    split; [exact GE|]. eapply uniaxial_ext; [|exact U1]. intros i _. unfold compute_S. rewrite <- GE. reflexivity. }
  split; [|exact B]. split.
  - intros (R0 & N & M). destruct (physical_state th C (hooke C E) E HS HP (fun i _ => eq_refl) R0 N M) as (G & (s & Ps & U) & _).
    exists (gamma th C (hooke C E)), s. split; [exact G|]. split; [exact Ps|]. eapply uniaxial_ext; [|exact U]. intros i _. symmetry. apply state_S.
  - intros (g & s & W). destruct (B g s W) as (GE & U). destruct W as (G & Ps & U0).
    assert (EN := tension_energy th C (hooke C E) E s (fun i _ => eq_refl) U). rewrite <- quad_sum in EN.
    split; [|split].
    + apply (uniaxial_iff th C (hooke C E)); [lra|]. exists s. exact U.
    + rewrite along_nn. unfold gamma in GE. assert (Q : g * quad (n1v th) C (n1v th) = - dot3 (n1v th) (hooke C E)) by (rewrite GE; field; lra). nra.
    + assert (P : 0 < quad (compute_E th C (hooke C E) E) C (compute_E th C (hooke C E) E)).
      { rewrite quad_sum. apply HP. set (Es := compute_E th C (hooke C E) E).
        destruct (Req_dec (Es 0%nat) 0) as [A0|A0]; [|left; exact A0]. destruct (Req_dec (Es 1%nat) 0) as [A1|A1]; [|right; left; exact A1]. right; right. intro A2.
        (* zero strain gives zero stress *)
        assert (Z : forall i, (i < 3)%nat -> compute_S th C (hooke C E) i = 0).
        { intros i Hi. assert (K := stress_of_strain th C (hooke C E) E i). fold Es in K. unfold sum3 in K. rewrite A0, A1, A2 in K.
          assert (KH : hooke C E i = C i 0%nat * E 0%nat + C i 1%nat * E 1%nat + C i 2%nat * E 2%nat) by reflexivity. lra. }
        assert (Q0 := U 0%nat 0%nat ltac:(lia) ltac:(lia)). assert (Q1 := U 1%nat 1%nat ltac:(lia) ltac:(lia)). cbn [stress_tensor] in Q0, Q1. rewrite Z in Q0, Q1 by lia.
        assert (K := mm1 th). nra. }
      rewrite <- EN in P. nra.
Qed.

(* C120: a linear membrane with positive definite stiffness has a wrinkled state exactly when some direction is compressed by the
   unmodified stress and some direction is extended (neither taut nor slack) ... *)
Theorem C120_exists_iff : forall C E, sym3 C -> posdef3 C ->
  ((exists th g s, wrinkled_state C E th g s) <->
   (exists a, along (stress_tensor (hooke C E)) (wdir a) (wdir a) < 0) /\ (exists b, 0 < along (strain_tensor E) (wdir b) (wdir b))).
Proof.
  intros C E HS HP. split.
  - intros (th & W). apply (state_iff C E th HS HP) in W as (R0 & N & M). split; [exists th; exact N|]. exists (th + PI / 2).
    replace (along (strain_tensor E) (wdir (th + PI / 2)) (wdir (th + PI / 2))) with (along (strain_tensor E) (tdir th) (tdir th)); [exact M|].
    unfold along, sum2, wdir, tdir. rewrite <- cos_sin, sin_plus, cos_plus, cos_PI2, sin_PI2 || rewrite cos_plus, sin_plus, cos_PI2, sin_PI2. ring.
  - intros (A & B). destruct (wrinkling_exists C (hooke C E) E HS HP (fun i _ => eq_refl) A B) as (th & P). exists th. apply (state_iff C E th HS HP), P.
Qed.
Print Assumptions C120_exists_iff.
(* ... and only one: the direction is unique up to half turns, contraction and tension are unique ... *)
Theorem C120_unique : forall C E th g s th' g' s', sym3 C -> posdef3 C -> wrinkled_state C E th g s -> wrinkled_state C E th' g' s' ->
  (exists k, th' = th + IZR k * PI) /\ g = g' /\ s = s'.
Proof.
  intros C E th g s th' g' s' HS HP W W'.
  destruct (state_iff C E th HS HP) as (I & B). destruct (state_iff C E th' HS HP) as (I' & B').
  destruct (B _ _ W) as (G & U). destruct (B' _ _ W') as (G' & U').
  destruct (wrinkling_unique C (hooke C E) E th th' HS HP (fun i _ => eq_refl)) as (GE & N); [apply I; eauto|apply I'; eauto|].
  split; [apply n1_eq_angle, N|]. split; [congruence|].
  assert (T : forall t u S, uniaxial S t u -> S 0%nat + S 1%nat = u).
  { intros t u S Us. assert (Q0 := Us 0%nat 0%nat ltac:(lia) ltac:(lia)). assert (Q1 := Us 1%nat 1%nat ltac:(lia) ltac:(lia)). cbv [stress_tensor tdir] in Q0, Q1. assert (K := sin2_cos2 t). unfold Rsqr in K.
    rewrite Q0, Q1. replace (u * - sin t * - sin t + u * cos t * cos t) with (u * (sin t * sin t + cos t * cos t)) by ring. rewrite K. ring. }
  rewrite <- (T _ _ _ U), <- (T _ _ _ U'), !(compute_S_dir C (hooke C E) th th' GE N). reflexivity.
Qed.
Print Assumptions C120_unique.
(* ... it is what the code computes from the angle: a root of the wrinkling equation with compression across and extension along *)
Theorem C120_code : forall C E th, sym3 C -> posdef3 C ->
  ((objf C (hooke C E) th = 0 /\ along (stress_tensor (hooke C E)) (wdir th) (wdir th) < 0 /\ 0 < along (strain_tensor E) (tdir th) (tdir th)) <->
   exists g s, wrinkled_state C E th g s) /\
  (forall g s, wrinkled_state C E th g s -> gamma th C (hooke C E) = g /\ uniaxial (compute_S th C (hooke C E)) th s).
Proof.
  intros C E th HS HP. destruct (state_iff C E th HS HP) as (I & B). split; [exact I|]. intros g s W. destruct (B g s W) as (A & U). split; [congruence|exact U].
Qed.
Print Assumptions C120_code.

Lemma voigt_posdef E nu A : 0 < E -> - 1 < nu < / 2 -> spd2 A -> sym3 (voigt (Cijkl E nu A)) /\ posdef3 (voigt (Cijkl E nu A)).
Proof.
  intros HE N HA. split; [apply voigt_sym|]. intros v Hv.
  set (e := fun i j : nat => match i, j with 0%nat, 0%nat => v 0%nat | 0%nat, _ | _, 0%nat => v 2%nat / 2 | _, _ => v 1%nat end).
  assert (K : 0 < energy2 (Cijkl E nu A) e).
  { apply linear_posdef; try lra; try exact HA.
    - intros i j Hi Hj. destruct i as [|[|i]], j as [|[|j]]; try lia; reflexivity.
    - destruct Hv as [H|[H|H]]; [exists 0%nat, 0%nat|exists 1%nat, 1%nat|exists 0%nat, 1%nat]; (split; [lia|split; [lia|]]); unfold e; [exact H|exact H|lra]. }
  eapply Rlt_le_trans; [exact K|]. right. destruct HA as (SA & _). assert (a10 := SA 1%nat 0%nat ltac:(lia) ltac:(lia)).
  unfold energy2, sum2, sum3, voigt, Cijkl, e. rewrite a10. field.
Qed.

(* C120: isotropic material on a surface with any positive definite metric *)
Theorem C120_isotropic : forall E nu A e, 0 < E -> - 1 < nu < / 2 -> spd2 A ->
  let C := voigt (Cijkl E nu A) in
  (exists a, along (stress_tensor (hooke C e)) (wdir a) (wdir a) < 0) -> (exists b, 0 < along (strain_tensor e) (wdir b) (wdir b)) ->
  exists th, 0 <= th < PI /\ forall x, (exists g s, wrinkled_state C e x g s) <-> exists k, x = th + IZR k * PI.
Proof.
  intros E nu A e HE N HA C T S. destruct (voigt_posdef E nu A HE N HA) as (HS & HP). fold C in HS, HP.
  destruct (proj2 (C120_exists_iff C e HS HP) (conj T S)) as (th & g & s & W).
  set (k0 := Int_part (th / PI)). set (th1 := th + IZR (- k0) * PI).
  assert (PP := PI_RGT_0).
  assert (R1 : 0 <= th1 < PI).
  { destruct (base_Int_part (th / PI)) as (L & G). fold k0 in L, G. unfold th1. rewrite opp_IZR.
    assert (A1 : IZR k0 * PI <= th). { replace th with (th / PI * PI) at 1 by (field; lra). apply Rmult_le_compat_r; lra. }
    assert (A2 : th < (IZR k0 + 1) * PI). { replace th with (th / PI * PI) at 1 by (field; lra). apply Rmult_lt_compat_r; lra. }
    lra. }
  assert (SH : forall x k, (exists g s, wrinkled_state C e x g s) -> exists g s, wrinkled_state C e (x + IZR k * PI) g s).
  { intros x k (g1 & s1 & G & Ps & U). exists g1, s1. split; [exact G|]. split; [exact Ps|].
    assert (N1 : forall i, dyad (x + IZR k * PI) i = dyad x i) by (intro i; rewrite !dyad_n1, n1_period; reflexivity).
    intros a b Ha Hb. assert (Q := U a b Ha Hb).
    assert (TT : tdir (x + IZR k * PI) a * tdir (x + IZR k * PI) b = tdir x a * tdir x b).
    { assert (M0 := N1 0%nat). assert (M1 := N1 1%nat). assert (M2 := N1 2%nat). cbn in M0, M1, M2.
      destruct a as [|[|a]], b as [|[|b]]; try lia; unfold tdir; nra. }
    rewrite Rmult_assoc, TT, <- Rmult_assoc. rewrite <- Q. unfold stress_tensor, sum3. rewrite !N1. reflexivity. }
  exists th1. split; [exact R1|]. intro x. split.
  - intros (g' & s' & W'). destruct (C120_unique C e th g s x g' s' HS HP W W') as ((k & K) & _). exists (k + k0)%Z.
    unfold th1. rewrite plus_IZR, opp_IZR, K. ring.
  - intros (k & ->). apply SH. unfold th1. apply SH. exists g, s. exact W.
Qed.
Print Assumptions C120_isotropic.

(* C120: the acceptance test counts the shear twice, so that it can reject that one direction: then no angle the search returns is a
   wrinkling direction of the membrane *)
Definition xA : mat := fun i j => match i, j with 0%nat, 0%nat => 5 | 1%nat, 1%nat => 1 | _, _ => - 2 end.
Definition xE : vec := v3 (1 / 200) (17 / 200) (1 / 20).
Definition xC : mat := fun i j => match i, j with
  | 0%nat, 0%nat => 25 | 0%nat, 1%nat => 4 | 0%nat, _ => - 10
  | 1%nat, 0%nat => 4 | 1%nat, 1%nat => 1 | 1%nat, _ => - 2
  | _, 0%nat => - 10 | _, 1%nat => - 2 | _, _ => 9 / 2 end.
Lemma xC_eq i j : (i < 3)%nat -> (j < 3)%nat -> voigt (Cijkl 1 0 xA) i j = xC i j.
Proof.
  intros Hi Hj. destruct i as [|[|[|i]]], j as [|[|[|j]]]; try lia; unfold voigt, Cijkl, xA, xC, Cconstant, lambda_of, mu_of; field.
Qed.
Lemma x_spd : spd2 xA.
Proof. split; [|split; [unfold xA; lra|unfold det2, xA; lra]]. intros i j Hi Hj. destruct i as [|[|i]], j as [|[|j]]; try lia; reflexivity. Qed.
Lemma cs4 : cos (PI / 4) * cos (PI / 4) = / 2 /\ sin (PI / 4) = cos (PI / 4).
Proof.
  assert (K : sin (PI / 4) = cos (PI / 4)) by (rewrite sin_PI4, cos_PI4; reflexivity). split; [|exact K].
  assert (Q := sin2_cos2 (PI / 4)). unfold Rsqr in Q. rewrite K in Q. lra.
Qed.
Lemma x_state : wrinkled_state (voigt (Cijkl 1 0 xA)) xE (PI / 4) (1 / 100) (2 / 100).
Proof.
  split; [lra|]. split; [lra|]. destruct cs4 as (c & s).
  assert (D : forall i, dyad (PI / 4) i = v3 (/ 2) (/ 2) 1 i). { intro i. destruct i as [|[|i]]; unfold dyad, wdir, v3; rewrite ?s; lra. }
  intros a b Ha Hb. unfold stress_tensor, sum3. rewrite !xC_eq by lia. rewrite !D.
  destruct a as [|[|a]], b as [|[|b]]; try lia; unfold tdir, xC, xE, v3; rewrite ?s;
    [replace (2 / 100 * - cos (PI / 4) * - cos (PI / 4)) with (2 / 100 * (cos (PI / 4) * cos (PI / 4))) by ring
    |replace (2 / 100 * - cos (PI / 4) * cos (PI / 4)) with (- (2 / 100) * (cos (PI / 4) * cos (PI / 4))) by ring
    |replace (2 / 100 * cos (PI / 4) * - cos (PI / 4)) with (- (2 / 100) * (cos (PI / 4) * cos (PI / 4))) by ring
    |replace (2 / 100 * cos (PI / 4) * cos (PI / 4)) with (2 / 100 * (cos (PI / 4) * cos (PI / 4))) by ring]; rewrite c; lra.
Qed.
Lemma n4_period th k i : n4v (th + IZR k * PI) i = n4v th i.
Proof.
  assert (N := n1_period th k). assert (N0 := f_equal (fun v => v 0%nat) N). assert (N1 := f_equal (fun v => v 1%nat) N). assert (N2 := f_equal (fun v => v 2%nat) N). cbn beta in N0, N1, N2.
  unfold n1v, v3 in N0, N1, N2. destruct i as [|[|i]]; unfold n4v, v3; lra.
Qed.
Theorem C120_found_refuted : exists E nu A e, 0 < E /\ - 1 < nu < / 2 /\ spd2 A /\
  let C := voigt (Cijkl E nu A) in
  (exists x g s, wrinkled_state C e x g s) /\
  (forall x g s, wrinkled_state C e x g s -> check_full x (hooke C e) e = false) /\
  (forall f eps itmax newton lo hi th0 th, eval_theta f (fun x => check_full x (hooke C e) e) eps itmax newton lo hi th0 = Ok th ->
     ~ exists g s, wrinkled_state C e th g s).
Proof.
  exists 1, 0, xA, xE. split; [lra|]. split; [lra|]. split; [exact x_spd|]. cbv zeta.
  destruct (voigt_posdef 1 0 xA ltac:(lra) ltac:(lra) x_spd) as (HS & HP).
  assert (RJ : forall x g s, wrinkled_state (voigt (Cijkl 1 0 xA)) xE x g s -> check_full x (hooke (voigt (Cijkl 1 0 xA)) xE) xE = false).
  { intros x g s W. destruct (C120_unique _ _ _ _ _ _ _ _ HS HP x_state W) as ((k & ->) & _).
    unfold check_full. destruct (Rlt_dec 0 (dot3 (n4v (PI / 4 + IZR k * PI)) xE)) as [L|_]; [|apply Bool.andb_false_r]. exfalso.
    unfold dot3, sum3 in L. rewrite !n4_period in L. destruct cs4 as (c & sn). unfold n4v, xE, v3 in L. rewrite sn in L. nra. }
  split; [exists (PI / 4), (1 / 100), (2 / 100); exact x_state|]. split; [exact RJ|].
  intros f eps itmax newton lo hi th0 th EV (g & s & W). destruct (C86_accepted_or_zero _ _ _ _ _ _ _ _ _ EV) as [K|(-> & _)].
  - rewrite (RJ _ _ _ W) in K. discriminate.
  - destruct (C120_unique _ _ _ _ _ _ _ _ HS HP x_state W) as ((k & K) & _).
    assert (Q : IZR (4 * k) * PI = IZR (- 1) * PI) by (rewrite mult_IZR; lra).
    apply Rmult_eq_reg_r in Q; [|generalize PI_RGT_0; lra]. apply eq_IZR in Q. lia.
Qed.
Print Assumptions C120_found_refuted.

(* the hypotheses are met: the same membrane is neither taut nor slack and has exactly the wrinkling direction pi/4 *)
Example C120_case : exists th, 0 <= th < PI /\ th = PI / 4 /\
  (forall x, (exists g s, wrinkled_state (voigt (Cijkl 1 0 xA)) xE x g s) <-> exists k, x = th + IZR k * PI) /\
  gamma th (voigt (Cijkl 1 0 xA)) (hooke (voigt (Cijkl 1 0 xA)) xE) = 1 / 100.
Proof.
  destruct (voigt_posdef 1 0 xA ltac:(lra) ltac:(lra) x_spd) as (HS & HP).
  destruct (proj1 (C120_exists_iff _ xE HS HP)) as (T & S); [exists (PI / 4), (1 / 100), (2 / 100); exact x_state|].
  destruct (C120_isotropic 1 0 xA xE ltac:(lra) ltac:(lra) x_spd T S) as (th & R & U). assert (PP := PI_RGT_0).
  assert (th = PI / 4) as ->.
  { destruct (proj1 (U (PI / 4))) as (k & K); [exists (1 / 100), (2 / 100); exact x_state|].
    assert (k = 0)%Z as ->; [|lra].
    assert (B1 : (-1 < k)%Z). { apply lt_IZR. apply Rmult_lt_reg_r with PI; lra. }
    assert (B2 : (k < 1)%Z). { apply lt_IZR. apply Rmult_lt_reg_r with PI; lra. } lia. }
  exists (PI / 4). split; [exact R|]. split; [reflexivity|]. split; [exact U|].
  apply (proj2 (C120_code _ xE (PI / 4) HS HP)) with (s := 2 / 100), x_state.
Qed.

(* C121: the returned stress of a wrinkled linear membrane is differentiable in the strain: near a wrinkled state there are wrinkled
   states, and whatever representatives of the angle the search returns, the rate is the tangent minus the coupling term ... *)
Theorem C121_response : forall C E0 H th0 g0 s0, sym3 C -> posdef3 C -> wrinkled_state C E0 th0 g0 s0 ->
  locally 0 (fun t => exists th g s, wrinkled_state C (fun i => E0 i + t * H i) th g s) /\
  forall th, locally 0 (fun t => exists g s, wrinkled_state C (fun i => E0 i + t * H i) (th t) g s) ->
  forall i, (i < 3)%nat -> is_derive (fun t => compute_S (th t) C (hooke C (fun i => E0 i + t * H i)) i) 0
    (sum3 (fun j => (compute_C_lin th0 C (hooke C E0) i j - coupling_term th0 C (hooke C E0) i j) * H j)).
Proof.
  intros C E0 H th0 g0 s0 HS HP W.
  assert (P0 : physical C (hooke C E0) E0 th0) by (apply (state_iff C E0 th0 HS HP); eauto).
  destruct (response C E0 H th0 HS HP P0) as (EX & DR).
  assert (BR : forall t th, physical C (lin_stress C (hooke C E0) H t) (lin_strain E0 H t) th <-> exists g s, wrinkled_state C (fun i => E0 i + t * H i) th g s).
  { intros t th. destruct (state_iff C (fun i => E0 i + t * H i) th HS HP) as (I & _). rewrite <- I. unfold physical, lin_strain.
    assert (HE : forall i, (i < 3)%nat -> lin_stress C (hooke C E0) H t i = hooke C (fun i => E0 i + t * H i) i) by (intros; apply hooke_path).
    rewrite (objf_ext C _ _ th HE).
    assert (AE : along (stress_tensor (lin_stress C (hooke C E0) H t)) (wdir th) (wdir th) = along (stress_tensor (hooke C (fun i => E0 i + t * H i))) (wdir th) (wdir th)).
    { unfold along, sum2, stress_tensor. rewrite !HE by lia. reflexivity. }
    rewrite AE. reflexivity. }
  split.
  - revert EX. apply filter_imp. intros t (th & P). exists th. apply BR, P.
  - intros th L i Hi. assert (D := DR th). specialize (D ltac:(revert L; apply filter_imp; intros t P; apply BR, P) i Hi).
    revert D. apply is_derive_ext. intro t. apply compute_S_ext; [exact Hi|]. intros; apply hooke_path.
Qed.
Print Assumptions C121_response.

(* ... for any inner material whose stress and tangent vary continuously, a root of the wrinkling equation with non-zero slope
   continues to exactly one continuous root nearby ... *)
Theorem C121_branch : forall Ct St x0,
  (forall i j, (i < 3)%nat -> (j < 3)%nat -> continuous (fun t => Ct t i j) 0) -> (forall i, (i < 3)%nat -> continuous (fun t => St t i) 0) ->
  sym3 (Ct 0) -> quad (n1v x0) (Ct 0) (n1v x0) <> 0 -> objf (Ct 0) (St 0) x0 = 0 -> dfdT x0 (Ct 0) (St 0) <> 0 ->
  exists th d, 0 < d /\ th 0 = x0 /\ continuous th 0 /\ (forall t, Rabs t < d -> objf (Ct t) (St t) (th t) = 0) /\
    (forall t x, Rabs t < d -> Rabs (x - x0) < d -> objf (Ct t) (St t) x = 0 -> x = th t).
Proof. intros Ct St x0 HC HS. apply (angle_branch Ct St HC HS). Qed.
Print Assumptions C121_branch.

(* ... and a continuous choice of the root is differentiable, so the returned tangent is the transposed derivative of the returned
   stress along every continuous choice *)
Theorem C121_continuous_choice : forall C0 dC H th Ct St,
  sym3 C0 -> (forall i j d, (i < 3)%nat -> (j < 3)%nat -> (d < 3)%nat -> dC i j d = dC d j i) ->
  (forall i j, (i < 3)%nat -> (j < 3)%nat -> Ct 0 i j = C0 i j) ->
  (forall i j, (i < 3)%nat -> (j < 3)%nat -> is_derive (fun t => Ct t i j) 0 (sum3 (fun d => dC i j d * H d))) ->
  (forall i, (i < 3)%nat -> is_derive (fun t => St t i) 0 (sum3 (fun d => C0 i d * H d))) ->
  continuous th 0 -> locally 0 (fun t => objf (Ct t) (St t) (th t) = 0) ->
  quad (n1v (th 0)) C0 (n1v (th 0)) <> 0 -> dfdT (th 0) C0 (St 0) <> 0 ->
  forall i, (i < 3)%nat -> is_derive (fun x => compute_S (th x) (Ct x) (St x) i) 0
    (sum3 (fun j => compute_C_gen (th 0) C0 (St 0) dC j i * H j)).
Proof.
  intros C0 dC H th Ct St HS HdC C00 DC DS Cth Rt Q F i Hi.
  assert (QE : forall u v, quad u (Ct 0) v = quad u C0 v) by (intros u v; unfold quad, mvec3, dot3, sum3; rewrite !C00 by lia; reflexivity).
  apply C83_tangent_is_transposed; try assumption. split; try assumption.
  apply (angle_smooth Ct St); try assumption.
  - intros a b Ha Hb. apply (ex_derive_continuous (K := R_AbsRing) (V := R_NormedModule)); eexists; apply DC; assumption.
  - intros a b Ha Hb. eexists; apply DC; assumption.
  - intros a Ha. eexists; apply DS; assumption.
  - intros a b Ha Hb. rewrite !C00 by assumption. apply HS; assumption.
  - rewrite QE. exact Q.
  - replace (dfdT (th 0) (Ct 0) (St 0)) with (dfdT (th 0) C0 (St 0)); [exact F|].
    unfold dfdT, dgammadT, tmpc, gamma, quad, mvec3, dot3, sum3. rewrite !C00 by lia. reflexivity.
Qed.
Print Assumptions C121_continuous_choice.

(* proportional loading of the state above: the angle pi/4 stays a wrinkling direction, and the formula gives the rate of its stress *)
Lemma x_path t : - 1 < t -> wrinkled_state (voigt (Cijkl 1 0 xA)) (fun i => xE i + t * xE i) (PI / 4) ((1 + t) * (1 / 100)) ((1 + t) * (2 / 100)).
Proof.
  intro Ht. destruct x_state as (_ & _ & U). split; [nra|]. split; [nra|].
  intros a b Ha Hb. specialize (U a b Ha Hb).
  transitivity ((1 + t) * stress_tensor (fun i => sum3 (fun j => voigt (Cijkl 1 0 xA) i j * (xE j + 1 / 100 * dyad (PI / 4) j))) a b).
  - destruct a as [|[|a]], b as [|[|b]]; try lia; unfold stress_tensor, sum3; ring.
  - rewrite U. ring.
Qed.
Example C121_case : let C := voigt (Cijkl 1 0 xA) in
  sum3 (fun j => (compute_C_lin (PI / 4) C (hooke C xE) 0%nat j - coupling_term (PI / 4) C (hooke C xE) 0%nat j) * xE j) = 1 / 100.
Proof.
  cbv zeta. destruct (voigt_posdef 1 0 xA ltac:(lra) ltac:(lra) x_spd) as (HS & HP).
  destruct (C121_response _ xE xE _ _ _ HS HP x_state) as (_ & D).
  assert (L : locally 0 (fun t : R => - 1 < t)). { apply (open_gt (- 1) 0). lra. }
  specialize (D (fun _ => PI / 4) ltac:(revert L; apply filter_imp; intros t Ht; exists ((1 + t) * (1 / 100)), ((1 + t) * (2 / 100)); apply x_path, Ht) 0%nat ltac:(lia)).
  assert (D2 : is_derive (fun t => compute_S (PI / 4) (voigt (Cijkl 1 0 xA)) (hooke (voigt (Cijkl 1 0 xA)) (fun i => xE i + t * xE i)) 0%nat) 0 (1 / 100)).
  { apply (is_derive_ext_loc (fun t : R => (1 + t) * (1 / 100))).
    - revert L. apply filter_imp. intros t Ht.
      destruct (proj2 (C120_code _ _ (PI / 4) HS HP) _ _ (x_path t Ht)) as (_ & U). specialize (U 0%nat 0%nat ltac:(lia) ltac:(lia)).
      unfold stress_tensor in U. rewrite U. destruct cs4 as (c & sn). unfold tdir. rewrite sn.
      replace ((1 + t) * (2 / 100) * - cos (PI / 4) * - cos (PI / 4)) with ((1 + t) * (2 / 100) * (cos (PI / 4) * cos (PI / 4))) by ring. rewrite c. match goal with |- @eq _ ?x ?y => change (@eq R x y) end. field.
    - auto_derive; [exact I|]. match goal with |- @eq _ ?x ?y => change (@eq R x y) end. field. }
  rewrite <- (is_derive_unique _ _ _ D). apply is_derive_unique, D2.
Qed.
