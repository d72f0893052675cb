From Coq Require Import Reals Lra Lia List.
From Coquelicot Require Import Coquelicot.
From Verif Require Import Tensor MetricModel MetricSpec MetricProofs LinearModel LinearSpec LinearProofs PrincipalModel PrincipalSpec PrincipalProofs
  NonlinearModel NonlinearSpec NonlinearProofs EnergyProofs SpectralModel SpectralSpec SpectralProofs SpectralTangent SpectralMain SpectralOgden SpectralLink.
Import ListNotations.
Open Scope R_scope.

Lemma sqrt4 : sqrt 4 = 2. Proof. replace 4 with (2 * 2) by ring. apply sqrt_square. lra. Qed.
Lemma sqrt9 : sqrt 9 = 3. Proof. replace 9 with (3 * 3) by ring. apply sqrt_square. lra. Qed.
Lemma near23 : near_eq (stretches_i 2 3) 0 1 = false.
Proof.
  unfold near_eq, stretches_i, triple. replace ((2 - 3) / 2) with (- (1 / 2)) by field. rewrite Rabs_Ropp, Rabs_right by lra.
  destruct (Rlt_dec (1 / 2) (/ 10 ^ 14)) as [K|]; [|reflexivity]. exfalso. lra.
Qed.

Lemma link_case : exists g z G vals vecs, regular g /\ det3 (Gcov g z) <> 0 /\ shell_G G /\ spd2 G /\ eigen_decomposition (Bten G (gcon g z)) vals vecs /\
  shortcut (/ 10 ^ 15) (Bten G (gcon g z)) = false /\ sqrt (vals 1%nat) = 2 /\ sqrt (vals 2%nat) = 3 /\ near_eq (stretches_i 2 3) 0 1 = false.
Proof.
  exists flat, 0, (dgs 9 4), (dg_vals 9 4), dg_vecs. split; [exact flat_regular|]. split; [rewrite flat_det; lra|]. split; [apply dgs_shell|].
  split; [apply dgs_spd; lra|]. rewrite dgs_B. split; [apply dg_eigen; lra|]. repeat split.
  - unfold shortcut. rewrite dg_trace. replace (9 + 4 - 2) with 11 by ring. rewrite Rabs_right by lra. destruct (Rlt_dec 11 (10 * / 10 ^ 15)) as [K|]; [exfalso; lra|reflexivity].
  - cbn. exact sqrt4.
  - cbn. exact sqrt9.
  - exact near23.
Qed.

Lemma flat_state a b : 0 < b <= a -> forall G, (forall i j, (i < 2)%nat -> (j < 2)%nat -> G i j = dg a b i j) ->
  principal_state flat 0 G (sqrt b) (sqrt a) (fun c => delta 1 c) (fun c => delta 0 c).
Proof.
  intros (B & A) G E. split; [exact flat_regular|]. split; [rewrite flat_det; lra|].
  assert (EB : forall x y, (x < 3)%nat -> (y < 3)%nat -> Bten G (gcon flat 0) x y = if (Nat.ltb x 2 && Nat.ltb y 2)%bool then dg a b x y else 0).
  { intros x y Hx Hy. rewrite flat_Bten by assumption. destruct (Nat.ltb x 2 && Nat.ltb y 2)%bool eqn:Q; [|reflexivity].
    apply Bool.andb_true_iff in Q. destruct Q as (Q1 & Q2). apply Nat.ltb_lt in Q1, Q2. now apply E. }
  unfold principal_stretches. split; [split; [now apply sqrt_lt_R0|apply sqrt_le_1_alt; exact A]|].
  split; [intros c Hc; unfold mvec3, sum3; rewrite !EB by lia; rewrite sqrt_sqrt by lra; idx3 c Hc; cbn; ring|].
  split; [intros c Hc; unfold mvec3, sum3; rewrite !EB by lia; rewrite sqrt_sqrt by lra; idx3 c Hc; cbn; ring|].
  unfold dot3, sum3. rewrite !flat_normal by lia. cbv [delta Nat.eqb]. repeat split; ring.
Qed.

Lemma family_case : exists g z G H l1 l2 v1 v2, shell_G G /\ in_plane H /\ principal_family g z G H l1 l2 v1 v2 /\ l1 0 = 2 /\ l2 0 = 3 /\
  near_eq (stretches_i (l1 0) (l2 0)) 0 1 = false /\ H 0%nat 0%nat = 1.
Proof.
  exists flat, 0, (dgs 9 4), (dg 1 1), (fun t => sqrt (4 + t)), (fun t => sqrt (9 + t)), (fun _ c => delta 1 c), (fun _ c => delta 0 c).
  split; [apply dgs_shell|]. split; [repeat split; reflexivity|]. split.
  - unfold principal_family. exists (mkposreal 1 Rlt_0_1). intros t Ht. apply flat_state.
    + unfold ball in Ht; cbn in Ht; unfold AbsRing_ball in Ht; cbn in Ht. unfold minus, plus, opp, abs in Ht; cbn in Ht. apply Rabs_lt_between in Ht. lra.
    + intros i j Hi Hj. unfold line. idx2 i Hi; idx2 j Hj; cbn; ring.
  - assert (E1 : sqrt (4 + 0) = 2) by (rewrite Rplus_0_r; exact sqrt4). assert (E2 : sqrt (9 + 0) = 3) by (rewrite Rplus_0_r; exact sqrt9).
    rewrite E1, E2. repeat split. exact near23.
Qed.

Lemma ref_state : principal_state flat 0 (Gcov flat 0) 1 1 (fun c => delta 1 c) (fun c => delta 0 c).
Proof.
  pose proof (flat_state 1 1 ltac:(lra) (Gcov flat 0)) as P. rewrite sqrt_1 in P. apply P.
  intros i j Hi Hj. rewrite flat_Gcov by lia. idx2 i Hi; idx2 j Hj; reflexivity.
Qed.
Lemma ref_case : exists g v1 v2, principal_state g 0 (Gcov g 0) 1 1 v1 v2 /\ ogden_mu [1; 1/3; 6; 2; -1; -2] = 7.
Proof. exists flat, (fun c => delta 1 c), (fun c => delta 0 c). split; [exact ref_state|]. unfold ogden_mu, ogden_sum. cbn. field. Qed.

Lemma flat_Gcon i j : (i < 2)%nat -> (j < 2)%nat -> Gcon flat 0 i j = delta i j.
Proof.
  intros Hi Hj. rewrite (q_ori flat 0 _ _ _ _ _ ref_state) by assumption. unfold qf, pr, dot3, sum3. rewrite !flat_gcon by lia.
  idx2 i Hi; idx2 j Hj; cbn; ring.
Qed.
Lemma ogden_E_refuted : exists g z v1 v2 p pars, principal_state g z (Gcov g z) 1 1 v1 v2 /\ pars = [pE p; pnu p; 1; 2] /\ 0 < pE p /\ 0 < pnu p < 1/2 /\
  C_spec_c (OG pars) p (triple 1 1 1) 1 (gcon g z) (frame3 v1 v2 (gcon g z 2%nat)) 0%nat 1%nat 0%nat 1%nat <> Cijkl (pE p) (pnu p) (Gcon g z) 0%nat 1%nat 0%nat 1%nat.
Proof.
  exists flat, 0, (fun c => delta 1 c), (fun c => delta 0 c), (mkPar 1 (1/4) 1), [1; 1/4; 1; 2].
  split; [exact ref_state|]. split; [reflexivity|]. split; [cbn; lra|]. split; [cbn; lra|].
  assert (M : ogden_mu [1; 1 / 4; 1; 2] = 1) by (unfold ogden_mu, ogden_sum; cbn; field).
  assert (K : bulk (mkPar 1 (1 / 4) 1) = 2 / 3) by (unfold bulk; cbn; field).
  rewrite ogden_ref_c by (try exact ref_state; try lia; rewrite M, K; lra). rewrite M. unfold Cijkl. rewrite !flat_Gcon by lia.
  cbv [delta Nat.eqb]. unfold mu_of, lambda_of; cbn. lra.
Qed.
