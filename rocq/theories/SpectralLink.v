From Coq Require Import Reals Lra Lia List FunctionalExtensionality.
From Coquelicot Require Import Coquelicot.
From Verif Require Import Tensor MetricModel MetricSpec MetricProofs LinearModel LinearSpec LinearProofs PrincipalModel PrincipalSpec PrincipalProofs
  NonlinearModel NonlinearSpec NonlinearProofs EnergyProofs SpectralModel SpectralSpec SpectralProofs.
Open Scope R_scope.

Section LINK.
Variables (eps : R) (g : geo) (z : R) (G : mat) (vals : vec) (vecs : nat -> vec).
Hypotheses (RG : regular g) (DG : det3 (Gcov g z) <> 0) (SG : shell_G G) (SP : spd2 G)
  (HE : eigen_decomposition (Bten G (gcon g z)) vals vecs) (SC : shortcut eps (Bten G (gcon g z)) = false).
Let m := metric_of (Gcov g z) G.
Let gc := gcon g z.
Let l1 := sqrt (vals 1%nat).
Let l2 := sqrt (vals 2%nat).
Let v1 := vecs 1%nat.
Let v2 := vecs 2%nat.

Lemma link_B c : Bten (cmat m c) gc = Bten G gc.
Proof. unfold Bten, sum2. reflexivity. Qed.

Lemma link_state : principal_state g z G l1 l2 v1 v2.
Proof.
  split; [exact RG|]. split; [exact DG|]. pose proof (stretch_correct eps g z G vals vecs RG DG SP HE SC) as P. cbv zeta in P.
  unfold evalStretch in P. rewrite SC in P. cbn [fst snd] in P. exact P.
Qed.
Lemma link_r c : evalStretch eps (cmat m c) gc vals vecs = (triple l1 l2 (sqrt c), frame3 v1 v2 (gc 2%nat)).
Proof.
  unfold evalStretch. rewrite link_B. unfold gc. rewrite SC. f_equal; apply functional_extensionality; intros [|[|k]]; reflexivity.
Qed.
Lemma link_pos : 0 < l1 /\ 0 < l2.
Proof. exact (sp_pos _ _ _ _ (state_spectral g z G _ _ _ _ SG link_state)). Qed.
Lemma link_l3 : sqrt (1 / J0 m) = / (l1 * l2).
Proof.
  destruct link_pos as (A & B). pose proof (sp_J _ _ _ _ (state_spectral g z G _ _ _ _ SG link_state)) as J. fold m in J. rewrite J.
  replace (1 / (l1 ^ 2 * l2 ^ 2)) with ((/ (l1 * l2)) ^ 2) by (field; lra).
  apply sqrt_pow2. left. apply Rinv_0_lt_compat, Rmult_lt_0_compat; assumption.
Qed.

Lemma link_stress_i w p : stress_code_i eps w p m gc vals vecs = S_spec_i w p (stretches_i l1 l2) gc (frame3 v1 v2 (gc 2%nat)).
Proof. unfold stress_code_i. rewrite link_r, link_l3. reflexivity. Qed.
Lemma link_tangent_i w p : tangent_code_i eps w p m gc vals vecs = C_spec_i w p (stretches_i l1 l2) gc (frame3 v1 v2 (gc 2%nat)).
Proof. unfold tangent_code_i. rewrite link_r, link_l3. reflexivity. Qed.

Lemma code_stress_i w p i j : w <> NHe -> (i < 2)%nat -> (j < 2)%nat -> stress_code_i eps (L w) p m gc vals vecs i j = S_inc w p m i j.
Proof. intros. rewrite link_stress_i. apply (spec_S_inc w p m (pr gc (frame3 v1 v2 (gc 2%nat))) l1 l2 i j); try assumption. exact (state_spectral g z G _ _ _ _ SG link_state). Qed.
Lemma code_tangent_i w p i j k l : w <> NHe -> (i < 2)%nat -> (j < 2)%nat -> (k < 2)%nat -> (l < 2)%nat -> (l1 = l2 \/ near_eq (stretches_i l1 l2) 0 1 = false) ->
  tangent_code_i eps (L w) p m gc vals vecs i j k l = C_inc w p m i j k l.
Proof. intros. rewrite link_tangent_i. apply (spec_C_inc w p m (pr gc (frame3 v1 v2 (gc 2%nat))) l1 l2 i j); try assumption. exact (state_spectral g z G _ _ _ _ SG link_state). Qed.

Lemma code_stress_c w p c33 i j : 0 < c33 -> shell_pair i j -> stress_code_c eps (L w) p m c33 gc vals vecs i j = S_comp w p m c33 i j.
Proof.
  intros P H. unfold stress_code_c. rewrite link_r. cbn [fst snd].
  assert (Q : 0 < sqrt c33) by (apply sqrt_lt_R0; exact P). assert (E : sqrt c33 ^ 2 = c33) by (apply pow2_sqrt; lra).
  pose proof (spec_S_comp m (pr gc (frame3 v1 v2 (gc 2%nat))) l1 l2 (sqrt c33) p (state_spectral3 g z G _ _ _ _ SG link_state) Q w i j H) as S.
  rewrite E in S. exact S.
Qed.
Lemma code_tangent_c w p c33 i j k l : 0 < c33 -> (i < 2)%nat -> (j < 2)%nat -> (k < 2)%nat -> (l < 2)%nat ->
  (l1 = l2 \/ near_eq (triple l1 l2 (sqrt c33)) 0 1 = false) ->
  tangent_code_c eps (L w) p m c33 gc vals vecs i j k l = condense (C3D w p m c33) i j k l.
Proof.
  intros P Hi Hj Hk Hl H. unfold tangent_code_c. rewrite link_r. cbn [fst snd].
  assert (Q : 0 < sqrt c33) by (apply sqrt_lt_R0; exact P). assert (E : sqrt c33 ^ 2 = c33) by (apply pow2_sqrt; lra).
  pose proof (spec_C_comp m (pr gc (frame3 v1 v2 (gc 2%nat))) l1 l2 (sqrt c33) p (state_spectral3 g z G _ _ _ _ SG link_state) Q w i j k l Hi Hj Hk Hl H) as S.
  rewrite E in S. exact S.
Qed.
Lemma code_C3333 w p c33 : 0 < c33 -> C3333_spec (L w) p (triple l1 l2 (sqrt c33)) (J_sq m c33) = C3D w p m c33 2%nat 2%nat 2%nat 2%nat.
Proof.
  intros P. assert (Q : 0 < sqrt c33) by (apply sqrt_lt_R0; exact P). assert (E : sqrt c33 ^ 2 = c33) by (apply pow2_sqrt; lra).
  pose proof (spec_C3333 m (pr gc (frame3 v1 v2 (gc 2%nat))) l1 l2 (sqrt c33) p (state_spectral3 g z G _ _ _ _ SG link_state) Q w) as S.
  rewrite E in S. exact S.
Qed.
End LINK.

(* the shortcut of _evalStretch: the state diag(3/2,1/2) gets the stress of the wrong sign *)
Definition dgs (a b : R) : mat := fun i j => match i, j with 0%nat, 0%nat => a | 1%nat, 1%nat => b | 2%nat, 2%nat => 1 | _, _ => 0 end.
Lemma dgs_B a b : Bten (dgs a b) (gcon flat 0) = Bten (dg a b) (gcon flat 0). Proof. reflexivity. Qed.
Lemma dgs_shell a b : shell_G (dgs a b). Proof. repeat split; reflexivity. Qed.

Lemma dgs_spd a b : 0 < a -> 0 < b -> spd2 (dgs a b).
Proof.
  intros A B. split; [|split; [exact A|]].
  - intros i j Hi Hj. idx2 i Hi; idx2 j Hj; reflexivity.
  - unfold det2, dgs. pose proof (Rmult_lt_0_compat a b A B). lra.
Qed.

Lemma flat_J0 a b : J0 (metric_of (Gcov flat 0) (dgs a b)) = a * b.
Proof. cbn [metric_of J0]. rewrite flat_det. unfold det3, dgs. field. Qed.

Lemma shortcut_stress : exists g z G vals vecs p, regular g /\ det3 (Gcov g z) <> 0 /\ shell_G G /\ spd2 G /\ 0 < mu p /\
  eigen_decomposition (Bten G (gcon g z)) vals vecs /\
  forall eps, 0 < eps -> stress_code_i eps (L NH) p (metric_of (Gcov g z) G) (gcon g z) vals vecs 0%nat 0%nat < 0 < S_inc NH p (metric_of (Gcov g z) G) 0%nat 0%nat.
Proof.
  exists flat, 0, (dgs (3/2) (1/2)), (dg_vals (3/2) (1/2)), dg_vecs, (mkPar 3 (1/2) 1).
  split; [exact flat_regular|]. split; [rewrite flat_det; lra|]. split; [apply dgs_shell|].
  split; [apply dgs_spd; lra|].
  assert (MU : mu (mkPar 3 (1 / 2) 1) = 1) by (unfold mu, mu_of; cbn; field).
  split; [rewrite MU; lra|]. split; [rewrite dgs_B; apply dg_eigen; lra|].
  intros eps He. set (m := metric_of (Gcov flat 0) (dgs (3 / 2) (1 / 2))).
  assert (EJ : J0 m = 3 / 4) by (unfold m; rewrite flat_J0; field).
  split.
  - unfold stress_code_i, evalStretch.
    assert (S : shortcut eps (Bten (cmat m (1 / J0 m)) (gcon flat 0)) = true).
    { change (Bten (cmat m (1 / J0 m)) (gcon flat 0)) with (Bten (dg (3/2) (1/2)) (gcon flat 0)). unfold shortcut. rewrite dg_trace.
      replace (3 / 2 + 1 / 2 - 2) with 0 by field. rewrite Rabs_R0. destruct (Rlt_dec 0 (10 * eps)) as [|N]; [reflexivity|]. exfalso. apply N. lra. }
    rewrite S. cbn [fst snd]. unfold S_spec_i, sum2, Sa_i, pr_p, dJ_da, pr, dot3, sum3. cbn [dPsi_da_i]. unfold dI1a. rewrite !flat_gcon by lia. rewrite MU.
    rewrite sqrt_1. cbn [cmat]. rewrite EJ. cbv [delta Nat.eqb].
    assert (Q : sqrt (1 / (3 / 4)) * sqrt (1 / (3 / 4)) = 4 / 3) by (rewrite sqrt_sqrt by lra; field).
    lra.
  - cbn [S_inc]. rewrite MU, EJ. unfold m. cbn [metric_of Gori Gdefi].
    assert (E1 : inv3 (Gcov flat 0) 0%nat 0%nat = 1).
    { unfold inv3. rewrite flat_det. rewrite !flat_Gcov by lia. cbv [delta Nat.eqb]. field. }
    assert (E2 : inv3 (dgs (3 / 2) (1 / 2)) 0%nat 0%nat = 2 / 3) by (cbv [inv3 det3 dgs]; field).
    rewrite E1, E2. lra.
Qed.
