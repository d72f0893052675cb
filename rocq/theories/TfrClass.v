(* The tension field value computed from principal values, in terms of the directions of the tensors. *)
From Coq Require Import Reals Lra Lia List Psatz Classical FunctionalExtensionality.
From Coquelicot Require Import Coquelicot.
From Verif Require Import Tensor MetricModel MetricSpec MetricProofs LinearSpec LinearProofs TFTModel TFTSpec TFTProofs TFTWrinkle TFTImplicit TFTBranchProps PrincipalModel PrincipalSpec PrincipalProofs KinModel KinSpec TfrModel TfrSpec TfrProofs.
Import ListNotations.
Open Scope R_scope.

Lemma dual_swap b c : dual_bases b c -> dual_bases c b.
Proof. intros H i j Hi Hj. rewrite dot3_comm, (H j i Hj Hi). unfold delta. rewrite Nat.eqb_sym. reflexivity. Qed.
Lemma frame_third b c : frame b c -> forall a, (a < 3)%nat -> c 2%nat a = b 2%nat a.
Proof.
  intros (D & U & O) a Ha. assert (K := dual_expand c b (b 2%nat) (dual_swap b c D) a Ha). rewrite K.
  unfold sum3. rewrite U, !O by lia. ring.
Qed.
Lemma frame_swap b c : frame b c -> frame c b.
Proof.
  intro F. assert (T := frame_third b c F). destruct F as (D & U & O). split; [apply dual_swap, D|].
  assert (X : forall v, dot3 v (c 2%nat) = dot3 v (b 2%nat)) by (intro v; unfold dot3, sum3; rewrite !T by lia; reflexivity).
  split.
  - rewrite X, dot3_comm, X. exact U.
  - intros i Hi. rewrite X, dot3_comm, (D 2%nat i) by lia. unfold delta. destruct i as [|[|i]]; [reflexivity|reflexivity|lia].
Qed.

Section Values.
  Variables (b c : nat -> vec) (X : mat) (vals : vec) (vecs : nat -> vec) (tol p q : R).
  Hypotheses (F : frame b c) (Y : symmetric 2 X) (HE : eigen_decomposition (Bten X c) vals vecs) (HV : pvals tol vals = Ok (p, q)).

  Let form u0 u1 := u0 * u0 * X 0%nat 0%nat + 2 * (u0 * u1) * X 0%nat 1%nat + u1 * u1 * X 1%nat 1%nat.
  Lemma form_along a : along X (wdir a) (wdir a) = form (cos a) (sin a).
  Proof. unfold along, sum2, wdir, form. rewrite (Y 1%nat 0%nat) by lia. ring. Qed.
  Lemma form_eig u0 u1 : exists w0 w1 w2, form u0 u1 = vals 0%nat * (w0 * w0) + vals 1%nat * (w1 * w1) + vals 2%nat * (w2 * w2).
  Proof.
    set (w := fun a => u0 * b 0%nat a + u1 * b 1%nat a).
    assert (G : forall k, (k < 2)%nat -> dot3 (c k) w = match k with 0%nat => u0 | _ => u1 end).
    { intros k Hk. assert (Q : dot3 (c k) w = u0 * dot3 (b 0%nat) (c k) + u1 * dot3 (b 1%nat) (c k)) by (unfold dot3, w, sum3; ring).
      rewrite Q. rewrite !(proj1 F) by lia. unfold delta. destruct k as [|[|k]]; cbn; [ring|ring|lia]. }
    exists (dot3 w (vecs 0%nat)), (dot3 w (vecs 1%nat)), (dot3 w (vecs 2%nat)).
    transitivity (dot3 w (mvec3 (Bten X c) w)).
    - rewrite Bten_quad. unfold sum2. rewrite !G by lia. unfold form. rewrite (Y 1%nat 0%nat) by lia. ring.
    - assert (P := parseval c X vals vecs HE w (mvec3 (Bten X c) w)). rewrite P. unfold sum3.
      assert (Z : forall k, (k < 3)%nat -> dot3 (mvec3 (Bten X c) w) (vecs k) = vals k * dot3 w (vecs k)).
      { intros k Hk. rewrite dot3_comm, (Bten_selfadj X c w (vecs k) Y). apply (eig_quad _ _ _ k HE Hk). }
      rewrite !Z by lia. ring.
  Qed.
  Lemma form_vec k : (k < 3)%nat -> exists u0 u1, form u0 u1 = vals k.
  Proof.
    intro Hk. exists (dot3 (c 0%nat) (vecs k)), (dot3 (c 1%nat) (vecs k)). 
    assert (E := eig_quad _ _ _ k HE Hk (vecs k)). rewrite Bten_quad in E. destruct HE as (_ & O & _).
    rewrite (O k k Hk Hk) in E. unfold delta in E. rewrite Nat.eqb_refl, Rmult_1_r in E. rewrite <- E.
    unfold sum2, form. rewrite (Y 1%nat 0%nat) by lia. ring.
  Qed.
  Lemma zero_val : exists k, (k < 3)%nat /\ vals k = 0.
  Proof. exact (singular_zero_eig b c X vals vecs F Y HE). Qed.
  Lemma kept : (p, q) = (vals 1%nat, vals 2%nat) /\ vals 0%nat = 0 \/ (p, q) = (vals 0%nat, vals 2%nat) \/ (p, q) = (vals 0%nat, vals 1%nat).
  Proof.
    destruct zero_val as (k & Hk & Z). unfold pvals in HV. destruct (zeroIdx tol vals) as [[|[|m]]|] eqn:E; inversion HV; subst; [|right; left; reflexivity|right; right; reflexivity].
    left. split; [reflexivity|]. unfold zeroIdx in E. 
    destruct (Rlt_dec (Rabs (vals 2%nat) / _) tol) as [?|N2]; [discriminate|]. destruct (Rlt_dec (Rabs (vals 1%nat) / _) tol) as [?|N1]; [discriminate|].
    destruct (Rlt_dec (Rabs (vals 0%nat) / _) tol) as [L0|?]; [|discriminate].
    assert (T0 : 0 < tol).
    { eapply Rle_lt_trans; [|exact L0]. apply Rmult_le_pos; [apply Rabs_pos|]. left. apply Rinv_0_lt_compat.
      destruct (Req_EM_T (maxabs vals) 0) as [_|NZ]; [lra|]. assert (0 <= maxabs vals); [|lra].
      unfold maxabs. eapply Rle_trans; [apply Rabs_pos|apply Rmax_l]. }
    destruct k as [|[|[|k]]]; [exact Z| | |lia]; exfalso; [apply N1|apply N2]; rewrite Z, Rabs_R0; unfold Rdiv; rewrite Rmult_0_l; exact T0.
  Qed.

  Lemma min_nonneg : 0 <= p -> forall a, 0 <= along X (wdir a) (wdir a).
  Proof.
    intros Hp a. rewrite form_along. destruct (form_eig (cos a) (sin a)) as (w0 & w1 & w2 & ->).
    destruct HE as (_ & _ & _ & L1 & L2).
    assert (V0 : 0 <= vals 0%nat) by (destruct kept as [(Q & Z)|[Q|Q]]; inversion Q; lra).
    assert (0 <= w0 * w0) by apply Rle_0_sqr. assert (0 <= w1 * w1) by apply Rle_0_sqr. assert (0 <= w2 * w2) by apply Rle_0_sqr.
    repeat apply Rplus_le_le_0_compat; apply Rmult_le_pos; lra.
  Qed.
  Lemma max_neg : q < 0 -> forall a, along X (wdir a) (wdir a) <= 0.
  Proof.
    intros Hq a. rewrite form_along. destruct (form_eig (cos a) (sin a)) as (w0 & w1 & w2 & ->).
    destruct zero_val as (k & Hk & Z). destruct HE as (_ & _ & _ & L1 & L2).
    assert (V : vals 0%nat <= 0 /\ vals 1%nat <= 0 /\ vals 2%nat <= 0).
    { destruct kept as [(Q & Z0)|[Q|Q]]; inversion Q; subst; destruct k as [|[|[|k]]]; try lia; lra. }
    assert (0 <= w0 * w0) by apply Rle_0_sqr. assert (0 <= w1 * w1) by apply Rle_0_sqr. assert (0 <= w2 * w2) by apply Rle_0_sqr. nra.
  Qed.
  Lemma form_dir u0 u1 : exists a g, 0 <= g /\ form u0 u1 = g * along X (wdir a) (wdir a).
  Proof.
    destruct (angle_of u0 u1) as (th & g & _ & G & A & B & AB). exists th, g. split; [exact G|]. rewrite form_along. unfold form. rewrite A, B, AB. ring.
  Qed.
  Lemma min_neg : p < 0 -> exists a, along X (wdir a) (wdir a) < 0.
  Proof.
    intro Hp. assert (exists k, (k < 3)%nat /\ vals k = p) as (k & Hk & V).
    { destruct kept as [(Q & _)|[Q|Q]]; inversion Q; [exists 1%nat|exists 0%nat|exists 0%nat]; split; (lia || congruence || reflexivity). }
    destruct (form_vec k Hk) as (u0 & u1 & W). destruct (form_dir u0 u1) as (a & g & G & A). exists a. rewrite W, V in A. nra.
  Qed.
  Lemma max_pos : 0 < q -> exists a, 0 < along X (wdir a) (wdir a).
  Proof.
    intro Hq. assert (exists k, (k < 3)%nat /\ vals k = q) as (k & Hk & V).
    { destruct kept as [(Q & _)|[Q|Q]]; inversion Q; [exists 2%nat|exists 2%nat|exists 1%nat]; split; (lia || congruence || reflexivity). }
    destruct (form_vec k Hk) as (u0 & u1 & W). destruct (form_dir u0 u1) as (a & g & G & A). exists a. rewrite W, V in A. nra.
  Qed.
End Values.

(* the tensors of the principal values are those of the directions *)
Lemma stress_symmetric S : symmetric 2 (stress_tensor S).
Proof. intros i j Hi Hj. destruct i as [|[|i]], j as [|[|j]]; try lia; reflexivity. Qed.
Lemma strain_symmetric E : symmetric 2 (strain_tensor E).
Proof. intros i j Hi Hj. destruct i as [|[|i]], j as [|[|j]]; try lia; reflexivity. Qed.
