From Coq Require Import Reals Lra Lia Psatz.
From Verif Require Import Tensor MetricModel MetricSpec MetricProofs LinearSpec LinearProofs PrincipalModel PrincipalSpec.
Open Scope R_scope.

Lemma det3_mmul M N : det3 (mmul3 M N) = det3 M * det3 N.
Proof. unfold det3, mmul3, sum3. ring. Qed.

Lemma det3_delta : det3 delta = 1.
Proof. cbv [det3 delta Nat.eqb]. ring. Qed.

Lemma inv_comm M N : inverse3 M N -> inverse3 N M.
Proof.
  intros H.
  assert (D : det3 M * det3 N = 1).
  { rewrite <- det3_mmul, <- det3_delta. apply det3_ext. intros i j Hi Hj. now apply H. }
  assert (DM : det3 M <> 0) by (intro E; rewrite E in D; lra).
  (* N = inv3 M *)
  assert (EN : forall i j, (i < 3)%nat -> (j < 3)%nat -> N i j = inv3 M i j).
  { intros i j Hi Hj.
    transitivity (mmul3 (inv3 M) (mmul3 M N) i j).
    - transitivity (mmul3 (mmul3 (inv3 M) M) N i j); [|unfold mmul3, sum3; ring].
      unfold mmul3 at 1, sum3. rewrite !(inv3_left M) by (try assumption; lia).
      idx3 i Hi; cbv [delta Nat.eqb]; ring.
    - unfold mmul3 at 1, sum3. rewrite !(H _ _) by lia. idx3 j Hj; cbv [delta Nat.eqb]; ring. }
  intros i j Hi Hj. rewrite <- (inv3_left M i j DM Hi Hj). unfold mmul3, sum3. now rewrite !EN by lia.
Qed.

(* a frame: dual bases whose third vector is a unit vector *)
Definition frame (b c : nat -> vec) : Prop := dual_bases b c /\ dot3 (b 2%nat) (b 2%nat) = 1 /\
  (forall i, (i < 2)%nat -> dot3 (b i) (b 2%nat) = 0).

Lemma dual_expand b c v : dual_bases b c -> forall a, (a < 3)%nat -> v a = sum3 (fun i => dot3 (c i) v * b i a).
Proof.
  intros H a Ha.
  assert (I1 : inverse3 b (fun x y => c y x)).
  { intros i j Hi Hj. exact (H i j Hi Hj). }
  apply inv_comm in I1. unfold inverse3 in I1.
  pose proof (fun x => I1 x a) as E. unfold mmul3, sum3 in E.
  transitivity (v 0%nat * delta 0 a + v 1%nat * delta 1 a + v 2%nat * delta 2 a).
  - idx3 a Ha; cbv [delta Nat.eqb]; ring.
  - rewrite <- !E by lia. unfold dot3, sum3. ring.
Qed.

Lemma Bten_apply X g v a : mvec3 (Bten X g) v a = sum2 (fun k => sum2 (fun l => X k l * g k a * dot3 (g l) v)).
Proof. unfold mvec3, Bten, sum2, sum3, dot3, sum3. ring. Qed.

Lemma Bten_quad X g v w : dot3 w (mvec3 (Bten X g) v) = sum2 (fun k => sum2 (fun l => X k l * dot3 (g k) w * dot3 (g l) v)).
Proof. unfold dot3 at 1. unfold sum3 at 1. rewrite !Bten_apply. unfold sum2, dot3, sum3. ring. Qed.

Lemma Bten_selfadj X g v w : symmetric 2 X -> dot3 w (mvec3 (Bten X g) v) = dot3 v (mvec3 (Bten X g) w).
Proof.
  intro HX. rewrite !Bten_quad. unfold sum2. rewrite (HX 1%nat 0%nat) by lia. ring.
Qed.

Lemma eig_quad B vals vecs k : eigen_decomposition B vals vecs -> (k < 3)%nat ->
  forall w, dot3 w (mvec3 B (vecs k)) = vals k * dot3 w (vecs k).
Proof.
  intros (H1 & _) Hk w. unfold dot3, sum3. rewrite !H1 by lia. ring.
Qed.

Lemma spd_quad X p q : spd2 X -> let Q := X 0%nat 0%nat * p * p + X 0%nat 1%nat * p * q + X 1%nat 0%nat * q * p + X 1%nat 1%nat * q * q in
  0 <= Q /\ (Q = 0 -> p = 0 /\ q = 0).
Proof.
  intros (HX & Ha & Hd) Q. pose proof (HX 1%nat 0%nat ltac:(lia) ltac:(lia)) as E10.
  unfold det2 in Hd. unfold Q. rewrite E10 in *.
  set (a := X 0%nat 0%nat) in *. set (b := X 0%nat 1%nat) in *. set (c := X 1%nat 1%nat) in *.
  assert (K : a * (a * p * p + b * p * q + b * q * p + c * q * q) = (a * p + b * q) ^ 2 + (a * c - b * b) * q ^ 2) by ring.
  pose proof (pow2_ge_0 (a * p + b * q)) as h1. pose proof (pow2_ge_0 q) as h2.
  assert (h3 : 0 <= (a * c - b * b) * q ^ 2) by (apply Rmult_le_pos; lra).
  split.
  - apply (Rmult_le_reg_l a); [assumption|]. rewrite Rmult_0_r, K. lra.
  - intro Z. rewrite Z, Rmult_0_r in K.
    assert (q2 : (a * c - b * b) * q ^ 2 = 0) by lra.
    assert (q0 : q = 0).
    { destruct (Req_dec q 0); [assumption|]. pose proof (sq_pos q H).
      assert (0 < (a * c - b * b) * q ^ 2) by (apply Rmult_lt_0_compat; assumption). lra. }
    split; [|assumption]. subst q.
    destruct (Req_dec p 0) as [|Hp]; [assumption|]. exfalso.
    pose proof (sq_pos (a * p + b * 0)) as H. assert (a * p + b * 0 <> 0).
    { rewrite Rmult_0_r, Rplus_0_r. apply Rmult_integral_contrapositive_currified; lra. }
    specialize (H H0). lra.
Qed.

Section Spd.
  Variables (b c : nat -> vec) (X : mat) (vals : vec) (vecs : nat -> vec).
  Hypothesis (F : frame b c) (HX : spd2 X) (HE : eigen_decomposition (Bten X c) vals vecs).

  Lemma val_quad k : (k < 3)%nat -> vals k = X 0%nat 0%nat * dot3 (c 0%nat) (vecs k) * dot3 (c 0%nat) (vecs k)
    + X 0%nat 1%nat * dot3 (c 0%nat) (vecs k) * dot3 (c 1%nat) (vecs k) + X 1%nat 0%nat * dot3 (c 1%nat) (vecs k) * dot3 (c 0%nat) (vecs k)
    + X 1%nat 1%nat * dot3 (c 1%nat) (vecs k) * dot3 (c 1%nat) (vecs k).
  Proof.
    intro Hk. pose proof (eig_quad _ _ _ k HE Hk (vecs k)) as Q. rewrite Bten_quad in Q.
    destruct HE as (_ & HO & _). rewrite (HO k k Hk Hk) in Q. unfold delta in Q. rewrite Nat.eqb_refl in Q.
    unfold sum2 in Q. lra.
  Qed.

  Lemma val_nonneg k : (k < 3)%nat -> 0 <= vals k.
  Proof. intro Hk. rewrite val_quad by assumption. apply (spd_quad X _ _ HX). Qed.

  Lemma val_zero_dir k : (k < 3)%nat -> vals k = 0 -> forall a, (a < 3)%nat -> vecs k a = dot3 (c 2%nat) (vecs k) * b 2%nat a.
  Proof.
    intros Hk Z a Ha. rewrite val_quad in Z by assumption.
    destruct (spd_quad X (dot3 (c 0%nat) (vecs k)) (dot3 (c 1%nat) (vecs k)) HX) as [_ H].
    destruct (H Z) as [z0 z1]. rewrite (dual_expand b c (vecs k) (proj1 F) a Ha) at 1. unfold sum3. rewrite z0, z1. ring.
  Qed.

  Lemma B_kills : forall w, dot3 w (mvec3 (Bten X c) (b 2%nat)) = 0.
  Proof.
    intro w. rewrite Bten_quad. unfold sum2.
    assert (D : forall l, (l < 2)%nat -> dot3 (c l) (b 2%nat) = 0).
    { intros l Hl. rewrite dot3_comm, (proj1 F) by lia. unfold delta. destruct l as [|[|l]]; [reflexivity|reflexivity|lia]. }
    rewrite !D by lia. ring.
  Qed.

  Lemma val_normal k : (k < 3)%nat -> vals k * dot3 (vecs k) (b 2%nat) = 0.
  Proof.
    intro Hk. pose proof (eig_quad _ _ _ k HE Hk (b 2%nat)) as E.
    rewrite (Bten_selfadj X c (vecs k) (b 2%nat) (proj1 HX)), B_kills in E. rewrite (dot3_comm (vecs k)). symmetry. exact E.
  Qed.

  Lemma parseval u w : dot3 u w = sum3 (fun k => dot3 u (vecs k) * dot3 w (vecs k)).
  Proof.
    destruct HE as (_ & _ & HC & _).
    pose proof (fun a b0 => HC a b0) as K. unfold sum3 in K.
    transitivity (sum3 (fun a => sum3 (fun a' => u a * w a' * delta a a'))).
    - unfold dot3, sum3; cbv [delta Nat.eqb]; ring.
    - unfold sum3. rewrite <- !K by lia. unfold dot3, sum3. ring.
  Qed.

  Lemma val0 : vals 0%nat = 0.
  Proof.
    pose proof (parseval (b 2%nat) (b 2%nat)) as P. rewrite (proj1 (proj2 F)) in P. unfold sum3 in P.
    destruct HE as (_ & _ & _ & L1 & L2). pose proof (val_nonneg 0 ltac:(lia)) as N0.
    assert (K : forall k, (k < 3)%nat -> vals k = 0 \/ dot3 (b 2%nat) (vecs k) = 0).
    { intros k Hk. pose proof (val_normal k Hk) as V. apply Rmult_integral in V. rewrite (dot3_comm (vecs k)) in V. exact V. }
    destruct (K 0%nat ltac:(lia)) as [|z0]; [assumption|].
    destruct (K 1%nat ltac:(lia)) as [|z1]; [lra|].
    destruct (K 2%nat ltac:(lia)) as [|z2]; [lra|].
    rewrite z0, z1, z2 in P. lra.
  Qed.

  Lemma val1_pos : 0 < vals 1%nat.
  Proof.
    destruct (val_nonneg 1 ltac:(lia)) as [|Z]; [assumption|]. exfalso. symmetry in Z.
    pose proof (val_zero_dir 0 ltac:(lia) val0) as V0. pose proof (val_zero_dir 1 ltac:(lia) Z) as V1.
    destruct HE as (_ & HO & _).
    pose proof (HO 0%nat 0%nat ltac:(lia) ltac:(lia)) as O00. pose proof (HO 0%nat 1%nat ltac:(lia) ltac:(lia)) as O01.
    pose proof (HO 1%nat 1%nat ltac:(lia) ltac:(lia)) as O11.
    cbv [delta Nat.eqb] in O00, O01, O11.
    set (s := dot3 (c 2%nat) (vecs 0%nat)) in *. set (t := dot3 (c 2%nat) (vecs 1%nat)) in *.
    assert (E : forall k l p q, (forall a, (a < 3)%nat -> vecs k a = p * b 2%nat a) -> (forall a, (a < 3)%nat -> vecs l a = q * b 2%nat a) ->
       dot3 (vecs k) (vecs l) = p * q).
    { intros k l p q Hp Hq. unfold dot3, sum3. rewrite !Hp, !Hq by lia. pose proof (proj1 (proj2 F)) as U. unfold dot3, sum3 in U.
      transitivity (p * q * (b 2%nat 0%nat * b 2%nat 0%nat + b 2%nat 1%nat * b 2%nat 1%nat + b 2%nat 2%nat * b 2%nat 2%nat)); [ring|]. rewrite U. ring. }
    rewrite (E _ _ _ _ V0 V0) in O00. rewrite (E _ _ _ _ V0 V1) in O01. rewrite (E _ _ _ _ V1 V1) in O11. nra.
  Qed.

  Lemma principal_ok : principal_stretches (Bten X c) (b 2%nat) (sqrt (vals 1%nat)) (sqrt (vals 2%nat)) (vecs 1%nat) (vecs 2%nat).
  Proof.
    pose proof val1_pos as P1. destruct (HE) as (HV & HO & _ & L1 & L2).
    assert (P2 : 0 < vals 2%nat) by lra.
    unfold principal_stretches. rewrite !sqrt_sqrt by lra. repeat split.
    - apply sqrt_lt_R0; assumption.
    - apply sqrt_le_1; lra.
    - intros; apply HV; lia.
    - intros; apply HV; lia.
    - rewrite HO by lia. reflexivity.
    - rewrite HO by lia. reflexivity.
    - rewrite HO by lia. reflexivity.
    - pose proof (val_normal 1 ltac:(lia)) as V. apply Rmult_integral in V. destruct V; [lra|assumption].
    - pose proof (val_normal 2 ltac:(lia)) as V. apply Rmult_integral in V. destruct V; [lra|assumption].
  Qed.

  (* both true stretches one: undeformed *)
  Lemma unit_stretches_undeformed : vals 1%nat = 1 -> vals 2%nat = 1 -> forall i j, (i < 2)%nat -> (j < 2)%nat -> X i j = dot3 (b i) (b j).
  Proof.
    intros E1 E2 i j Hi Hj.
    (* X_ij = b_i . B b_j *)
    assert (XB : X i j = dot3 (b i) (mvec3 (Bten X c) (b j))).
    { rewrite Bten_quad. unfold sum2.
      assert (D : forall k l, (k < 2)%nat -> (l < 2)%nat -> dot3 (c l) (b k) = delta k l) by (intros; rewrite dot3_comm; apply (proj1 F); lia).
      rewrite !D by lia. idx2 i Hi; idx2 j Hj; cbv [delta Nat.eqb]; ring. }
    rewrite XB.
    pose proof (parseval (b i) (mvec3 (Bten X c) (b j))) as P. rewrite P.
    rewrite (parseval (b i) (b j)). unfold sum3.
    assert (K : forall k, (k < 3)%nat -> dot3 (mvec3 (Bten X c) (b j)) (vecs k) = vals k * dot3 (b j) (vecs k)).
    { intros k Hk. rewrite dot3_comm. rewrite (Bten_selfadj X c (b j) (vecs k) (proj1 HX)). apply (eig_quad _ _ _ k HE Hk). }
    rewrite !K by lia. rewrite val0, E1, E2.
    pose proof (val_zero_dir 0 ltac:(lia) val0) as V0.
    assert (Z : dot3 (b i) (vecs 0%nat) = 0).
    { unfold dot3, sum3. rewrite !V0 by lia. pose proof (proj2 (proj2 F) i Hi) as O. unfold dot3 at 1, sum3 in O.
      transitivity (dot3 (c 2%nat) (vecs 0%nat) * (b i 0%nat * b 2%nat 0%nat + b i 1%nat * b 2%nat 1%nat + b i 2%nat * b 2%nat 2%nat)); [ring|].
      rewrite O. ring. }
    rewrite Z. ring.
  Qed.
End Spd.

Lemma shell_frame g z : regular g -> det3 (Gcov g z) <> 0 -> frame (gcov g z) (gcon g z).
Proof.
  intros H D. destruct (shell_dual g z H D) as (Hd & _). split; [exact Hd|]. split.
  - exact (normal_unit g H).
  - intros i Hi. pose proof (Gcov_gram g z H i 2%nat ltac:(lia) ltac:(lia)) as G.
    rewrite <- G. idx2 i Hi; reflexivity.
Qed.

Lemma evalStretch_no_shortcut eps C gcon vals vecs : shortcut eps (Bten C gcon) = false ->
  fst (evalStretch eps C gcon vals vecs) 0%nat = sqrt (vals 1%nat) /\ fst (evalStretch eps C gcon vals vecs) 1%nat = sqrt (vals 2%nat) /\
  snd (evalStretch eps C gcon vals vecs) 0%nat = vecs 1%nat /\ snd (evalStretch eps C gcon vals vecs) 1%nat = vecs 2%nat.
Proof. intro H. unfold evalStretch. rewrite H. repeat split. Qed.

Lemma stretch_correct eps g z C vals vecs : regular g -> det3 (Gcov g z) <> 0 -> spd2 C ->
  eigen_decomposition (Bten C (gcon g z)) vals vecs -> shortcut eps (Bten C (gcon g z)) = false ->
  let r := evalStretch eps C (gcon g z) vals vecs in
  principal_stretches (Bten C (gcon g z)) (normal g) (fst r 0%nat) (fst r 1%nat) (snd r 0%nat) (snd r 1%nat).
Proof.
  intros Hg HD HC HE Hs r. unfold r. destruct (evalStretch_no_shortcut eps C (gcon g z) vals vecs Hs) as (-> & -> & -> & ->).
  exact (principal_ok (gcov g z) (gcon g z) C vals vecs (shell_frame g z Hg HD) HC HE).
Qed.

Lemma stretch_shortcut eps C gcon vals vecs : shortcut eps (Bten C gcon) = true ->
  fst (evalStretch eps C gcon vals vecs) 0%nat = 1 /\ fst (evalStretch eps C gcon vals vecs) 1%nat = 1.
Proof. intro H. unfold evalStretch. rewrite H. cbn. split; apply sqrt_1. Qed.

Lemma stretch_shortcut_wrong eps g z C vals vecs : regular g -> det3 (Gcov g z) <> 0 -> spd2 C ->
  eigen_decomposition (Bten C (gcon g z)) vals vecs -> shortcut eps (Bten C (gcon g z)) = true ->
  (exists i j, (i < 2)%nat /\ (j < 2)%nat /\ C i j <> Gcov g z i j) ->
  let r := evalStretch eps C (gcon g z) vals vecs in
  fst r 0%nat = 1 /\ fst r 1%nat = 1 /\ (sqrt (vals 1%nat) <> fst r 0%nat \/ sqrt (vals 2%nat) <> fst r 1%nat).
Proof.
  intros Hg HD HC HE Hs (i & j & Hi & Hj & Hne) r.
  destruct (stretch_shortcut eps C (gcon g z) vals vecs Hs) as (E1 & E2). fold r in E1, E2.
  repeat split; try assumption. rewrite E1, E2.
  destruct (Req_dec (sqrt (vals 1%nat)) 1) as [F1|F1]; [|left; assumption].
  destruct (Req_dec (sqrt (vals 2%nat)) 1) as [F2|F2]; [|right; assumption].
  exfalso. apply Hne.
  pose proof (shell_frame g z Hg HD) as F.
  pose proof (val_nonneg (gcon g z) C vals vecs HC HE 1 ltac:(lia)) as N1.
  pose proof (val_nonneg (gcon g z) C vals vecs HC HE 2 ltac:(lia)) as N2.
  assert (V1 : vals 1%nat = 1) by (rewrite <- (sqrt_sqrt (vals 1%nat)) by assumption; rewrite F1; ring).
  assert (V2 : vals 2%nat = 1) by (rewrite <- (sqrt_sqrt (vals 2%nat)) by assumption; rewrite F2; ring).
  rewrite (unit_stretches_undeformed (gcov g z) (gcon g z) C vals vecs F HC HE V1 V2 i j Hi Hj).
  symmetry. apply Gcov_gram; [assumption|lia|lia].
Qed.

(* ---- principal stress / strain values ---- *)
Lemma pvals_ok tol v : 0 < tol -> v 0%nat <= v 1%nat <= v 2%nat -> (exists k, (k < 3)%nat /\ v k = 0) ->
  exists p q d, pvals tol v = Ok (p, q) /\ p <= q /\
    ((p, q, d) = (v 1%nat, v 2%nat, v 0%nat) \/ (p, q, d) = (v 0%nat, v 2%nat, v 1%nat) \/ (p, q, d) = (v 0%nat, v 1%nat, v 2%nat)) /\
    (Rabs d < tol * maxabs v \/ maxabs v = 0).
Proof.
  intros Ht [L1 L2] (k & Hk & Z).
  unfold pvals, zeroIdx. set (mx := if Req_EM_T (maxabs v) 0 then 1 else maxabs v).
  assert (M0 : 0 <= maxabs v) by (unfold maxabs; eapply Rle_trans; [apply Rabs_pos|apply Rmax_l]).
  assert (Mp : 0 < mx) by (unfold mx; destruct (Req_EM_T (maxabs v) 0); lra).
  assert (S : forall i, Rabs (v i) / mx < tol -> Rabs (v i) < tol * maxabs v \/ maxabs v = 0).
  { intros i Hi. unfold mx in Hi. destruct (Req_EM_T (maxabs v) 0); [right; assumption|left].
    apply (Rmult_lt_compat_r (maxabs v)) in Hi; [|lra]. unfold Rdiv in Hi. rewrite Rmult_assoc, Rinv_l, Rmult_1_r in Hi; assumption. }
  assert (Zk : Rabs (v k) / mx < tol) by (rewrite Z, Rabs_R0; unfold Rdiv; lra).
  destruct (Rlt_dec (Rabs (v 2%nat) / mx) tol) as [h2|h2]; [|destruct (Rlt_dec (Rabs (v 1%nat) / mx) tol) as [h1|h1]; [|destruct (Rlt_dec (Rabs (v 0%nat) / mx) tol) as [h0|h0]]].
  - exists (v 0%nat), (v 1%nat), (v 2%nat). repeat split; try lra; auto.
  - exists (v 0%nat), (v 2%nat), (v 1%nat). repeat split; try lra; auto.
  - exists (v 1%nat), (v 2%nat), (v 0%nat). repeat split; try lra; auto.
  - exfalso. idx3 k Hk; contradiction.
Qed.

(* singular B: some eigenvalue vanishes, whatever the in-plane tensor *)
Lemma singular_zero_eig b c X vals vecs : frame b c -> symmetric 2 X -> eigen_decomposition (Bten X c) vals vecs ->
  exists k, (k < 3)%nat /\ vals k = 0.
Proof.
  intros F HX HE.
  assert (P : dot3 (b 2%nat) (b 2%nat) = sum3 (fun k => dot3 (b 2%nat) (vecs k) * dot3 (b 2%nat) (vecs k))).
  { exact (parseval c X vals vecs HE (b 2%nat) (b 2%nat)). }
  rewrite (proj1 (proj2 F)) in P. unfold sum3 in P.
  assert (K : forall k, (k < 3)%nat -> vals k = 0 \/ dot3 (b 2%nat) (vecs k) = 0).
  { intros k Hk. pose proof (eig_quad _ _ _ k HE Hk (b 2%nat)) as E.
    rewrite (Bten_selfadj X c (vecs k) (b 2%nat) HX), (B_kills b c X F) in E. symmetry in E. apply Rmult_integral in E. exact E. }
  destruct (K 0%nat ltac:(lia)) as [|z0]; [exists 0%nat; split; [lia|assumption]|].
  destruct (K 1%nat ltac:(lia)) as [|z1]; [exists 1%nat; split; [lia|assumption]|].
  destruct (K 2%nat ltac:(lia)) as [|z2]; [exists 2%nat; split; [lia|assumption]|].
  rewrite z0, z1, z2 in P. lra.
Qed.

(* ---- tension field ---- *)
Lemma pos_true x : pos x = true <-> 0 < x.
Proof. unfold pos. destruct (Rlt_dec 0 x); split; intros; try assumption; try reflexivity; try discriminate; contradiction. Qed.
Lemma neg_true x : neg x = true <-> x < 0.
Proof. unfold neg. destruct (Rlt_dec x 0); split; intros; try assumption; try reflexivity; try discriminate; contradiction. Qed.
Lemma near_true x m : near_zero x m = true <-> Rabs x <= m * / 10 ^ 12.
Proof. unfold near_zero. destruct (Rle_dec (Rabs x) (m * / 10 ^ 12)); split; intros; try assumption; try reflexivity; try discriminate; contradiction. Qed.

Lemma near_scale s x m : 0 < s -> near_zero (s * x) (s * m) = near_zero x m.
Proof.
  intro Hs. destruct (near_zero x m) eqn:E.
  - apply near_true. apply near_true in E. rewrite Rabs_mult, (Rabs_right s) by lra. rewrite Rmult_assoc. apply Rmult_le_compat_l; lra.
  - destruct (near_zero (s * x) (s * m)) eqn:E2; [|reflexivity]. apply near_true in E2.
    rewrite Rabs_mult, (Rabs_right s), Rmult_assoc in E2 by lra. apply Rmult_le_reg_l in E2; [|assumption].
    apply near_true in E2. congruence.
Qed.
Lemma pos_scale s x : 0 < s -> pos (s * x) = pos x.
Proof.
  intro Hs. destruct (pos x) eqn:E.
  - apply pos_true. apply pos_true in E. apply Rmult_lt_0_compat; assumption.
  - destruct (pos (s * x)) eqn:E2; [|reflexivity]. apply pos_true in E2.
    assert (0 < x) by (apply (Rmult_lt_reg_l s); [assumption|lra]). apply pos_true in H. congruence.
Qed.
Lemma neg_scale s x : 0 < s -> neg (s * x) = neg x.
Proof.
  intro Hs. destruct (neg x) eqn:E.
  - apply neg_true. apply neg_true in E. apply (Rmult_lt_compat_l s) in E; lra.
  - destruct (neg (s * x)) eqn:E2; [|reflexivity]. apply neg_true in E2.
    assert (x < 0) by (apply (Rmult_lt_reg_l s); [assumption|lra]). apply neg_true in H. congruence.
Qed.

Lemma tf_homogeneous typ s e Sp Ep : 0 < s -> 0 < e ->
  tensionField typ (s * fst Sp, s * snd Sp) (e * fst Ep, e * snd Ep) = tensionField typ Sp Ep.
Proof.
  intros Hs He. unfold tensionField; cbn [fst snd].
  replace (Rmax (s * fst Sp) (s * snd Sp)) with (s * Rmax (fst Sp) (snd Sp)) by (symmetry; apply RmaxRmult; lra).
  replace (Rmax (e * fst Ep) (Rmax (e * snd Ep) 0)) with (e * Rmax (fst Ep) (Rmax (snd Ep) 0)).
  2:{ rewrite <- RmaxRmult by lra. f_equal. rewrite <- RmaxRmult by lra. f_equal. ring. }
  rewrite !near_scale, !pos_scale, !neg_scale by assumption. reflexivity.
Qed.

(* the physical reading of the three criteria on ordered principal values *)
Lemma tf_taut typ Sp Ep : (typ <= 2)%nat -> fst Sp <= snd Sp -> fst Ep <= snd Ep ->
  let x := match typ with 0%nat => fst Ep | _ => fst Sp end in
  let y := match typ with 0%nat => Rmax (snd Ep) 0 | _ => snd Sp end in
  (tensionField typ Sp Ep = Taut <-> 0 <= x \/ (- (y * / 10 ^ 12) <= x < 0 /\ 0 < y)).
Proof.
  intros Ht Ls Le x y.
  assert (P12 : 0 < / 10 ^ 12) by (apply Rinv_0_lt_compat, pow_lt; lra).
  assert (G : forall a b w st, a <= b -> w = b -> 
     ((if (pos a || near_zero a w)%bool then Taut else (if neg st then Slack else Wrinkled)) = Taut <-> 0 <= a \/ (- (b * / 10 ^ 12) <= a < 0 /\ 0 < b))).
  { intros a b w st Hab ->. destruct (pos a) eqn:Ep1; cbn [orb].
    - apply pos_true in Ep1. split; [intros _; left; lra|reflexivity].
    - assert (Ha : ~ 0 < a) by (intro h; apply pos_true in h; congruence).
      destruct (near_zero a b) eqn:En.
      + split; [intros _|reflexivity]. apply near_true in En. rewrite Rabs_left1 in En by lra.
        destruct (Req_dec a 0); [left; lra|right].
        assert (0 < b * / 10 ^ 12) by lra. split; [lra|].
        apply (Rmult_lt_reg_r (/ 10 ^ 12)); [assumption|lra].
      + split; [destruct (neg st); discriminate|]. intros H. exfalso.
        assert (near_zero a b = true); [|congruence]. apply near_true. rewrite Rabs_left1 by lra.
        destruct H as [H|[[H1 H2] H3]].
        * assert (a = 0) by lra. subst a. assert (0 <= b * / 10 ^ 12) by (apply Rmult_le_pos; lra). lra.
        * lra. }
  unfold tensionField, x, y. destruct typ as [|[|[|typ]]]; [| | |lia].
  - apply G; [apply (Rle_trans _ (snd Ep)); [assumption|apply Rmax_l]|]. apply Rmax_right. apply (Rle_trans _ (snd Ep)); [assumption|apply Rmax_l].
  - apply G; [assumption|]. apply Rmax_right; assumption.
  - apply G; [assumption|]. apply Rmax_right; assumption.
Qed.

Lemma tf_slack typ Sp Ep : (typ <= 2)%nat -> fst Sp <= snd Sp -> fst Ep <= snd Ep ->
  tensionField typ Sp Ep = Slack -> (match typ with 1%nat => snd Sp | _ => snd Ep end) < 0.
Proof.
  intros Ht _ _. unfold tensionField. destruct typ as [|[|[|typ]]]; [| | |lia].
  all: match goal with |- context[if ?b then _ else _] => destruct b; [discriminate|] end.
  all: match goal with |- context[if neg ?x then _ else _] => destruct (neg x) eqn:E; [|discriminate] end.
  all: intros _; apply neg_true; assumption.
Qed.

Lemma tf_slack_conv typ Sp Ep : (typ <= 2)%nat -> fst Sp <= snd Sp -> fst Ep <= snd Ep ->
  match typ with 1%nat => snd Sp < 0 | 0%nat => snd Ep < 0 | _ => snd Sp < 0 /\ snd Ep < 0 end -> tensionField typ Sp Ep = Slack.
Proof.
  intros Ht Ls Le H.
  assert (N : tensionField typ Sp Ep <> Taut).
  { rewrite (tf_taut typ Sp Ep Ht Ls Le). intros [h|[_ h]]; revert h; destruct typ as [|[|[|typ]]]; try lia; try lra.
    - rewrite Rmax_right by lra. lra. }
  unfold tensionField in *. destruct typ as [|[|[|typ]]]; [| | |lia];
  match goal with |- context[if ?b then _ else _] => destruct b; [congruence|] end.
  - now rewrite (proj2 (neg_true _) H).
  - now rewrite (proj2 (neg_true _) H).
  - destruct H as [_ H]. now rewrite (proj2 (neg_true _) H).
Qed.

(* isotropic linear plane-stress response of principal strains *)
Definition iso_principal (E nu : R) (Ep : R * R) : R * R :=
  (E / (1 - nu * nu) * (fst Ep + nu * snd Ep), E / (1 - nu * nu) * (snd Ep + nu * fst Ep)).

Lemma tf_mixed_consistent E nu Ep : 0 < E -> 0 <= nu < 1 -> fst Ep <= snd Ep ->
  let Sp := iso_principal E nu Ep in
  fst Sp <= snd Sp /\
  (tensionField 0 Sp Ep = Slack <-> tensionField 2 Sp Ep = Slack) /\
  (tensionField 2 Sp Ep = Slack -> tensionField 1 Sp Ep = Slack) /\
  (tensionField 1 Sp Ep = Taut <-> tensionField 2 Sp Ep = Taut) /\
  (0 < fst Ep -> tensionField 2 Sp Ep = Taut).
Proof.
  intros HE Hn Le Sp. destruct Ep as [e1 e2]. cbn [fst snd] in *.
  assert (K : 0 < E / (1 - nu * nu)) by (apply Rdiv_lt_0_compat; nra).
  assert (Ls : fst Sp <= snd Sp).
  { unfold Sp, iso_principal; cbn [fst snd]. apply Rmult_le_compat_l; [lra|]. nra. }
  split; [exact Ls|].
  assert (S2 : e2 < 0 -> snd Sp < 0).
  { intro h. unfold Sp, iso_principal; cbn [fst snd].
    assert (e2 + nu * e1 < 0) by nra. apply (Rmult_lt_compat_l (E / (1 - nu * nu))) in H; [|assumption]. lra. }
  assert (T12 : tensionField 1 Sp (e1, e2) = Taut <-> tensionField 2 Sp (e1, e2) = Taut).
  { rewrite !(tf_taut _ Sp (e1, e2)) by (try lia; try assumption; cbn; assumption). reflexivity. }
  assert (SL2 : tensionField 2 Sp (e1, e2) = Slack <-> e2 < 0).
  { split; [intro h; exact (tf_slack 2 Sp (e1, e2) ltac:(lia) Ls Le h)|].
    intro h. apply tf_slack_conv; [lia|assumption|exact Le|]. cbn. split; [apply S2; assumption|assumption]. }
  assert (SL0 : tensionField 0 Sp (e1, e2) = Slack <-> e2 < 0).
  { split; [intro h; exact (tf_slack 0 Sp (e1, e2) ltac:(lia) Ls Le h)|].
    intro h. apply tf_slack_conv; [lia|assumption|exact Le|exact h]. }
  split; [rewrite SL0, SL2; reflexivity|]. split; [|split; [exact T12|]].
  - intro h. apply SL2 in h. apply tf_slack_conv; [lia|assumption|exact Le|]. apply S2; assumption.
  - intro h. apply (tf_taut 2 Sp (e1, e2)); [lia|assumption|exact Le|]. left.
    unfold Sp, iso_principal; cbn [fst snd]. apply Rmult_le_pos; [lra|]. nra.
Qed.

Lemma tf_option opt Sp Ep : eval_tensionfield opt Sp Ep = UB <-> (2 < opt)%nat.
Proof. unfold eval_tensionfield. destruct (Nat.leb_spec opt 2); split; intros; try discriminate; try lia; reflexivity. Qed.

(* ---- transformation ---- *)
Lemma transformation_correct b1 b2 X r : symmetric 2 X -> (r < 3)%nat ->
  mvec3 (transformation b1 b2) (voigt3 X) r = voigt3 (tensor_on X b1 b2) r.
Proof.
  intros HX Hr. pose proof (HX 1%nat 0%nat ltac:(lia) ltac:(lia)) as E.
  assert (D : forall i j, dot3 (b1 i) (b2 j) = dot3 (b2 j) (b1 i)) by (intros; apply dot3_comm).
  idx3 r Hr; unfold mvec3, transformation, voigt3, tensor_on, sum2, sum3; rewrite !D, ?E; ring.
Qed.

(* strain-like (11,22,2*12) components transform back with the transposed matrix *)
Lemma transformation_work b1 b2 s e :
  sum3 (fun r => e r * mvec3 (transformation b1 b2) s r) = sum3 (fun r => mvec3 (mtr (transformation b1 b2)) e r * s r).
Proof. unfold sum3, mvec3, mtr, sum3. ring. Qed.

(* raising principal values never leaves the taut state *)
Lemma tf_monotone typ Sp Ep Sp' Ep' : (typ <= 2)%nat -> fst Sp <= snd Sp -> fst Ep <= snd Ep -> fst Sp' <= snd Sp' -> fst Ep' <= snd Ep' ->
  fst Sp <= fst Sp' -> snd Sp <= snd Sp' -> fst Ep <= fst Ep' -> snd Ep <= snd Ep' ->
  tensionField typ Sp Ep = Taut -> tensionField typ Sp' Ep' = Taut.
Proof.
  intros Ht L1 L2 L3 L4 M1 M2 M3 M4.
  assert (P12 : 0 < / 10 ^ 12) by (apply Rinv_0_lt_compat, pow_lt; lra).
  rewrite (tf_taut typ Sp Ep Ht L1 L2), (tf_taut typ Sp' Ep' Ht L3 L4). cbv zeta.
  assert (G : forall x y x' y', x <= x' -> y <= y' -> 0 <= x \/ - (y * / 10 ^ 12) <= x < 0 /\ 0 < y -> 0 <= x' \/ - (y' * / 10 ^ 12) <= x' < 0 /\ 0 < y').
  { intros x y x' y' Hx Hy H. destruct (Rle_dec 0 x') as [h|h]; [left; assumption|right].
    destruct H as [H|[[H1 H2] H3]]; [lra|].
    assert (y * / 10 ^ 12 <= y' * / 10 ^ 12) by (apply Rmult_le_compat_r; lra). lra. }
  destruct typ as [|[|[|typ]]]; [| | |lia]; apply G; try assumption.
  apply Rle_max_compat_r. assumption.
Qed.

(* the sum of the eigenvalues is the trace *)
Lemma eig_trace B vals vecs : eigen_decomposition B vals vecs -> sum3 vals = sum3 (fun a => B a a).
Proof.
  intros (HV & HO & HC & _).
  assert (Q : forall k, (k < 3)%nat -> vals k = sum3 (fun a => vecs k a * mvec3 B (vecs k) a)).
  { intros k Hk. pose proof (HO k k Hk Hk) as U. unfold delta in U. rewrite Nat.eqb_refl in U.
    unfold sum3. rewrite !HV by lia.
    transitivity (vals k * dot3 (vecs k) (vecs k)); [rewrite U; ring|unfold dot3, sum3; ring]. }
  unfold sum3 at 1. rewrite !Q by lia.
  transitivity (sum3 (fun a => sum3 (fun b => B a b * sum3 (fun k => vecs k a * vecs k b)))).
  - unfold mvec3, sum3; ring.
  - unfold sum3 at 1 2. rewrite !HC by lia. unfold sum3, delta; cbn [Nat.eqb]. ring.
Qed.

Lemma eig_rank1 c B vals vecs : 0 < c -> (forall a b, (a < 3)%nat -> (b < 3)%nat -> B a b = if (Nat.eqb a 0 && Nat.eqb b 0)%bool then c else 0) ->
  eigen_decomposition B vals vecs -> vals 2%nat = c.
Proof.
  intros Hc HB HE. pose proof (eig_trace _ _ _ HE) as T. destruct HE as (HV & HO & _ & L1 & L2).
  unfold sum3 in T. rewrite !HB in T by lia. cbn in T.
  assert (V : forall a, (a < 3)%nat -> mvec3 B (vecs 2%nat) a = if Nat.eqb a 0 then c * vecs 2%nat 0%nat else 0).
  { intros a Ha. unfold mvec3, sum3. rewrite !HB by lia. idx3 a Ha; cbn; ring. }
  pose proof (HV 2%nat 0%nat ltac:(lia) ltac:(lia)) as V0. pose proof (HV 2%nat 1%nat ltac:(lia) ltac:(lia)) as V1.
  pose proof (HV 2%nat 2%nat ltac:(lia) ltac:(lia)) as V2. rewrite V in V0, V1, V2 by lia. cbn in V0, V1, V2.
  assert (P : 0 < vals 2%nat) by lra.
  assert (Z1 : vecs 2%nat 1%nat = 0) by (symmetry in V1; apply Rmult_integral in V1; destruct V1; lra).
  assert (Z2 : vecs 2%nat 2%nat = 0) by (symmetry in V2; apply Rmult_integral in V2; destruct V2; lra).
  pose proof (HO 2%nat 2%nat ltac:(lia) ltac:(lia)) as U. unfold dot3, sum3, delta in U. rewrite Z1, Z2 in U. cbn in U.
  assert (N : vecs 2%nat 0%nat <> 0) by (intro h; rewrite h in U; lra).
  apply (Rmult_eq_reg_r (vecs 2%nat 0%nat)); [lra|assumption].
Qed.

Lemma principal_values tol g z X vals vecs : 0 < tol -> regular g -> det3 (Gcov g z) <> 0 -> symmetric 2 X ->
  eigen_decomposition (Bten X (gcon g z)) vals vecs ->
  exists p q d, pvals tol vals = Ok (p, q) /\ p <= q /\
    ((p, q, d) = (vals 1%nat, vals 2%nat, vals 0%nat) \/ (p, q, d) = (vals 0%nat, vals 2%nat, vals 1%nat) \/ (p, q, d) = (vals 0%nat, vals 1%nat, vals 2%nat)) /\
    (Rabs d < tol * maxabs vals \/ maxabs vals = 0).
Proof.
  intros Ht Hg HD HX HE. apply pvals_ok; [assumption|apply HE|].
  exact (singular_zero_eig _ _ _ _ _ (shell_frame g z Hg HD) HX HE).
Qed.

Lemma maxabs_le v k : (k < 3)%nat -> Rabs (v k) <= maxabs v.
Proof.
  intro Hk. unfold maxabs. idx3 k Hk.
  - apply Rmax_l.
  - eapply Rle_trans; [|apply Rmax_r]. apply Rmax_l.
  - eapply Rle_trans; [|apply Rmax_r]. apply Rmax_r.
Qed.

Lemma principal_trace tol g z X vals vecs p q : 0 < tol -> regular g -> det3 (Gcov g z) <> 0 -> symmetric 2 X ->
  eigen_decomposition (Bten X (gcon g z)) vals vecs -> pvals tol vals = Ok (p, q) ->
  Rabs (p + q - sum2 (fun k => sum2 (fun l => X k l * Gcon g z k l))) <= tol * maxabs vals.
Proof.
  intros Ht Hg HD HX HE HP.
  destruct (principal_values tol g z X vals vecs Ht Hg HD HX HE) as (p' & q' & d & E & _ & C & S).
  rewrite E in HP. injection HP as -> ->.
  pose proof (eig_trace _ _ _ HE) as T.
  destruct (shell_dual g z Hg HD) as (_ & G & _).
  assert (TB : sum3 (fun a => Bten X (gcon g z) a a) = sum2 (fun k => sum2 (fun l => X k l * Gcon g z k l))).
  { unfold sum2. rewrite !(G _ _) by lia. unfold Bten, sum2, dot3, sum3. ring. }
  rewrite <- TB, <- T. unfold sum3.
  assert (Q : Rabs (- d) <= tol * maxabs vals).
  { rewrite Rabs_Ropp. destruct S as [S|S]; [lra|]. rewrite S, Rmult_0_r.
    assert (D : exists k, (k < 3)%nat /\ d = vals k).
    { destruct C as [C|[C|C]]; injection C; intros; [exists 0%nat|exists 1%nat|exists 2%nat]; (split; [lia|assumption]). }
    destruct D as (k & Hk & ->). rewrite <- S. apply maxabs_le; assumption. }
  destruct C as [C|[C|C]]; injection C as -> -> ->; eapply Rle_trans; [|exact Q| |exact Q| |exact Q]; right; f_equal; ring.
Qed.

Lemma transformation_inverse b1 b2 d1 d2 : coplanar_duals b1 d1 b2 d2 -> forall s r, (r < 3)%nat ->
  mvec3 (transformation d2 d1) (mvec3 (transformation b1 b2) s) r = s r.
Proof.
  intros (HD & HS) s r Hr.
  assert (K : forall k l, (k < 2)%nat -> (l < 2)%nat ->
    dot3 (d1 k) (d2 0%nat) * dot3 (b2 0%nat) (b1 l) + dot3 (d1 k) (d2 1%nat) * dot3 (b2 1%nat) (b1 l) = delta l k).
  { intros k l Hk Hl. rewrite <- (HD l k Hl Hk). unfold dot3 at 5, sum3. rewrite !(HS l) by lia. unfold sum2, dot3, sum3. ring. }
  pose proof (K 0%nat 0%nat ltac:(lia) ltac:(lia)) as K00. pose proof (K 0%nat 1%nat ltac:(lia) ltac:(lia)) as K01.
  pose proof (K 1%nat 0%nat ltac:(lia) ltac:(lia)) as K10. pose proof (K 1%nat 1%nat ltac:(lia) ltac:(lia)) as K11.
  cbv [delta Nat.eqb] in K00, K01, K10, K11.
  idx3 r Hr; unfold mvec3, transformation, sum3;
  set (a00 := dot3 (d1 0%nat) (d2 0%nat)) in *;
  set (a01 := dot3 (d1 0%nat) (d2 1%nat)) in *;
  set (a10 := dot3 (d1 1%nat) (d2 0%nat)) in *;
  set (a11 := dot3 (d1 1%nat) (d2 1%nat)) in *;
  set (m00 := dot3 (b2 0%nat) (b1 0%nat)) in *;
  set (m01 := dot3 (b2 0%nat) (b1 1%nat)) in *;
  set (m10 := dot3 (b2 1%nat) (b1 0%nat)) in *;
  set (m11 := dot3 (b2 1%nat) (b1 1%nat)) in *;
  clearbody a00 a01 a10 a11 m00 m01 m10 m11;
  clear K HD HS.
  - transitivity ((a00 * m00 + a01 * m10) * (a00 * m00 + a01 * m10) * s 0%nat + (a00 * m01 + a01 * m11) * (a00 * m01 + a01 * m11) * s 1%nat
        + 2 * (a00 * m00 + a01 * m10) * (a00 * m01 + a01 * m11) * s 2%nat); [ring|rewrite K00, K01; ring].
  - transitivity ((a10 * m00 + a11 * m10) * (a10 * m00 + a11 * m10) * s 0%nat + (a10 * m01 + a11 * m11) * (a10 * m01 + a11 * m11) * s 1%nat
        + 2 * (a10 * m00 + a11 * m10) * (a10 * m01 + a11 * m11) * s 2%nat); [ring|rewrite K10, K11; ring].
  - transitivity ((a00 * m00 + a01 * m10) * (a10 * m00 + a11 * m10) * s 0%nat + (a00 * m01 + a01 * m11) * (a10 * m01 + a11 * m11) * s 1%nat
        + ((a00 * m00 + a01 * m10) * (a10 * m01 + a11 * m11) + (a00 * m01 + a01 * m11) * (a10 * m00 + a11 * m10)) * s 2%nat); [ring|rewrite K00, K01, K10, K11; ring].
Qed.

Lemma transformation_direction_refuted : exists b1 b2 X, symmetric 2 X /\
  mvec3 (transformation b1 b2) (voigt3 X) 0%nat <> voigt3 (tensor_on X b2 b1) 0%nat.
Proof.
  exists (fun i c => match i, c with 0%nat, 0%nat => 1 | 0%nat, 1%nat => 1 | 1%nat, 1%nat => 1 | _, _ => 0 end), (fun i c => delta i c),
    (fun i j => match i, j with 1%nat, 1%nat => 1 | _, _ => 0 end). split.
  - intros i j Hi Hj. idx2 i Hi; idx2 j Hj; reflexivity.
  - cbv. lra.
Qed.

(* the flat unit patch *)
Definition flat : geo := mkGeo (fun i c => delta i c) (fun _ _ => 0).
Lemma flat_regular : regular flat.
Proof. exists 2%nat. split; [lia|]. cbv. lra. Qed.
Lemma flat_normal a : (a < 3)%nat -> normal flat a = delta 2 a.
Proof.
  intro Ha. rewrite (normal_eq _ flat_regular).
  assert (N : norm3 (cross3 (tang flat 0) (tang flat 1)) = 1).
  { unfold norm3. replace (dot3 _ _) with (1 * 1) by (cbv; ring). apply sqrt_square. lra. }
  rewrite N. idx3 a Ha; cbv [flat tang cross3 delta Nat.eqb]; field.
Qed.
Lemma flat_Gcov i j : (i < 3)%nat -> (j < 3)%nat -> Gcov flat 0 i j = delta i j.
Proof.
  intros Hi Hj. idx3 i Hi; idx3 j Hj; cbn [Gcov]; try reflexivity; rewrite ?Rmult_0_r, ?Rmult_0_l, ?Rminus_0_r, ?Rplus_0_r; cbv; ring.
Qed.
Lemma flat_det : det3 (Gcov flat 0) = 1.
Proof. rewrite <- det3_delta. apply det3_ext. exact flat_Gcov. Qed.
Lemma flat_gcon i a : (i < 3)%nat -> (a < 3)%nat -> gcon flat 0 i a = delta i a.
Proof.
  intros Hi Ha.
  assert (D : det3 (Gcov flat 0) <> 0) by (rewrite flat_det; lra).
  destruct (shell_dual flat 0 flat_regular D) as (Hd & _ & _).
  assert (B : forall k, (k < 3)%nat -> forall c, (c < 3)%nat -> gcov flat 0 k c = delta k c).
  { intros k Hk c Hc. idx3 k Hk; cbn [gcov]; try (rewrite Rmult_0_l, Rplus_0_r; reflexivity). apply flat_normal; assumption. }
  pose proof (Hd a i Ha Hi) as E. unfold dot3, sum3 in E. rewrite !B in E by lia.
  replace (delta i a) with (delta a i) by (unfold delta; rewrite Nat.eqb_sym; reflexivity).
  rewrite <- E. idx3 a Ha; cbv [delta Nat.eqb]; ring.
Qed.
Lemma flat_Bten X a b : (a < 3)%nat -> (b < 3)%nat -> Bten X (gcon flat 0) a b = if (Nat.ltb a 2 && Nat.ltb b 2)%bool then X a b else 0.
Proof.
  intros Ha Hb. unfold Bten, sum2. rewrite !flat_gcon by lia. idx3 a Ha; idx3 b Hb; cbv [delta Nat.eqb Nat.ltb Nat.leb andb]; ring.
Qed.

(* diag(p,q) on the flat patch *)
Definition dg (p q : R) : mat := fun i j => match i, j with 0%nat, 0%nat => p | 1%nat, 1%nat => q | _, _ => 0 end.
Definition dg_vals (p q : R) : vec := fun k => match k with 0%nat => 0 | 1%nat => q | _ => p end.
Definition dg_vecs : nat -> vec := fun k a => delta (2 - k) a.
Lemma dg_eigen p q : 0 <= q <= p -> eigen_decomposition (Bten (dg p q) (gcon flat 0)) (dg_vals p q) dg_vecs.
Proof.
  intros Hpq. split; [|split; [|split]].
  - intros k a Hk Ha. unfold mvec3, sum3. rewrite !flat_Bten by lia. idx3 k Hk; idx3 a Ha; cbv [Nat.ltb Nat.leb andb dg dg_vals dg_vecs delta Nat.eqb Nat.sub]; ring.
  - intros k l Hk Hl. idx3 k Hk; idx3 l Hl; cbv [dot3 sum3 dg_vecs delta Nat.eqb Nat.sub]; ring.
  - intros k l Hk Hl. idx3 k Hk; idx3 l Hl; cbv [dot3 sum3 dg_vecs delta Nat.eqb Nat.sub]; ring.
  - cbn. lra.
Qed.
Lemma dg_spd p q : 0 < p -> 0 < q -> spd2 (dg p q).
Proof.
  intros Hp Hq. unfold spd2. repeat split; cbv [dg det2]; try assumption; try nra.
  all: intros i j Hi Hj; idx2 i Hi; idx2 j Hj; reflexivity.
Qed.
Lemma dg_trace p q : (Bten (dg p q) (gcon flat 0) 0%nat 0%nat - 1) + (Bten (dg p q) (gcon flat 0) 1%nat 1%nat - 1) = p + q - 2.
Proof. rewrite !flat_Bten by lia. cbn. ring. Qed.

Lemma stretch_refuted : exists g C vals vecs, regular g /\ det3 (Gcov g 0) <> 0 /\ spd2 C /\
  eigen_decomposition (Bten C (gcon g 0)) vals vecs /\
  forall eps, 0 < eps -> let r := evalStretch eps C (gcon g 0) vals vecs in
    ~ principal_stretches (Bten C (gcon g 0)) (normal g) (fst r 0%nat) (fst r 1%nat) (snd r 0%nat) (snd r 1%nat).
Proof.
  exists flat, (dg (3/2) (1/2)), (dg_vals (3/2) (1/2)), dg_vecs.
  split; [exact flat_regular|]. split; [rewrite flat_det; lra|]. split; [apply dg_spd; lra|]. split; [apply dg_eigen; lra|].
  intros eps He r (_ & H & _). 
  assert (S : shortcut eps (Bten (dg (3/2) (1/2)) (gcon flat 0)) = true).
  { unfold shortcut. rewrite dg_trace. destruct (Rlt_dec _ _) as [h|h]; [reflexivity|]. exfalso. apply h.
    replace (3/2 + 1/2 - 2) with 0 by field. rewrite Rabs_R0. lra. }
  unfold r, evalStretch in H. rewrite S in H. cbn [fst snd] in H.
  specialize (H 1%nat ltac:(lia)). unfold mvec3, sum3 in H. rewrite !flat_Bten in H by lia. cbn in H. rewrite sqrt_1 in H. cbv [delta Nat.eqb] in H. lra.
Qed.

Lemma stretch_case : exists g C vals vecs, regular g /\ det3 (Gcov g 0) <> 0 /\ spd2 C /\
  eigen_decomposition (Bten C (gcon g 0)) vals vecs /\ shortcut (/ 10 ^ 15) (Bten C (gcon g 0)) = false.
Proof.
  exists flat, (dg 9 4), (dg_vals 9 4), dg_vecs.
  split; [exact flat_regular|]. split; [rewrite flat_det; lra|]. split; [apply dg_spd; lra|]. split; [apply dg_eigen; lra|].
  unfold shortcut. rewrite dg_trace. destruct (Rlt_dec _ _) as [h|h]; [|reflexivity]. exfalso.
  rewrite Rabs_right in h by lra.
  assert (/ 10 ^ 15 < 1) by (apply (Rmult_lt_reg_l (10 ^ 15)); [apply pow_lt; lra|rewrite Rinv_r; [lra|apply Rgt_not_eq, pow_lt; lra]]). lra.
Qed.
