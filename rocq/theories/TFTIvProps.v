(* C128: the interval in which the wrinkling angle is searched first. *)
From Coq Require Import Reals List Bool Arith Lra Lia Psatz ZArith.
From Verif Require Import Tensor BatchModel TFTModel TFTIvModel TFTSpec TFTIvSpec TFTIvProofs.
Import ListNotations.
Open Scope R_scope.

Lemma RE0_sq : forall E, iRE0 E * iRE0 E = ((E 0%nat - E 1%nat) / 2) ^ 2 + iE12 E * iE12 E.
Proof. intros. unfold iRE0. apply sqrt_sqrt. assert (A := pow2_ge_0 ((E 0%nat - E 1%nat) / 2)). assert (B := Rle_0_sqr (iE12 E)). unfold Rsqr in B. lra. Qed.
Lemma RN0_sq : forall N, iRN0 N * iRN0 N = ((N 0%nat - N 1%nat) / 2) ^ 2 + N 2%nat * N 2%nat.
Proof. intros. unfold iRN0. apply sqrt_sqrt. assert (A := pow2_ge_0 ((N 0%nat - N 1%nat) / 2)). assert (B := Rle_0_sqr (N 2%nat)). unfold Rsqr in B. lra. Qed.

Lemma ss0 : forall x y, x * x + y * y = 0 -> x = 0 /\ y = 0.
Proof. intros x y H. apply Rplus_sqr_eq_0. exact H. Qed.
(* the strain along m *)
Lemma strain_side : forall E zE th, iRE0 E <> 0 ->
  along (strain_tensor E) (tdir th) (tdir th) = iRE E * (cos (2 * th + th0E E zE) - iEc E).
Proof.
  intros E zE th H. assert (RP := RE_pos E). assert (RQ := RE0_sq E).
  assert (RR : iRE E = iRE0 E) by (unfold iRE; destruct Req_EM_T; [contradiction|reflexivity]).
  destruct (atan2_radius zE 1 (iE12 E / iRE E) ((E 1%nat - E 0%nat) / (2 * iRE E))) as (A & B); [lra| |].
  { apply Rmult_eq_reg_r with (iRE E * iRE E); [|nra]. rewrite RR at 1 2. rewrite !Rmult_1_l, RQ. field. lra. }
  rewrite (strain_form E th (th0E E zE) (iRE E)).
  - unfold iEc. field. lra.
  - unfold th0E. rewrite Rmult_1_l in A. rewrite A. field. lra.
  - unfold th0E. rewrite Rmult_1_l in B. rewrite B. unfold iE12. field. lra.
Qed.
Lemma stress_side : forall N zN th, aligned N -> iRN0 N <> 0 ->
  along (stress_tensor N) (wdir th) (wdir th) = iRN N * (cos (2 * th + th0N N zN) - iNc N).
Proof.
  intros N zN th AL H. assert (RP := RN_pos N). assert (RQ := RN0_sq N).
  assert (RR : iRN N = iRN0 N) by (unfold iRN; destruct Req_EM_T; [contradiction|reflexivity]). rewrite <- RR in RQ.
  assert (G : iRN N * cos (th0N N zN) = (N 0%nat - N 1%nat) / 2 /\ iRN N * sin (th0N N zN) = - N 2%nat).
  { unfold th0N. destruct AL as [Z|Z].
    - rewrite Z in *. destruct (atan2_radius zN 2 (- 0 / iRN N) ((N 0%nat - N 1%nat) / iRN N)) as (A & B); [lra| |].
      { apply Rmult_eq_reg_r with (iRN N * iRN N); [|nra]. transitivity ((N 0%nat - N 1%nat) * (N 0%nat - N 1%nat)); [nra|field; lra]. }
      split; [apply Rmult_eq_reg_l with 2; [|lra]; rewrite (Rmult_comm (iRN N)), <- Rmult_assoc, A; field; lra|].
      apply Rmult_eq_reg_l with 2; [|lra]. rewrite (Rmult_comm (iRN N)), <- Rmult_assoc, B. field. lra.
    - rewrite Z in *. destruct (atan2_radius zN 1 (- N 2%nat / iRN N) ((N 1%nat - N 1%nat) / iRN N)) as (A & B); [lra| |].
      { apply Rmult_eq_reg_r with (iRN N * iRN N); [|nra]. transitivity (N 2%nat * N 2%nat); [nra|field; lra]. }
      rewrite Rmult_1_l in A, B. rewrite A, B. split; field; lra. }
  rewrite (stress_form N th (th0N N zN) (iRN N)); [unfold iNc; field; lra|tauto|tauto].
Qed.
Lemma E_half : forall E, iRE0 E <> 0 -> 0 <= th2E E <= PI /\ (0 < th2E E -> iEc E <= cos (th2E E)) /\ (th2E E < PI -> cos (th2E E) <= iEc E).
Proof.
  intros E H. assert (RR : iRE E = iRE0 E) by (unfold iRE; destruct Req_EM_T; [contradiction|reflexivity]).
  apply (half_arc (E 0%nat) (E 1%nat) (iE12 E) (iRE E)); [apply RE_pos|]. rewrite RR. apply RE0_sq.
Qed.
Lemma N_half : forall N, iRN0 N <> 0 -> 0 <= th1N N <= PI /\ (0 < th1N N -> iNc N <= cos (th1N N)) /\ (th1N N < PI -> cos (th1N N) <= iNc N).
Proof.
  intros N H. assert (RR : iRN N = iRN0 N) by (unfold iRN; destruct Req_EM_T; [contradiction|reflexivity]).
  apply (half_arc (N 0%nat) (N 1%nat) (N 2%nat) (iRN N)); [apply RN_pos|]. rewrite RR. apply RN0_sq.
Qed.
(* equal principal strains *)
Lemma E_round : forall E, iRE0 E = 0 -> E 0%nat = E 1%nat /\ E 2%nat = 0 /\ (0 < E 0%nat -> th2E E = PI) /\ (E 0%nat <= 0 -> th2E E = 0).
Proof.
  intros E H. assert (Q := RE0_sq E). rewrite H in Q. unfold iE12 in Q.
  destruct (ss0 ((E 0%nat - E 1%nat) / 2) (/ 2 * E 2%nat)) as (Y1 & Y2); [lra|].
  assert (Z2 : E 2%nat = 0) by lra. assert (Z1 : E 0%nat = E 1%nat) by lra. split; [exact Z1|]. split; [exact Z2|].
  assert (R1 : iRE E = 1) by (unfold iRE; destruct Req_EM_T; [reflexivity|contradiction]).
  assert (S0 : iEs E = 0).
  { unfold iEs, iE12. rewrite Z2, Z1. replace (/ 2 * 0 * (/ 2 * 0) - E 1%nat * E 1%nat) with (- (E 1%nat * E 1%nat)) by ring.
    unfold csqrt_re. destruct Rlt_dec; [unfold Rdiv; ring|]. replace (E 1%nat * E 1%nat) with 0 by nra. rewrite Ropp_0, sqrt_0. unfold Rdiv; ring. }
  assert (C0 : iEc E = - E 0%nat) by (unfold iEc; rewrite R1, Z1; field).
  unfold th2E. rewrite S0, C0, atan2_pos by lra. unfold atan2p. split; intros HS.
  - destruct Req_EM_T as [e|e]; [nra|]. replace (- E 0%nat * - E 0%nat + 0 * 0) with (E 0%nat * E 0%nat) by ring. rewrite sqrt_square by lra.
    replace (- E 0%nat / E 0%nat) with (- (1)) by (field; lra). rewrite acos_opp, acos_1. ring.
  - destruct Req_EM_T as [e|e]; [reflexivity|]. replace (- E 0%nat * - E 0%nat + 0 * 0) with (- E 0%nat * - E 0%nat) by ring. rewrite sqrt_square by lra.
    replace (- E 0%nat / - E 0%nat) with 1 by (field; nra). apply acos_1.
Qed.
Lemma N_round : forall N, iRN0 N = 0 -> N 0%nat = N 1%nat /\ N 2%nat = 0 /\ (th1N N = 0 \/ th1N N = PI).
Proof.
  intros N H. assert (Q := RN0_sq N). rewrite H in Q.
  destruct (ss0 ((N 0%nat - N 1%nat) / 2) (N 2%nat)) as (Y1 & Z2); [lra|]. assert (Z1 : N 0%nat = N 1%nat) by lra. split; [exact Z1|]. split; [exact Z2|].
  assert (S0 : iNs N = 0).
  { unfold iNs. rewrite Z2, Z1. replace (0 * 0 - N 1%nat * N 1%nat) with (- (N 1%nat * N 1%nat)) by ring.
    unfold csqrt_re. destruct Rlt_dec; [unfold Rdiv; ring|]. replace (N 1%nat * N 1%nat) with 0 by nra. rewrite Ropp_0, sqrt_0. unfold Rdiv; ring. }
  unfold th1N. rewrite S0, atan2_pos by lra. unfold atan2p. destruct Req_EM_T as [e|e]; [left; reflexivity|].
  replace (iNc N * iNc N + 0 * 0) with (iNc N)² by (unfold Rsqr; ring). rewrite sqrt_Rsqr_abs. unfold Rabs. destruct Rcase_abs.
  - right. replace (iNc N / - iNc N) with (- (1)) by (field; lra). rewrite acos_opp, acos_1. ring.
  - left. replace (iNc N / iNc N) with 1 by (field; nra). apply acos_1.
Qed.
Lemma no_arc : forall E N zE zN, th1N N = 0 -> arcs E N zE zN = [].
Proof.
  intros E N zE zN H. destruct (mods E N zE zN) as (k1 & k2 & E1 & E2 & R1 & R2). rewrite H in *. assert (PP := PI_RGT_0).
  assert (K : (k1 - k2)%Z = 0%Z) by (apply IZR_between; rewrite minus_IZR; nra). assert (KR : IZR k1 = IZR k2) by (f_equal; lia). rewrite KR in E1.
  unfold arcs. destruct Rlt_dec; [lra|]. destruct Rlt_dec; [lra|]. reflexivity.
Qed.
Lemma some_arc : forall E N zE zN, 0 < th1N N < PI -> arcs E N zE zN <> [].
Proof.
  intros E N zE zN H. destruct (mods E N zE zN) as (k1 & k2 & E1 & E2 & R1 & R2). assert (PP := PI_RGT_0).
  unfold arcs. destruct Rlt_dec; [discriminate|]. destruct Rlt_dec; [discriminate|]. exfalso.
  assert (A : th1N N = PI * (IZR k1 - IZR k2)) by nra. rewrite <- minus_IZR in A.
  assert (0 < IZR (k1 - k2) < 1) by nra. destruct H0 as (A1 & A2). apply lt_IZR in A1. apply lt_IZR in A2. lia.
Qed.

(* Strictly inside the interval the material is stretched across the wrinkles, for all states; where the stress has no shear in the
   coordinate directions (or equal normal stresses) it is also compressed along n. *)
Theorem C128_stretched : forall E N f zE zN th, inside th (theta_interval E N f zE zN) ->
  0 < along (strain_tensor E) (tdir th) (tdir th).
Proof.
  intros E N f zE zN th H. assert (I := interval_arc E N zE zN f th (or_introl H)).
  destruct (arcs_o E N zE zN _ _ I H) as (A & _).
  destruct (Req_dec (iRE0 E) 0) as [Z|Z].
  - destruct (E_round E Z) as (Z1 & Z2 & Z3 & Z4). destruct (Rle_dec (E 0%nat) 0) as [L|L].
    + rewrite (Z4 L), cos_0 in A. assert (Q := COS_bound (2 * th + th0E E zE)). lra.
    + unfold along, sum2, strain_tensor, tdir. rewrite Z2, <- Z1. assert (S := sin2_cos2 th). unfold Rsqr in S. nra.
  - rewrite (strain_side E zE th Z). apply Rmult_lt_0_compat; [apply RE_pos|]. destruct (E_half E Z) as (R1 & L1 & _).
    assert (0 < th2E E). { destruct (Req_dec (th2E E) 0) as [e|e]; [|lra]. rewrite e, cos_0 in A. assert (Q := COS_bound (2 * th + th0E E zE)). lra. }
    specialize (L1 H0). lra.
Qed.
Print Assumptions C128_stretched.

Theorem C128_sound : forall E N f zE zN th, aligned N -> inside th (theta_interval E N f zE zN) -> admissible E N th.
Proof.
  intros E N f zE zN th AL H. split; [exact (C128_stretched E N f zE zN th H)|].
  assert (I := interval_arc E N zE zN f th (or_introl H)). destruct (arcs_o E N zE zN _ _ I H) as (_ & B).
  assert (NP : th1N N <> PI). { intros e. rewrite e, cos_PI in B. assert (Q := COS_bound (2 * th + th0N N zN)). lra. }
  destruct (Req_dec (iRN0 N) 0) as [Z|Z].
  - destruct (N_round N Z) as (_ & _ & [e|e]); [|contradiction]. rewrite (no_arc E N zE zN e) in I. destruct I.
  - rewrite (stress_side N zN th AL Z). destruct (N_half N Z) as (R1 & _ & L2). assert (RP := RN_pos N).
    assert (L3 : cos (th1N N) <= iNc N) by (apply L2; lra). nra.
Qed.
Print Assumptions C128_sound.

(* For such stresses no admissible direction is lost, up to half turns, unless every direction is compressed. *)
Theorem C128_complete : forall E N zE zN th, aligned N -> (exists t, 0 < along (stress_tensor N) (wdir t) (wdir t)) -> admissible E N th ->
  exists i k, In i (arcs E N zE zN) /\ within (th + PI * IZR k) i /\
    forall f, length (arcs E N zE zN) = 1%nat -> theta_interval E N f zE zN = i.
Proof.
  intros E N zE zN th AL (t & HT) (H1 & H2).
  assert (Z : iRN0 N <> 0).
  { intros e. destruct (N_round N e) as (Z1 & Z2 & _). unfold along, sum2, stress_tensor, wdir in HT, H2. rewrite Z2, Z1 in HT, H2.
    assert (S := sin2_cos2 t). assert (S' := sin2_cos2 th). unfold Rsqr in S, S'. nra. }
  rewrite (stress_side N zN t AL Z) in HT. rewrite (stress_side N zN th AL Z) in H2. assert (RP := RN_pos N).
  destruct (N_half N Z) as (R1 & L1 & L2).
  assert (BP : 0 < th1N N).
  { destruct (Req_dec (th1N N) 0) as [e|e]; [|lra]. exfalso. assert (PP := PI_RGT_0).
    assert (cos (th1N N) <= iNc N) by (apply L2; lra). rewrite e, cos_0 in H. assert (Q := COS_bound (2 * t + th0N N zN)). nra. }
  specialize (L1 BP).
  destruct (arcs_all E N zE zN th) as (i & k & Hi & Hk).
  - destruct (Req_dec (iRE0 E) 0) as [Y|Y].
    + destruct (E_round E Y) as (Z1 & Z2 & Z3 & Z4). right. apply Z3.
      unfold along, sum2, strain_tensor, tdir in H1. rewrite Z2, <- Z1 in H1. assert (S := sin2_cos2 th). unfold Rsqr in S. nra.
    + rewrite (strain_side E zE th Y) in H1. assert (EP := RE_pos E). destruct (E_half E Y) as (Q1 & _ & Q2).
      destruct (Req_dec (th2E E) PI) as [e|e]; [right; exact e|left]. assert (cos (th2E E) <= iEc E) by (apply Q2; lra). nra.
  - nra.
  - exact BP.
  - exists i, k. split; [exact Hi|]. split; [exact Hk|]. intros f Hl. unfold theta_interval.
    destruct (arcs E N zE zN) as [|i0 [|j l]]; cbn in Hl; try discriminate. destruct Hi as [->|[]]. reflexivity.
Qed.
Print Assumptions C128_complete.

(* In a state whose strain has no shear either, a root found strictly inside the interval is returned without the grid search. *)
Theorem C128_accepted : forall eps itmax newton zE zN C N E x, aligned N -> E 2%nat = 0 ->
  let i := theta_interval E N (objf C N) zE zN in
  fst i <> 0 -> snd i <> 0 -> search (objf C N) eps itmax newton (fst i) (snd i) = Ok x -> inside x i ->
  find_theta eps itmax newton zE zN C N E = Ok x /\ admissible E N x.
Proof.
  intros eps itmax newton zE zN C N E x AL E2 i H0 H1 HS HI. assert (A := C128_sound E N _ zE zN x AL HI). split; [|exact A].
  unfold find_theta, eval_theta. fold i. destruct (Req_EM_T (fst i) 0); [contradiction|]. destruct (Req_EM_T (snd i) 0); [contradiction|]. rewrite HS.
  assert (CK : check_full x N E = true).
  { destruct A as (A1 & A2). unfold along, sum2, strain_tensor, stress_tensor, tdir, wdir in A1, A2. unfold check_full.
    destruct Rlt_dec as [L|L]; [destruct Rlt_dec as [M|M]; [reflexivity|]|]; exfalso.
    - apply M. unfold dot3, sum3, n4v, v3. rewrite E2 in *. lra.
    - apply L. unfold dot3, sum3, n1v, v3. lra. }
  rewrite CK. reflexivity.
Qed.
Print Assumptions C128_accepted.

(* --- values at concrete states --- *)
Lemma fmod_val : forall x y k, x = y + 2 * PI * IZR k -> 0 <= y < 2 * PI -> fmod x (2 * PI) = y.
Proof.
  intros x y k E H. destruct (fmod_spec x) as (j & A & B). assert (PP := PI_RGT_0). rewrite A in *. rewrite E in *.
  assert (K : (k - j)%Z = 0%Z) by (apply IZR_between; rewrite minus_IZR; nra). assert (KR : IZR k = IZR j) by (f_equal; lia). rewrite KR. ring.
Qed.
Lemma atan2p_val : forall r ph s c, 0 < r -> 0 <= ph <= PI -> s = r * sin ph -> c = r * cos ph -> atan2p s c = ph.
Proof.
  intros r ph s c Hr H -> ->. unfold atan2p. assert (S := sin2_cos2 ph). unfold Rsqr in S.
  replace (r * cos ph * (r * cos ph) + r * sin ph * (r * sin ph)) with (r * r * (sin ph * sin ph + cos ph * cos ph)) by ring.
  rewrite S, Rmult_1_r. destruct Req_EM_T; [nra|]. rewrite sqrt_square by lra. replace (r * cos ph / r) with (cos ph) by (field; lra). apply acos_cos. exact H.
Qed.
Lemma atan2_val : forall z r ph s c, 0 < r -> 0 < ph < PI -> s = r * sin ph -> c = r * cos ph -> atan2 z s c = ph.
Proof.
  intros z r ph s c Hr H Es Ec. assert (0 < sin ph) by (apply sin_gt_0; lra). unfold atan2. destruct Rlt_dec; [nra|]. destruct Req_EM_T; [nra|].
  apply (atan2p_val r); try assumption. lra.
Qed.
Lemma atan2_val_neg : forall z r ph s c, 0 < r -> 0 < ph < PI -> s = - (r * sin ph) -> c = r * cos ph -> atan2 z s c = - ph.
Proof.
  intros z r ph s c Hr H Es Ec. assert (0 < sin ph) by (apply sin_gt_0; lra). unfold atan2. destruct Rlt_dec; [|nra]. f_equal.
  apply (atan2p_val r); try assumption; lra.
Qed.
Lemma acos_val : forall ph, 0 <= ph <= PI -> atan2p (sin ph) (cos ph) = ph.
Proof. intros ph H. apply (atan2p_val 1); try lra. Qed.
Lemma csqrt_val : forall x g, 0 <= g -> x = g * g -> csqrt_re x = g.
Proof. intros x g Hg ->. unfold csqrt_re. destruct Rlt_dec; [nra|]. apply sqrt_square. exact Hg. Qed.
Lemma RE_val : forall E g, 0 < g -> ((E 0%nat - E 1%nat) / 2) ^ 2 + iE12 E * iE12 E = g * g -> iRE0 E = g /\ iRE E = g.
Proof. intros E g Hg H. assert (iRE0 E = g) by (unfold iRE0; rewrite H; apply sqrt_square; lra). split; [assumption|]. unfold iRE. destruct Req_EM_T; lra. Qed.
Lemma RN_val : forall N g, 0 < g -> ((N 0%nat - N 1%nat) / 2) ^ 2 + N 2%nat * N 2%nat = g * g -> iRN0 N = g /\ iRN N = g.
Proof. intros N g Hg H. assert (iRN0 N = g) by (unfold iRN0; rewrite H; apply sqrt_square; lra). split; [assumption|]. unfold iRN. destruct Req_EM_T; lra. Qed.

(* a sheet stretched in y and compressed in x: the interval is the quarter turn around the x axis *)
Definition vE : vec := v3 (-1) 1 0.
Lemma vE_arc : th0E vE false = 0 /\ th2E vE = PI / 2.
Proof.
  destruct (RE_val vE 1) as (_ & R1); [lra|unfold iE12, vE, v3; lra|]. assert (PP := PI_RGT_0). split.
  - unfold th0E. rewrite R1. unfold atan2. replace (iE12 vE / 1) with 0 by (unfold iE12, vE, v3; field). destruct Rlt_dec; [lra|]. destruct Req_EM_T; [|lra].
    apply (atan2p_val 1); [lra|lra|rewrite sin_0; ring|rewrite cos_0; unfold vE, v3; field].
  - unfold th2E. rewrite atan2_pos by apply iEs_nn. apply (atan2p_val 1); [lra|lra| |].
    + unfold iEs. rewrite R1, sin_PI2. rewrite (csqrt_val _ 1); [field|lra|unfold iE12, vE, v3; field].
    + unfold iEc. rewrite R1, cos_PI2. unfold vE, v3. field.
Qed.
Example interval_quarter : forall f, theta_interval vE vE f false false = (- (PI / 4), PI / 4) /\ aligned vE /\ admissible vE vE 0 /\ 0 < along (stress_tensor vE) (wdir (PI / 2)) (wdir (PI / 2)).
Proof.
  intros f. assert (PP := PI_RGT_0). destruct vE_arc as (A & B).
  assert (C : th1N vE = PI / 2).
  { destruct (RN_val vE 1) as (_ & R1); [lra|unfold vE, v3; lra|]. unfold th1N. rewrite atan2_pos by apply iNs_nn. apply (atan2p_val 1); [lra|lra| |].
    - unfold iNs. rewrite R1, sin_PI2. rewrite (csqrt_val _ 1); [field|lra|unfold vE, v3; field].
    - unfold iNc. rewrite R1, cos_PI2. unfold vE, v3. field. }
  assert (D : th0N vE false = PI).
  { destruct (RN_val vE 1) as (_ & R1); [lra|unfold vE, v3; lra|]. unfold th0N. rewrite R1. unfold atan2. replace (- vE 2%nat / 1) with 0 by (unfold vE, v3; field).
    destruct Rlt_dec; [lra|]. destruct Req_EM_T; [|lra]. apply (atan2p_val 2); [lra|lra|rewrite sin_PI; ring|rewrite cos_PI; unfold vE, v3; field]. }
  split; [|split; [left; reflexivity|split]].
  - assert (T1 : ith1 vE vE false false = PI / 2) by (apply (fmod_val _ _ 0); [rewrite A, C, D; lra|lra]).
    assert (T2 : ith2 vE vE false false = 3 * PI / 2) by (apply (fmod_val _ _ (-1)); [rewrite th2N_opp, A, C, D; lra|lra]).
    unfold theta_interval, arcs. rewrite T1, T2. destruct Rlt_dec; [|lra]. unfold meet, qEmin, qEmax. rewrite th1E_opp, A, B.
    f_equal; unfold Rmax, Rmin; destruct Rle_dec; lra.
  - unfold admissible, along, sum2, strain_tensor, stress_tensor, tdir, wdir, vE, v3. rewrite sin_0, cos_0. lra.
  - unfold along, sum2, stress_tensor, wdir, vE, v3. rewrite sin_PI2, cos_PI2. lra.
Qed.

(* With shear and different normal stresses the stress side is wrong: directions in tension lie inside the interval ... *)
Theorem C128_stress_side_refuted : exists E N th, forall f zN, inside th (theta_interval E N f false zN) /\
  0 < along (stress_tensor N) (wdir th) (wdir th).
Proof.
  exists vE, (v3 (-1) 1 2), (PI / 12). intros f zN. set (N := v3 (-1) 1 2). assert (PP := PI_RGT_0). destruct vE_arc as (A & B).
  assert (S5 : 0 < sqrt 5) by (apply sqrt_lt_R0; lra). assert (Q5 : sqrt 5 * sqrt 5 = 5) by (apply sqrt_sqrt; lra).
  assert (S2 : 0 < sqrt 2) by (apply sqrt_lt_R0; lra). assert (Q2 : sqrt 2 * sqrt 2 = 2) by (apply sqrt_sqrt; lra).
  destruct (RN_val N (sqrt 5)) as (_ & R1); [lra|rewrite Q5; unfold N, v3; lra|].
  assert (C : th1N N = PI / 2).
  { unfold th1N. rewrite atan2_pos by apply iNs_nn. apply (atan2p_val 1); [lra|lra| |].
    - unfold iNs. rewrite R1, sin_PI2. rewrite (csqrt_val _ (sqrt 5)); [field; lra|lra|rewrite Q5; unfold N, v3; ring].
    - unfold iNc. rewrite R1, cos_PI2. unfold N, v3. field. lra. }
  assert (D : th0N N zN = - (3 * (PI / 4))).
  { unfold th0N. rewrite R1. apply (atan2_val_neg zN (2 * sqrt 2 / sqrt 5)).
    - apply Rmult_lt_0_compat; [nra|]. apply Rinv_0_lt_compat; lra.
    - lra.
    - rewrite sin_3PI4. unfold N, v3. field. split; lra.
    - rewrite cos_3PI4. unfold N, v3. field. split; lra. }
  assert (T1 : ith1 vE N false zN = PI / 4) by (apply (fmod_val _ _ 1); [rewrite A, C, D; lra|lra]).
  assert (T2 : ith2 vE N false zN = 5 * PI / 4) by (apply (fmod_val _ _ 0); [rewrite th2N_opp, A, C, D; lra|lra]).
  split.
  - unfold theta_interval, arcs. rewrite T1, T2. destruct Rlt_dec; [|lra]. apply meet_o. rewrite A, B. lra.
  - unfold along, sum2, stress_tensor, wdir, N, v3.
    replace (cos (PI / 12) * -1 * cos (PI / 12) + cos (PI / 12) * 2 * sin (PI / 12) + (sin (PI / 12) * 2 * cos (PI / 12) + sin (PI / 12) * 1 * sin (PI / 12)))
      with (2 * (2 * sin (PI / 12) * cos (PI / 12)) - (cos (PI / 12) * cos (PI / 12) - sin (PI / 12) * sin (PI / 12))) by ring.
    rewrite <- sin_2a, <- cos_2a. replace (2 * (PI / 12)) with (PI / 6) by field. rewrite sin_PI6, cos_PI6.
    assert (sqrt 3 * sqrt 3 = 3) by (apply sqrt_sqrt; lra). assert (0 <= sqrt 3) by apply sqrt_pos. nra.
Qed.
Print Assumptions C128_stress_side_refuted.

(* ... and the wrinkling direction of a wrinkled isotropic sheet lies outside every candidate interval *)
Definition iso1 : mat := fun i j => if Nat.eqb i j then (if Nat.eqb i 2 then / 2 else 1) else 0.
Theorem C128_root_missed_refuted : exists E N th g s, (forall i, (i < 3)%nat -> N i = mvec3 iso1 E i) /\ wrinkled_state iso1 E th g s /\
  admissible E N th /\ forall f zE zN k, ~ within (th + PI * IZR k) (theta_interval E N f zE zN).
Proof.
  set (N := v3 (16 / 5) (6 / 5) (-2)). set (E := v3 (16 / 5) (6 / 5) (-4)).
  assert (S5 : 0 < sqrt 5) by (apply sqrt_lt_R0; lra). assert (Q5 : sqrt 5 * sqrt 5 = 5) by (apply sqrt_sqrt; lra).
  assert (B5 : 223 / 100 < sqrt 5 < 224 / 100) by (split; nra).
  destruct (atan2_radius false (sqrt 5) 2 1) as (B1 & B2); [lra|rewrite Q5; ring|]. set (bt := atan2 false 2 1) in *.
  set (th := (PI - bt) / 2).
  assert (C2 : cos th * cos th - sin th * sin th = - (sqrt 5 / 5)).
  { rewrite <- cos_2a. replace (2 * th) with (PI - bt) by (unfold th; field). rewrite Rtrigo_facts.cos_pi_minus. f_equal. apply Rmult_eq_reg_l with (sqrt 5); [|lra]. rewrite B1. field_simplify. nra. }
  assert (D2 : 2 * sin th * cos th = 2 * (sqrt 5 / 5)).
  { rewrite <- sin_2a. replace (2 * th) with (PI - bt) by (unfold th; field). rewrite sin_PI_x. apply Rmult_eq_reg_l with (sqrt 5); [|lra]. rewrite B2. nra. }
  assert (P2 := sin2_cos2 th). unfold Rsqr in P2.
  assert (CC : cos th * cos th = / 2 - sqrt 5 / 10) by lra. assert (SS : sin th * sin th = / 2 + sqrt 5 / 10) by lra. assert (SC : sin th * cos th = sqrt 5 / 5) by lra.
  assert (CC5 : sqrt 5 * (cos th * cos th) = sqrt 5 / 2 - / 2) by (rewrite CC; lra).
  assert (SS5 : sqrt 5 * (sin th * sin th) = sqrt 5 / 2 + / 2) by (rewrite SS; lra). assert (SC5 : sqrt 5 * (sin th * cos th) = 1) by (rewrite SC; lra).
  exists E, N, th, (sqrt 5 - 11 / 5), (11 / 5 + sqrt 5). repeat split.
  - intros i Hi. unfold mvec3, sum3, iso1, E, N, v3. destruct i as [|[|[|]]]; cbn; try lra; lia.
  - lra.
  - lra.
  - intros i j Hi Hj. unfold stress_tensor, dyad, iso1, wdir, tdir, sum3, E, v3.
    destruct i as [|[|]]; destruct j as [|[|]]; try lia; cbn [Nat.eqb]; lra.
  - unfold along, sum2, strain_tensor, tdir, E, v3. lra.
  - unfold along, sum2, stress_tensor, wdir, N, v3. lra.
  - intros f zE zN k W.
    destruct (RN_val N (sqrt 5)) as (R0 & R1); [lra|rewrite Q5; unfold N, v3; lra|].
    destruct (N_half N) as (H1 & H2 & H3); [lra|].
    assert (NC : iNc N = - (11 / 25) * sqrt 5).
    { unfold iNc. rewrite R1. apply Rmult_eq_reg_r with (sqrt 5); [|lra]. transitivity (- (11 / 5)); [unfold N, v3; field; lra|nra]. }
    assert (PP := PI_RGT_0). rewrite NC in *.
    assert (L1 : 0 < th1N N). { destruct (Req_dec (th1N N) 0) as [e|e]; [|lra]. exfalso. assert (cos (th1N N) <= - (11 / 25) * sqrt 5) by (apply H3; lra). rewrite e, cos_0 in H. nra. }
    assert (L2 : th1N N < PI). { destruct (Req_dec (th1N N) PI) as [e|e]; [|lra]. exfalso. specialize (H2 L1). rewrite e, cos_PI in H2. nra. }
    assert (CB : cos (th1N N) <= - (11 / 25) * sqrt 5) by (apply H3; lra).
    assert (I := interval_arc E N zE zN f _ (or_intror (conj W (some_arc E N zE zN (conj L1 L2))))).
    destruct (arcs_c E N zE zN _ _ I W) as (_ & X).
    replace (2 * (th + PI * IZR k) + th0N N zN) with (PI - (bt - th0N N zN) + 2 * PI * IZR k) in X by (unfold th; field).
    rewrite cos_shift, Rtrigo_facts.cos_pi_minus, cos_minus in X.
    assert (S2 : 0 < sqrt 2) by (apply sqrt_lt_R0; lra). assert (Q2 : sqrt 2 * sqrt 2 = 2) by (apply sqrt_sqrt; lra).
    destruct (atan2_radius zN (2 * sqrt 2 / sqrt 5) (- N 2%nat / iRN N) ((N 0%nat - N 1%nat) / iRN N)) as (G1 & G2).
    { apply Rmult_lt_0_compat; [nra|]. apply Rinv_0_lt_compat; lra. }
    { rewrite R1. transitivity (8 / 5).
      - replace (2 * sqrt 2 / sqrt 5 * (2 * sqrt 2 / sqrt 5)) with (4 * (sqrt 2 * sqrt 2) / (sqrt 5 * sqrt 5)) by (field; lra). rewrite Q2, Q5. field.
      - transitivity (8 / (sqrt 5 * sqrt 5)); [rewrite Q5; reflexivity|unfold N, v3; field; lra]. }
    fold (th0N N zN) in G1, G2. set (b := th0N N zN) in *. rewrite R1 in G1, G2.
    assert (G1' : sqrt 2 * cos b = 1) by (apply Rmult_eq_reg_l with (2 / sqrt 5); [unfold N, v3 in G1; lra|apply Rgt_not_eq; apply Rmult_lt_0_compat; [lra|apply Rinv_0_lt_compat; lra]]).
    assert (G2' : sqrt 2 * sin b = 1) by (apply Rmult_eq_reg_l with (2 / sqrt 5); [unfold N, v3 in G2; lra|apply Rgt_not_eq; apply Rmult_lt_0_compat; [lra|apply Rinv_0_lt_compat; lra]]).
    assert (K : sqrt 5 * sqrt 2 * (cos bt * cos b + sin bt * sin b) = 3).
    { transitivity (sqrt 5 * cos bt * (sqrt 2 * cos b) + sqrt 5 * sin bt * (sqrt 2 * sin b)); [ring|]. rewrite B1, B2, G1', G2'. ring. }
    set (y := cos bt * cos b + sin bt * sin b) in *. clearbody y.
    assert (Y : 11 / 25 * sqrt 5 <= y) by lra.
    assert (11 / 5 * sqrt 2 <= 3). { rewrite <- K. replace (11 / 5 * sqrt 2) with (11 / 25 * (sqrt 5 * sqrt 5) * sqrt 2) by (rewrite Q5; field). nra. }
    nra.
Qed.
Print Assumptions C128_root_missed_refuted.

(* An end point of the interval that is exactly 0 switches the search off (480), so that the angle 0 may be returned although it
   does not solve the wrinkling equation: a linear material with positive definite stiffness, both strains positive *)
Definition kN : vec := v3 (sqrt 21 - 6) (sqrt 21 + 6) (4 * sqrt 3).
Definition kE : vec := v3 2 1 0.
Definition kC : mat := fun i j => match i, j with
  | 0%nat, 0%nat => 1 | 0%nat, 1%nat | 1%nat, 0%nat => sqrt 21 - 8 | 1%nat, 1%nat => 22 - sqrt 21
  | 1%nat, 2%nat | 2%nat, 1%nat => 4 * sqrt 3 | 2%nat, 2%nat => 100 | _, _ => 0 end.
Theorem C128_unsearched_refuted : exists C E N, sym3 C /\ posdef3 C /\ (forall i, (i < 3)%nat -> N i = mvec3 C E i) /\
  0 < E 0%nat /\ 0 < E 1%nat /\ forall eps itmax newton zN, find_theta eps itmax newton false zN C N E = Ok 0 /\ objf C N 0 <> 0.
Proof.
  exists kC, kE, kN. assert (PP := PI_RGT_0).
  assert (S21 : 0 < sqrt 21) by (apply sqrt_lt_R0; lra). assert (Q21 : sqrt 21 * sqrt 21 = 21) by (apply sqrt_sqrt; lra).
  assert (S3 : 0 < sqrt 3) by (apply sqrt_lt_R0; lra). assert (Q3 : sqrt 3 * sqrt 3 = 3) by (apply sqrt_sqrt; lra).
  assert (B21 : 458 / 100 < sqrt 21 < 459 / 100) by (split; nra). assert (B3 : 173 / 100 < sqrt 3 < 174 / 100) by (split; nra).
  split; [|split; [|split; [|split; [|split]]]].
  - intros i j Hi Hj. destruct i as [|[|[|]]]; destruct j as [|[|[|]]]; try reflexivity; lia.
  - intros v Hv. unfold sum3, kC. set (x := v 0%nat) in *. set (y := v 1%nat) in *. set (z := v 2%nat) in *.
    match goal with |- 0 < ?G => replace G with ((x + (sqrt 21 - 8) * y) * (x + (sqrt 21 - 8) * y) + (15 * sqrt 21 - 42 - sqrt 21 * sqrt 21) * (y * y) + 8 * sqrt 3 * (y * z) + 100 * (z * z)) by ring end.
    rewrite Q21.
    assert (L : 0 <= (x + (sqrt 21 - 8) * y) * (x + (sqrt 21 - 8) * y)) by apply Rle_0_sqr.
    assert (M : 0 <= (y + 2 * sqrt 3 * z) * (y + 2 * sqrt 3 * z)) by apply Rle_0_sqr.
    assert (M' : (y + 2 * sqrt 3 * z) * (y + 2 * sqrt 3 * z) = y * y + 4 * sqrt 3 * (y * z) + 12 * (z * z)).
    { transitivity (y * y + 4 * sqrt 3 * (y * z) + 4 * (sqrt 3 * sqrt 3) * (z * z)); [ring|]. rewrite Q3. ring. }
    assert (YY : 0 <= y * y) by apply Rle_0_sqr. assert (ZZ : 0 <= z * z) by apply Rle_0_sqr.
    destruct (Req_dec y 0) as [Y0|Y0]; [destruct (Req_dec z 0) as [Z0|Z0]|].
    + rewrite Y0, Z0 in *. assert (X0 : x <> 0) by tauto. assert (0 < x * x) by nra. nra.
    + assert (0 < z * z) by nra. nra.
    + assert (0 < y * y) by nra. nra.
  - intros i Hi. unfold mvec3, sum3, kC, kE, kN, v3. destruct i as [|[|[|]]]; try lia; nra.
  - unfold kE, v3. lra.
  - unfold kE, v3. lra.
  - intros eps itmax newton zN.
    assert (F0 : objf kC kN 0 = 4 * sqrt 3).
    { unfold objf, gamma, quad, dot3, mvec3, sum3, n1v, n2v, v3, kN, kC, v3. rewrite sin_0, cos_0. field. }
    split; [|rewrite F0; nra].
    destruct (RE_val kE (/ 2)) as (_ & R1); [lra|unfold iE12, kE, v3; field|].
    assert (A : th0E kE false = PI).
    { unfold th0E. rewrite R1. unfold atan2. replace (iE12 kE / / 2) with 0 by (unfold iE12, kE, v3; field). destruct Rlt_dec; [lra|]. destruct Req_EM_T; [|lra].
      apply (atan2p_val 1); [lra|lra|rewrite sin_PI; ring|rewrite cos_PI; unfold kE, v3; field]. }
    assert (B : th2E kE = PI).
    { unfold th2E. rewrite atan2_pos by apply iEs_nn. apply (atan2p_val 3); [lra|lra| |].
      - unfold iEs, csqrt_re. destruct Rlt_dec as [L|L]; [rewrite sin_PI; unfold Rdiv; ring|]. exfalso. apply L. unfold iE12, kE, v3. lra.
      - unfold iEc. rewrite R1, cos_PI. unfold kE, v3. field. }
    destruct (RN_val kN (2 * sqrt 21)) as (_ & RN1); [lra|unfold kN, v3; nra|].
    assert (C : th1N kN = 2 * (PI / 3)).
    { unfold th1N. rewrite atan2_pos by apply iNs_nn. apply (atan2p_val 1); [lra|lra| |].
      - unfold iNs. rewrite RN1, sin_2PI3. rewrite (csqrt_val _ (sqrt 3 * sqrt 21)); [field; lra|nra|].
        replace (sqrt 3 * sqrt 21 * (sqrt 3 * sqrt 21)) with (sqrt 3 * sqrt 3 * (sqrt 21 * sqrt 21)) by ring. unfold kN, v3. nra.
      - unfold iNc. rewrite RN1, cos_2PI3. unfold kN, v3. field. lra. }
    assert (D : th0N kN zN = - (PI - PI / 6)).
    { unfold th0N. rewrite RN1. apply (atan2_val_neg zN (4 * sqrt 3 / sqrt 21)).
      - apply Rmult_lt_0_compat; [nra|]. apply Rinv_0_lt_compat; lra.
      - lra.
      - rewrite sin_PI_x, sin_PI6. unfold kN, v3. field. lra.
      - rewrite Rtrigo_facts.cos_pi_minus, cos_PI6. transitivity (- (2 * (sqrt 3 * sqrt 3)) / sqrt 21); [rewrite Q3; unfold kN, v3; field; lra|field; lra]. }
    assert (T1 : ith1 kE kN false zN = 3 * (PI / 2)) by (apply (fmod_val _ _ 1); [rewrite A, C, D; lra|lra]).
    assert (T2 : ith2 kE kN false zN = PI / 6) by (apply (fmod_val _ _ 1); [rewrite th2N_opp, A, C, D; lra|lra]).
    assert (FM : objf kC kN (- (PI / 4)) < 0).
    { assert (S2 : 0 < sqrt 2) by (apply sqrt_lt_R0; lra). assert (Q2 : sqrt 2 * sqrt 2 = 2) by (apply sqrt_sqrt; lra).
      unfold objf, gamma, quad, dot3, mvec3, sum3, n1v, n2v, v3. rewrite sin_neg, cos_neg, sin_PI4, cos_PI4.
      assert (H : 1 / sqrt 2 * (1 / sqrt 2) = / 2) by (replace (1 / sqrt 2 * (1 / sqrt 2)) with (1 / (sqrt 2 * sqrt 2)) by (field; lra); rewrite Q2; field).
      set (w := 1 / sqrt 2) in *. unfold kC, kN, v3.
      replace (- - w * w) with (/ 2) by lra. replace (w * - w) with (- / 2) by lra. replace (- - w * - w + w * w) with 0 by lra. replace (- w * - w) with (/ 2) by lra.
      replace (w * w) with (/ 2) by lra. replace (2 * w * - w) with (- (1)) by lra. clear H w.
      match goal with |- context [?n / ?d] => set (q := d); set (p := n) end.
      assert (Q1 : 90 < q) by (unfold q; nra). assert (P1 : 0 < p < 3) by (unfold p; nra). clearbody p q.
      assert (G : 0 < p / q < / 30). { split; [apply Rdiv_lt_0_compat; lra|]. apply Rmult_lt_reg_r with q; [lra|]. unfold Rdiv. rewrite Rmult_assoc, Rinv_l by lra. lra. }
      set (g := p / q) in *. clearbody g. nra. }
    assert (IV : theta_interval kE kN (objf kC kN) false zN = (- (PI / 4), 0)).
    { unfold theta_interval, arcs. rewrite T1, T2. destruct Rlt_dec; [lra|]. destruct Rlt_dec; [|lra]. unfold meet, qEmin, qEmax. rewrite th1E_opp, A, B.
      replace (Rmax (- PI - PI) (3 * (PI / 2) - PI - PI) / 2) with (- (PI / 4)) by (unfold Rmax; destruct Rle_dec; lra).
      replace (Rmin (PI - PI) (PI - PI) / 2) with 0 by (unfold Rmin; destruct Rle_dec; lra). cbn [fst snd].
      destruct Rlt_dec as [L|L]; [|reflexivity]. rewrite F0 in L. nra. }
    unfold find_theta. rewrite IV. cbn [fst snd]. unfold eval_theta. destruct (Req_EM_T (- (PI / 4)) 0); [lra|]. destruct (Req_EM_T 0 0); [|lra].
    assert (CK : check_full 0 kN kE = true).
    { unfold check_full, dot3, sum3, n1v, n4v, kN, kE, v3. rewrite sin_0, cos_0. destruct Rlt_dec; [|lra]. destruct Rlt_dec; [reflexivity|lra]. }
    rewrite CK. reflexivity.
Qed.
Print Assumptions C128_unsearched_refuted.
