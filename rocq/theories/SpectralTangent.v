From Coq Require Import Reals Lra Lia List.
From Coquelicot Require Import Coquelicot.
From Verif Require Import Tensor MetricModel MetricSpec MetricProofs LinearModel LinearSpec LinearProofs PrincipalModel PrincipalSpec PrincipalProofs
  NonlinearModel NonlinearSpec NonlinearProofs SpectralModel SpectralSpec SpectralProofs.
Open Scope R_scope.

Lemma shell_Gcov g z : shell_G (Gcov g z).
Proof. repeat split; unfold Gcov; try reflexivity. unfold Bcov, Acov, dot3, sum3. ring. Qed.

Lemma der_half (T S : R -> R) (c dT dS : R) : is_derive T 0 dT -> is_derive S 0 dS -> is_derive (fun t => (T t + c * S t) / 2) 0 ((dT + c * dS) / 2).
Proof. intros A B. auto_derive; [der_side|]. der_val A; der_val B. field. Qed.

(* root of x^2 - T x + J = 0 along a curve *)
Lemma der_roots (T J x1 x2 : R -> R) (dT dJ : R) : is_derive T 0 dT -> is_derive J 0 dJ ->
  locally 0 (fun t => T t = x1 t + x2 t /\ J t = x1 t * x2 t /\ x1 t <= x2 t) -> x1 0 < x2 0 ->
  is_derive x1 0 ((dJ - x1 0 * dT) / (x2 0 - x1 0)) /\ is_derive x2 0 ((x2 0 * dT - dJ) / (x2 0 - x1 0)) /\ locally 0 (fun t => x1 t < x2 t).
Proof.
  intros HT HJ L D0.
  pose proof (locally_singleton _ _ L) as (T0 & J0' & _).
  set (disc := fun t => T t * T t - 4 * J t).
  assert (Dd : is_derive disc 0 (2 * T 0 * dT - 4 * dJ)).
  { unfold disc. auto_derive; [der_side|]. der_val HT; der_val HJ. ring. }
  assert (P0 : disc 0 = (x2 0 - x1 0) * (x2 0 - x1 0)) by (unfold disc; rewrite T0, J0'; ring).
  assert (PP : 0 < disc 0) by (rewrite P0; apply Rmult_lt_0_compat; lra).
  assert (SQ : sqrt (disc 0) = x2 0 - x1 0) by (rewrite P0; apply sqrt_square; lra).
  assert (LP : locally 0 (fun t => 0 < disc t)).
  { assert (CT : continuous disc 0) by (apply (ex_derive_continuous disc); eexists; exact Dd).
    apply (CT (fun y => 0 < y)). apply (open_gt 0). exact PP. }
  assert (LR : locally 0 (fun t => x1 t = (T t - sqrt (disc t)) / 2 /\ x2 t = (T t + sqrt (disc t)) / 2 /\ x1 t < x2 t)).
  { generalize (filter_and _ _ L LP). apply filter_imp. intros t ((A & B & C) & E).
    assert (F : disc t = (x2 t - x1 t) * (x2 t - x1 t)) by (unfold disc; rewrite A, B; ring).
    assert (SQt : sqrt (disc t) = x2 t - x1 t) by (rewrite F; apply sqrt_square; lra).
    rewrite SQt, A. repeat split; try lra. destruct (Req_dec (x1 t) (x2 t)) as [G|G]; [|lra].
    exfalso. rewrite F, G in E. lra. }
  assert (Ds : is_derive (fun t => sqrt (disc t)) 0 ((2 * T 0 * dT - 4 * dJ) / (2 * sqrt (disc 0)))).
  { evar_last. { apply (is_derive_sqrt disc 0 _ Dd PP). } reflexivity. }
  split; [|split].
  - apply (is_derive_ext_loc (fun t => (T t + (-1) * sqrt (disc t)) / 2)).
    { revert LR. apply filter_imp. intros t (A & _). rewrite A. lra. }
    evar_last. { exact (der_half T (fun t => sqrt (disc t)) (-1) _ _ HT Ds). } rewrite SQ, T0. field. lra.
  - apply (is_derive_ext_loc (fun t => (T t + 1 * sqrt (disc t)) / 2)).
    { revert LR. apply filter_imp. intros t (_ & A & _). rewrite A. lra. }
    evar_last. { exact (der_half T (fun t => sqrt (disc t)) 1 _ _ HT Ds). } rewrite SQ, T0. field. lra.
  - revert LR. apply filter_imp. intros t (_ & _ & A). exact A.
Qed.

Lemma der_sqrt_sq (l : R -> R) (h : R) : locally 0 (fun t => 0 < l t) -> is_derive (fun t => (l t) ^ 2) 0 h -> is_derive l 0 (h / (2 * l 0)).
Proof.
  intros L D. pose proof (locally_singleton _ _ L) as P0. cbv beta in P0.
  assert (PP : 0 < (l 0) ^ 2) by (apply pow_lt; exact P0).
  apply (is_derive_ext_loc (fun t => sqrt ((l t) ^ 2))).
  { revert L. apply filter_imp. intros t P. rewrite <- Rsqr_pow2, sqrt_Rsqr; lra. }
  evar_last. { apply (is_derive_sqrt (fun t => (l t) ^ 2) 0 _ D PP). }
  cbv beta. rewrite <- Rsqr_pow2, sqrt_Rsqr by lra. reflexivity.
Qed.

Section FAMILY.
Variables (g : geo) (z : R) (G H : mat) (l1 l2 : R -> R) (v1 v2 : R -> vec).
Hypotheses (SG : shell_G G) (SH : in_plane H) (PF : principal_family g z G H l1 l2 v1 v2) (DS : l1 0 < l2 0).
Let Go := Gcov g z.
Let m t := metric_of Go (line G H t).
Let m0 := metric_of Go G.
Let q t := pr (gcon g z) (frame3 (v1 t) (v2 t) (gcon g z 2%nat)).
(* components of the direction in the principal frame *)
Definition hab (a b : nat) : R := sum2 (fun k => sum2 (fun l => q 0 k a * q 0 l b * H k l)).

Lemma fam_spec : locally 0 (fun t => spectral (m t) (q t) (l1 t) (l2 t)).
Proof. generalize PF. unfold principal_family. apply filter_imp. intros t P. apply state_spectral; [apply shell_line1; assumption|exact P]. Qed.
Lemma fam0 : spectral m0 (q 0) (l1 0) (l2 0).
Proof. pose proof (locally_singleton _ _ fam_spec) as S. unfold m in S. rewrite line0 in S. exact S. Qed.
Lemma fam_pos : locally 0 (fun t => 0 < l1 t) /\ locally 0 (fun t => 0 < l2 t).
Proof. split; generalize fam_spec; apply filter_imp; intros t [(A & B) _ _ _ _]; assumption. Qed.
Lemma fam_state : principal_state g z G (l1 0) (l2 0) (v1 0) (v2 0).
Proof. pose proof (locally_singleton _ _ PF) as P. cbv beta in P. rewrite line0 in P. exact P. Qed.
Lemma fam_detO : det2 Go <> 0.
Proof. destruct fam_state as (_ & N & _). rewrite det3_shell1 in N by apply shell_Gcov. exact N. Qed.
Lemma fam_detG : det2 G <> 0.
Proof.
  intro E. pose proof (sp_J _ _ _ _ fam0) as J. destruct (sp_pos _ _ _ _ fam0) as (A & B).
  unfold m0 in J. cbn [metric_of J0] in J. rewrite (det3_shell1 G SG), E in J. unfold Rdiv in J. rewrite Rmult_0_l in J.
  assert (0 < l1 0 ^ 2 * l2 0 ^ 2) by (apply Rmult_lt_0_compat; apply pow_lt; assumption). lra.
Qed.

Lemma fam_mu : is_derive (fun t => (l1 t) ^ 2) 0 (hab 0 0) /\ is_derive (fun t => (l2 t) ^ 2) 0 (hab 1 1) /\ locally 0 (fun t => l1 t < l2 t).
Proof.
  pose proof (d_tr Go G H) as DT. pose proof (d_J0 Go G H (shell_Gcov g z) SG SH fam_detO fam_detG) as DJ.
  destruct (sp_pos _ _ _ _ fam0) as (A & B).
  assert (D2 : (l1 0) ^ 2 < (l2 0) ^ 2) by nra.
  destruct (der_roots _ _ (fun t => (l1 t) ^ 2) (fun t => (l2 t) ^ 2) _ _ DT DJ) as (X & Y & Z).
  - generalize (filter_and _ _ PF fam_spec). apply filter_imp. intros t (P & [(Pa & Pb) _ _ T J]).
    repeat split; [exact T|exact J|]. destruct P as (_ & _ & ((_ & P) & _)). apply pow_incr. lra.
  - exact D2.
  - cbv beta in X, Y, Z. split; [|split].
    + evar_last. { exact X. } destruct fam0 as [_ HO HD HT HJ]. fold m0. unfold sum2. rewrite HJ, !HO, !HD by lia.
      unfold hab, sum2. field. repeat split; lra.
    + evar_last. { exact Y. } destruct fam0 as [_ HO HD HT HJ]. fold m0. unfold sum2. rewrite HJ, !HO, !HD by lia.
      unfold hab, sum2. field. repeat split; lra.
    + destruct fam_pos as (P1 & P2). generalize (filter_and _ _ Z (filter_and _ _ P1 P2)). apply filter_imp. intros t (K & K1 & K2).
      destruct (Rlt_dec (l1 t) (l2 t)) as [|N]; [assumption|]. exfalso. assert (l2 t ^ 2 <= l1 t ^ 2) by (apply pow_incr; lra). lra.
Qed.
Lemma fam_l1 : is_derive l1 0 (hab 0 0 / (2 * l1 0)).
Proof. apply der_sqrt_sq; [apply fam_pos|apply fam_mu]. Qed.
Lemma fam_l2 : is_derive l2 0 (hab 1 1 / (2 * l2 0)).
Proof. apply der_sqrt_sq; [apply fam_pos|apply fam_mu]. Qed.

(* derivative of s1 n1 n1 + s2 n2 n2 *)
Lemma iso_alg (s1 s2 m1 m2 X : R -> R) (a ds1 ds2 dm1 dm2 dX : R) : m1 0 <> m2 0 ->
  is_derive s1 0 ds1 -> is_derive s2 0 ds2 -> is_derive m1 0 dm1 -> is_derive m2 0 dm2 -> is_derive X 0 dX ->
  is_derive (fun t => s1 t * (m1 t * (m2 t * X t - a) / (m2 t - m1 t)) + s2 t * (m2 t * (a - m1 t * X t) / (m2 t - m1 t))) 0
   (ds1 * (m1 0 * (m2 0 * X 0 - a) / (m2 0 - m1 0)) + ds2 * (m2 0 * (a - m1 0 * X 0) / (m2 0 - m1 0))
    + s1 0 * ((dm1 * (m2 0 * X 0 - a) + m1 0 * (dm2 * X 0 + m2 0 * dX)) / (m2 0 - m1 0) - m1 0 * (m2 0 * X 0 - a) * (dm2 - dm1) / (m2 0 - m1 0) ^ 2)
    + s2 0 * ((dm2 * (a - m1 0 * X 0) - m2 0 * (dm1 * X 0 + m1 0 * dX)) / (m2 0 - m1 0) - m2 0 * (a - m1 0 * X 0) * (dm2 - dm1) / (m2 0 - m1 0) ^ 2)).
Proof.
  intros N A1 A2 B1 B2 C. assert (N' : m2 0 + - m1 0 <> 0) by (intro; apply N; lra).
  auto_derive; [repeat split; first [exact I | exact N' | eexists; eassumption]|]. der_val A1; der_val A2; der_val B1; der_val B2; der_val C.
  field. intro; apply N; lra.
Qed.

Lemma iso_derivative (s1 s2 : R -> R) (ds1 ds2 : R) i j : (i < 2)%nat -> (j < 2)%nat -> is_derive s1 0 ds1 -> is_derive s2 0 ds2 ->
  is_derive (fun t => s1 t * (q t i 0%nat * q t j 0%nat) + s2 t * (q t i 1%nat * q t j 1%nat)) 0
   (ds1 * (q 0 i 0%nat * q 0 j 0%nat) + ds2 * (q 0 i 1%nat * q 0 j 1%nat)
    + (s2 0 - s1 0) / ((l2 0) ^ 2 - (l1 0) ^ 2) * hab 0 1 * (q 0 i 0%nat * q 0 j 1%nat + q 0 i 1%nat * q 0 j 0%nat)).
Proof.
  intros Hi Hj D1 D2. destruct fam_mu as (M1 & M2 & LT). destruct (sp_pos _ _ _ _ fam0) as (P1 & P2).
  assert (NE : (l1 0) ^ 2 <> (l2 0) ^ 2) by nra.
  pose proof (d_Gi Go G H SG SH fam_detG i j Hi Hj) as DX.
  apply (is_derive_ext_loc (fun t => s1 t * (l1 t ^ 2 * (l2 t ^ 2 * Gdefi (m t) i j - Gori m0 i j) / (l2 t ^ 2 - l1 t ^ 2))
       + s2 t * (l2 t ^ 2 * (Gori m0 i j - l1 t ^ 2 * Gdefi (m t) i j) / (l2 t ^ 2 - l1 t ^ 2)))).
  { generalize (filter_and _ _ fam_spec LT). apply filter_imp. intros t ([(A & B) HO HD _ _] & K).
    change (Gori m0 i j) with (Gori (m t) i j). rewrite (HO i j Hi Hj), (HD i j Hi Hj).
    assert (l2 t ^ 2 - l1 t ^ 2 <> 0) by (apply sq_neq; lra). req. field. repeat split; lra. }
  evar_last. { exact (iso_alg s1 s2 (fun t => l1 t ^ 2) (fun t => l2 t ^ 2) (fun t => Gdefi (m t) i j) (Gori m0 i j) ds1 ds2 _ _ _ NE D1 D2 M1 M2 DX). }
  cbv beta. change (metric_of Go G) with m0. assert (E0 : m 0 = m0) by (unfold m, m0; rewrite line0; reflexivity). rewrite E0.
  destruct fam0 as [_ HO HD _ _]. unfold sum2, dX4. rewrite !HO, !HD by lia. unfold hab, sum2.
  rewrite (proj1 (proj1 SH)). field. repeat split; lra.
Qed.
End FAMILY.

(* ---------- derivatives of the energy derivatives along a curve of stretches ---------- *)
Lemma Rpow_pred x a : 0 < x -> Rpower x (a - 1) = Rpower x a / x.
Proof.
  intro P. unfold Rminus. rewrite Rpower_plus, Rpower_Ropp, Rpower_1 by assumption. reflexivity.
Qed.
Lemma Rpow_pred2 x a : 0 < x -> Rpower x (a - 2) = Rpower x a / x ^ 2.
Proof. intro P. replace (a - 2) with (a - 1 - 1) by ring. rewrite !Rpow_pred by assumption. field. lra. Qed.
Lemma Rpow_m2 x : 0 < x -> Rpower x (- (2)) = / x ^ 2.
Proof.
  intro P. rewrite Rpower_Ropp. f_equal. replace 2 with (1 + 1) by ring. rewrite Rpower_plus, Rpower_1 by assumption. ring.
Qed.

Lemma ogden_der pars (f : R -> R -> R -> R) (df : R -> R -> R) : (forall mi al, is_derive (fun t => f t mi al) 0 (df mi al)) ->
  is_derive (fun t => ogden_sum pars (f t)) 0 (ogden_sum pars df).
Proof.
  intro D. unfold ogden_sum. induction (ogden_terms pars) as [|x T IH]; cbn [fold_right]; [apply @is_derive_const|]. apply der_add; [apply D|exact IH].
Qed.
Lemma ogden_ext pars (f g : R -> R -> R) : (forall mi al, f mi al = g mi al) -> ogden_sum pars f = ogden_sum pars g.
Proof. intro E. unfold ogden_sum. induction (ogden_terms pars) as [|x T IH]; cbn [fold_right]; [reflexivity|]. rewrite E, IH. reflexivity. Qed.
Lemma ogden_lin3 pars (f g h : R -> R -> R) (a b c : R) :
  ogden_sum pars f * a + ogden_sum pars g * b + ogden_sum pars h * c = ogden_sum pars (fun mi al => f mi al * a + g mi al * b + h mi al * c).
Proof. unfold ogden_sum. induction (ogden_terms pars) as [|x T IH]; cbn [fold_right]; [ring|]. rewrite <- IH. ring. Qed.

Lemma der_cpow (c e : R) (s : R -> R) (ds : R) : 0 < s 0 -> is_derive s 0 ds -> is_derive (fun t => c * Rpower (s t) e) 0 (c * (e * Rpower (s 0) e * (ds / s 0))).
Proof. intros P D. apply (is_derive_scal (fun t => Rpower (s t) e) 0 c). now apply der_pow. Qed.
Lemma der_lin1 (c : R) (s : R -> R) (ds : R) : is_derive s 0 ds -> is_derive (fun t => c * s t) 0 (c * ds).
Proof. intros D. apply (is_derive_scal s 0 c). exact D. Qed.
Lemma der_dI2a (c d : R) (x a b e : R -> R) (dx da db de : R) : is_derive x 0 dx -> is_derive a 0 da -> is_derive b 0 db -> is_derive e 0 de ->
  is_derive (fun t => c / 2 * (2 * x t) + d / 2 * (2 * x t * (a t * a t + b t * b t + e t * e t - x t ^ 2))) 0
    (c * dx + d * (dx * (a 0 * a 0 + b 0 * b 0 + e 0 * e 0 - x 0 ^ 2) + x 0 * (2 * a 0 * da + 2 * b 0 * db + 2 * e 0 * de - 2 * x 0 * dx))).
Proof. intros A B C D. auto_derive; [der_side|]. der_val A; der_val B; der_val C; der_val D. field. Qed.

Lemma der_part1 (A B C X : R -> R) (dA dB dC dX : R) : is_derive A 0 dA -> is_derive B 0 dB -> is_derive C 0 dC -> is_derive X 0 dX -> 0 < X 0 ->
  is_derive (fun t => - (2 / 3) * (A t * A t + B t * B t + C t * C t) / X t + 2 * X t) 0
    (- (2 / 3) * (2 * (A 0 * dA + B 0 * dB + C 0 * dC) / X 0 - (A 0 * A 0 + B 0 * B 0 + C 0 * C 0) * dX / X 0 ^ 2) + 2 * dX).
Proof.
  intros DA DB DC DX P. assert (N : X 0 <> 0) by lra. auto_derive; [repeat split; first [exact I|exact N|eexists; eassumption]|].
  der_val DA; der_val DB; der_val DC; der_val DX. field. exact N.
Qed.
Lemma der_part2 (A B C X : R -> R) (dA dB dC dX : R) : is_derive A 0 dA -> is_derive B 0 dB -> is_derive C 0 dC -> is_derive X 0 dX -> 0 < X 0 ->
  is_derive (fun t => - (4 / 3) * (A t ^ 2 * B t ^ 2 + B t ^ 2 * C t ^ 2 + A t ^ 2 * C t ^ 2) / X t + 2 * X t * (A t * A t + B t * B t + C t * C t - X t ^ 2)) 0
    (- (4 / 3) * (2 * (A 0 * dA * (B 0 ^ 2 + C 0 ^ 2) + B 0 * dB * (A 0 ^ 2 + C 0 ^ 2) + C 0 * dC * (A 0 ^ 2 + B 0 ^ 2)) / X 0
        - (A 0 ^ 2 * B 0 ^ 2 + B 0 ^ 2 * C 0 ^ 2 + A 0 ^ 2 * C 0 ^ 2) * dX / X 0 ^ 2)
     + 2 * dX * (A 0 * A 0 + B 0 * B 0 + C 0 * C 0 - X 0 ^ 2) + 2 * X 0 * (2 * A 0 * dA + 2 * B 0 * dB + 2 * C 0 * dC - 2 * X 0 * dX)).
Proof.
  intros DA DB DC DX P. assert (N : X 0 <> 0) by lra. auto_derive; [repeat split; first [exact I|exact N|eexists; eassumption]|].
  der_val DA; der_val DB; der_val DC; der_val DX. cbn [pow INR pred]. field. exact N.
Qed.
Lemma der_volp (K : R) (J X : R -> R) (dJ dX : R) : is_derive J 0 dJ -> is_derive X 0 dX -> 0 < X 0 ->
  is_derive (fun t => K / (X t * (-2)) * (1 - J t)) 0 (K / 2 * (dJ / X 0 - (J 0 - 1) * dX / X 0 ^ 2)).
Proof.
  intros DJ DX P. assert (N : X 0 * (-2) <> 0) by lra. auto_derive; [repeat split; first [exact I|exact N|eexists; eassumption]|].
  der_val DJ; der_val DX. field. lra.
Qed.
Lemma der_nhea (mu lam : R) (J X : R -> R) (dJ dX : R) : is_derive J 0 dJ -> is_derive X 0 dX -> 0 < X 0 ->
  is_derive (fun t => mu / 2 * (2 * X t) - mu / X t + lam / (X t * 2) * (J t - 1)) 0
    (mu * dX + mu * dX / X 0 ^ 2 + lam / 2 * (dJ / X 0 - (J 0 - 1) * dX / X 0 ^ 2)).
Proof.
  intros DJ DX P. assert (N : X 0 <> 0) by lra. assert (N2 : X 0 * 2 <> 0) by lra. auto_derive; [repeat split; first [exact I|exact N|exact N2|eexists; eassumption]|].
  der_val DJ; der_val DX. field. lra.
Qed.
Lemma der_cmul (c : R) (A B : R -> R) (dA dB : R) : is_derive A 0 dA -> is_derive B 0 dB ->
  is_derive (fun t => c * A t * B t) 0 (c * (dA * B 0 + A 0 * dB)).
Proof. intros DA DB. auto_derive; [der_side|]. der_val DA; der_val DB. ring. Qed.
Lemma der_partO (Q A B C X : R -> R) (dQ dA dB dC dX : R) : is_derive Q 0 dQ -> is_derive A 0 dA -> is_derive B 0 dB -> is_derive C 0 dC -> is_derive X 0 dX -> 0 < X 0 ->
  is_derive (fun t => Q t - 1 / 3 * 1 / X t * (A t + B t + C t)) 0 (dQ - 1 / 3 * ((dA + dB + dC) / X 0 - (A 0 + B 0 + C 0) * dX / X 0 ^ 2)).
Proof.
  intros DQ DA DB DC DX P. assert (N : X 0 <> 0) by lra. auto_derive; [repeat split; first [exact I|exact N|eexists; eassumption]|].
  der_val DQ; der_val DA; der_val DB; der_val DC; der_val DX. field. exact N.
Qed.

Section CURVE.
Variables (s : R -> vec) (ds : vec) (p : par).
Hypothesis Ds : forall k, (k < 3)%nat -> is_derive (fun t => s t k) 0 (ds k).
Hypothesis Ps : forall k, (k < 3)%nat -> 0 < s 0 k.

Lemma der_dPsi_i w a : (a < 3)%nat ->
  is_derive (fun t => dPsi_da_i w p (s t) a) 0 (sum3 (fun b => d2Psi_dab_i w p (s 0) a b * ds b)).
Proof.
  intro Ha. pose proof (Ds 0%nat ltac:(lia)) as D0. pose proof (Ds 1%nat ltac:(lia)) as D1. pose proof (Ds 2%nat ltac:(lia)) as D2.
  destruct w as [w|pars].
  - destruct w.
    + unfold dPsi_da_i, dI1a. evar_last. { apply (der_lin1 (mu p / 2) (fun t => 2 * s t a)). apply (der_lin1 2 (fun t => s t a)). apply Ds; exact Ha. }
      unfold sum3, d2Psi_dab_i, d2I1. idx3 a Ha; cbv [delta Nat.eqb]; field.
    + unfold dPsi_da_i, dI1a, dI2a, sI1. evar_last. { apply (der_dI2a (c1 p) (c2 p) (fun t => s t a) (fun t => s t 0%nat) (fun t => s t 1%nat) (fun t => s t 2%nat)); first [apply Ds; exact Ha|eassumption]. }
      unfold sum3, d2Psi_dab_i, d2I1, d2I2, sI1, idelta. idx3 a Ha; cbv [delta Nat.eqb]; field.
    + unfold dPsi_da_i, d2Psi_dab_i. evar_last. { apply @is_derive_const. } unfold sum3. change (@zero R_AbelianGroup) with 0. unfold zero. cbn. ring.
  - unfold dPsi_da_i, d2Psi_dab_i, sum3. rewrite ogden_lin3.
    evar_last. { apply (ogden_der pars (fun t mi al => mi * Rpower (s t a) (al - 1)) (fun mi al => mi * ((al - 1) * Rpower (s 0 a) (al - 1) * (ds a / s 0 a)))).
      intros mi al. apply (der_cpow mi (al - 1) (fun t => s t a)); [apply Ps; exact Ha|apply Ds; exact Ha]. }
    apply ogden_ext. intros mi al. rewrite Rpow_pred, Rpow_pred2 by (apply Ps; exact Ha).
    pose proof (Ps a Ha) as Pa. idx3 a Ha; cbv [delta Nat.eqb]; field; lra.
Qed.

Let Jf t := (s t 0%nat * s t 1%nat * s t 2%nat) ^ 2.
Lemma der_J : is_derive Jf 0 (2 * Jf 0 * (ds 0%nat / s 0 0%nat + ds 1%nat / s 0 1%nat + ds 2%nat / s 0 2%nat)).
Proof.
  pose proof (Ds 0%nat ltac:(lia)) as D0. pose proof (Ds 1%nat ltac:(lia)) as D1. pose proof (Ds 2%nat ltac:(lia)) as D2.
  pose proof (Ps 0%nat ltac:(lia)) as P0. pose proof (Ps 1%nat ltac:(lia)) as P1. pose proof (Ps 2%nat ltac:(lia)) as P2.
  assert (K : forall (a b c : R -> R) da db dc, is_derive a 0 da -> is_derive b 0 db -> is_derive c 0 dc -> 0 < a 0 -> 0 < b 0 -> 0 < c 0 ->
     is_derive (fun t => (a t * b t * c t) ^ 2) 0 (2 * (a 0 * b 0 * c 0) ^ 2 * (da / a 0 + db / b 0 + dc / c 0))).
  { intros a b c da db dc A B C PA PB PC. auto_derive; [der_side|]. der_val A; der_val B; der_val C. cbn [INR pred]. field. lra. }
  unfold Jf. now apply (K (fun t => s t 0%nat) (fun t => s t 1%nat) (fun t => s t 2%nat)).
Qed.
Lemma J_curve_pos : 0 < Jf 0.
Proof. unfold Jf. apply pow_lt. apply Rmult_lt_0_compat; [apply Rmult_lt_0_compat|]; apply Ps; lia. Qed.

Lemma der_dPsi_c w a : (a < 3)%nat ->
  is_derive (fun t => dPsi_da_c w p (s t) (Jf t) a) 0 (sum3 (fun b => d2Psi_dab_c w p (s 0) (Jf 0) a b * ds b)).
Proof.
  intro Ha. pose proof (Ds 0%nat ltac:(lia)) as D0. pose proof (Ds 1%nat ltac:(lia)) as D1. pose proof (Ds 2%nat ltac:(lia)) as D2.
  pose proof (Ps 0%nat ltac:(lia)) as P0. pose proof (Ps 1%nat ltac:(lia)) as P1. pose proof (Ps 2%nat ltac:(lia)) as P2.
  pose proof (Ds a Ha) as Da. pose proof (Ps a Ha) as Pa. pose proof der_J as DJ. pose proof J_curve_pos as PJ.
  assert (DP : forall e, is_derive (fun t => Rpower (Jf t) e) 0 (e * Rpower (Jf 0) e * (2 * (ds 0%nat / s 0 0%nat + ds 1%nat / s 0 1%nat + ds 2%nat / s 0 2%nat)))).
  { intro e. evar_last. { apply (der_pow e Jf _ PJ DJ). } field. lra. }
  set (r := ds 0%nat / s 0 0%nat + ds 1%nat / s 0 1%nat + ds 2%nat / s 0 2%nat) in *.
  pose proof (der_part1 _ _ _ _ _ _ _ _ D0 D1 D2 Da Pa) as PI1. pose proof (der_part2 _ _ _ _ _ _ _ _ D0 D1 D2 Da Pa) as PI2.
  pose proof (der_volp (bulk p) Jf (fun t => s t a) _ _ DJ Da Pa) as PV. cbv beta in PI1, PI2, PV.
  destruct w as [w|pars].
  - destruct w; unfold dPsi_da_c, dPsi_da_vol, dI1a, dI2a, sI1, sI2.
    + evar_last. { apply (der_add (fun t => mu p / 2 * Rpower (Jf t) (- (1 / 3)) * (- (2 / 3) * (s t 0%nat * s t 0%nat + s t 1%nat * s t 1%nat + s t 2%nat * s t 2%nat) / s t a + 2 * s t a))).
        - apply (der_cmul (mu p / 2) (fun t => Rpower (Jf t) (- (1 / 3)))); [apply DP|exact PI1]. - exact PV. }
      unfold d2Psi_dab_c. cbv beta zeta. generalize (Rpower (Jf 0) (- (1 / 3))) as A. intro A. clear PI1 PI2 PV DP DJ. unfold Jf, r. clear Jf r PJ.
      unfold sum3, d2Psi_dab_vol, d2I1, dI1a, sI1. idx3 a Ha; cbv [delta Nat.eqb]; field; lra.
    + evar_last. { apply (der_add (fun t => c1 p / 2 * Rpower (Jf t) (- (1 / 3)) * (- (2 / 3) * (s t 0%nat * s t 0%nat + s t 1%nat * s t 1%nat + s t 2%nat * s t 2%nat) / s t a + 2 * s t a)
           + c2 p / 2 * Rpower (Jf t) (- (2 / 3)) * (- (4 / 3) * ((s t 0%nat) ^ 2 * (s t 1%nat) ^ 2 + (s t 1%nat) ^ 2 * (s t 2%nat) ^ 2 + (s t 0%nat) ^ 2 * (s t 2%nat) ^ 2) / s t a
             + 2 * s t a * (s t 0%nat * s t 0%nat + s t 1%nat * s t 1%nat + s t 2%nat * s t 2%nat - s t a ^ 2)))).
        - apply der_add.
          + apply (der_cmul (c1 p / 2) (fun t => Rpower (Jf t) (- (1 / 3)))); [apply DP|exact PI1].
          + apply (der_cmul (c2 p / 2) (fun t => Rpower (Jf t) (- (2 / 3)))); [apply DP|exact PI2].
        - exact PV. }
      unfold d2Psi_dab_c. cbv beta zeta. generalize (Rpower (Jf 0) (- (1 / 3))) as A, (Rpower (Jf 0) (- (2 / 3))) as B. intros A B. clear PI1 PI2 PV DP DJ. unfold Jf, r. clear Jf r PJ.
      unfold sum3, d2Psi_dab_vol, d2I1, d2I2, dI1a, dI2a, sI1, sI2, idelta. idx3 a Ha; cbv [delta Nat.eqb]; field; lra.
    + evar_last. { apply (der_nhea (mu p) (lam p) Jf (fun t => s t a) _ _ DJ Da Pa). }
      cbv beta. clear PI1 PI2 PV DP DJ. unfold Jf, r. clear Jf r PJ.
      unfold sum3, d2Psi_dab_c, d2I1. idx3 a Ha; cbv [delta Nat.eqb]; field; lra.
  - unfold dPsi_da_c.
    evar_last. { apply (der_add (fun t => ogden_sum pars (fun mi al => mi * Rpower (Jf t) (- al / 6) * (Rpower (s t a) (al - 1) - 1 / 3 * 1 / s t a * Lambda (s t) al)))).
      - apply (ogden_der pars (fun t mi al => mi * Rpower (Jf t) (- al / 6) * (Rpower (s t a) (al - 1) - 1 / 3 * 1 / s t a * Lambda (s t) al))
          (fun mi al => mi * ((- al / 6 * Rpower (Jf 0) (- al / 6) * (2 * r)) * (Rpower (s 0 a) (al - 1) - 1 / 3 * 1 / s 0 a * Lambda (s 0) al)
             + Rpower (Jf 0) (- al / 6) * ((al - 1) * Rpower (s 0 a) (al - 1) * (ds a / s 0 a) - 1 / 3 * ((al * Rpower (s 0 0%nat) al * (ds 0%nat / s 0 0%nat) + al * Rpower (s 0 1%nat) al * (ds 1%nat / s 0 1%nat) + al * Rpower (s 0 2%nat) al * (ds 2%nat / s 0 2%nat)) / s 0 a
                - Lambda (s 0) al * ds a / (s 0 a) ^ 2))))).
        intros mi al. unfold Lambda.
        apply (der_cmul mi (fun t => Rpower (Jf t) (- al / 6))); [apply DP|].
        apply (der_partO (fun t => Rpower (s t a) (al - 1)) (fun t => Rpower (s t 0%nat) al) (fun t => Rpower (s t 1%nat) al) (fun t => Rpower (s t 2%nat) al) (fun t => s t a));
          try (apply (der_pow _ (fun t => s t _)); assumption); assumption.
      - exact PV. }
    clear PI1 PI2 PV DP DJ.
    transitivity (sum3 (fun b => ogden_sum pars (fun mi al : R => mi * Rpower (Jf 0) (- al / 6) *
        (- (al / 3) * (Rpower (s 0 a) (al - 1) / s 0 b + Rpower (s 0 b) (al - 1) / s 0 a - 1 / 3 * 1 / (s 0 a * s 0 b) * Lambda (s 0) al)
         + delta a b * ((al - 1) * Rpower (s 0 a) (al - 2) + Lambda (s 0) al / 3 * Rpower (s 0 a) (- (2))))) * ds b)
       + sum3 (fun b => d2Psi_dab_vol p (s 0) a b * ds b)).
    + f_equal.
      * unfold sum3. rewrite ogden_lin3. apply ogden_ext. intros mi al. unfold Lambda.
        rewrite !Rpow_pred, Rpow_pred2, Rpow_m2 by assumption.
        generalize (Rpower (Jf 0) (- al / 6)) as A. intro A. clear Jf PJ. unfold r. clear r.
        idx3 a Ha; cbv [delta Nat.eqb]; generalize (Rpower (s 0 0%nat) al) as B, (Rpower (s 0 1%nat) al) as C, (Rpower (s 0 2%nat) al) as D; intros; field; lra.
      * unfold Jf, r. clear Jf r PJ. unfold sum3, d2Psi_dab_vol. idx3 a Ha; cbv [delta Nat.eqb]; field; lra.
    + unfold sum3, d2Psi_dab_c. ring.
Qed.
End CURVE.
