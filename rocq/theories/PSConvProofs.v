(* Convergence of the plane-stress Newton iteration for every compressible law. *)
From Coq Require Import Reals Lra Lia.
From Coquelicot Require Import Coquelicot.
From Verif Require Import Tensor MetricModel LinearModel NonlinearModel NonlinearSpec NonlinearProofs Newton33Model Newton33Spec Newton33Proofs PlaneStressProofs PSConvSpec.
Open Scope R_scope.

(* ---------- Newton's method for an increasing concave function ---------- *)
Section Concave.
Variables (D : R -> Prop) (f df : R -> R) (r : R).
Hypotheses (DD : forall x y, 0 < x <= y -> D y -> D x) (Dr : D r) (Pr : 0 < r) (Fr : f r = 0).
Hypotheses (DF : forall c, 0 < c -> D c -> is_derive f c (df c)) (DP : forall c, 0 < c -> D c -> 0 < df c).
Hypotheses (DM : forall x y, 0 < x <= y -> D y -> df y <= df x).
Lemma tangent x y : 0 < x -> 0 < y -> D x -> D y -> f y <= f x + df x * (y - x).
Proof.
  intros Px Py Dx Dy. destruct (Req_dec x y) as [->|N]. { lra. }
  destruct (MVT_gen f x y df) as (c & Hc & E).
  - intros z Hz. assert (0 < z) by (unfold Rmin in Hz; destruct (Rle_dec x y); lra).
    apply DF; [assumption|]. apply (DD z (Rmax x y)); [lra|]. unfold Rmax; destruct (Rle_dec x y); assumption.
  - intros z Hz. assert (P : 0 < z) by (unfold Rmin in Hz; destruct (Rle_dec x y); lra).
    apply continuity_pt_filterlim. apply (ex_derive_continuous (K := R_AbsRing) (V := R_NormedModule)). exists (df z). apply DF; [exact P|].
    apply (DD z (Rmax x y)); [lra|]. unfold Rmax; destruct (Rle_dec x y); assumption.
  - unfold Rmin, Rmax in Hc. destruct (Rle_dec x y) as [L|L].
    + assert (Q : df c <= df x) by (apply DM; [lra|apply (DD c y); [lra|exact Dy]]).
      assert (df c * (y - x) <= df x * (y - x)) by (apply Rmult_le_compat_r; lra). lra.
    + assert (Q : df x <= df c) by (apply DM; [lra|exact Dx]).
      assert (df x * (x - y) <= df c * (x - y)) by (apply Rmult_le_compat_r; lra). lra.
Qed.
Let N x := x - f x / df x.
Lemma step_below x : 0 < x -> D x -> N x <= r.
Proof.
  intros Px Dx. pose proof (tangent x r Px Pr Dx Dr) as T. rewrite Fr in T. pose proof (DP x Px Dx) as P. unfold N.
  apply (Rmult_le_reg_l (df x)); [exact P|]. replace (df x * (x - f x / df x)) with (df x * x - f x) by (field; lra). lra.
Qed.
Lemma step_above x : 0 < x <= r -> x <= N x /\ r - N x <= (1 - df r / df x) * (r - x) /\ df r / df x * (r - x) <= N x - x.
Proof.
  intros Hx. assert (Dx : D x) by (apply (DD x r); [exact Hx|exact Dr]). pose proof (DP x ltac:(lra) Dx) as P. pose proof (DP r Pr Dr) as Q.
  pose proof (tangent r x Pr ltac:(lra) Dr Dx) as T. rewrite Fr in T. unfold N.
  assert (K : df r / df x * (r - x) <= - (f x / df x)).
  { apply (Rmult_le_reg_l (df x)); [exact P|]. replace (df x * (df r / df x * (r - x))) with (df r * (r - x)) by (field; lra).
    replace (df x * - (f x / df x)) with (- f x) by (field; lra). lra. }
  assert (0 <= df r / df x * (r - x)) by (apply Rmult_le_pos; [apply Rlt_le, Rdiv_lt_0_compat; assumption|lra]). lra.
Qed.
Variable x0 : R.
Hypotheses (P0 : 0 < x0) (D0 : D x0) (P1 : 0 < N x0).
Let it := newton f df x0.
Lemma it_S n : it (S n) = N (it n). Proof. reflexivity. Qed.
Lemma it_dom n : 0 < it n /\ D (it n).
Proof. 
  assert (G : forall n, 0 < it (S n) <= r).
  { induction n0 as [|k IH]; rewrite it_S.
    - split; [exact P1|apply step_below; assumption].
    - destruct (step_above _ IH) as [A _]. assert (D (it (S k))) by (apply (DD _ r); assumption). pose proof (step_below (it (S k)) ltac:(lra) H). lra. }
  destruct n as [|k]; [split; assumption|]. specialize (G k). split; [lra|apply (DD _ r); assumption].
Qed.
Lemma it_le n : 0 < it (S n) <= r.
Proof. destruct (it_dom (S n)) as [A _]. split; [exact A|]. rewrite it_S. destruct (it_dom n). apply step_below; assumption. Qed.
Lemma it_mono n : it (S n) <= it (S (S n)).
Proof. rewrite (it_S (S n)). apply step_above, it_le. Qed.
Lemma it_from1 n : it 1%nat <= it (S n).
Proof. induction n as [|n IH]; [lra|]. pose proof (it_mono n). lra. Qed.
Lemma it_rate rho n : rho * df (it 1%nat) <= df r -> r - it (S n) <= (1 - rho) ^ n * (r - it 1%nat).
Proof.
  intro HR. assert (K : 0 <= 1 - rho).
  { assert (Q : 0 < df (it 1%nat)) by (destruct (it_dom 1); apply DP; assumption). pose proof (DM (it 1%nat) r (it_le 0) Dr) as M.
    apply (Rmult_le_reg_r (df (it 1%nat))); [exact Q|]. lra. }
  induction n as [|n IH]; [simpl; lra|]. pose proof (it_le n) as L. destruct (step_above _ L) as (_ & A & _). rewrite <- it_S in A.
  assert (Q : 0 < df (it (S n))) by (apply DP; [lra|apply (DD _ r); assumption]).
  assert (RR : rho <= df r / df (it (S n))).
  { apply (Rmult_le_reg_r (df (it (S n)))); [exact Q|]. replace (df r / df (it (S n)) * df (it (S n))) with (df r) by (field; lra).
    destruct (Rle_dec 0 rho) as [Z|Z].
    - assert (M : df (it (S n)) <= df (it 1%nat)). { apply DM; [split; [apply it_le|apply it_from1]|apply (DD _ r); [apply it_le|exact Dr]]. }
      pose proof (Rmult_le_compat_l rho _ _ Z M). lra.
    - pose proof (DP r Pr Dr). assert (rho * df (it (S n)) <= 0 * df (it (S n))) by (apply Rmult_le_compat_r; lra). lra. }
  assert (B : (1 - df r / df (it (S n))) * (r - it (S n)) <= (1 - rho) * (r - it (S n))) by (apply Rmult_le_compat_r; lra).
  assert (C : (1 - rho) * (r - it (S n)) <= (1 - rho) * ((1 - rho) ^ n * (r - it 1%nat))) by (apply Rmult_le_compat_l; assumption). simpl. lra.
Qed.
Lemma it_lim : is_lim_seq it r.
Proof.
  apply is_lim_seq_incr_1. set (rho := df r / df (it 1%nat)).
  assert (Q : 0 < df (it 1%nat)) by (destruct (it_dom 1); apply DP; assumption). pose proof (DP r Pr Dr) as Qr.
  assert (HR : rho * df (it 1%nat) <= df r) by (unfold rho; right; field; lra).
  assert (H0 : 0 < rho) by (apply Rdiv_lt_0_compat; assumption).
  assert (H1 : rho <= 1). { apply (Rmult_le_reg_r (df (it 1%nat))); [exact Q|]. pose proof (DM (it 1%nat) r (it_le 0) Dr). lra. }
  apply (is_lim_seq_le_le (fun n => r - (1 - rho) ^ n * (r - it 1%nat)) _ (fun _ => r)).
  - intro n. pose proof (it_rate rho n HR). pose proof (it_le n). lra.
  - replace (Finite r) with (Finite (r - 0 * (r - it 1%nat))) by (f_equal; ring).
    apply (is_lim_seq_minus' (fun _ => r) (fun n => (1 - rho) ^ n * (r - it 1%nat)) r (0 * (r - it 1%nat))); [apply is_lim_seq_const|].
    apply (is_lim_seq_mult' (fun n => (1 - rho) ^ n) (fun _ => r - it 1%nat) 0 (r - it 1%nat)); [|apply is_lim_seq_const].
    apply is_lim_seq_geom. rewrite Rabs_pos_eq; lra.
  - apply is_lim_seq_const.
Qed.
Lemma it_corr n : 0 <= it (S (S n)) - it (S n) <= r - it (S n).
Proof. pose proof (it_mono n). pose proof (it_le (S n)). lra. Qed.
Lemma it_err rho n : 0 < rho -> rho * df (it 1%nat) <= df r -> rho * (r - it (S n)) <= it (S (S n)) - it (S n).
Proof.
  intros H0 HR. pose proof (it_le n) as L. destruct (step_above _ L) as (_ & _ & A). rewrite <- it_S in A.
  assert (Q : 0 < df (it (S n))) by (apply DP; [lra|apply (DD _ r); assumption]).
  assert (RR : rho <= df r / df (it (S n))).
  { apply (Rmult_le_reg_r (df (it (S n)))); [exact Q|]. replace (df r / df (it (S n)) * df (it (S n))) with (df r) by (field; lra).
    assert (M : df (it (S n)) <= df (it 1%nat)). { apply DM; [split; [apply it_le|apply it_from1]|apply (DD _ r); [apply it_le|exact Dr]]. }
    pose proof (Rmult_le_compat_l rho _ _ ltac:(lra) M). lra. }
  assert (rho * (r - it (S n)) <= df r / df (it (S n)) * (r - it (S n))) by (apply Rmult_le_compat_r; lra). lra.
Qed.
End Concave.

(* the returned value of a call whose iteration is of this kind *)
Lemma concave_call (D : R -> Prop) S33 C3333 r J eps rho :
  (forall x y, 0 < x <= y -> D y -> D x) -> D r -> 0 < r -> S33 r = 0 ->
  (forall c, 0 < c -> D c -> is_derive S33 c (C3333 c / 2)) -> (forall c, 0 < c -> D c -> 0 < C3333 c / 2) ->
  (forall x y, 0 < x <= y -> D y -> C3333 y / 2 <= C3333 x / 2) ->
  let it := newton S33 (fun x => C3333 x / 2) (/ J) in
  0 < / J -> D (/ J) -> 0 < it 1%nat -> 0 < rho -> rho * (C3333 (it 1%nat) / 2) <= C3333 r / 2 ->
  (1 - rho) ^ 99 * r < tol - eps -> 0 <= eps ->
  exists c, c33_of eps S33 C3333 J = Ok c /\ r - tol / rho < c <= r.
Proof.
  intros DD Dr Pr Fr DF DP DM it P0 D0 P1 H0 HR HT HE.
  pose proof (it_dom D S33 (fun x => C3333 x / 2) r DD Dr Pr Fr DF DP DM (/ J) P0 D0 P1) as DOM.
  pose proof (it_le D S33 (fun x => C3333 x / 2) r DD Dr Pr Fr DF DP DM (/ J) P0 D0 P1) as LE.
  pose proof (it_corr D S33 (fun x => C3333 x / 2) r DD Dr Pr Fr DF DP DM (/ J) P0 D0 P1) as CO.
  pose proof (it_rate D S33 (fun x => C3333 x / 2) r DD Dr Pr Fr DF DP DM (/ J) P0 D0 P1 rho) as RA.
  pose proof (fun n => it_err D S33 (fun x => C3333 x / 2) r DD Dr Pr Fr DF DP DM (/ J) P0 D0 P1 rho n H0 HR) as ER.
  fold it in DOM, LE, CO, RA, ER.
  assert (PC : forall n, 0 < C3333 (it n)) by (intro n; destruct (DOM n) as [A B]; specialize (DP _ A B); lra).
  assert (CE : forall n, Rabs (2 * S33 (it (S n)) / C3333 (it (S n))) = it (S (S n)) - it (S n)).
  { intro n. assert (E : it (S (S n)) = it (S n) - S33 (it (S n)) / (C3333 (it (S n)) / 2)) by reflexivity. specialize (PC (S n)).
    replace (2 * S33 (it (S n)) / C3333 (it (S n))) with (- (it (S (S n)) - it (S n))) by (rewrite E; field; lra). rewrite Rabs_Ropp. apply Rabs_pos_eq, CO. }
  assert (NZ : forall j, (j <= 100)%nat -> C3333 (it j) <> 0) by (intros j _; specialize (PC j); lra).
  destruct (c33_of eps S33 C3333 J) as [c| |] eqn:E.
  - exists c. split; [reflexivity|]. apply (c33_ok eps S33 C3333 J c NZ) in E. destruct E as (j & Hj & -> & A & _). destruct j as [|n]; [lia|]. fold it in A. fold it.
    rewrite CE in A. specialize (ER n). specialize (LE n). split; [|apply LE].
    assert (rho * (r - it (S n)) < tol) by lra. assert (r - it (S n) < tol / rho); [|lra].
    apply (Rmult_lt_reg_l rho); [exact H0|]. replace (rho * (tol / rho)) with tol by (field; lra). assumption.
  - exfalso. pose proof (proj1 (c33_throw eps S33 C3333 J NZ) E 100%nat ltac:(lia)) as A. fold it in A. rewrite CE in A.
    pose proof (CO 99%nat) as B. pose proof (RA 99%nat HR) as C. pose proof (LE 0%nat) as L0.
    assert (K : 0 <= 1 - rho). { assert (0 < C3333 (it 1%nat)) by apply PC. pose proof (DM (it 1%nat) r L0 Dr). apply (Rmult_le_reg_r (C3333 (it 1%nat) / 2)); lra. }
    assert ((1 - rho) ^ 99 * (r - it 1%nat) <= (1 - rho) ^ 99 * r) by (apply Rmult_le_compat_l; [apply pow_le; exact K|lra]). lra.
  - exfalso. exact (c33_never_ub _ _ _ _ E).
Qed.

(* ---------- the terms of the transverse stress ---------- *)
Section Terms.
Variables (T J : R).
Hypotheses (PT : 0 < T) (PJ : 0 < J).
Definition h1 c := Rpower (J * c) (- (1 / 3)) * ((2 * c - T) / c).
Definition h2 c := Rpower (J * c) (- (2 / 3)) * ((T * c - 2 * J) / c).
Definition d1 c := Rpower (J * c) (- (1 / 3)) * ((4 * T - 2 * c) / (3 * (c * c))).
Definition d2 c := Rpower (J * c) (- (2 / 3)) * ((10 * J - 2 * T * c) / (3 * (c * c))).
Definition d3 (c : R) := / (c * c).
Lemma h1_der c : 0 < c -> is_derive h1 c (d1 c).
Proof.
  intro H. assert (Q : 0 < J * c) by (apply Rmult_lt_0_compat; assumption). unfold h1, d1, Rpower. auto_derive.
  - repeat split; lra.
  - change (exp (- (1 / 3) * ln (J * c))) with (Rpower (J * c) (- (1 / 3))). field. lra.
Qed.
Lemma h2_der c : 0 < c -> is_derive h2 c (d2 c).
Proof.
  intro H. assert (Q : 0 < J * c) by (apply Rmult_lt_0_compat; assumption). unfold h2, d2, Rpower. auto_derive.
  - repeat split; lra.
  - field. lra.
Qed.
Lemma h3_der k c : 0 < c -> is_derive (fun c => k - / c) c (d3 c).
Proof. intro H. unfold d3. auto_derive; [lra|]. field. lra. Qed.
Lemma sq_le x y : 0 < x <= y -> 0 < x * x <= y * y.
Proof. intro H. split; [apply Rmult_lt_0_compat; lra|apply Rmult_le_compat; lra]. Qed.
Lemma Rpow_dec x y e : 0 < e -> 0 < x <= y -> 0 < Rpower (J * y) (- e) <= Rpower (J * x) (- e).
Proof.
  intros He H. split; [apply exp_pos|]. destruct (Req_dec x y) as [->|N]; [lra|]. apply Rlt_le, Rpow_neg_lt; [exact He|].
  split; [apply Rmult_lt_0_compat; lra|apply Rmult_lt_compat_l; lra].
Qed.
(* x^(1-e) increases *)
Lemma Rpow_scale x y e : 0 < e < 1 -> 0 < x <= y -> Rpower (J * x) (- e) * x <= Rpower (J * y) (- e) * y.
Proof.
  intros He H. assert (E : forall z, 0 < z -> Rpower (J * z) (- e) * z = / J * Rpower (J * z) (1 - e)).
  { intros z Hz. replace (1 - e) with (- e + 1) by ring. rewrite Rpower_plus, Rpower_1 by (apply Rmult_lt_0_compat; assumption). field. lra. }
  rewrite !E by lra. apply Rmult_le_compat_l; [apply Rlt_le, Rinv_0_lt_compat; exact PJ|]. apply Rle_Rpower_l; [lra|].
  split; [apply Rmult_lt_0_compat; lra|apply Rmult_le_compat_l; lra].
Qed.
Lemma frac_dec K k x y : 0 <= k -> 0 < x <= y -> 0 <= K - k * y -> 0 <= (K - k * y) / (3 * (y * y)) <= (K - k * x) / (3 * (x * x)).
Proof.
  intros Hk H P. pose proof (sq_le x y H) as S. assert (k * x <= k * y) by (apply Rmult_le_compat_l; lra). unfold Rdiv. split.
  - apply Rmult_le_pos; [lra|]. apply Rlt_le, Rinv_0_lt_compat. lra.
  - apply Rmult_le_compat; [lra|apply Rlt_le, Rinv_0_lt_compat; lra|lra|]. apply Rinv_le_contravar; lra.
Qed.
Lemma d1_dec x y : 0 < x <= y -> y < 2 * T -> 0 < d1 y <= d1 x.
Proof.
  intros H HT. pose proof (Rpow_dec x y (1 / 3) ltac:(lra) H) as A. pose proof (frac_dec (4 * T) 2 x y ltac:(lra) H ltac:(lra)) as B.
  pose proof (sq_le x y H) as S. unfold d1. split.
  - apply Rmult_lt_0_compat; [lra|]. apply Rdiv_lt_0_compat; lra.
  - apply Rmult_le_compat; lra.
Qed.
Lemma d2_dec x y : 0 < x <= y -> T * y < 5 * J -> 0 < d2 y <= d2 x.
Proof.
  intros H HT. pose proof (Rpow_dec x y (2 / 3) ltac:(lra) H) as A. pose proof (frac_dec (10 * J) (2 * T) x y ltac:(lra) H ltac:(lra)) as B.
  pose proof (sq_le x y H) as S. unfold d2. split.
  - apply Rmult_lt_0_compat; [lra|]. apply Rdiv_lt_0_compat; lra.
  - apply Rmult_le_compat; lra.
Qed.
Lemma d3_dec x y : 0 < x <= y -> 0 < d3 y <= d3 x.
Proof.
  intro H. pose proof (sq_le x y H). unfold d3. split; [apply Rinv_0_lt_compat; lra|apply Rinv_le_contravar; lra].
Qed.
(* the slopes at y and at x are comparable when x is not much smaller than y *)
Lemma frac_ratio P Q K k x y s b : 0 < Q -> 0 < s -> 0 < x <= y -> s * y <= x -> Q * x <= P * y -> 0 <= k -> 0 < K -> 0 <= b -> b * K <= K - k * y ->
  s ^ 3 * b * (Q * ((K - k * x) / (3 * (x * x)))) <= P * ((K - k * y) / (3 * (y * y))).
Proof.
  intros HQ Hs H Sx HP Hk HK Hb HB. pose proof (sq_le x y H) as S. assert (0 < y) by lra.
  assert (0 <= k * x) by (apply Rmult_le_pos; lra). assert (PP : 0 < P). { apply (Rmult_lt_reg_r y); [lra|]. assert (0 < Q * x) by (apply Rmult_lt_0_compat; lra). lra. }
  assert (C3 : 0 < x * x * x) by (apply Rmult_lt_0_compat; lra). assert (Y3 : 0 < y * y * y) by (apply Rmult_lt_0_compat; [apply Rmult_lt_0_compat|]; lra).
  assert (S3 : s ^ 3 * (y * y * y) <= x * x * x).
  { replace (s ^ 3 * (y * y * y)) with ((s * y) * (s * y) * (s * y)) by ring. assert (0 < s * y) by (apply Rmult_lt_0_compat; assumption).
    apply Rmult_le_compat; [|lra| |exact Sx]; [apply Rlt_le, Rmult_lt_0_compat; assumption|]. apply Rmult_le_compat; lra. }
  apply (Rmult_le_reg_r (3 * (x * x) * x * (3 * (y * y) * y))). { repeat apply Rmult_lt_0_compat; lra. }
  replace (s ^ 3 * b * (Q * ((K - k * x) / (3 * (x * x)))) * (3 * (x * x) * x * (3 * (y * y) * y))) with (3 * ((s ^ 3 * (y * y * y)) * ((Q * x) * (b * (K - k * x))))) by (field; lra).
  replace (P * ((K - k * y) / (3 * (y * y))) * (3 * (x * x) * x * (3 * (y * y) * y))) with (3 * ((x * x * x) * ((P * y) * (K - k * y)))) by (field; lra).
  apply Rmult_le_compat_l; [lra|].
  assert (KX : k * x <= k * y) by (apply Rmult_le_compat_l; lra). assert (Kb : 0 <= b * K) by (apply Rmult_le_pos; lra).
  assert (B1 : 0 <= b * (K - k * x)) by (apply Rmult_le_pos; lra).
  assert (B2 : b * (K - k * x) <= K - k * y). { assert (0 <= b * (k * x)) by (apply Rmult_le_pos; assumption). lra. }
  apply Rmult_le_compat; [|apply Rmult_le_pos; [apply Rmult_le_pos; lra|exact B1]|exact S3|].
  - apply Rmult_le_pos; [apply pow_le; lra|lra].
  - apply Rmult_le_compat; [apply Rmult_le_pos; lra|exact B1|exact HP|exact B2].
Qed.
Lemma d1_ratio s b x y : 0 < s -> 0 < x <= y -> s * y <= x -> 0 <= b -> b * (4 * T) <= 4 * T - 2 * y -> s ^ 3 * b * d1 x <= d1 y.
Proof.
  intros. unfold d1. apply frac_ratio; try assumption; try lra; [apply exp_pos|]. apply Rpow_scale; [lra|assumption].
Qed.
Lemma d2_ratio s b x y : 0 < s -> 0 < x <= y -> s * y <= x -> 0 <= b -> b * (10 * J) <= 10 * J - 2 * T * y -> s ^ 3 * b * d2 x <= d2 y.
Proof.
  intros. unfold d2. apply frac_ratio; try assumption; try lra; [apply exp_pos|]. apply Rpow_scale; [lra|assumption].
Qed.
Lemma d3_ratio s x y : 0 < s <= 1 -> 0 < x <= y -> s * y <= x -> s ^ 3 * d3 x <= d3 y.
Proof.
  intros Hs H Sx. pose proof (sq_le x y H) as S. assert (P : 0 < s * y) by (apply Rmult_lt_0_compat; lra).
  assert (S2 : s * s * (y * y) <= x * x). { replace (s * s * (y * y)) with ((s * y) * (s * y)) by ring. apply Rmult_le_compat; lra. }
  unfold d3. apply (Rmult_le_reg_r (x * x * (y * y))). { apply Rmult_lt_0_compat; lra. }
  replace (s ^ 3 * / (x * x) * (x * x * (y * y))) with (s * (s * s * (y * y))) by (field; lra). replace (/ (y * y) * (x * x * (y * y))) with (1 * (x * x)) by (field; lra).
  apply Rmult_le_compat; try lra. apply Rmult_le_pos; [apply Rmult_le_pos; lra|lra].
Qed.
End Terms.

(* ---------- the laws ---------- *)
Section Law.
Variables (w : law) (p : par) (m : metric).
Hypotheses (G33 : Gori m 2%nat 2%nat = 1) (GP : good_par w p) (PJ : 0 < J0 m) (PT : 0 < traceCt m).
Let T := traceCt m.
Let J := J0 m.
Let a1 := match w with NH => mu p / 3 | MR => c1 p / 3 | NHe => 0 end.
Let a2 := match w with NH => 0 | MR => c2 p / 3 | NHe => 0 end.
Let a3 := match w with NH => bulk p / 2 | MR => bulk p / 2 | NHe => lam p / 2 end.
Let a4 := match w with NHe => mu p | _ => 0 end.
Let S33 c := S_comp w p m c 2%nat 2%nat.
Let C33 c := C3D w p m c 2%nat 2%nat 2%nat 2%nat.
Definition dom (c : R) : Prop := match w with NH => c < 2 * T | MR => c < 2 * T /\ T * c < 5 * J | NHe => True end.
Lemma S33_terms c : 0 < c -> S33 c = a1 * h1 T J c + a2 * h2 T J c + a3 * (J - / c) + a4 * (1 - / c).
Proof.
  intro H. assert (E : S33 c = psi w p m c / c). { unfold S33. rewrite <- (psi_S33 w p m G33 GP c) by lra. field. lra. }
  rewrite E. unfold psi, f1, f2, f3, h1, h2. fold a1 a2 a3 a4 T J. field. lra.
Qed.
Lemma C33_terms c : 0 < c -> C33 c / 2 = a1 * d1 T J c + a2 * d2 T J c + a3 * d3 c + a4 * d3 c.
Proof.
  intro H. pose proof (C3333_identity w p m c G33 ltac:(lra)) as I. rewrite (psi_S33 w p m G33 GP c) in I by lra.
  assert (E : C33 c / 2 = (c * c / 2 * C33 c + psi w p m c - psi w p m c) / (c * c)) by (field; lra).
  rewrite E. unfold C33. rewrite I. unfold psi, f1, f2, f3, d1, d2, d3. fold T J. unfold a1, a2, a3, a4. destruct w; field; lra.
Qed.
Lemma coefs : 0 <= a1 /\ 0 <= a2 /\ 0 <= a3 /\ 0 <= a4 /\ (0 < a1 \/ 0 < a2 \/ 0 < a4).
Proof. exact (a_nonneg w p GP). Qed.
Lemma dom_down x y : 0 < x <= y -> dom y -> dom x.
Proof.
  intros H. unfold dom. destruct w; [lra| |trivial]. intros [A B]. split; [lra|].
  assert (T * x <= T * y) by (apply Rmult_le_compat_l; [apply Rlt_le; exact PT|lra]). lra.
Qed.
Lemma S33_der c : 0 < c -> is_derive S33 c (C33 c / 2).
Proof.
  intro H. rewrite C33_terms by exact H.
  apply (is_derive_ext_loc (fun c => a1 * h1 T J c + a2 * h2 T J c + a3 * (J - / c) + a4 * (1 - / c))).
  - exists (mkposreal c H). intros y Hy. apply Rabs_def2 in Hy. unfold minus, plus, opp in Hy; simpl in Hy. symmetry. apply S33_terms. lra.
  - apply (is_derive_plus (K := R_AbsRing) (V := R_NormedModule)); [apply (is_derive_plus (K := R_AbsRing) (V := R_NormedModule)); [apply (is_derive_plus (K := R_AbsRing) (V := R_NormedModule))|]|].
    + apply (is_derive_scal (h1 T J)), h1_der; [exact PJ|exact H].
    + apply (is_derive_scal (h2 T J)), h2_der; [exact PJ|exact H].
    + apply (is_derive_scal (fun c => J - / c)), h3_der; exact H.
    + apply (is_derive_scal (fun c => 1 - / c)), h3_der; exact H.
Qed.
Lemma terms_le k x y : 0 <= k -> (0 < a1 -> k * d1 T J x <= d1 T J y) -> (0 < a2 -> k * d2 T J x <= d2 T J y) -> (0 < a3 + a4 -> k * d3 x <= d3 y) -> 0 < x -> 0 < y ->
  k * (C33 x / 2) <= C33 y / 2.
Proof.
  intros Hk H1 H2 H3 Px Py. rewrite !C33_terms by assumption. destruct coefs as (p1 & p2 & p3 & p4 & _).
  assert (G : forall a u v, 0 <= a -> (0 < a -> k * u <= v) -> k * (a * u) <= a * v).
  { intros a u v Ha H. destruct (Req_dec a 0) as [->|N]; [lra|]. specialize (H ltac:(lra)). apply (Rmult_le_compat_l a) in H; lra. }
  pose proof (G a1 (d1 T J x) (d1 T J y) p1 H1). pose proof (G a2 (d2 T J x) (d2 T J y) p2 H2).
  pose proof (G a3 (d3 x) (d3 y) p3 ltac:(intro; apply H3; lra)). pose proof (G a4 (d3 x) (d3 y) p4 ltac:(intro; apply H3; lra)). lra.
Qed.
Lemma C33_dec x y : 0 < x <= y -> dom y -> C33 y / 2 <= C33 x / 2.
Proof.
  intros H D. rewrite !C33_terms by lra. destruct coefs as (p1 & p2 & p3 & p4 & _).
  assert (G : forall a u v, 0 <= a -> (0 < a -> v <= u) -> a * v <= a * u).
  { intros a u v Ha K. destruct (Req_dec a 0) as [->|N]; [lra|]. apply Rmult_le_compat_l; [exact Ha|apply K; lra]. }
  pose proof (d3_dec x y H) as E3.
  assert (E1 : 0 < a1 -> d1 T J y <= d1 T J x). { intro Q. apply d1_dec; try first [exact PT|exact PJ|exact H]. unfold dom, a1 in *. destruct w; lra. }
  assert (E2 : 0 < a2 -> d2 T J y <= d2 T J x). { intro Q. apply d2_dec; try first [exact PT|exact PJ|exact H]. unfold dom, a2 in *. destruct w; lra. }
  pose proof (G _ _ _ p1 E1). pose proof (G _ _ _ p2 E2). pose proof (G a3 (d3 x) (d3 y) p3 ltac:(lra)). pose proof (G a4 (d3 x) (d3 y) p4 ltac:(lra)). lra.
Qed.
Lemma C33_pos c : 0 < c -> dom c -> 0 < C33 c / 2.
Proof.
  intros H D. rewrite C33_terms by lra. destruct coefs as (p1 & p2 & p3 & p4 & Q). pose proof (d3_dec c c ltac:(lra)) as E3.
  assert (E1 : 0 < a1 -> 0 < a1 * d1 T J c). { intro K. apply Rmult_lt_0_compat; [exact K|]. apply (d1_dec T J) with (x := c); try first [exact PT|exact PJ|lra]. unfold dom, a1 in *. destruct w; lra. }
  assert (E2 : 0 < a2 -> 0 < a2 * d2 T J c). { intro K. apply Rmult_lt_0_compat; [exact K|]. apply (d2_dec T J) with (x := c); try first [exact PT|exact PJ|lra]. unfold dom, a2 in *. destruct w; lra. }
  assert (Z1 : 0 <= a1 * d1 T J c) by (destruct (Req_dec a1 0) as [->|N]; [lra|apply Rlt_le, E1; lra]).
  assert (Z2 : 0 <= a2 * d2 T J c) by (destruct (Req_dec a2 0) as [->|N]; [lra|apply Rlt_le, E2; lra]).
  pose proof (Rmult_le_pos a3 (d3 c) p3 ltac:(lra)). pose proof (Rmult_le_pos a4 (d3 c) p4 ltac:(lra)).
  destruct Q as [Q|[Q|Q]]; [specialize (E1 Q); lra|specialize (E2 Q); lra|]. pose proof (Rmult_lt_0_compat a4 (d3 c) Q ltac:(lra)). lra.
Qed.
(* the start value *)
Let x0 := / J.
Lemma x0_pos : 0 < x0. Proof. apply Rinv_0_lt_compat. exact PJ. Qed.
Lemma Jx0 : J * x0 = 1. Proof. unfold x0. apply Rinv_r. apply Rgt_not_eq. exact PJ. Qed.
Lemma pow_one e : Rpower 1 e = 1. Proof. unfold Rpower. rewrite ln_1, Rmult_0_r. apply exp_0. Qed.
Lemma S33_start : S33 x0 = a1 * ((2 * x0 - T) / x0) + a2 * ((T * x0 - 2 * J) / x0) + a4 * (1 - / x0).
Proof.
  pose proof x0_pos. rewrite S33_terms by assumption. unfold h1, h2. rewrite Jx0, !pow_one. assert (E : J - / x0 = 0) by (unfold x0; rewrite Rinv_inv; ring).
  rewrite E. ring.
Qed.
Lemma C33_start : x0 * (C33 x0 / 2) = a1 * ((4 * T - 2 * x0) / (3 * x0)) + a2 * ((10 * J - 2 * T * x0) / (3 * x0)) + (a3 + a4) / x0.
Proof. pose proof x0_pos. rewrite C33_terms by assumption. unfold d1, d2, d3. rewrite Jx0, !pow_one. field. lra. Qed.
Let it := newton S33 (fun c => C33 c / 2) x0.
(* the first step stays above s*x0 when each term does *)
Lemma first_step s : 0 < C33 x0 / 2 ->
  s * (x0 * (C33 x0 / 2)) <= x0 * (C33 x0 / 2) - S33 x0 -> s * x0 <= it 1%nat.
Proof.
  intros P H. unfold it. cbn [newton]. cbv zeta. apply (Rmult_le_reg_r (C33 x0 / 2)); [exact P|].
  replace ((x0 - S33 x0 / (C33 x0 / 2)) * (C33 x0 / 2)) with (x0 * (C33 x0 / 2) - S33 x0) by (field; lra). lra.
Qed.
Lemma first_pos : 0 < C33 x0 / 2 -> 0 < x0 * (C33 x0 / 2) - S33 x0 -> 0 < it 1%nat.
Proof.
  intros P H. unfold it. cbn [newton]. cbv zeta. apply (Rmult_lt_reg_r (C33 x0 / 2)); [exact P|]. rewrite Rmult_0_l.
  replace ((x0 - S33 x0 / (C33 x0 / 2)) * (C33 x0 / 2)) with (x0 * (C33 x0 / 2) - S33 x0) by (field; lra). exact H.
Qed.
(* the two terms of the first step over a common denominator *)
Lemma start_difference s : 3 * x0 * ((1 - s) * (x0 * (C33 x0 / 2)) - S33 x0) =
  a1 * ((1 - s) * (4 * T - 2 * x0) - 3 * (2 * x0 - T)) + a2 * ((1 - s) * (10 * J - 2 * T * x0) - 3 * (T * x0 - 2 * J)) + 3 * (1 - s) * a3 + 3 * a4 * (1 - s - (x0 - 1)).
Proof. pose proof x0_pos. rewrite C33_start, S33_start. field. lra. Qed.
Lemma times_x0 u v : u <= v * J -> u * x0 <= v.
Proof. intro H. pose proof x0_pos. pose proof Jx0. apply (Rmult_le_compat_r x0) in H; [|lra]. rewrite Rmult_assoc, Jx0, Rmult_1_r in H. exact H. Qed.
Lemma times_x0s u v : u < v * J -> u * x0 < v.
Proof. intro H. pose proof x0_pos. pose proof Jx0. apply (Rmult_lt_compat_r x0) in H; [|lra]. rewrite Rmult_assoc, Jx0, Rmult_1_r in H. exact H. Qed.
Lemma wide_facts : wide w T J -> match w with NH => 8 * x0 < 7 * T | MR => 8 * x0 < 7 * T /\ 5 * T * x0 < 16 * J /\ T * T <= 10 * J | NHe => x0 < 2 end.
Proof.
  unfold wide. destruct w.
  - intro A. apply times_x0s. lra.
  - intros (A & B & C). split; [apply times_x0s; lra|]. split; [apply times_x0s; lra|exact C].
  - intro A. rewrite <- (Rmult_1_l x0). apply times_x0s. lra.
Qed.
Lemma wide_start : wide w T J -> dom x0 /\ 0 < it 1%nat.
Proof.
  intro W. apply wide_facts in W. pose proof x0_pos as X. assert (PT' : 0 < T) by exact PT. assert (PJ' : 0 < J) by exact PJ.
  assert (DX : dom x0) by (unfold dom; destruct w; [lra|destruct W as (A & B & _); split; lra|exact I]). split; [exact DX|].
  apply first_pos; [apply C33_pos; assumption|]. pose proof (start_difference 0) as E.
  apply (Rmult_lt_reg_l (3 * x0)); [lra|]. rewrite Rmult_0_r. replace (x0 * (C33 x0 / 2) - S33 x0) with ((1 - 0) * (x0 * (C33 x0 / 2)) - S33 x0) by ring. rewrite E.
  destruct coefs as (p1 & p2 & p3 & p4 & Q).
  assert (K : forall u v, 0 <= u -> 0 <= v -> 0 <= u * v) by (intros; apply Rmult_le_pos; assumption).
  unfold a1, a2, a3, a4 in *. destruct w.
  - assert (L : 0 < mu p / 3) by lra. pose proof (Rmult_lt_0_compat _ (7 * T - 8 * x0) L ltac:(lra)). lra.
  - destruct W as (A & B & C). pose proof (K _ (7 * T - 8 * x0) p1 ltac:(lra)). pose proof (K _ (16 * J - 5 * T * x0) p2 ltac:(lra)).
    destruct Q as [Q|[Q|Q]]; [pose proof (Rmult_lt_0_compat _ (7 * T - 8 * x0) Q ltac:(lra)); lra|pose proof (Rmult_lt_0_compat _ (16 * J - 5 * T * x0) Q ltac:(lra)); lra|lra].
  - assert (L : 0 < mu p) by lra. pose proof (Rmult_lt_0_compat _ (2 - x0) L ltac:(lra)). lra.
Qed.
Lemma below_root r c : crosses S33 r -> 0 < c -> 0 < S33 c -> r < c.
Proof.
  intros (Pr & Z & A & B) Pc P. destruct (Rlt_dec r c) as [|N]; [assumption|]. exfalso. destruct (Req_dec c r) as [->|NE]; [lra|]. specialize (A c ltac:(lra)). lra.
Qed.
Lemma term_sign e u c : 0 < c -> 0 <= u -> 0 <= Rpower (J * c) e * (u / c).
Proof. intros Hc Hu. apply Rmult_le_pos; [apply Rlt_le, exp_pos|]. unfold Rdiv. apply Rmult_le_pos; [exact Hu|apply Rlt_le, Rinv_0_lt_compat; exact Hc]. Qed.
Lemma term_signs e u c : 0 < c -> 0 < u -> 0 < Rpower (J * c) e * (u / c).
Proof. intros Hc Hu. apply Rmult_lt_0_compat; [apply exp_pos|]. apply Rdiv_lt_0_compat; assumption. Qed.
Lemma wide_root r : wide w T J -> 4 * J <= T * T -> crosses S33 r -> dom r.
Proof.
  intros W TJ CR. apply wide_facts in W. pose proof x0_pos as X. assert (PT' : 0 < T) by exact PT. assert (PJ' : 0 < J) by exact PJ.
  destruct coefs as (p1 & p2 & p3 & p4 & Q).
  assert (V : forall c, x0 <= c -> 0 <= J - / c).
  { intros c Hc. assert (/ c <= / x0) by (apply Rinv_le_contravar; lra). assert (/ x0 = J) by (unfold x0; apply Rinv_inv). lra. }
  assert (K : forall u v, 0 <= u -> 0 <= v -> 0 <= u * v) by (intros; apply Rmult_le_pos; assumption).
  assert (A4 : w <> NHe -> a4 = 0) by (unfold a4; destruct w; intuition congruence).
  assert (R1 : w <> NHe -> 8 * x0 < 7 * T -> r < 2 * T).
  { intros NW HX. apply below_root; [exact CR|lra|]. rewrite S33_terms by lra. rewrite (A4 NW). unfold h1, h2.
    pose proof (term_signs (- (1 / 3)) (2 * (2 * T) - T) (2 * T) ltac:(lra) ltac:(lra)) as P1.
    pose proof (term_signs (- (2 / 3)) (T * (2 * T) - 2 * J) (2 * T) ltac:(lra) ltac:(lra)) as P2.
    pose proof (K _ _ p3 (V (2 * T) ltac:(lra))). pose proof (K _ _ p1 (Rlt_le _ _ P1)). pose proof (K _ _ p2 (Rlt_le _ _ P2)).
    destruct Q as [Q|[Q|Q]]; [pose proof (Rmult_lt_0_compat _ _ Q P1); lra|pose proof (Rmult_lt_0_compat _ _ Q P2); lra|rewrite (A4 NW) in Q; lra]. }
  assert (R2 : w = MR -> 8 * x0 < 7 * T /\ 5 * T * x0 < 16 * J /\ T * T <= 10 * J -> T * r < 5 * J).
  { intros EW (A & B & C). assert (NW : w <> NHe) by (rewrite EW; discriminate).
    assert (E5 : T * (5 * J / T) = 5 * J) by (field; lra). assert (P5 : 0 < 5 * J / T) by (apply Rdiv_lt_0_compat; lra).
    assert (L : r < 5 * J / T); [|apply (Rmult_lt_compat_l T) in L; lra].
    apply below_root; [exact CR|exact P5|]. rewrite S33_terms by exact P5. rewrite (A4 NW). unfold h1, h2.
    assert (T2 : T <= 2 * (5 * J / T)). { apply (Rmult_le_reg_l T); [exact PT'|]. replace (T * (2 * (5 * J / T))) with (10 * J) by (field; lra). exact C. }
    assert (X5 : x0 <= 5 * J / T). { apply (Rmult_le_reg_l T); [exact PT'|]. rewrite E5. lra. }
    pose proof (term_sign (- (1 / 3)) (2 * (5 * J / T) - T) (5 * J / T) P5 ltac:(lra)) as P1.
    pose proof (term_signs (- (2 / 3)) (T * (5 * J / T) - 2 * J) (5 * J / T) P5 ltac:(rewrite E5; lra)) as P2.
    pose proof (K _ _ p3 (V _ X5)). pose proof (K _ _ p1 P1).
    assert (Q2 : 0 < a2). { unfold a2. pose proof GP as GQ. rewrite EW in *. destruct GQ as [PM [KK RT]]. assert (0 < c2 p) by (unfold c2; apply Rdiv_lt_0_compat; lra). lra. }
    pose proof (Rmult_lt_0_compat _ _ Q2 P2). lra. }
  unfold dom. clear - W R1 R2. destruct w; [apply R1; [discriminate|exact W]| |exact I].
  split; [apply R1; [discriminate|apply W]|apply R2; [reflexivity|exact W]].
Qed.
Lemma law_converges r : wide w T J -> 4 * J <= T * T -> crosses S33 r ->
  (forall n, 0 < it n /\ 0 < C33 (it n)) /\ (forall n, it (S n) <= it (S (S n)) <= r) /\ is_lim_seq it r.
Proof.
  intros W TJ CR. pose proof (wide_root r W TJ CR) as Dr. destruct (wide_start W) as [D0 P1]. destruct CR as (Pr & Z & _).
  pose proof (fun c (Hc : 0 < c) (_ : dom c) => S33_der c Hc) as DF.
  refine (conj _ (conj _ _)).
  - intro n. destruct (it_dom dom S33 (fun c => C33 c / 2) r dom_down Dr Pr Z DF C33_pos C33_dec x0 x0_pos D0 P1 n) as [A B]. split; [exact A|].
    pose proof (C33_pos _ A B) as P. unfold it. lra.
  - intro n. split; [exact (it_mono dom S33 (fun c => C33 c / 2) r dom_down Dr Pr Z DF C33_pos C33_dec x0 x0_pos D0 P1 n)|].
    exact (proj2 (it_le dom S33 (fun c => C33 c / 2) r dom_down Dr Pr Z DF C33_pos C33_dec x0 x0_pos D0 P1 (S n))).
  - exact (it_lim dom S33 (fun c => C33 c / 2) r dom_down Dr Pr Z DF C33_pos C33_dec x0 x0_pos D0 P1).
Qed.
(* moderate states *)
Lemma moderate_wide : moderate T J -> wide w T J.
Proof.
  intro M. assert (PT' : 0 < T) by exact PT. assert (PJ' : 0 < J) by exact PJ. pose proof Jx0 as JX. pose proof x0_pos.
  assert (A : 16 <= 9 * (T * J)). { pose proof (M (/ J) (T / 2) ltac:(tauto) ltac:(tauto)) as H1. fold x0 in H1. apply (Rmult_le_compat_l J) in H1; [|lra]. lra. }
  assert (B : 8 * T <= 18 * (J * J)).
  { pose proof (M (/ J) (2 * J / T) ltac:(tauto) ltac:(tauto)) as H1. fold x0 in H1. apply (Rmult_le_compat_l (J * T)) in H1; [|apply Rmult_le_pos; lra].
    replace (J * T * (8 * x0)) with (8 * T * (J * x0)) in H1 by ring. rewrite JX in H1. replace (J * T * (9 * (2 * J / T))) with (18 * (J * J)) in H1 by (field; lra). lra. }
  assert (C : 4 * (T * T) <= 18 * J).
  { pose proof (M (T / 2) (2 * J / T) ltac:(tauto) ltac:(tauto)) as H1. apply (Rmult_le_compat_l T) in H1; [|lra]. replace (T * (9 * (2 * J / T))) with (18 * J) in H1 by (field; lra). lra. }
  assert (E : 8 <= 9 * J). { pose proof (M (/ J) 1 ltac:(tauto) ltac:(tauto)) as H1. fold x0 in H1. apply (Rmult_le_compat_l J) in H1; [|lra]. lra. }
  assert (0 < J * J) by (apply Rmult_lt_0_compat; lra). unfold wide. destruct w; [lra|repeat split; lra|lra].
Qed.
Lemma moderate_bounds r : moderate T J -> lo m <= r <= hi m -> 8 * r <= 9 * x0 /\ 16 * r <= 9 * T /\ 4 * (T * r) <= 9 * J /\ 8 * r <= 9 /\ 16 * x0 <= 9 * T /\ 4 * (T * x0) <= 9 * J /\ 8 * x0 <= 9.
Proof.
  intros M [_ H]. assert (PT' : 0 < T) by exact PT. assert (HH : forall y, (y = 1 \/ y = T / 2 \/ y = / J \/ y = 2 * J / T) -> 8 * hi m <= 9 * y).
  { intros y Hy. apply M; [|exact Hy]. unfold hi. fold T J. unfold Rmax. repeat destruct (Rle_dec _ _); tauto. }
  assert (G : forall z, 8 * z <= 9 * (2 * J / T) -> 4 * (T * z) <= 9 * J).
  { intros z Hz. apply (Rmult_le_compat_l T) in Hz; [|lra]. replace (T * (9 * (2 * J / T))) with (18 * J) in Hz by (field; lra). lra. }
  pose proof (HH 1 ltac:(tauto)). pose proof (HH (T / 2) ltac:(tauto)). pose proof (HH (/ J) ltac:(tauto)) as H3. fold x0 in H3. pose proof (HH (2 * J / T) ltac:(tauto)).
  pose proof (M (/ J) 1 ltac:(tauto) ltac:(tauto)) as M1. pose proof (M (/ J) (T / 2) ltac:(tauto) ltac:(tauto)) as M2. pose proof (M (/ J) (2 * J / T) ltac:(tauto) ltac:(tauto)) as M3. fold x0 in M1, M2, M3.
  repeat split; try lra; apply G; lra.
Qed.
Lemma law_returns r eps : moderate T J -> 4 * J <= T * T -> crosses S33 r -> lo m <= r <= hi m -> 0 <= eps <= tol / 2 ->
  exists c, c33_law eps w p m = Ok c /\ r - 5 * tol < c <= r.
Proof.
  intros M TJ CR RB HE. pose proof (moderate_wide M) as W. pose proof (wide_root r W TJ CR) as Dr. destruct (wide_start W) as [D0 P1].
  destruct (moderate_bounds r M RB) as (b1 & b2 & b3 & b4 & b5 & b6 & b7). destruct CR as (Pr & Z & _).
  pose proof (fun c (Hc : 0 < c) (_ : dom c) => S33_der c Hc) as DF. pose proof x0_pos as X. assert (PT' : 0 < T) by exact PT. assert (PJ' : 0 < J) by exact PJ.
  destruct coefs as (p1 & p2 & p3 & p4 & Q).
  assert (I1 : 19 / 22 * x0 <= it 1%nat).
  { apply first_step; [apply C33_pos; assumption|]. pose proof (start_difference (19 / 22)) as E.
    assert (N : 0 <= 3 * x0 * ((1 - 19 / 22) * (x0 * (C33 x0 / 2)) - S33 x0)).
    { rewrite E. pose proof (Rmult_le_pos a1 ((1 - 19 / 22) * (4 * T - 2 * x0) - 3 * (2 * x0 - T)) p1 ltac:(lra)).
      pose proof (Rmult_le_pos a2 ((1 - 19 / 22) * (10 * J - 2 * T * x0) - 3 * (T * x0 - 2 * J)) p2 ltac:(lra)).
      pose proof (Rmult_le_pos a4 (1 - 19 / 22 - (x0 - 1)) p4 ltac:(lra)). lra. }
    assert (0 <= (1 - 19 / 22) * (x0 * (C33 x0 / 2)) - S33 x0); [|lra]. apply (Rmult_le_reg_l (3 * x0)); [lra|]. lra. }
  assert (I2 : 0 < it 1%nat <= r) by exact (it_le dom S33 (fun c => C33 c / 2) r dom_down Dr Pr Z DF C33_pos C33_dec x0 x0_pos D0 P1 0).
  set (x := it 1%nat) in *. assert (SX : 76 / 99 * r <= x) by lra.
  set (rho := (76 / 99) ^ 3 * (11 / 20)). assert (R0 : 24 / 100 < rho < 1 / 4) by (unfold rho; lra).
  assert (HR : rho * (C33 x / 2) <= C33 r / 2).
  { apply terms_le; try lra.
    - intros _. apply d1_ratio; try assumption; try lra.
    - intros _. apply d2_ratio; try assumption; try lra.
    - intros _. pose proof (d3_ratio (76 / 99) x r ltac:(lra) I2 SX) as K. pose proof (d3_dec x r I2) as K2.
      assert (0 < (76 / 99) ^ 3 * d3 x) by (apply Rmult_lt_0_compat; lra). unfold rho. lra. }
  assert (HT : (1 - rho) ^ 99 * r < tol - eps).
  { assert (A : (1 - rho) ^ 99 <= (19 / 25) ^ 99) by (apply pow_incr; lra).
    assert (B : (19 / 25) ^ 99 <= (/ 8) ^ 12).
    { replace 99%nat with (8 * 12 + 3)%nat by reflexivity. rewrite pow_add, pow_mult.
      assert (B1 : ((19 / 25) ^ 8) ^ 12 <= (/ 8) ^ 12) by (apply pow_incr; split; [apply pow_le; lra|lra]).
      assert (B2 : 0 <= ((19 / 25) ^ 8) ^ 12) by (apply pow_le, pow_le; lra).
      assert (((19 / 25) ^ 8) ^ 12 * (19 / 25) ^ 3 <= ((19 / 25) ^ 8) ^ 12 * 1) by (apply Rmult_le_compat_l; lra). lra. }
    assert (C : (1 - rho) ^ 99 * r <= (/ 8) ^ 12 * (9 / 8)) by (apply Rmult_le_compat; [apply pow_le; lra|lra|lra|lra]).
    assert (E : (/ 8) ^ 12 * (9 / 8) < tol / 2) by (unfold tol; lra). lra. }
  destruct (concave_call dom S33 C33 r J eps rho dom_down Dr Pr Z DF C33_pos C33_dec X D0 (proj1 I2) ltac:(lra) HR HT ltac:(lra)) as (c & Ec & B).
  exists c. split; [exact Ec|]. split; [|apply B]. assert (tol / rho < 5 * tol); [|lra]. pose proof tol_pos as TP.
  apply (Rmult_lt_reg_l rho); [lra|]. replace (rho * (tol / rho)) with tol by (field; lra). replace (rho * (5 * tol)) with ((5 * rho) * tol) by ring.
  assert (1 * tol < 5 * rho * tol) by (apply Rmult_lt_compat_r; lra). lra.
Qed.
End Law.

Lemma trace_det Go G : adm Go G -> 0 < Go 0%nat 0%nat -> 4 * J0 (metric_of Go G) <= traceCt (metric_of Go G) * traceCt (metric_of Go G).
Proof.
  intros (SO & SG & DO & DG) PO. unfold traceCt. cbn [metric_of Gdef Gori J0]. rewrite !inv3_shell by (assumption || lia). rewrite !det3_shell1 by assumption.
  pose proof (proj1 (proj1 SO)) as EO. pose proof (proj1 (proj1 SG)) as EG. unfold inv2.
  set (D := det2 Go) in *. set (A := Go 0%nat 0%nat) in *. set (a := G 0%nat 0%nat) in *.
  assert (E1 : D = A * Go 1%nat 1%nat - Go 1%nat 0%nat * Go 1%nat 0%nat) by (unfold D, det2; rewrite EO; reflexivity).
  assert (E2 : det2 G = a * G 1%nat 1%nat - G 1%nat 0%nat * G 1%nat 0%nat) by (unfold det2; rewrite EG; reflexivity).
  rewrite E2, EO, EG. set (B := Go 1%nat 0%nat) in *. set (b := G 1%nat 0%nat) in *. set (F := Go 1%nat 1%nat) in *. set (d := G 1%nat 1%nat) in *.
  assert (EF : F = (D + B * B) / A) by (rewrite E1; field; lra). rewrite EF.
  apply Rminus_le. replace (4 * ((a * d - b * b) / D) - (a * ((D + B * B) / A / D) + b * (- B / D) + b * (- B / D) + d * (A / D)) * (a * ((D + B * B) / A / D) + b * (- B / D) + b * (- B / D) + d * (A / D)))
    with (- (Rsqr (a / A - (d * A * A - 2 * b * A * B + a * B * B) / (A * D)) + 4 * Rsqr ((b * A - a * B) / A) / D)).
  - pose proof (Rle_0_sqr (a / A - (d * A * A - 2 * b * A * B + a * B * B) / (A * D))). assert (0 <= 4 * Rsqr ((b * A - a * B) / A) / D).
    { unfold Rdiv at 1. apply Rmult_le_pos; [pose proof (Rle_0_sqr ((b * A - a * B) / A)); lra|apply Rlt_le, Rinv_0_lt_compat; exact DO]. } lra.
  - unfold Rsqr. field. lra.
Qed.
Lemma nh_first p m : Gori m 2%nat 2%nat = 1 -> good_par NH p -> 0 < J0 m -> 0 < traceCt m -> 1 < 2 * (traceCt m * J0 m) ->
  let it := newton (fun c => S_comp NH p m c 2%nat 2%nat) (fun c => C3D NH p m c 2%nat 2%nat 2%nat 2%nat / 2) (/ J0 m) in
  it 1%nat <= 0 <-> 2 * mu p * (7 * (traceCt m * J0 m) - 8) + 9 * bulk p * J0 m <= 0.
Proof.
  intros G33 GP PJ PT H. cbv zeta. cbn [newton]. pose proof (x0_pos m PJ) as X. pose proof (Jx0 m PJ) as JX.
  set (x := / J0 m) in *. set (C := C3D NH p m x 2%nat 2%nat 2%nat 2%nat / 2). set (S := S_comp NH p m x 2%nat 2%nat).
  assert (DX : dom NH m x). { unfold dom. rewrite <- (Rmult_1_l x). apply (times_x0s m PJ). lra. }
  assert (PC : 0 < C) by (apply (C33_pos NH p m G33 GP PJ PT); assumption).
  assert (E : 3 * x * ((1 - 0) * (x * C) - S) = mu p / 3 * ((1 - 0) * (4 * traceCt m - 2 * x) - 3 * (2 * x - traceCt m))
    + 0 * ((1 - 0) * (10 * J0 m - 2 * traceCt m * x) - 3 * (traceCt m * x - 2 * J0 m)) + 3 * (1 - 0) * (bulk p / 2) + 3 * 0 * (1 - 0 - (x - 1))) by exact (start_difference NH p m G33 GP PJ 0).
  replace ((1 - 0) * (x * C) - S) with ((x - S / C) * C) in E by (field; lra).
  assert (E2 : 18 * J0 m * (J0 m * x) * ((x - S / C) * C) = J0 m * (2 * mu p * (7 * (traceCt m * J0 m) - 8 * (J0 m * x)) + 9 * bulk p * J0 m)).
  { replace (18 * J0 m * (J0 m * x) * ((x - S / C) * C)) with (6 * J0 m * J0 m * (3 * x * ((x - S / C) * C))) by ring. rewrite E. field. }
  rewrite JX, !Rmult_1_r in E2.
  assert (E3 : 18 * ((x - S / C) * C) = 2 * mu p * (7 * (traceCt m * J0 m) - 8) + 9 * bulk p * J0 m).
  { apply (Rmult_eq_reg_l (J0 m)); [|lra]. rewrite <- E2. ring. }
  rewrite <- E3. split; intro L.
  - assert ((x - S / C) * C <= 0 * C) by (apply Rmult_le_compat_r; lra). lra.
  - apply (Rmult_le_reg_r C); lra.
Qed.
