From Coq Require Import Reals Lra Lia Ranalysis5.
From Coquelicot Require Import Coquelicot.
From Verif Require Import Tensor MetricModel LinearModel LinearSpec NonlinearModel NonlinearSpec NonlinearProofs Newton33Model Newton33Spec.
Open Scope R_scope.

Lemma tol_pos : 0 < tol. Proof. unfold tol. lra. Qed.

(* ---------- acceptance ---------- *)
Section Loop.
Variables (eps : R) (S33 C3333 : R -> R).
Let dS c := C3333 c / 2.
Let corr := correction S33 C3333.
Lemma newton_step x n : C3333 (newton S33 dS x n) <> 0 -> newton S33 dS x (S n) = newton S33 dS x n + corr (newton S33 dS x n).
Proof. intro N. cbn [newton]. cbv zeta. unfold corr, correction, dS. field. exact N. Qed.
Definition accepted (x : R) (k : nat) : Prop := Rabs (corr (newton S33 dS x k)) < tol - eps.
Lemma lessthan_iff a : lessthan eps (Rabs a) tol = true <-> Rabs a < tol - eps.
Proof. unfold lessthan. destruct (Rlt_dec eps (tol - Rabs a)); split; intros; try discriminate; try lra; reflexivity. Qed.
Lemma loop_ok x n k c : (forall j, (k <= j <= k + n)%nat -> C3333 (newton S33 dS x j) <> 0) ->
  (loop33 eps S33 C3333 n (newton S33 dS x k) (corr (newton S33 dS x k)) = Ok c <->
   exists j, (k < j <= k + n)%nat /\ c = newton S33 dS x j /\ accepted x j /\ forall i, (k < i < j)%nat -> ~ accepted x i).
Proof.
  revert k. induction n as [|n IH]; intros k N.
  - cbn. split; [discriminate|]. intros (j & Hj & _). lia.
  - cbn [loop33]. cbv zeta. rewrite <- newton_step by (apply N; lia). fold corr.
    destruct (lessthan eps (Rabs (corr (newton S33 dS x (S k)))) tol) eqn:L.
    + apply lessthan_iff in L. split.
      * intro E. injection E as E. exists (S k). split; [lia|]. split; [now symmetry|]. split; [exact L|]. intros i Hi; lia.
      * intros (j & Hj & -> & A & B). destruct (Nat.eq_dec j (S k)) as [->|]; [reflexivity|]. exfalso. apply (B (S k)); [lia|exact L].
    + assert (L' : ~ accepted x (S k)) by (unfold accepted; rewrite <- lessthan_iff; congruence).
      fold corr in IH. rewrite (IH (S k)) by (intros; apply N; lia). split.
      * intros (j & Hj & E & A & B). exists j. split; [lia|]. split; [exact E|]. split; [exact A|]. intros i Hi.
        destruct (Nat.eq_dec i (S k)) as [->|]; [exact L'|apply B; lia].
      * intros (j & Hj & E & A & B). exists j. destruct (Nat.eq_dec j (S k)) as [->|]; [contradiction|].
        split; [lia|]. split; [exact E|]. split; [exact A|]. intros i Hi. apply B. lia.
Qed.
Lemma loop_never_ub x n k : loop33 eps S33 C3333 n x k <> UB.
Proof. revert x k. induction n as [|n IH]; intros x k; cbn; [discriminate|]. destruct lessthan; [discriminate|apply IH]. Qed.
End Loop.

Lemma c33_unfold eps S33 C3333 J : c33_of eps S33 C3333 J = loop33 eps S33 C3333 itmax (/ J) (correction S33 C3333 (/ J)).
Proof. reflexivity. Qed.
Lemma c33_never_ub eps S33 C3333 J : c33_of eps S33 C3333 J <> UB.
Proof. rewrite c33_unfold. generalize itmax. intro n. apply loop_never_ub. Qed.
Lemma c33_ok eps S33 C3333 J c : let it := newton S33 (fun x => C3333 x / 2) (/ J) in
  (forall j, (j <= 100)%nat -> C3333 (it j) <> 0) ->
  (c33_of eps S33 C3333 J = Ok c <->
   exists j, (1 <= j <= 100)%nat /\ c = it j /\ Rabs (2 * S33 (it j) / C3333 (it j)) < tol - eps /\
     forall i, (1 <= i < j)%nat -> tol - eps <= Rabs (2 * S33 (it i) / C3333 (it i))).
Proof.
  intros it N. rewrite c33_unfold. assert (EI : itmax = 100%nat) by reflexivity. revert EI. generalize itmax as n. intros n ->.
  assert (AB : forall y, Rabs (correction S33 C3333 y) = Rabs (2 * S33 y / C3333 y)).
  { intro y. unfold correction. rewrite <- (Rabs_Ropp (2 * S33 y / C3333 y)). f_equal. unfold Rdiv. ring. }
  pose proof (loop_ok eps S33 C3333 (/ J) 100 0 c) as L. cbn [newton] in L. rewrite L; clear L.
  - split; intros (j & Hj & E & A & B); exists j; (split; [lia|]); (split; [exact E|]).
    + unfold accepted in *. rewrite AB in A. split; [exact A|]. intros i Hi. specialize (B i ltac:(lia)). rewrite AB in B. fold it in B. lra.
    + unfold accepted. rewrite AB. split; [exact A|]. intros i Hi. rewrite AB. fold it. specialize (B i ltac:(lia)). lra.
  - intros j Hj. apply N. lia.
Qed.
Lemma c33_throw eps S33 C3333 J : let it := newton S33 (fun x => C3333 x / 2) (/ J) in
  (forall j, (j <= 100)%nat -> C3333 (it j) <> 0) ->
  (c33_of eps S33 C3333 J = Throw <-> forall j, (1 <= j <= 100)%nat -> tol - eps <= Rabs (2 * S33 (it j) / C3333 (it j))).
Proof.
  intros it N. split.
  - intros E j Hj. destruct (Rle_dec (tol - eps) (Rabs (2 * S33 (it j) / C3333 (it j)))) as [|NL]; [assumption|]. exfalso.
    assert (Q : exists k, (1 <= k <= 100)%nat /\ Rabs (2 * S33 (it k) / C3333 (it k)) < tol - eps /\ forall i, (1 <= i < k)%nat -> tol - eps <= Rabs (2 * S33 (it i) / C3333 (it i))).
    { clear E. induction j as [j IH] using lt_wf_ind.
      assert (D : (forall i, (1 <= i < j)%nat -> tol - eps <= Rabs (2 * S33 (it i) / C3333 (it i))) \/ exists i, (1 <= i < j)%nat /\ ~ tol - eps <= Rabs (2 * S33 (it i) / C3333 (it i))).
      { clear IH NL. assert (G : forall q, (forall i, (1 <= i < q)%nat -> tol - eps <= Rabs (2 * S33 (it i) / C3333 (it i))) \/ exists i, (1 <= i < q)%nat /\ ~ tol - eps <= Rabs (2 * S33 (it i) / C3333 (it i))).
        { induction q as [|q [A|(i & Hi & B)]]; [left; intros; lia| |right; exists i; split; [lia|exact B]].
          destruct (Rle_dec (tol - eps) (Rabs (2 * S33 (it q) / C3333 (it q)))) as [Q|Q].
          - left. intros i Hi. destruct (Nat.eq_dec i q) as [->|]; [exact Q|apply A; lia].
          - destruct q as [|q]; [left; intros; lia|]. right. exists (S q). split; [lia|exact Q]. }
        apply G. }
      destruct D as [A|(i & Hi & B)]; [exists j; split; [exact Hj|]; split; [lra|exact A]|]. apply (IH i); [lia|lia|exact B]. }
    destruct Q as (k & Hk & A & B). rewrite (proj2 (c33_ok eps S33 C3333 J (it k) N)) in E; [discriminate|].
    exists k. split; [exact Hk|]. split; [reflexivity|]. split; assumption.
  - intro A. destruct (c33_of eps S33 C3333 J) as [c| |] eqn:E; [|reflexivity|].
    + apply (proj1 (c33_ok eps S33 C3333 J c N)) in E. destruct E as (j & Hj & _ & L & _). specialize (A j Hj). fold it in L. lra.
    + exfalso. revert E. apply c33_never_ub.
Qed.

(* ---------- extended neo-Hookean: closed form of all iterates ---------- *)
Section NHe.
Variables (p : par) (m : metric).
Hypotheses (G33 : Gori m 2%nat 2%nat = 1) (PM : 0 < mu p) (PL : 0 <= lam p) (PJ : 0 < J0 m).
Let S33 c := S_comp NHe p m c 2%nat 2%nat.
Let C33 c := C3D NHe p m c 2%nat 2%nat 2%nat 2%nat.
Let r := nhe_c33 p m.
Let it := newton S33 (fun c => C33 c / 2) (/ J0 m).
(* relative error of the starting value *)
Definition err0 : R := 2 * mu p * (J0 m - 1) / (J0 m * (2 * mu p + lam p)).
Lemma dpos : 0 < 2 * mu p + lam p * J0 m. Proof. pose proof (Rmult_le_pos _ _ PL (Rlt_le _ _ PJ)). lra. Qed.
Lemma rpos : 0 < r. Proof. unfold r, nhe_c33. apply Rdiv_lt_0_compat; [lra|exact dpos]. Qed.
Lemma nhe_corr c : c <> 0 -> correction S33 C33 c = c * (1 - c / r).
Proof.
  intro N. pose proof dpos. unfold correction, C33. rewrite nhe_C3333 by assumption. unfold S33, S_comp, J_sq, r, nhe_c33. cbn [cinvmat]. rewrite G33.
  field. repeat split; lra.
Qed.
Lemma err_start : / J0 m = r * (1 - err0).
Proof. pose proof dpos. unfold r, nhe_c33, err0. field. repeat split; lra. Qed.
Lemma iterates n : (forall k, (k < n)%nat -> err0 ^ (2 ^ k) <> 1) -> it n = r * (1 - err0 ^ (2 ^ n)).
Proof.
  induction n as [|n IH]; intro N.
  - unfold it. cbn [newton]. rewrite err_start. replace (2 ^ 0)%nat with 1%nat by reflexivity. ring.
  - assert (E := IH ltac:(intros; apply N; lia)).
    assert (NZ : it n <> 0). { rewrite E. apply Rmult_integral_contrapositive_currified; [pose proof rpos; lra|]. specialize (N n ltac:(lia)). lra. }
    unfold it in *. rewrite newton_step. 2:{ unfold C33. rewrite nhe_C3333 by assumption. apply Rgt_not_eq, Rdiv_lt_0_compat; [lra|]. apply Rsqr_pos_lt. exact NZ. }
    rewrite nhe_corr by exact NZ. rewrite E. pose proof rpos. replace (2 ^ S n)%nat with (2 ^ n + 2 ^ n)%nat by (cbn; lia). rewrite pow_add. field. lra.
Qed.
Lemma err_lt1 : err0 < 1.
Proof.
  unfold err0. apply (Rmult_lt_reg_r (J0 m * (2 * mu p + lam p))); [apply Rmult_lt_0_compat; lra|]. unfold Rdiv.
  rewrite Rmult_assoc, Rinv_l, Rmult_1_r. 2:{ apply Rgt_not_eq, Rmult_lt_0_compat; lra. } pose proof (Rmult_le_pos _ _ PL (Rlt_le _ _ PJ)). lra.
Qed.
Lemma err_gt : -1 < err0 <-> 2 * mu p < J0 m * (4 * mu p + lam p).
Proof.
  assert (Q : 0 < J0 m * (2 * mu p + lam p)) by (apply Rmult_lt_0_compat; lra).
  assert (E : err0 * (J0 m * (2 * mu p + lam p)) = 2 * mu p * (J0 m - 1)) by (unfold err0; field; split; lra).
  split; intro H.
  - apply (Rmult_lt_compat_r (J0 m * (2 * mu p + lam p))) in H; [|exact Q]. lra.
  - apply (Rmult_lt_reg_r (J0 m * (2 * mu p + lam p))); [exact Q|]. lra.
Qed.
Lemma pow_ne1 e n : -1 < e < 1 -> (0 < n)%nat -> e ^ n <> 1.
Proof.
  intros H Hn E. assert (A : Rabs (e ^ n) < 1). { rewrite <- RPow_abs. apply pow_lt_1_compat; [|exact Hn]. split; [apply Rabs_pos|]. apply Rabs_def1; lra. }
  rewrite E, Rabs_R1 in A. lra.
Qed.
Lemma pow2_pos k : (0 < 2 ^ k)%nat. Proof. induction k; cbn; lia. Qed.
Lemma converges : 2 * mu p < J0 m * (4 * mu p + lam p) -> (forall n, it n = r * (1 - err0 ^ (2 ^ n))) /\ is_lim_seq it r.
Proof.
  intro D. apply err_gt in D. pose proof err_lt1 as D1.
  assert (F : forall n, it n = r * (1 - err0 ^ (2 ^ n))). { intro n. apply iterates. intros k Hk. apply pow_ne1; [lra|apply pow2_pos]. }
  split; [exact F|].
  apply (is_lim_seq_ext (fun n => r * (1 - err0 ^ (2 ^ n)))); [intro n; symmetry; apply F|].
  assert (L0 : is_lim_seq (fun n => err0 ^ n) 0) by (apply is_lim_seq_geom; apply Rabs_def1; lra).
  assert (LS : is_lim_seq (fun n => err0 ^ (2 ^ n)) 0).
  { apply (is_lim_seq_subseq (fun n => err0 ^ n) 0 (fun n => (2 ^ n)%nat)); [|exact L0]. apply eventually_subseq. intro n. pose proof (pow2_pos n). cbn. lia. }
  replace (Finite r) with (Finite (r * (1 - 0))) by (f_equal; ring).
  apply (is_lim_seq_scal_l (fun n => 1 - err0 ^ (2 ^ n)) r (1 - 0)). apply is_lim_seq_minus'; [apply is_lim_seq_const|exact LS].
Qed.
Lemma big_pow e n : 1 < e -> 1 < e ^ (2 ^ n).
Proof. intro H. apply Rlt_pow_R1; [exact H|apply pow2_pos]. Qed.
Lemma pow_even e n : (e * e) ^ (2 ^ n) = e ^ (2 ^ (S n)).
Proof. replace (2 ^ S n)%nat with (2 ^ n + 2 ^ n)%nat by (cbn; lia). rewrite pow_add, Rpow_mult_distr. reflexivity. Qed.
(* below the threshold: all iterates after the first are negative and tend to minus infinity *)
Lemma diverges : J0 m * (4 * mu p + lam p) < 2 * mu p ->
  (forall n, it n = r * (1 - err0 ^ (2 ^ n))) /\ (forall n, (1 <= n)%nat -> it n < 0) /\ is_lim_seq it m_infty.
Proof.
  intro D. assert (E : err0 < -1).
  { assert (Q : 0 < J0 m * (2 * mu p + lam p)) by (apply Rmult_lt_0_compat; lra).
    assert (X : err0 * (J0 m * (2 * mu p + lam p)) = 2 * mu p * (J0 m - 1)) by (unfold err0; field; split; lra).
    apply (Rmult_lt_reg_r (J0 m * (2 * mu p + lam p))); [exact Q|]. lra. }
  assert (E2 : 1 < err0 * err0) by nra.
  assert (B : forall n, 1 < err0 ^ (2 ^ (S n))) by (intro n; rewrite <- pow_even; apply big_pow, E2).
  assert (F : forall n, it n = r * (1 - err0 ^ (2 ^ n))).
  { intro n. apply iterates. intros [|k] _; [replace (2 ^ 0)%nat with 1%nat by reflexivity; rewrite pow_1; lra|]. specialize (B k). lra. }
  pose proof rpos as RP.
  split; [exact F|]. split.
  - intros [|n] Hn; [lia|]. rewrite F. specialize (B n). pose proof (Rmult_lt_compat_l r _ _ RP B). lra.
  - apply is_lim_seq_incr_1. apply (is_lim_seq_ext (fun n => r * (1 - (err0 * err0) ^ (2 ^ n)))); [intro n; rewrite F, pow_even; reflexivity|].
    assert (L0 : is_lim_seq (fun n => (err0 * err0) ^ n) p_infty) by (apply is_lim_seq_geom_p, E2).
    assert (LS : is_lim_seq (fun n => (err0 * err0) ^ (2 ^ n)) p_infty).
    { apply (is_lim_seq_subseq (fun n => (err0 * err0) ^ n) p_infty (fun n => (2 ^ n)%nat)); [|exact L0]. apply eventually_subseq. intro n. pose proof (pow2_pos n). cbn. lia. }
    assert (L1 : is_lim_seq (fun n => 1 - (err0 * err0) ^ (2 ^ n)) m_infty).
    { eapply is_lim_seq_minus; [apply is_lim_seq_const|exact LS|reflexivity]. }
    eapply is_lim_seq_scal_l in L1. evar_last; [exact L1|]. cbn. destruct (Rle_dec 0 r) as [H|H]; [|lra]. destruct (Rle_lt_or_eq_dec 0 r H); [reflexivity|lra].
Qed.
End NHe.

Section NHeOutcome.
Variables (p : par) (m : metric) (eps : R).
Hypotheses (G33 : Gori m 2%nat 2%nat = 1) (PM : 0 < mu p) (PL : 0 <= lam p) (PJ : 0 < J0 m) (PE : 0 <= eps).
Let S33 c := S_comp NHe p m c 2%nat 2%nat.
Let C33 c := C3D NHe p m c 2%nat 2%nat 2%nat 2%nat.
Let r := nhe_c33 p m.
Let it := newton S33 (fun c => C33 c / 2) (/ J0 m).
Let E n := err0 p m ^ (2 ^ n).
Let rp : 0 < r := rpos p m PM PL PJ.
Lemma C33_nz n : it n <> 0 -> C33 (it n) <> 0.
Proof. intro N. unfold C33. rewrite nhe_C3333 by assumption. apply Rgt_not_eq, Rdiv_lt_0_compat; [lra|]. apply Rsqr_pos_lt. exact N. Qed.
Lemma residual n : it n = r * (1 - E n) -> E n <> 1 -> Rabs (2 * S33 (it n) / C33 (it n)) = r * Rabs (E n * (1 - E n)).
Proof.
  intros F N. assert (NZ : it n <> 0). { rewrite F. apply Rmult_integral_contrapositive_currified; lra. }
  rewrite <- (Rabs_Ropp (2 * S33 (it n) / C33 (it n))).
  replace (- (2 * S33 (it n) / C33 (it n))) with (correction S33 C33 (it n)) by (unfold correction, Rdiv; ring).
  unfold S33, C33. rewrite nhe_corr by assumption. fold r. rewrite F.
  replace (r * (1 - E n) * (1 - r * (1 - E n) / r)) with (r * (E n * (1 - E n))) by (field; lra).
  rewrite Rabs_mult, (Rabs_right r) by lra. reflexivity.
Qed.
Lemma in_domain_formula n : 2 * mu p < J0 m * (4 * mu p + lam p) -> it n = r * (1 - E n) /\ E n <> 1.
Proof.
  intro D. split; [apply (proj1 (converges p m G33 PM PL PJ D))|]. apply pow_ne1; [|apply pow2_pos]. split; [apply err_gt; assumption|apply err_lt1; assumption].
Qed.
Lemma law_unfold : c33_law eps NHe p m = c33_of eps S33 C33 (J0 m). Proof. reflexivity. Qed.
(* in the convergence domain: returned values satisfy |c| |c - r| < tol r *)
Lemma nhe_returns c : 2 * mu p < J0 m * (4 * mu p + lam p) -> c33_law eps NHe p m = Ok c ->
  (exists j, (1 <= j <= 100)%nat /\ c = r * (1 - E j)) /\ Rabs (c * (c - r)) < r * tol.
Proof.
  intros D O. rewrite law_unfold in O. apply c33_ok in O.
  2:{ intros j _. apply C33_nz. destruct (in_domain_formula j D) as [F N]. rewrite F. apply Rmult_integral_contrapositive_currified; lra. }
  destruct O as (j & Hj & Ec & A & _). destruct (in_domain_formula j D) as [F N]. pose proof (residual j F N) as RS. fold it in A, Ec.
  rewrite RS in A. split; [exists j; split; [exact Hj|rewrite Ec; exact F]|]. rewrite Ec, F.
  replace (r * (1 - E j) * (r * (1 - E j) - r)) with (- (r * (r * (E j * (1 - E j))))) by ring. rewrite Rabs_Ropp, Rabs_mult, Rabs_mult, (Rabs_right r) by lra.
  apply Rmult_lt_compat_l; lra.
Qed.
Lemma nhe_accepts n : 2 * mu p < J0 m * (4 * mu p + lam p) -> (1 <= n <= 100)%nat -> r * Rabs (E n * (1 - E n)) < tol - eps ->
  exists c, c33_law eps NHe p m = Ok c.
Proof.
  intros D Hn L.
  assert (NZ : forall j, (j <= 100)%nat -> C33 (it j) <> 0). { intros j _. apply C33_nz. destruct (in_domain_formula j D) as [F N]. rewrite F. apply Rmult_integral_contrapositive_currified; lra. }
  destruct (c33_law eps NHe p m) as [c| |] eqn:O; [exists c; reflexivity| |].
  - exfalso. rewrite law_unfold in O. pose proof (proj1 (c33_throw eps S33 C33 (J0 m) NZ) O n Hn) as Q. fold it in Q.
    destruct (in_domain_formula n D) as [F N]. rewrite (residual n F N) in Q. lra.
  - exfalso. rewrite law_unfold in O. revert O. apply c33_never_ub.
Qed.
Lemma pow_half e n : Rabs e <= / 2 -> Rabs (e ^ n) <= (/ 2) ^ n.
Proof. intro H. rewrite <- RPow_abs. apply pow_incr. split; [apply Rabs_pos|exact H]. Qed.
Lemma nhe_accurate : eps <= tol / 2 -> 4 * mu p * Rabs (J0 m - 1) <= J0 m * (2 * mu p + lam p) -> r <= 1000000 ->
  exists c, c33_law eps NHe p m = Ok c /\ Rabs (c - r) < 2 * tol.
Proof.
  intros Heps HJ Hr.
  assert (Q : 0 < J0 m * (2 * mu p + lam p)) by (apply Rmult_lt_0_compat; lra).
  assert (AE : Rabs (err0 p m) <= / 2).
  { unfold err0. unfold Rdiv. rewrite Rabs_mult, Rabs_inv, (Rabs_right (J0 m * _)) by lra. rewrite Rabs_mult, (Rabs_right (2 * mu p)) by lra.
    apply (Rmult_le_reg_r (J0 m * (2 * mu p + lam p))); [exact Q|]. rewrite Rmult_assoc, Rinv_l, Rmult_1_r by lra. lra. }
  assert (D : 2 * mu p < J0 m * (4 * mu p + lam p)).
  { apply err_gt; try assumption. pose proof (Rabs_le_between (err0 p m) (/ 2)) as B. apply B in AE. lra. }
  destruct (nhe_accepts 6 D ltac:(lia)) as [c O].
  { assert (B : Rabs (E 6) <= (/ 2) ^ 64) by (apply (pow_half _ 64 AE)).
    assert (H64 : (/ 2) ^ 64 < / 10000000000000000000) by lra.
    assert (B1 : Rabs (1 - E 6) <= 2). { eapply Rle_trans; [apply Rabs_triang|]. rewrite Rabs_R1, Rabs_Ropp. lra. }
    rewrite Rabs_mult. pose proof (Rabs_pos (E 6)) as P0. pose proof (Rabs_pos (1 - E 6)) as P1.
    assert (Rabs (E 6) * Rabs (1 - E 6) <= / 10000000000000000000 * 2) by (apply Rmult_le_compat; lra).
    assert (r * (Rabs (E 6) * Rabs (1 - E 6)) <= 1000000 * (/ 10000000000000000000 * 2)) by (apply Rmult_le_compat; try lra; apply Rmult_le_pos; assumption).
    unfold tol in *. lra. }
  exists c. split; [exact O|]. destruct (nhe_returns c D O) as [(j & Hj & F) L].
  assert (B : Rabs (E j) <= / 4).
  { destruct j as [|j]; [lia|]. unfold E. rewrite <- pow_even. pose proof (pow2_pos j) as P. destruct (2 ^ j)%nat as [|q]; [lia|].
    replace (/ 4) with ((/ 2) ^ 2 * 1) by field.
    assert (G : Rabs ((err0 p m * err0 p m) ^ S q) <= (/ 2) ^ 2 * (/ 2) ^ (2 * q)).
    { replace ((err0 p m * err0 p m) ^ S q) with (err0 p m ^ (2 + 2 * q)). 2:{ replace (2 + 2 * q)%nat with (S q + S q)%nat by lia. rewrite pow_add, Rpow_mult_distr. reflexivity. }
      rewrite <- pow_add. apply pow_half, AE. }
    assert (G2 : (/ 2) ^ (2 * q) <= 1). { rewrite <- (pow1 (2 * q)). apply pow_incr. lra. }
    assert (0 <= (/ 2) ^ 2) by lra. pose proof (Rmult_le_compat_l _ _ _ H G2). lra. }
  assert (PC : r * (3 / 4) <= c). { rewrite F. apply Rmult_le_compat_l; [lra|]. pose proof (Rle_abs (E j)). lra. }
  rewrite Rabs_mult in L. rewrite (Rabs_right c) in L by lra.
  pose proof (Rabs_pos (c - r)) as P. pose proof (Rmult_le_compat_r _ _ _ P PC) as K. pose proof tol_pos.
  apply (Rmult_lt_reg_l (r * (3 / 4))); [lra|]. apply Rle_lt_trans with (c * Rabs (c - r)); [exact K|]. apply Rlt_le_trans with (r * tol); [exact L|].
  replace (r * (3 / 4) * (2 * tol)) with (r * tol * (3 / 2)) by field. pose proof (Rmult_lt_0_compat _ _ rp H). lra.
Qed.
(* below the threshold the iteration fails although a positive plane-stress state exists *)
Lemma nhe_rejects : J0 m * (4 * mu p + lam p) < 2 * mu p -> tol <= r * (E 1 * (E 1 - 1)) -> c33_law eps NHe p m = Throw.
Proof.
  intros D L. destruct (diverges p m G33 PM PL PJ D) as (F & NEG & _). fold r in F. fold it in F, NEG.
  assert (NE : forall n, (1 <= n)%nat -> 1 < E n).
  { intros n Hn. specialize (NEG n Hn). change (newton _ _ _ n) with (it n) in NEG. rewrite F in NEG. fold (E n) in NEG.
    destruct (Rle_dec (E n) 1) as [Q|Q]; [|lra]. exfalso. pose proof (Rmult_le_pos r (1 - E n) ltac:(lra) ltac:(lra)). lra. }
  assert (N0 : E 0 <> 1). { unfold E. replace (2 ^ 0)%nat with 1%nat by reflexivity. rewrite pow_1. apply Rlt_not_eq, err_lt1; assumption. }
  assert (NN : forall n, E n <> 1). { intros [|n]; [exact N0|]. apply Rgt_not_eq, NE. lia. }
  assert (MONO : forall n, (1 <= n)%nat -> E 1 <= E n).
  { intros n Hn. induction n as [|n IH]; [lia|]. destruct n as [|n]; [lra|]. specialize (IH ltac:(lia)). pose proof (NE (S n) ltac:(lia)) as G.
    assert (ES : E (S (S n)) = E (S n) * E (S n)). { unfold E. rewrite <- pow_add. f_equal. cbn. lia. }
    rewrite ES. pose proof (Rmult_lt_0_compat (E (S n)) (E (S n) - 1) ltac:(lra) ltac:(lra)). lra. }
  rewrite law_unfold. apply c33_throw.
  { intros j _. apply C33_nz. change (newton _ _ _ j) with (it j). rewrite F. fold (E j). apply Rmult_integral_contrapositive_currified; [lra|]. specialize (NN j). lra. }
  intros j Hj. fold it. rewrite (residual j (F j) (NN j)). pose proof (NE 1%nat ltac:(lia)) as G1. pose proof (NE j ltac:(lia)) as Gj. pose proof (MONO j ltac:(lia)) as GM.
  replace (E j * (1 - E j)) with (- (E j * (E j - 1))) by ring. rewrite Rabs_Ropp, Rabs_right.
  2:{ apply Rle_ge, Rmult_le_pos; lra. }
  apply Rle_trans with (r * (E 1 * (E 1 - 1))); [lra|]. apply Rmult_le_compat_l; [lra|]. apply Rmult_le_compat; lra.
Qed.
End NHeOutcome.

(* spurious acceptance near c33 = 0 *)
Definition exI2 : mat := fun i j => delta i j.
Definition spG (x : R) : mat := fun i j => match i, j with 0%nat, 0%nat => x | 1%nat, 1%nat | 2%nat, 2%nat => 1 | _, _ => 0 end.
Definition spP : par := mkPar 2 0 0.
Lemma sp_adm x : 0 < x -> adm exI2 (spG x).
Proof. intro P. unfold adm, shell_G, shell_shape, det2, exI2, spG, delta. cbn. repeat split; lra. Qed.
Lemma spurious_accept eps : 0 <= eps <= tol / 2 ->
  exists p Go G c, adm Go G /\ 0 < mu p /\ 0 <= lam p /\ nhe_c33 p (metric_of Go G) = 1 /\
    c33_law eps NHe p (metric_of Go G) = Ok c /\ 0 < c < tol /\ S_comp NHe p (metric_of Go G) c 2%nat 2%nat < - 1000000000.
Proof.
  intros He. set (eta := / 100000000000). set (x := / (2 - eta)). assert (Hx : 0 < x) by (unfold x, eta; apply Rinv_0_lt_compat; lra).
  set (m := metric_of exI2 (spG x)).
  assert (EJ : J0 m = x) by (unfold m, metric_of, det3, exI2, spG, delta; cbn; field).
  assert (EM : mu spP = 1) by (unfold mu, mu_of, spP; cbn; field). assert (EL : lam spP = 0) by (unfold lam, lambda_of, spP; cbn; field).
  assert (ER : nhe_c33 spP m = 1) by (unfold nhe_c33; rewrite EM, EL; field).
  assert (G33 : Gori m 2%nat 2%nat = 1) by (apply (Go3_33 exI2 (spG x)), sp_adm, Hx).
  assert (EE : err0 spP m = - 1 + eta) by (unfold err0; rewrite EM, EL, EJ; unfold x, eta; field).
  assert (PM : 0 < mu spP) by lra. assert (PL : 0 <= lam spP) by lra. assert (PJ : 0 < J0 m) by lra.
  assert (D : 2 * mu spP < J0 m * (4 * mu spP + lam spP)) by (apply err_gt; try assumption; rewrite EE; unfold eta; lra).
  assert (E1 : err0 spP m ^ (2 ^ 1) = (1 - eta) * (1 - eta)) by (rewrite EE; cbn [Nat.pow Nat.mul Nat.add pow]; ring).
  set (c := 1 - (1 - eta) * (1 - eta)).
  assert (Hc : 0 < c < tol / 2) by (unfold c, eta, tol; lra).
  exists spP, exI2, (spG x), c. fold m. split; [apply sp_adm, Hx|]. split; [exact PM|]. split; [exact PL|]. split; [exact ER|].
  split; [|split; [pose proof tol_pos; lra|]].
  - pose proof (fun n => in_domain_formula spP m G33 PM PL PJ n D) as F. rewrite (law_unfold spP m eps). apply c33_ok.
    + intros j _. apply (C33_nz spP m PM PL). destruct (F j) as [F1 N]. cbv zeta in F1. rewrite F1, ER. lra.
    + exists 1%nat. split; [lia|]. destruct (F 1%nat) as [F1 N]. split; [rewrite F1, ER, E1; unfold c; ring|]. split; [|intros; lia].
      rewrite (residual spP m G33 PM PL PJ 1%nat F1 N), ER, E1, Rmult_1_l.
      rewrite Rabs_right; unfold eta, tol in *; lra.
  - assert (ES : S_comp NHe spP m c 2%nat 2%nat = 1 - / c). { unfold S_comp. cbn [cinvmat]. rewrite G33, EM, EL. field. lra. }
    rewrite ES. assert (Q : 10000000000 < / c). { rewrite <- (Rinv_inv 10000000000). apply Rinv_lt_contravar; [apply Rmult_lt_0_compat; lra|]. unfold tol in Hc. lra. } lra.
Qed.
