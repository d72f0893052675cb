(* Existence, uniqueness and differentiability of the plane-stress thickness component for all compressible laws. *)
From Coq Require Import Reals Lra Lia Ranalysis5.
From Coquelicot Require Import Coquelicot.
From Verif Require Import Tensor MetricModel LinearModel LinearSpec NonlinearModel NonlinearSpec NonlinearProofs Newton33Model Newton33Spec Newton33Proofs.
Open Scope R_scope.

(* material parameters with positive shear and non-negative bulk response *)
Definition good_par (w : law) (p : par) : Prop :=
  0 < mu p /\ match w with NH => 0 <= bulk p | MR => 0 <= bulk p /\ 0 <= pratio p | NHe => 0 <= lam p end.

Lemma trace_pos Go G : adm Go G -> 0 < Go 0%nat 0%nat -> 0 < G 0%nat 0%nat -> 0 < traceCt (metric_of Go G).
Proof.
  intros (SO & SG & DO & DG) PO PG. unfold traceCt. cbn [metric_of Gdef Gori]. rewrite !inv3_shell by (assumption || lia).
  pose proof (proj1 (proj1 SO)) as EO. pose proof (proj1 (proj1 SG)) as EG. unfold inv2.
  set (D := det2 Go) in *. set (A := Go 0%nat 0%nat) in *. set (a := G 0%nat 0%nat) in *.
  assert (E1 : D = A * Go 1%nat 1%nat - Go 1%nat 0%nat * Go 1%nat 0%nat) by (unfold D, det2; rewrite EO; reflexivity).
  assert (E2 : det2 G = a * G 1%nat 1%nat - G 1%nat 0%nat * G 1%nat 0%nat) by (unfold det2; rewrite EG; reflexivity).
  rewrite EO, EG. set (B := Go 1%nat 0%nat) in *. set (b := G 1%nat 0%nat) in *. set (F := Go 1%nat 1%nat) in *. set (d := G 1%nat 1%nat) in *.
  replace (a * (F / D) + b * (- B / D) + b * (- B / D) + d * (A / D)) with ((a * F - 2 * b * B + d * A) / D) by (field; lra).
  apply Rdiv_lt_0_compat; [|exact DO].
  assert (P : 0 < a * A) by (apply Rmult_lt_0_compat; assumption).
  apply (Rmult_lt_reg_l (a * A)); [exact P|]. rewrite Rmult_0_r.
  replace (a * A * (a * F - 2 * b * B + d * A)) with (a * a * (A * F - B * B) + A * A * (a * d - b * b) + Rsqr (a * B - b * A)) by (unfold Rsqr; ring).
  rewrite <- E1, <- E2. pose proof (Rle_0_sqr (a * B - b * A)).
  assert (0 < a * a * D) by (repeat apply Rmult_lt_0_compat; assumption). assert (0 < A * A * det2 G) by (repeat apply Rmult_lt_0_compat; assumption). lra.
Qed.

Section Root.
Variables (w : law) (p : par) (m : metric).
Hypotheses (G33 : Gori m 2%nat 2%nat = 1) (GP : good_par w p) (PJ : 0 < J0 m) (PT : 0 < traceCt m).
Let T := traceCt m.
Let J := J0 m.
Definition f1 (c : R) : R := Rpower (J * c) (- (1 / 3)) * (2 * c - T).
Definition f2 (c : R) : R := Rpower (J * c) (- (2 / 3)) * (T * c - 2 * J).
Definition f3 (c : R) : R := J * c - 1.
Let a1 := match w with NH => mu p / 3 | MR => c1 p / 3 | NHe => 0 end.
Let a2 := match w with NH => 0 | MR => c2 p / 3 | NHe => 0 end.
Let a3 := match w with NH => bulk p / 2 | MR => bulk p / 2 | NHe => lam p / 2 end.
Let a4 := match w with NHe => mu p | _ => 0 end.
Definition psi (c : R) : R := a1 * f1 c + a2 * f2 c + a3 * f3 c + a4 * (c - 1).

Lemma psi_S33 c : c <> 0 -> c * S_comp w p m c 2%nat 2%nat = psi c.
Proof.
  intro N. unfold psi, a1, a2, a3, a4, f1, f2, f3, S_comp, dI_2, I_1, I_2, J_sq, dI_1, idelta, delta. cbv zeta. cbn [cinvmat Nat.eqb]. rewrite G33.
  fold T J. destruct w; field; exact N.
Qed.
Lemma a_nonneg : 0 <= a1 /\ 0 <= a2 /\ 0 <= a3 /\ 0 <= a4 /\ (0 < a1 \/ 0 < a2 \/ 0 < a4).
Proof.
  unfold a1, a2, a3, a4. destruct GP as [PM Q]. destruct w; try (repeat split; try lra; fail).
  destruct Q as [K Rt]. assert (P2 : 0 < c2 p) by (unfold c2; apply Rdiv_lt_0_compat; lra).
  assert (P1 : 0 <= c1 p) by (unfold c1; apply Rmult_le_pos; lra). repeat split; try lra.
Qed.
Lemma Rpow_neg_lt x y e : 0 < e -> 0 < x < y -> Rpower y (- e) < Rpower x (- e).
Proof.
  intros He H. rewrite !Rpower_Ropp. apply Rinv_lt_contravar; [apply Rmult_lt_0_compat; apply exp_pos|]. apply Rlt_Rpower_l; assumption.
Qed.
Lemma f1_incr c d : 0 < c < d -> f1 c < f1 d.
Proof.
  intro H. assert (PT' : 0 < T) by exact PT. assert (PJ' : 0 < J) by exact PJ.
  assert (E : forall x, 0 < x -> f1 x = 2 / J * Rpower (J * x) (2 / 3) - T * Rpower (J * x) (- (1 / 3))).
  { intros x Hx. unfold f1. replace (2 / 3) with (- (1 / 3) + 1) by field. rewrite Rpower_plus, Rpower_1 by (apply Rmult_lt_0_compat; assumption). field. lra. }
  rewrite !E by lra. assert (Q : 0 < J * c < J * d) by (split; [apply Rmult_lt_0_compat; lra|apply Rmult_lt_compat_l; lra]).
  pose proof (Rlt_Rpower_l (J * c) (J * d) (2 / 3) ltac:(lra) Q) as L1. pose proof (Rpow_neg_lt _ _ (1 / 3) ltac:(lra) Q) as L2.
  assert (PJ2 : 0 < 2 / J) by (apply Rdiv_lt_0_compat; lra).
  pose proof (Rmult_lt_compat_l _ _ _ PJ2 L1). pose proof (Rmult_lt_compat_l _ _ _ PT' L2). lra.
Qed.
Lemma f2_incr c d : 0 < c < d -> f2 c < f2 d.
Proof.
  intro H. assert (PT' : 0 < T) by exact PT. assert (PJ' : 0 < J) by exact PJ.
  assert (E : forall x, 0 < x -> f2 x = T / J * Rpower (J * x) (1 / 3) - 2 * J * Rpower (J * x) (- (2 / 3))).
  { intros x Hx. unfold f2. replace (1 / 3) with (- (2 / 3) + 1) by field. rewrite Rpower_plus, Rpower_1 by (apply Rmult_lt_0_compat; assumption). field. lra. }
  rewrite !E by lra. assert (Q : 0 < J * c < J * d) by (split; [apply Rmult_lt_0_compat; lra|apply Rmult_lt_compat_l; lra]).
  pose proof (Rlt_Rpower_l (J * c) (J * d) (1 / 3) ltac:(lra) Q) as L1. pose proof (Rpow_neg_lt _ _ (2 / 3) ltac:(lra) Q) as L2.
  assert (PJ2 : 0 < T / J) by (apply Rdiv_lt_0_compat; lra). assert (P2 : 0 < 2 * J) by lra.
  pose proof (Rmult_lt_compat_l _ _ _ PJ2 L1). pose proof (Rmult_lt_compat_l _ _ _ P2 L2). lra.
Qed.
Lemma psi_incr c d : 0 < c < d -> psi c < psi d.
Proof.
  intro H. pose proof (f1_incr c d H) as L1. pose proof (f2_incr c d H) as L2.
  assert (L3 : f3 c < f3 d) by (unfold f3; apply Rplus_lt_compat_r, Rmult_lt_compat_l; [exact PJ|lra]).
  destruct a_nonneg as (p1 & p2 & p3 & p4 & Q). unfold psi.
  pose proof (Rmult_le_compat_l _ _ _ p1 (Rlt_le _ _ L1)). pose proof (Rmult_le_compat_l _ _ _ p2 (Rlt_le _ _ L2)).
  pose proof (Rmult_le_compat_l _ _ _ p3 (Rlt_le _ _ L3)). assert (L4 : c - 1 < d - 1) by lra. pose proof (Rmult_le_compat_l _ _ _ p4 (Rlt_le _ _ L4)).
  destruct Q as [Q|[Q|Q]].
  - pose proof (Rmult_lt_compat_l _ _ _ Q L1). lra.
  - pose proof (Rmult_lt_compat_l _ _ _ Q L2). lra.
  - pose proof (Rmult_lt_compat_l _ _ _ Q L4). lra.
Qed.
Lemma psi_cont c : 0 < c -> continuity_pt psi c.
Proof.
  intro H. assert (Q : 0 < J * c) by (apply Rmult_lt_0_compat; [exact PJ|exact H]).
  apply continuity_pt_filterlim. apply (ex_derive_continuous (V:=R_NormedModule) psi). unfold psi, f1, f2, f3, Rpower. auto_derive. repeat split; assumption.
Qed.
(* all three reference values: psi is negative below them and positive above *)
Definition lo : R := Rmin 1 (Rmin (T / 2) (Rmin (/ J) (2 * J / T))).
Definition hi : R := Rmax 1 (Rmax (T / 2) (Rmax (/ J) (2 * J / T))).
Lemma lo_pos : 0 < lo.
Proof.
  unfold lo. assert (0 < T) by exact PT. assert (0 < J) by exact PJ.
  repeat apply Rmin_glb_lt; [lra|lra|apply Rinv_0_lt_compat; assumption|apply Rdiv_lt_0_compat; lra].
Qed.
Lemma lo_le : lo <= 1 /\ lo <= T / 2 /\ lo <= / J /\ lo <= 2 * J / T.
Proof.
  unfold lo. pose proof (Rmin_l 1 (Rmin (T / 2) (Rmin (/ J) (2 * J / T)))). pose proof (Rmin_r 1 (Rmin (T / 2) (Rmin (/ J) (2 * J / T)))).
  pose proof (Rmin_l (T / 2) (Rmin (/ J) (2 * J / T))). pose proof (Rmin_r (T / 2) (Rmin (/ J) (2 * J / T))).
  pose proof (Rmin_l (/ J) (2 * J / T)). pose proof (Rmin_r (/ J) (2 * J / T)). lra.
Qed.
Lemma hi_ge : 1 <= hi /\ T / 2 <= hi /\ / J <= hi /\ 2 * J / T <= hi.
Proof.
  unfold hi. pose proof (Rmax_l 1 (Rmax (T / 2) (Rmax (/ J) (2 * J / T)))). pose proof (Rmax_r 1 (Rmax (T / 2) (Rmax (/ J) (2 * J / T)))).
  pose proof (Rmax_l (T / 2) (Rmax (/ J) (2 * J / T))). pose proof (Rmax_r (T / 2) (Rmax (/ J) (2 * J / T))).
  pose proof (Rmax_l (/ J) (2 * J / T)). pose proof (Rmax_r (/ J) (2 * J / T)). lra.
Qed.
Lemma psi_lo : psi lo <= 0.
Proof.
  destruct lo_le as (l0 & l1 & l2 & l3). pose proof lo_pos as lp. destruct a_nonneg as (p1 & p2 & p3 & p4 & _). assert (PT' : 0 < T) by exact PT. assert (PJ' : 0 < J) by exact PJ.
  assert (A1 : f1 lo <= 0). { unfold f1. pose proof (exp_pos (- (1 / 3) * ln (J * lo))) as P. unfold Rpower. rewrite Rmult_comm. apply Rmult_le_0_r; lra. }
  assert (Z : T * lo <= 2 * J). { apply (Rmult_le_compat_l T) in l3; [|lra]. replace (T * (2 * J / T)) with (2 * J) in l3 by (field; lra). exact l3. }
  assert (A2 : f2 lo <= 0). { unfold f2. pose proof (exp_pos (- (2 / 3) * ln (J * lo))) as P. unfold Rpower. rewrite Rmult_comm. apply Rmult_le_0_r; lra. }
  assert (A3 : f3 lo <= 0). { unfold f3. apply (Rmult_le_compat_l J) in l2; [|lra]. rewrite Rinv_r in l2 by lra. lra. }
  assert (K : forall u v, 0 <= u -> v <= 0 -> u * v <= 0). { intros u v Hu Hv. replace 0 with (u * 0) by ring. apply Rmult_le_compat_l; assumption. }
  unfold psi. pose proof (K _ _ p1 A1). pose proof (K _ _ p2 A2). pose proof (K _ _ p3 A3). pose proof (K a4 (lo - 1) p4 ltac:(lra)). lra.
Qed.
Lemma psi_hi : 0 <= psi hi.
Proof.
  destruct hi_ge as (l0 & l1 & l2 & l3). destruct a_nonneg as (p1 & p2 & p3 & p4 & _). assert (PT' : 0 < T) by exact PT. assert (PJ' : 0 < J) by exact PJ.
  assert (A1 : 0 <= f1 hi). { unfold f1. pose proof (exp_pos (- (1 / 3) * ln (J * hi))) as P. unfold Rpower. apply Rmult_le_pos; lra. }
  assert (Z : 2 * J <= T * hi). { apply (Rmult_le_compat_l T) in l3; [|lra]. replace (T * (2 * J / T)) with (2 * J) in l3 by (field; lra). exact l3. }
  assert (A2 : 0 <= f2 hi). { unfold f2. pose proof (exp_pos (- (2 / 3) * ln (J * hi))) as P. unfold Rpower. apply Rmult_le_pos; lra. }
  assert (A3 : 0 <= f3 hi). { unfold f3. apply (Rmult_le_compat_l J) in l2; [|lra]. rewrite Rinv_r in l2 by lra. lra. }
  unfold psi. pose proof (Rmult_le_pos _ _ p1 A1). pose proof (Rmult_le_pos _ _ p2 A2). pose proof (Rmult_le_pos _ _ p3 A3). pose proof (Rmult_le_pos a4 (hi - 1) p4 ltac:(lra)). lra.
Qed.
Lemma root_exists : exists r, lo <= r <= hi /\ psi r = 0.
Proof.
  pose proof psi_lo as A. pose proof psi_hi as B. pose proof lo_pos as LP.
  destruct (Req_dec (psi lo) 0) as [E|E]. { exists lo. split; [|exact E]. pose proof lo_le. pose proof hi_ge. lra. }
  destruct (Req_dec (psi hi) 0) as [F|F]. { exists hi. split; [|exact F]. pose proof lo_le. pose proof hi_ge. lra. }
  assert (LH : lo < hi). { pose proof lo_le. pose proof hi_ge. destruct (Req_dec lo hi) as [Q|Q]; [exfalso; apply E; apply Rle_antisym; [exact A|rewrite Q; exact B]|lra]. }
  destruct (IVT_interv psi lo hi) as (z & Hz & E0); [intros a Ha; apply psi_cont; lra|exact LH|lra|lra|]. exists z. split; [exact Hz|exact E0].
Qed.
Lemma root_crosses r : 0 < r -> psi r = 0 -> crosses (fun c => S_comp w p m c 2%nat 2%nat) r.
Proof.
  intros Pr E. assert (D : forall c, 0 < c -> S_comp w p m c 2%nat 2%nat = psi c / c). { intros c Hc. rewrite <- psi_S33 by lra. field. lra. }
  split; [exact Pr|]. split; [rewrite D by exact Pr; rewrite E; field; lra|]. split.
  - intros c Hc. rewrite D by lra. pose proof (psi_incr c r Hc) as L. rewrite E in L.
    replace 0 with (0 / c) by (field; lra). apply Rmult_lt_compat_r; [apply Rinv_0_lt_compat; lra|exact L].
  - intros c Hc. rewrite D by lra. pose proof (psi_incr r c ltac:(lra)) as L. rewrite E in L. apply Rdiv_lt_0_compat; lra.
Qed.
End Root.

Lemma plane_stress_root w p Go G : adm Go G -> 0 < Go 0%nat 0%nat -> 0 < G 0%nat 0%nat -> good_par w p ->
  let m := metric_of Go G in exists r, crosses (fun c => S_comp w p m c 2%nat 2%nat) r /\ lo m <= r <= hi m.
Proof.
  intros AD PO PG GP m. pose proof (trace_pos Go G AD PO PG) as PT. pose proof (J0_pos Go G AD) as PJ. pose proof (Go3_33 Go G AD) as G33. fold m in PT, PJ, G33.
  destruct (root_exists w p m GP PJ PT) as (r & Hr & E). exists r. split; [|exact Hr].
  apply (root_crosses w p m G33 GP PJ PT); [pose proof (lo_pos m PJ PT); lra|exact E].
Qed.
Lemma crosses_unique f r s : crosses f r -> 0 < s -> f s = 0 -> s = r.
Proof.
  intros (_ & _ & A & B) Ps E. destruct (Rtotal_order s r) as [L|[L|L]]; [|exact L|]; exfalso; [specialize (A s ltac:(lra))|specialize (B s L)]; lra.
Qed.

(* the tensor component C3333 is positive at the root *)
Lemma C3333_identity w p m c : Gori m 2%nat 2%nat = 1 -> c <> 0 ->
  c * c / 2 * C3D w p m c 2%nat 2%nat 2%nat 2%nat + c * S_comp w p m c 2%nat 2%nat =
  match w with
  | NH => mu p / 3 * (Rpower (J0 m * c) (- (1 / 3)) * (4 / 3 * c + traceCt m / 3)) + bulk p / 2 * (J0 m * c)
  | MR => c1 p / 3 * (Rpower (J0 m * c) (- (1 / 3)) * (4 / 3 * c + traceCt m / 3)) + bulk p / 2 * (J0 m * c)
          + c2 p / 3 * (Rpower (J0 m * c) (- (2 / 3)) * (traceCt m * c / 3 + 4 / 3 * J0 m))
  | NHe => lam p / 2 * (J0 m * c) + mu p * c
  end.
Proof.
  intros G33 N. unfold C3D, S_comp, dI_2, d2I_2, dI_2, I_1, I_2, J_sq, dI_1, idelta, delta, dX4. cbv zeta. cbn [cinvmat Nat.eqb]. rewrite G33.
  destruct w; field; exact N.
Qed.
Lemma C3333_pos w p m r : Gori m 2%nat 2%nat = 1 -> good_par w p -> 0 < J0 m -> 0 < traceCt m -> 0 < r -> S_comp w p m r 2%nat 2%nat = 0 ->
  0 < C3D w p m r 2%nat 2%nat 2%nat 2%nat.
Proof.
  intros G33 [PM Q] PJ PT Pr E. pose proof (C3333_identity w p m r G33 ltac:(lra)) as I. rewrite E, Rmult_0_r, Rplus_0_r in I.
  apply (Rmult_lt_reg_l (r * r / 2)); [apply Rdiv_lt_0_compat; [apply Rmult_lt_0_compat; lra|lra]|]. rewrite Rmult_0_r, I.
  assert (PP : forall e, 0 < Rpower (J0 m * r) e) by (intro e; apply exp_pos). assert (PJr : 0 < J0 m * r) by (apply Rmult_lt_0_compat; lra).
  assert (X1 : 0 < Rpower (J0 m * r) (- (1 / 3)) * (4 / 3 * r + traceCt m / 3)) by (apply Rmult_lt_0_compat; [apply PP|lra]).
  assert (PTr : 0 < traceCt m * r) by (apply Rmult_lt_0_compat; lra).
  assert (X2 : 0 < Rpower (J0 m * r) (- (2 / 3)) * (traceCt m * r / 3 + 4 / 3 * J0 m)) by (apply Rmult_lt_0_compat; [apply PP|lra]).
  destruct w.
  - assert (0 < mu p / 3) by lra. pose proof (Rmult_lt_0_compat _ _ H X1). pose proof (Rmult_le_pos (bulk p / 2) _ ltac:(lra) (Rlt_le _ _ PJr)). lra.
  - destruct Q as [K Rt]. assert (P2 : 0 < c2 p) by (unfold c2; apply Rdiv_lt_0_compat; lra). assert (P1 : 0 <= c1 p) by (unfold c1; apply Rmult_le_pos; lra).
    pose proof (Rmult_le_pos (c1 p / 3) _ ltac:(lra) (Rlt_le _ _ X1)). pose proof (Rmult_le_pos (bulk p / 2) _ ltac:(lra) (Rlt_le _ _ PJr)).
    pose proof (Rmult_lt_0_compat (c2 p / 3) _ ltac:(lra) X2). lra.
  - pose proof (Rmult_le_pos (lam p / 2) _ ltac:(lra) (Rlt_le _ _ PJr)). pose proof (Rmult_lt_0_compat _ _ PM Pr). lra.
Qed.

(* a function vanishing at 0 with positive slope has the sign of its argument *)
Lemma slope_sign (f : R -> R) d : f 0 = 0 -> is_derive f 0 d -> 0 < d ->
  exists del : posreal, forall t, t <> 0 -> Rabs t < del -> 0 < t * f t.
Proof.
  intros F0 D P. apply is_derive_Reals in D. destruct (D d P) as [del H]. exists del. intros t Ht Hd. specialize (H t Ht Hd).
  rewrite Rplus_0_l, F0, Rminus_0_r in H. apply Rabs_def2 in H. assert (Q : 0 < f t / t) by lra.
  replace (t * f t) with (t * t * (f t / t)) by (field; exact Ht). apply Rmult_lt_0_compat; [apply Rsqr_pos_lt; exact Ht|exact Q].
Qed.
Lemma locally_pos_cont (f : R -> R) l : is_derive f 0 l -> 0 < f 0 -> exists del : posreal, forall t, Rabs t < del -> 0 < f t.
Proof.
  intros D P. assert (C : continuous f 0) by (apply (ex_derive_continuous (V:=R_NormedModule)); eexists; exact D).
  destruct (C (fun x => 0 < x) (open_gt 0 _ P)) as [del H]. exists del. intros t Ht. apply H. unfold ball; cbn. unfold AbsRing_ball, abs, minus, plus, opp; cbn. rewrite Ropp_0, Rplus_0_r. exact Ht.
Qed.
Lemma root_derivative w p Go G H (cr : R -> R) : adm Go G -> 0 < Go 0%nat 0%nat -> 0 < G 0%nat 0%nat -> in_plane H -> good_par w p ->
  locally 0 (fun t => 0 < cr t /\ S_comp w p (metric_of Go (line G H t)) (cr t) 2%nat 2%nat = 0) -> exists h, is_derive cr 0 h.
Proof.
  intros AD PO PG SH GP [d0 L0].
  assert (BL : forall t, Rabs t < d0 -> 0 < cr t /\ S_comp w p (metric_of Go (line G H t)) (cr t) 2%nat 2%nat = 0).
  { intros t Ht. apply L0. unfold ball; cbn. unfold AbsRing_ball, abs, minus, plus, opp; cbn. rewrite Ropp_0, Rplus_0_r. exact Ht. }
  destruct (BL 0) as [Pc E0]. { rewrite Rabs_R0. apply cond_pos. } rewrite line0 in E0.
  pose proof (d_J03 Go G H AD SH) as dJ. pose proof (d_tr3 Go G H AD SH) as dT.
  pose proof (J0_pos Go G AD) as PJ. pose proof (trace_pos Go G AD PO PG) as PT. pose proof (Go3_33 Go G AD) as G33.
  destruct (locally_pos_cont _ _ dJ) as [d1 L1]; [rewrite line0; exact PJ|]. destruct (locally_pos_cont _ _ dT) as [d2 L2]; [rewrite line0; exact PT|].
  set (D := C3D w p (metric_of Go G) (cr 0)).
  assert (PD : 0 < D 2%nat 2%nat 2%nat 2%nat) by (apply C3333_pos; assumption).
  set (A := D 2%nat 2%nat 0%nat 0%nat * H 0%nat 0%nat + D 2%nat 2%nat 0%nat 1%nat * H 1%nat 0%nat + D 2%nat 2%nat 1%nat 0%nat * H 1%nat 0%nat + D 2%nat 2%nat 1%nat 1%nat * H 1%nat 1%nat).
  set (h := - A / D 2%nat 2%nat 2%nat 2%nat). exists h.
  set (phi := fun k t => S_comp w p (metric_of Go (line G H t)) (cr 0 + k * t) 2%nat 2%nat).
  assert (dphi : forall k, is_derive (phi k) 0 (/ 2 * (A + D 2%nat 2%nat 2%nat 2%nat * k))).
  { intro k. evar_last. { refine (tangent_curve Go G H (fun t => cr 0 + k * t) k AD SH _ _ w p 2%nat 2%nat (or_intror (conj eq_refl eq_refl))).
      - rewrite Rmult_0_r, Rplus_0_r. exact Pc. - auto_derive; [exact I|ring]. }
    cbv beta zeta. replace (cr 0 + k * 0) with (cr 0) by ring. reflexivity. }
  assert (phi0 : forall k, phi k 0 = 0). { intro k. unfold phi. rewrite line0. replace (cr 0 + k * 0) with (cr 0) by ring. exact E0. }
  assert (CR : forall t, Rabs t < d0 -> Rabs t < d1 -> Rabs t < d2 -> crosses (fun c => S_comp w p (metric_of Go (line G H t)) c 2%nat 2%nat) (cr t)).
  { intros t h0 h1 h2. destruct (BL t h0) as [Pt Et]. apply (root_crosses w p (metric_of Go (line G H t)) G33 GP (L1 t h1) (L2 t h2) (cr t) Pt).
    rewrite <- psi_S33; first [exact G33|rewrite Et; ring|lra|assumption]. }
  apply is_derive_Reals. intros eps Peps.
  set (e := eps / 2). assert (Pe : 0 < e) by (unfold e; lra).
  assert (SP : 0 < / 2 * (A + D 2%nat 2%nat 2%nat 2%nat * (h + e))).
  { replace (/ 2 * (A + D 2%nat 2%nat 2%nat 2%nat * (h + e))) with (/ 2 * (D 2%nat 2%nat 2%nat 2%nat * e)) by (unfold h; field; lra). pose proof (Rmult_lt_0_compat _ _ PD Pe). lra. }
  assert (SN : 0 < - (/ 2 * (A + D 2%nat 2%nat 2%nat 2%nat * (h - e)))).
  { replace (- (/ 2 * (A + D 2%nat 2%nat 2%nat 2%nat * (h - e)))) with (/ 2 * (D 2%nat 2%nat 2%nat 2%nat * e)) by (unfold h; field; lra). pose proof (Rmult_lt_0_compat _ _ PD Pe). lra. }
  destruct (slope_sign (phi (h + e)) _ (phi0 _) (dphi _) SP) as [d3 L3].
  destruct (slope_sign (fun t => - phi (h - e) t) (- (/ 2 * (A + D 2%nat 2%nat 2%nat 2%nat * (h - e))))) as [d4 L4]; [rewrite phi0; ring| |exact SN|].
  { apply (is_derive_opp (phi (h - e))). apply dphi. }
  destruct (locally_pos_cont (fun t => cr 0 + (h + e) * t) (h + e)) as [d5 L5]; [auto_derive; [exact I|ring]|rewrite Rmult_0_r, Rplus_0_r; exact Pc|].
  destruct (locally_pos_cont (fun t => cr 0 + (h - e) * t) (h - e)) as [d6 L6]; [auto_derive; [exact I|ring]|rewrite Rmult_0_r, Rplus_0_r; exact Pc|].
  set (del := Rmin d0 (Rmin d1 (Rmin d2 (Rmin d3 (Rmin d4 (Rmin d5 d6)))))).
  assert (Pdel : 0 < del) by (unfold del; repeat apply Rmin_glb_lt; apply cond_pos).
  exists (mkposreal del Pdel). intros t Ht Hd. cbn in Hd. rewrite Rplus_0_l.
  assert (B : Rabs t < d0 /\ Rabs t < d1 /\ Rabs t < d2 /\ Rabs t < d3 /\ Rabs t < d4 /\ Rabs t < d5 /\ Rabs t < d6).
  { unfold del in Hd. repeat match goal with H : _ < Rmin ?a ?b |- _ => pose proof (Rlt_le_trans _ _ _ H (Rmin_l a b)); pose proof (Rlt_le_trans _ _ _ H (Rmin_r a b)); clear H end. repeat split; assumption. }
  destruct B as (b0 & b1 & b2 & b3 & b4 & b5 & b6).
  destruct (CR t b0 b1 b2) as (_ & _ & BELOW & ABOVE).
  pose proof (L3 t Ht b3) as U. pose proof (L4 t Ht b4) as V. pose proof (L5 t b5) as P5. pose proof (L6 t b6) as P6. unfold phi in U, V.
  destruct (BL t b0) as [Pt Et].
  assert (EQU : forall c, c = cr t -> S_comp w p (metric_of Go (line G H t)) c 2%nat 2%nat = 0) by (intros c ->; exact Et).
  assert (KEY : Rabs (cr t - cr 0 - h * t) < eps * Rabs t).
  { set (x1 := cr 0 + (h + e) * t) in *. set (x2 := cr 0 + (h - e) * t) in *.
    destruct (Rtotal_order t 0) as [N|[N|N]]; [|contradiction|].
    - assert (X1 : x1 < cr t).
      { destruct (Rtotal_order x1 (cr t)) as [Q|[Q|Q]]; [exact Q| |]; exfalso.
        - rewrite (EQU x1 Q), Rmult_0_r in U. lra.
        - specialize (ABOVE x1 Q). pose proof (Rmult_lt_0_compat (- t) _ ltac:(lra) ABOVE). lra. }
      assert (X2 : cr t < x2).
      { destruct (Rtotal_order x2 (cr t)) as [Q|[Q|Q]]; [| |exact Q]; exfalso.
        - specialize (BELOW x2 (conj P6 Q)). pose proof (Rmult_lt_0_compat (- t) (- S_comp w p (metric_of Go (line G H t)) x2 2%nat 2%nat) ltac:(lra) ltac:(lra)). lra.
        - rewrite (EQU x2 Q), Ropp_0, Rmult_0_r in V. lra. }
      rewrite (Rabs_left t N). pose proof (Rmult_lt_0_compat e (- t) Pe ltac:(lra)) as Q. unfold x1, x2 in *. unfold e in *. apply Rabs_def1; lra.
    - assert (X1 : cr t < x1).
      { destruct (Rtotal_order x1 (cr t)) as [Q|[Q|Q]]; [| |exact Q]; exfalso.
        - specialize (BELOW x1 (conj P5 Q)). pose proof (Rmult_lt_0_compat t (- S_comp w p (metric_of Go (line G H t)) x1 2%nat 2%nat) N ltac:(lra)). lra.
        - rewrite (EQU x1 Q), Rmult_0_r in U. lra. }
      assert (X2 : x2 < cr t).
      { destruct (Rtotal_order x2 (cr t)) as [Q|[Q|Q]]; [exact Q| |]; exfalso.
        - rewrite (EQU x2 Q), Ropp_0, Rmult_0_r in V. lra.
        - specialize (ABOVE x2 Q). pose proof (Rmult_lt_0_compat t _ N ABOVE). lra. }
      rewrite (Rabs_right t) by lra. pose proof (Rmult_lt_0_compat e t Pe N) as Q. unfold x1, x2, e in *. apply Rabs_def1; lra. }
  replace ((cr t - cr 0) / t - h) with ((cr t - cr 0 - h * t) / t) by (field; exact Ht).
  unfold Rdiv. rewrite Rabs_mult, Rabs_inv. apply (Rmult_lt_reg_r (Rabs t)); [apply Rabs_pos_lt, Ht|].
  rewrite Rmult_assoc, Rinv_l, Rmult_1_r by (apply Rabs_no_R0, Ht). exact KEY.
Qed.
Lemma condensed_all w p Go G H (cr : R -> R) i j : adm Go G -> 0 < Go 0%nat 0%nat -> 0 < G 0%nat 0%nat -> in_plane H -> good_par w p ->
  locally 0 (fun t => 0 < cr t /\ S_comp w p (metric_of Go (line G H t)) (cr t) 2%nat 2%nat = 0) -> (i < 2)%nat -> (j < 2)%nat ->
  is_derive (fun t => S_comp w p (metric_of Go (line G H t)) (cr t) i j) 0
    (/ 2 * contract (condense (C3D w p (metric_of Go G) (cr 0))) H i j).
Proof.
  intros AD PO PG SH GP L Hi Hj. destruct (root_derivative w p Go G H cr AD PO PG SH GP L) as [h Dh].
  destruct (locally_singleton _ _ L) as [P0 E0]. rewrite line0 in E0.
  apply (condensed_tangent Go G H w p cr h i j AD SH P0 Dh); [revert L; apply filter_imp; tauto| |exact Hi|exact Hj].
  apply Rgt_not_eq, C3333_pos; try assumption; [apply (Go3_33 Go G AD)|apply (J0_pos Go G AD)|apply trace_pos; assumption].
Qed.
