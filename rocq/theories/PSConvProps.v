(* Property theorems C129: convergence of the plane-stress iteration for all compressible laws. *)
From Coq Require Import Reals Lra Lia.
From Coquelicot Require Import Coquelicot.
From Verif Require Import Tensor MetricModel LinearModel NonlinearModel NonlinearSpec NonlinearProofs EnergyProofs Newton33Model Newton33Spec Newton33Proofs PlaneStressProofs PSConvSpec PSConvProofs.
Open Scope R_scope.

(* From the code's start value 1/J0^2 the iterates stay positive with a positive slope, increase from the first step on, never
   exceed the plane-stress root and converge to it. *)
Theorem C129_converges : forall w p Go G r, adm Go G -> 0 < Go 0%nat 0%nat -> 0 < G 0%nat 0%nat -> good_par w p ->
  let m := metric_of Go G in wide w (traceCt m) (J0 m) -> crosses (fun c => S_comp w p m c 2%nat 2%nat) r ->
  let it := newton (fun c => S_comp w p m c 2%nat 2%nat) (fun c => C3D w p m c 2%nat 2%nat 2%nat 2%nat / 2) (/ J0 m) in
  (forall n, 0 < it n /\ 0 < C3D w p m (it n) 2%nat 2%nat 2%nat 2%nat) /\ (forall n, it (S n) <= it (S (S n)) <= r) /\ is_lim_seq it r.
Proof.
  intros w p Go G r AD PO PG GP m W CR. apply (law_converges w p m (Go3_33 Go G AD) GP (J0_pos Go G AD) (trace_pos Go G AD PO PG) r W (trace_det Go G AD PO) CR).
Qed.
Print Assumptions C129_converges.

(* In moderate states the call returns, and its value is at most the root and within 5e-10 of it. *)
Theorem C129_returns : forall w p Go G eps, adm Go G -> 0 < Go 0%nat 0%nat -> 0 < G 0%nat 0%nat -> good_par w p ->
  let m := metric_of Go G in moderate (traceCt m) (J0 m) -> 0 <= eps <= tol / 2 ->
  exists r c, crosses (fun c => S_comp w p m c 2%nat 2%nat) r /\ c33_law eps w p m = Ok c /\ r - 5 / 10000000000 < c <= r.
Proof.
  intros w p Go G eps AD PO PG GP m M HE. destruct (plane_stress_root w p Go G AD PO PG GP) as (r & CR & RB). fold m in CR, RB.
  destruct (law_returns w p m (Go3_33 Go G AD) GP (J0_pos Go G AD) (trace_pos Go G AD PO PG) r eps M (trace_det Go G AD PO) CR RB HE) as (c & E & B).
  exists r, c. split; [exact CR|]. split; [exact E|]. unfold tol in B. lra.
Qed.
Print Assumptions C129_returns.

(* Neo-Hookean law: the first step leaves the positive numbers exactly when the start is too compressed ... *)
Theorem C129_first_step : forall p Go G, adm Go G -> 0 < Go 0%nat 0%nat -> 0 < G 0%nat 0%nat -> good_par NH p ->
  let m := metric_of Go G in 1 < 2 * (traceCt m * J0 m) ->
  let it := newton (fun c => S_comp NH p m c 2%nat 2%nat) (fun c => C3D NH p m c 2%nat 2%nat 2%nat 2%nat / 2) (/ J0 m) in
  it 1%nat <= 0 <-> 2 * mu p * (7 * (traceCt m * J0 m) - 8) + 9 * bulk p * J0 m <= 0.
Proof.
  intros p Go G AD PO PG GP m H. exact (nh_first p m (Go3_33 Go G AD) GP (J0_pos Go G AD) (trace_pos Go G AD PO PG) H).
Qed.
Print Assumptions C129_first_step.
(* ... which happens although the root exists: one squared stretch halved, nu = 0 *)
Theorem C129_positive_refuted : exists p Go G r, adm Go G /\ 0 < Go 0%nat 0%nat /\ 0 < G 0%nat 0%nat /\ good_par NH p /\
  let m := metric_of Go G in crosses (fun c => S_comp NH p m c 2%nat 2%nat) r /\
  newton (fun c => S_comp NH p m c 2%nat 2%nat) (fun c => C3D NH p m c 2%nat 2%nat 2%nat 2%nat / 2) (/ J0 m) 1%nat <= 0.
Proof.
  assert (AD : adm exI2 (spG (/ 2))) by (apply sp_adm; lra).
  assert (GP : good_par NH spP) by (unfold good_par, mu, mu_of, bulk, spP; cbn; lra).
  assert (PO : 0 < exI2 0%nat 0%nat) by (unfold exI2, delta; cbn; lra). assert (PG : 0 < spG (/ 2) 0%nat 0%nat) by (unfold spG; lra).
  destruct (plane_stress_root NH spP exI2 (spG (/ 2)) AD PO PG GP) as (r & CR & _).
  exists spP, exI2, (spG (/ 2)), r. refine (conj AD (conj PO (conj PG (conj GP (conj CR _))))).
  assert (EJ : J0 (metric_of exI2 (spG (/ 2))) = / 2) by (unfold metric_of, det3, exI2, spG, delta; cbn; field).
  assert (ET : traceCt (metric_of exI2 (spG (/ 2))) = 3 / 2) by (unfold traceCt, metric_of, inv3, det3, exI2, spG, delta; cbn; field).
  apply (C129_first_step spP exI2 (spG (/ 2)) AD PO PG GP); rewrite ET, EJ; [lra|]. unfold mu, mu_of, bulk, spP; cbn. lra.
Qed.
Print Assumptions C129_positive_refuted.

(* ---------- examples ---------- *)
Definition slG : mat := fun i j => match i, j with 0%nat, 0%nat => 21 / 20 | 0%nat, 1%nat | 1%nat, 0%nat => 1 / 100 | 1%nat, 1%nat => 1 | 2%nat, 2%nat => 1 | _, _ => 0 end.
Example slight_state : adm exI slG /\ 0 < exI 0%nat 0%nat /\ 0 < slG 0%nat 0%nat /\ moderate (traceCt (metric_of exI slG)) (J0 (metric_of exI slG)).
Proof.
  assert (A : adm exI slG) by (unfold adm, shell_G, shell_shape, det2, exI, slG, delta; cbn; repeat split; lra).
  split; [exact A|]. split; [unfold exI, delta; cbn; lra|]. split; [unfold slG; lra|].
  assert (EJ : J0 (metric_of exI slG) = 10499 / 10000) by (unfold metric_of, det3, exI, slG, delta; cbn; field).
  assert (ET : traceCt (metric_of exI slG) = 41 / 20) by (unfold traceCt, metric_of, inv3, det3, exI, slG, delta; cbn; field).
  rewrite EJ, ET. unfold moderate. intros x y Hx Hy.
  assert (I : / (10499 / 10000) = 10000 / 10499) by field. rewrite I in Hx, Hy.
  destruct Hx as [Hx|[Hx|[Hx|Hx]]]; destruct Hy as [Hy|[Hy|[Hy|Hy]]]; rewrite Hx, Hy; lra.
Qed.
(* a sheared and stretched state inside the region of all three laws *)
Example wide_state : adm exI exG /\ wide NH (traceCt (metric_of exI exG)) (J0 (metric_of exI exG)) /\ wide MR (traceCt (metric_of exI exG)) (J0 (metric_of exI exG))
  /\ wide NHe (traceCt (metric_of exI exG)) (J0 (metric_of exI exG)).
Proof.
  assert (EJ : J0 (metric_of exI exG) = 7) by (unfold metric_of, det3, exI, exG, delta; cbn; field).
  assert (ET : traceCt (metric_of exI exG) = 6) by (unfold traceCt, metric_of, inv3, det3, exI, exG, delta; cbn; field).
  split; [exact ex_adm|]. rewrite EJ, ET. unfold wide. repeat split; lra.
Qed.
