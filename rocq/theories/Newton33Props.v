(* Property theorems C27 (plane-stress tangent, unconditional), C29, C30, C78: the through-thickness component c33. *)
From Coq Require Import Reals Lra Lia.
From Coquelicot Require Import Coquelicot.
From Verif Require Import Tensor MetricModel LinearModel NonlinearModel NonlinearSpec NonlinearProofs EnergyProofs Newton33Model Newton33Spec Newton33Proofs PlaneStressProofs.
Open Scope R_scope.

(* C29: a value is returned exactly when one of the first 100 Newton iterates has a correction below the tolerance, the first
   such iterate is returned, and otherwise the call throws; it is never undefined. *)
Theorem C29_returned : forall eps S33 C3333 J c, let it := newton S33 (fun x => C3333 x / 2) (/ J) in
  (forall j, (j <= 100)%nat -> C3333 (it j) <> 0) ->
  (c33_of eps S33 C3333 J = Ok c <->
   exists j, (1 <= j <= 100)%nat /\ c = it j /\ Rabs (2 * S33 (it j) / C3333 (it j)) < tol - eps /\
     forall i, (1 <= i < j)%nat -> tol - eps <= Rabs (2 * S33 (it i) / C3333 (it i))).
Proof. exact c33_ok. Qed.
Print Assumptions C29_returned.
Theorem C29_thrown : forall eps S33 C3333 J, let it := newton S33 (fun x => C3333 x / 2) (/ J) in
  (forall j, (j <= 100)%nat -> C3333 (it j) <> 0) ->
  (c33_of eps S33 C3333 J = Throw <-> forall j, (1 <= j <= 100)%nat -> tol - eps <= Rabs (2 * S33 (it j) / C3333 (it j))).
Proof. exact c33_throw. Qed.
Print Assumptions C29_thrown.
(* the absolute test on the correction does not imply a small residual: near-zero iterates are accepted *)
Theorem C29_small_residual_refuted : forall eps, 0 <= eps <= tol / 2 ->
  exists p Go G c, adm Go G /\ 0 < mu p /\ 0 <= lam p /\ nhe_c33 p (metric_of Go G) = 1 /\
    c33_law eps NHe p (metric_of Go G) = Ok c /\ 0 < c < tol /\ S_comp NHe p (metric_of Go G) c 2%nat 2%nat < - 1000000000.
Proof. exact spurious_accept. Qed.
Print Assumptions C29_small_residual_refuted.

(* C30: extended neo-Hookean law.  Above the threshold the iterates are root*(1-e^(2^n)) and converge to the root ... *)
Theorem C30_converges : forall p m, Gori m 2%nat 2%nat = 1 -> 0 < mu p -> 0 <= lam p -> 0 < J0 m ->
  2 * mu p < J0 m * (4 * mu p + lam p) ->
  let it := newton (fun c => S_comp NHe p m c 2%nat 2%nat) (fun c => C3D NHe p m c 2%nat 2%nat 2%nat 2%nat / 2) (/ J0 m) in
  (forall n, it n = nhe_c33 p m * (1 - err0 p m ^ (2 ^ n))) /\ is_lim_seq it (nhe_c33 p m).
Proof. exact converges. Qed.
Print Assumptions C30_converges.
(* ... below it every iterate is negative and they tend to minus infinity ... *)
Theorem C30_diverges : forall p m, Gori m 2%nat 2%nat = 1 -> 0 < mu p -> 0 <= lam p -> 0 < J0 m ->
  J0 m * (4 * mu p + lam p) < 2 * mu p ->
  let it := newton (fun c => S_comp NHe p m c 2%nat 2%nat) (fun c => C3D NHe p m c 2%nat 2%nat 2%nat 2%nat / 2) (/ J0 m) in
  (forall n, it n = nhe_c33 p m * (1 - err0 p m ^ (2 ^ n))) /\ (forall n, (1 <= n)%nat -> it n < 0) /\ is_lim_seq it m_infty.
Proof. exact diverges. Qed.
Print Assumptions C30_diverges.
(* ... and the call throws (unless the first step already lands within the tolerance of zero) *)
Theorem C30_throws : forall p m eps, Gori m 2%nat 2%nat = 1 -> 0 < mu p -> 0 <= lam p -> 0 < J0 m -> 0 <= eps ->
  J0 m * (4 * mu p + lam p) < 2 * mu p -> tol <= nhe_c33 p m * (err0 p m ^ (2 ^ 1) * (err0 p m ^ (2 ^ 1) - 1)) ->
  c33_law eps NHe p m = Throw.
Proof. exact nhe_rejects. Qed.
Print Assumptions C30_throws.
(* for moderate area changes the returned value is within 2e-10 of the root *)
Theorem C30_accurate : forall p m eps, Gori m 2%nat 2%nat = 1 -> 0 < mu p -> 0 <= lam p -> 0 < J0 m -> 0 <= eps -> eps <= tol / 2 ->
  4 * mu p * Rabs (J0 m - 1) <= J0 m * (2 * mu p + lam p) -> nhe_c33 p m <= 1000000 ->
  exists c, c33_law eps NHe p m = Ok c /\ Rabs (c - nhe_c33 p m) < 2 * tol.
Proof. exact nhe_accurate. Qed.
Print Assumptions C30_accurate.

(* C78: for all compressible laws a plane-stress thickness exists, is unique among positive values, the transverse stress changes
   sign there, and it lies between the smallest and largest of 1, tr/2, 1/J0^2, 2 J0^2/tr. *)
Theorem C78_exists : forall w p Go G, adm Go G -> 0 < Go 0%nat 0%nat -> 0 < G 0%nat 0%nat -> good_par w p ->
  let m := metric_of Go G in exists r, crosses (fun c => S_comp w p m c 2%nat 2%nat) r /\ lo m <= r <= hi m.
Proof. exact plane_stress_root. Qed.
Print Assumptions C78_exists.
Theorem C78_unique : forall f r s, crosses f r -> 0 < s -> f s = 0 -> s = r.
Proof. exact crosses_unique. Qed.
Print Assumptions C78_unique.
(* the Newton step is well defined at the solution *)
Theorem C78_regular : forall w p m r, Gori m 2%nat 2%nat = 1 -> good_par w p -> 0 < J0 m -> 0 < traceCt m -> 0 < r ->
  S_comp w p m r 2%nat 2%nat = 0 -> 0 < C3D w p m r 2%nat 2%nat 2%nat 2%nat.
Proof. exact C3333_pos. Qed.
Print Assumptions C78_regular.

(* C27, all laws, without assuming that the thickness component is differentiable along the path *)
Theorem C27_all_laws : forall w p Go G H (cr : R -> R) i j, adm Go G -> 0 < Go 0%nat 0%nat -> 0 < G 0%nat 0%nat -> in_plane H -> good_par w p ->
  locally 0 (fun t => 0 < cr t /\ S_comp w p (metric_of Go (line G H t)) (cr t) 2%nat 2%nat = 0) -> (i < 2)%nat -> (j < 2)%nat ->
  is_derive (fun t => S_comp w p (metric_of Go (line G H t)) (cr t) i j) 0
    (/ 2 * contract (condense (C3D w p (metric_of Go G) (cr 0))) H i j).
Proof. exact condensed_all. Qed.
Print Assumptions C27_all_laws.

(* ---------- examples ---------- *)
Example good_ex : good_par MR (mkPar 1 (/ 4) 2) /\ good_par NH (mkPar 1 (/ 4) 2) /\ good_par NHe (mkPar 1 (/ 4) 2).
Proof. unfold good_par, mu, mu_of, bulk, lam, lambda_of; cbn. repeat split; lra. Qed.
Example state_ex : adm exI exG /\ 0 < exI 0%nat 0%nat /\ 0 < exG 0%nat 0%nat.
Proof. split; [exact ex_adm|]. unfold exI, exG, delta; cbn. lra. Qed.
(* a quarter of the squared area with nu = 0: the iteration throws *)
Example throw_ex : c33_law 0 NHe spP (metric_of exI2 (spG (/ 4))) = Throw.
Proof.
  assert (EJ : J0 (metric_of exI2 (spG (/ 4))) = / 4) by (unfold metric_of, det3, exI2, spG, delta; cbn; field).
  assert (EM : mu spP = 1) by (unfold mu, mu_of, spP; cbn; field). assert (EL : lam spP = 0) by (unfold lam, lambda_of, spP; cbn; field).
  assert (ER : nhe_c33 spP (metric_of exI2 (spG (/ 4))) = 1) by (unfold nhe_c33; rewrite EM, EL; field).
  assert (EE : err0 spP (metric_of exI2 (spG (/ 4))) = -3) by (unfold err0; rewrite EM, EL, EJ; field).
  apply nhe_rejects; rewrite ?EJ, ?EM, ?EL, ?ER, ?EE; try lra.
  - apply (Go3_33 exI2 (spG (/ 4))), sp_adm; lra.
  - unfold tol. cbn [Nat.pow Nat.mul Nat.add pow]. lra.
Qed.
Example accurate_ex : exists c, c33_law 0 NHe spP (metric_of exI2 (spG 2)) = Ok c /\ Rabs (c - 1) < 2 * tol.
Proof.
  assert (EJ : J0 (metric_of exI2 (spG 2)) = 2) by (unfold metric_of, det3, exI2, spG, delta; cbn; field).
  assert (EM : mu spP = 1) by (unfold mu, mu_of, spP; cbn; field). assert (EL : lam spP = 0) by (unfold lam, lambda_of, spP; cbn; field).
  assert (ER : nhe_c33 spP (metric_of exI2 (spG 2)) = 1) by (unfold nhe_c33; rewrite EM, EL; field).
  rewrite <- ER. apply nhe_accurate; rewrite ?EJ, ?EM, ?EL, ?ER; try lra.
  - apply (Go3_33 exI2 (spG 2)), sp_adm; lra.
  - pose proof tol_pos; lra.
  - replace (2 - 1) with 1 by ring. rewrite Rabs_R1. lra.
Qed.
