(* C132: the response of the hyperelastic materials does not depend on the parametrisation of the surface. *)
From Coq Require Import Reals Lra Lia Arith Bool List.
From Verif Require Import Tensor MetricModel MetricSpec MetricProofs LinearModel LinearSpec NonlinearModel NonlinearSpec NonlinearProofs PrincipalModel SpectralModel Newton33Model SizeModel PtModel PtSpec PtProofs ReparSpec ReparTens ReparProofs ReparGeo UnitProofs.
Import ListNotations.
Open Scope R_scope.

(* shells: the evaluations at height z in the new parameters and at the height of the same material point in the old ones *)
Theorem C132_stress_shell : forall close eps epsm eig comp imp w go gd P K t p z,
  regular go -> regular gd -> det2 P <> 0 ->
  det3 (Gcov go (side P * z * t)) <> 0 -> det3 (Gcov gd (side P * z * t)) <> 0 ->
  close (Gcon (repar P K go) (z * t)) (Gcon (repar P K gd) (z * t)) = close (Gcon go (side P * z * t)) (Gcon gd (side P * z * t)) ->
  both (same_stress P) (eval_stress close eps epsm eig comp imp w (shell_pt go gd t p) (side P * z))
                       (eval_stress close eps epsm eig comp imp w (shell_pt (repar P K go) (repar P K gd) t p) z).
Proof.
  intros close eps epsm eig comp imp w go gd P K t p z Ro Rd DP Do Dd CL. unfold eval_stress. cbn [shell_pt po pd pT pp].
  rewrite Rmult_assoc in *. apply (stress_rel (inv2 P) (side P) P); [|exact CL]. apply hrel_repar; assumption.
Qed.
Print Assumptions C132_stress_shell.
Theorem C132_matrix_shell : forall eps epsm eig comp imp w go gd P K t p z,
  regular go -> regular gd -> det2 P <> 0 ->
  det3 (Gcov go (side P * z * t)) <> 0 -> det3 (Gcov gd (side P * z * t)) <> 0 ->
  both (same_stiffness P) (eval_matrix eps epsm eig comp imp w (shell_pt go gd t p) (side P * z))
                          (eval_matrix eps epsm eig comp imp w (shell_pt (repar P K go) (repar P K gd) t p) z).
Proof.
  intros eps epsm eig comp imp w go gd P K t p z Ro Rd DP Do Dd. unfold eval_matrix. cbn [shell_pt po pd pT pp].
  rewrite Rmult_assoc in *. apply (matrix_rel (inv2 P) (side P) P). apply hrel_repar; assumption.
Qed.
Print Assumptions C132_matrix_shell.
(* the thickness stretch of the plane-stress iteration is the same number, and the strain is the same tensor *)
Theorem C132_thickness_and_strain : forall eps epsm eig imp w go gd P K t p z,
  regular go -> regular gd -> det2 P <> 0 ->
  (det3 (Gcov go (side P * z * t)) <> 0 -> det3 (Gcov gd (side P * z * t)) <> 0 ->
   c33_pt eps epsm eig imp w p (half3 (repar P K go) (z * t)) (half3 (repar P K gd) (z * t))
   = c33_pt eps epsm eig imp w p (half3 go (side P * z * t)) (half3 gd (side P * z * t))) /\
  forall a, (a < 3)%nat -> strainV (repar P K go) (repar P K gd) (z * t) a
   = voi (pullback2 P (fun i j => / 2 * (Gcov gd (side P * z * t) i j - Gcov go (side P * z * t) i j))) a.
Proof.
  intros eps epsm eig imp w go gd P K t p z Ro Rd DP. split.
  - intros Do Dd. rewrite Rmult_assoc in *. apply (c33_pt_rel (inv2 P) (side P) P). apply hrel_repar; assumption.
  - intros a Ha. rewrite Rmult_assoc. destruct a as [|[|[|a]]]; try lia; unfold strainV, voi, pullback2; cbv zeta; rewrite !(Gcov_repar P K go), !(Gcov_repar P K gd) by (assumption || lia); unfold pb, sum2; ring.
Qed.
Print Assumptions C132_thickness_and_strain.

(* planar elements *)
Theorem C132_planar : forall close eps epsm eig comp imp w go gd P t p z,
  det2 P <> 0 -> det3 (Gcov2 go) <> 0 -> det3 (Gcov2 gd) <> 0 ->
  (close (Gcon2 (repar2 P go)) (Gcon2 (repar2 P gd)) = close (Gcon2 go) (Gcon2 gd) ->
   both (same_stress P) (eval_stress close eps epsm eig comp imp w (planar_pt go gd t p) z)
                        (eval_stress close eps epsm eig comp imp w (planar_pt (repar2 P go) (repar2 P gd) t p) z)) /\
  both (same_stiffness P) (eval_matrix eps epsm eig comp imp w (planar_pt go gd t p) z)
                          (eval_matrix eps epsm eig comp imp w (planar_pt (repar2 P go) (repar2 P gd) t p) z).
Proof.
  intros close eps epsm eig comp imp w go gd P t p z DP Do Dd. pose proof (hrel_repar2 P go gd (z * t) (z * t) DP Do Dd) as H. split.
  - intro CL. apply (stress_rel (inv2 P) 1 P _ _ _ _ H). exact CL.
  - apply (matrix_rel (inv2 P) 1 P _ _ _ _ H).
Qed.
Print Assumptions C132_planar.

(* prescribed deformation tensors *)
Theorem C132_prescribed : forall close eps epsm eig comp imp w go gd P K t p z C,
  regular go -> det2 P <> 0 -> det3 (Gcov go (side P * z * t)) <> 0 -> C 0%nat * C 1%nat - C 2%nat * C 2%nat <> 0 ->
  (close (Gcon (repar P K go) (z * t)) (Gi_of (pullC P C)) = close (Gcon go (side P * z * t)) (Gi_of C) ->
   both (same_stress P) (eval_stress_C close eps epsm eig comp imp w (shell_pt go gd t p) C (side P * z))
                        (eval_stress_C close eps epsm eig comp imp w (shell_pt (repar P K go) gd t p) (pullC P C) z)) /\
  both (same_stiffness P) (eval_matrix_C eps epsm eig comp imp w (shell_pt go gd t p) C (side P * z))
                          (eval_matrix_C eps epsm eig comp imp w (shell_pt (repar P K go) gd t p) (pullC P C) z).
Proof.
  intros close eps epsm eig comp imp w go gd P K t p z C Ro DP Do DC. rewrite Rmult_assoc in *.
  assert (D3 : det3 (G_of C) <> 0) by (unfold det3, G_of; intro X; apply DC; lra).
  pose proof (hrel_C P _ _ C (side P) (hrel_repar P K K go go (z * t) DP Ro Ro Do Do) DP D3) as H. unfold eval_stress_C, eval_matrix_C. cbn [shell_pt po pd pT pp]. rewrite Rmult_assoc. split.
  - intro CL. apply (stress_rel (inv2 P) (side P) P _ _ _ _ H). exact CL.
  - apply (matrix_rel (inv2 P) (side P) P _ _ _ _ H).
Qed.
Print Assumptions C132_prescribed.

(* a plate and the plate pulled to twice its length, in skew parameters that turn the normal over *)
Definition sq2 : geo2 := mkGeo2 (fun i c => if Nat.eqb i c then 1 else 0).
Definition sq2p : geo2 := mkGeo2 (fun i c => if Nat.eqb i c then (if Nat.eqb i 0 then 2 else 1) else 0).
Definition skew : mat := fun i j => match i, j with 0%nat, 0%nat => 1 | 0%nat, _ => 3 | _, 0%nat => 2 | _, _ => 1 end.
Lemma sq_det : det3 (Gcov2 sq2) = 1 /\ det3 (Gcov2 sq2p) = 4 /\ jac2 sq2 <> 0 /\ jac2 sq2p <> 0.
Proof. unfold det3, Gcov2, Acov2, sq2, sq2p, jac2, sum2. cbn. repeat split; lra. Qed.
Example ex_C132 : forall eps epsm eig,
  let go := flat sq2 (fun _ _ => 0) in let gd := flat sq2p (fun _ _ => 0) in let K := fun a r : nat => INR a + INR r in
  side skew = -1 /\
  both (same_stress skew) (eval_stress (fun _ _ => false) eps epsm eig true Spectral (OG [1; 0; 2; 3]) (shell_pt go gd 1 (mkPar 1 0 0)) (-1 * / 2))
     (eval_stress (fun _ _ => false) eps epsm eig true Spectral (OG [1; 0; 2; 3]) (shell_pt (repar skew K go) (repar skew K gd) 1 (mkPar 1 0 0)) (/ 2)).
Proof.
  intros eps epsm eig go gd K. assert (S : side skew = -1) by (unfold side; destruct (Rlt_dec 0 (det2 skew)) as [X|X]; [unfold det2, skew in X; lra|reflexivity]).
  split; [exact S|]. rewrite <- S. destruct sq_det as (D1 & D2 & J1 & J2).
  apply C132_stress_shell; try (apply flat_regular; assumption); try reflexivity.
  - unfold det2, skew. lra.
  - unfold go. rewrite flat_Gcov, D1. lra.
  - unfold gd. rewrite flat_Gcov, D2. lra.
Qed.

(* The hypothesis on the test gsAllCloseRelativeToMax cannot be dropped: the test compares the contravariant metrics including the
   entry (2,2), which is 1 in every parametrisation.  A parametrisation with tangents of length 10^6 makes the stress vanish. *)
Definition close_le (tol : R) (A B : mat) : bool := if Rle_dec (maxabs9 (fun i j => A i j - B i j)) (tol * Rmax (maxabs9 A) (maxabs9 B)) then true else false.
Lemma close_le_contract tol : relative_close tol (close_le tol).
Proof. intros A B. unfold close_le. destruct (Rle_dec _ _) as [X|X]; split; intro Y; try assumption; try reflexivity; [discriminate|contradiction]. Qed.
Theorem C132_close_test_refuted : exists close P K go gd p, relative_close (/ 10 ^ 12) close /\ regular go /\ regular gd /\ 0 < det2 P /\
  (forall z, det3 (Gcov go z) <> 0 /\ det3 (Gcov gd z) <> 0) /\
  forall eps epsm eig t z, exists s s',
    eval_stress close eps epsm eig false Analytical (L NH) (shell_pt go gd t p) z = Ok s /\
    eval_stress close eps epsm eig false Analytical (L NH) (shell_pt (repar P K go) (repar P K gd) t p) z = Ok s' /\
    s 0%nat <> 0 /\ forall a, s' a = 0.
Proof.
  exists (close_le (/ 10 ^ 12)), (rI (10 ^ 6)), (fun _ _ => 0), (flat sq2 (fun _ _ => 0)), (flat sq2p (fun _ _ => 0)), (mkPar 3 (/ 2) 0).
  destruct sq_det as (D1 & D2 & J1 & J2).
  split; [apply close_le_contract|]. split; [apply flat_regular; exact J1|]. split; [apply flat_regular; exact J2|].
  split; [rewrite det_rI; lra|]. split; [intro z; rewrite !flat_Gcov, D1, D2; lra|].
  intros eps epsm eig t z. set (go := flat sq2 (fun _ _ => 0)). set (gd := flat sq2p (fun _ _ => 0)). set (P := rI (10 ^ 6)).
  assert (DP : det2 P <> 0) by (apply det_rI_nz; lra).
  assert (SP : side P = 1) by (unfold side; destruct (Rlt_dec 0 (det2 P)) as [X|X]; [reflexivity|exfalso; apply X; unfold P; rewrite det_rI; lra]).
  pose proof (hrel_repar P (fun _ _ => 0) (fun _ _ => 0) go gd (z * t) DP (flat_regular _ _ J1) (flat_regular _ _ J2)) as H. rewrite SP, Rmult_1_l in H.
  specialize (H ltac:(unfold go; rewrite flat_Gcov, D1; lra) ltac:(unfold gd; rewrite flat_Gcov, D2; lra)).
  assert (ED : forall i j, hGcon (half3 go (z * t)) i j = Gcon2 sq2 i j) by (intros; cbn [half3 hGcon]; unfold go; rewrite flat_Gcon; reflexivity).
  assert (EE : forall i j, hGcon (half3 gd (z * t)) i j = Gcon2 sq2p i j) by (intros; cbn [half3 hGcon]; unfold gd; rewrite flat_Gcon; reflexivity).
  assert (V : Gcon2 sq2 0%nat 0%nat = 1 /\ Gcon2 sq2 0%nat 1%nat = 0 /\ Gcon2 sq2 1%nat 0%nat = 0 /\ Gcon2 sq2 1%nat 1%nat = 1) by (unfold Gcon2, inv3; rewrite D1; unfold Gcov2, Acov2, sq2, sum2; cbn; repeat split; lra).
  assert (V' : Gcon2 sq2p 0%nat 0%nat = / 4 /\ Gcon2 sq2p 0%nat 1%nat = 0 /\ Gcon2 sq2p 1%nat 0%nat = 0 /\ Gcon2 sq2p 1%nat 1%nat = 1 /\ Gcon2 sq2p 2%nat 2%nat = 1) by (unfold Gcon2, inv3; rewrite D2; unfold Gcov2, Acov2, sq2p, sum2; cbn; repeat split; lra).
  destruct V as (V00 & V01 & V10 & V11), V' as (W00 & W01 & W10 & W11 & W22).
  assert (GM : getM (half3 go (z * t)) (half3 gd (z * t)) = Ok (mkMetric (Gcon2 sq2) (Gcov2 sq2p) (Gcon2 sq2p) 4)).
  { unfold getM, ratio. cbn [half3 hGcov hGcon]. cbv zeta. unfold go, gd. rewrite !flat_Gcov, !flat_Gcon, D1, D2.
    destruct (Req_EM_T 1 0); [lra|]. destruct (Rle_dec 0 (4 / 1)); [|lra]. cbn [obind]. do 2 f_equal. lra. }
  assert (NC : close_le (/ 10 ^ 12) (hGcon (half3 go (z * t))) (hGcon (half3 gd (z * t))) = false).
  { unfold close_le. destruct (Rle_dec _ _) as [X|X]; [exfalso|reflexivity].
    pose proof (max9_ge (fun i j => hGcon (half3 go (z * t)) i j - hGcon (half3 gd (z * t)) i j) 0%nat 0%nat ltac:(lia) ltac:(lia)) as Y. cbv beta in Y. rewrite ED, EE, V00, W00 in Y.
    rewrite Rabs_pos_eq in Y by lra.
    assert (Z : Rmax (maxabs9 (hGcon (half3 go (z * t)))) (maxabs9 (hGcon (half3 gd (z * t)))) <= 1).
    { apply Rmax_lub; apply max9_le; try lra; intros i j Hi Hj; rewrite ?ED, ?EE; cbn [half3 hGcon];
        destruct i as [|[|[|i]]]; try lia; destruct j as [|[|[|j]]]; try lia; rewrite ?V00, ?V01, ?V10, ?V11, ?W00, ?W01, ?W10, ?W11, ?W22;
        try (unfold Gcon2, inv3; rewrite ?D1, ?D2; unfold Gcov2, Acov2, sq2, sq2p, sum2; cbn); apply Rabs_le; lra. }
    lra. }
  eexists. exists (fun _ => 0). split; [|split; [|split]].
  - unfold eval_stress. cbn [shell_pt po pd pT pp stress_pt]. unfold stress_inc. rewrite GM. cbn [obind]. rewrite NC. reflexivity.
  - unfold eval_stress. cbn [shell_pt po pd pT pp stress_pt]. unfold stress_inc.
    destruct (rel_of _ _ _ _ _ _ _ H _ GM) as (m' & GM' & _). fold go gd in GM'. rewrite GM'. cbn [obind].
    rewrite (close_far (/ 10 ^ 12) _ (10 ^ 6) 1 (half3 go (z * t)) (half3 gd (z * t)) _ _ (close_le_contract _)); [reflexivity|lra|lra|exact H|rewrite EE; exact W22|].
    intros i j Hi Hj. rewrite ED, EE. destruct i as [|[|i]]; try lia; destruct j as [|[|j]]; try lia; rewrite ?V00, ?V01, ?V10, ?V11, ?W00, ?W01, ?W10, ?W11; apply Rabs_le; lra.
  - unfold stress_out. cbn [S_i S_inc]. unfold S_inc. cbn [Gori Gdefi J0]. rewrite V00, W00. unfold mu, mu_of. cbn [pE pnu]. lra.
  - reflexivity.
Qed.
Print Assumptions C132_close_test_refuted.
