(* Proofs for ReparProps: how the members of a configuration change with the parametrisation and with the unit of length. *)
From Coq Require Import Reals Lra Lia Arith Bool List FunctionalExtensionality.
From Verif Require Import Tensor MetricModel MetricSpec MetricProofs LinearModel LinearSpec NonlinearModel NonlinearSpec NonlinearProofs PrincipalModel PrincipalSpec SpectralModel Newton33Model SizeModel PtModel ReparSpec ReparTens ReparProofs.
Import ListNotations.
Open Scope R_scope.

Lemma inv2_l P i j : det2 P <> 0 -> (i < 2)%nat -> (j < 2)%nat -> sum2 (fun a => inv2 P i a * P a j) = delta i j.
Proof. intros D Hi Hj. destruct i as [|[|i]]; try lia; destruct j as [|[|j]]; try lia; unfold sum2, inv2, delta; cbn [Nat.eqb]; unfold det2 in *; field; exact D. Qed.
Lemma inv2_r P i j : det2 P <> 0 -> (i < 2)%nat -> (j < 2)%nat -> sum2 (fun a => P i a * inv2 P a j) = delta i j.
Proof. intros D Hi Hj. destruct i as [|[|i]]; try lia; destruct j as [|[|j]]; try lia; unfold sum2, inv2, delta; cbn [Nat.eqb]; unfold det2 in *; field; exact D. Qed.
Definition pb (P M : mat) (i j : nat) : R := sum2 (fun a => sum2 (fun b => P a i * P b j * M a b)).
Lemma det2_pb P M M' : (forall i j, (i < 2)%nat -> (j < 2)%nat -> M' i j = pb P M i j) -> det2 M' = det2 P * det2 P * det2 M.
Proof. intro E. unfold det2. rewrite !E by lia. unfold pb, sum2. ring. Qed.
Lemma inv2_pb P M M' : (forall i j, (i < 2)%nat -> (j < 2)%nat -> M' i j = pb P M i j) -> det2 P <> 0 -> det2 M <> 0 ->
  forall i j, (i < 2)%nat -> (j < 2)%nat -> inv2 M' i j = sum2 (fun a => sum2 (fun b => inv2 P i a * inv2 P j b * inv2 M a b)).
Proof.
  intros E DP DM i j Hi Hj. pose proof (det2_pb _ _ _ E) as X.
  destruct i as [|[|i]]; try lia; destruct j as [|[|j]]; try lia; unfold inv2, sum2; rewrite X, !E by lia; unfold pb, sum2; field; auto.
Qed.
Section Shell.
Variables (P M M' : mat) (s : R).
Hypothesis DP : det2 P <> 0.
Hypothesis SS : s * s = 1.
Hypothesis E : forall i j, (i < 2)%nat -> (j < 2)%nat -> M' i j = pb P M i j.
Hypothesis SM : shell_G M.
Hypothesis SM' : shell_G M'.
Hypothesis DM : det2 M <> 0.
Lemma det3_pb : det3 M' = det2 P * det2 P * det3 M.
Proof. rewrite !det3_shell1 by assumption. apply det2_pb, E. Qed.
Lemma dm' : det2 M' <> 0.
Proof. rewrite (det2_pb _ _ _ E). intro X. apply Rmult_integral in X as [X|X]; [apply Rmult_integral in X as [X|X]|]; contradiction. Qed.
Lemma sh_inv N : shell_G N -> sh (inv3 N).
Proof. intro S. destruct (inv3_shell_0 N 0 S) as (a & b); [lia|]. destruct (inv3_shell_0 N 1 S) as (c & d); [lia|]. unfold sh. auto. Qed.
Lemma inv3_T2 : T2 (blk (inv2 P) s) (inv3 M) (inv3 M').
Proof.
  assert (X : forall i j, (i < 2)%nat -> (j < 2)%nat -> inv3 M' i j = sum2 (fun a => sum2 (fun b => inv2 P i a * inv2 P j b * inv3 M a b))).
  { intros i j Hi Hj. rewrite inv3_shell by assumption. rewrite (inv2_pb _ _ _ E DP DM) by assumption. unfold sum2. rewrite !(inv3_shell M) by (assumption || lia). reflexivity. }
  destruct (sh_inv _ SM) as (a & b & c & d), (sh_inv _ SM') as (a' & b' & c' & d').
  assert (Z : inv3 M 2%nat 2%nat = 1) by (apply inv3_shell_33; assumption).
  assert (Z' : inv3 M' 2%nat 2%nat = 1) by (apply inv3_shell_33; [assumption|apply dm']).
  intros i j Hi Hj. destruct i as [|[|[|i]]]; try lia; destruct j as [|[|[|j]]]; try lia; rewrite ?X by lia; unfold sum3, sum2; cbn [blk]; rewrite ?a, ?b, ?c, ?d, ?a', ?b', ?c', ?d', ?Z, ?Z'; try ring.
  rewrite SS. ring.
Qed.
Lemma inv3_symm N : shell_G N -> symmetric 3 (inv3 N).
Proof.
  intros S i j Hi Hj. apply inv3_sym; [|assumption|assumption]. destruct S as ((q & r & t & u & v) & _).
  intros a b Ha Hb. destruct a as [|[|[|a]]]; try lia; destruct b as [|[|[|b]]]; try lia; congruence.
Qed.
(* dual bases *)
Variables (b b' : nat -> vec).
Hypothesis B01 : forall i c, (i < 2)%nat -> b' i c = sum2 (fun a => P a i * b a c).
Hypothesis B2 : forall c, b' 2%nat c = s * b 2%nat c.
Lemma con_rel i c : (i < 3)%nat -> conbasis M' b' i c = sum3 (fun a => blk (inv2 P) s i a * conbasis M b a c).
Proof.
  intro Hi. unfold conbasis. rewrite B2. rewrite !B01 by lia. rewrite !(inv3_T2 i) by lia.
  pose proof (inv2_r P 0%nat 0%nat DP ltac:(lia) ltac:(lia)) as I00. pose proof (inv2_r P 0%nat 1%nat DP ltac:(lia) ltac:(lia)) as I01.
  pose proof (inv2_r P 1%nat 0%nat DP ltac:(lia) ltac:(lia)) as I10. pose proof (inv2_r P 1%nat 1%nat DP ltac:(lia) ltac:(lia)) as I11.
  unfold sum3, sum2, delta in *. cbn [Nat.eqb] in *. set (q0 := blk (inv2 P) s i 0%nat). set (q1 := blk (inv2 P) s i 1%nat). set (q2 := blk (inv2 P) s i 2%nat). clearbody q0 q1 q2. cbn [blk].
  revert I00 I01 I10 I11.
  generalize (P 0%nat 0%nat) (P 0%nat 1%nat) (P 1%nat 0%nat) (P 1%nat 1%nat) (inv2 P 0%nat 0%nat) (inv2 P 0%nat 1%nat) (inv2 P 1%nat 0%nat) (inv2 P 1%nat 1%nat).
  intros p00 p01 p10 p11 r00 r01 r10 r11 I00 I01 I10 I11.
  generalize (inv3 M 0%nat 0%nat) (inv3 M 0%nat 1%nat) (inv3 M 0%nat 2%nat) (inv3 M 1%nat 0%nat) (inv3 M 1%nat 1%nat) (inv3 M 1%nat 2%nat) (inv3 M 2%nat 0%nat) (inv3 M 2%nat 1%nat) (inv3 M 2%nat 2%nat) (b 0%nat c) (b 1%nat c) (b 2%nat c).
  intros m00 m01 m02 m10 m11 m12 m20 m21 m22 b0 b1 b2.
  transitivity (q0 * (m00 * ((p00 * r00 + p01 * r10) * b0 + (p10 * r00 + p11 * r10) * b1) + m01 * ((p00 * r01 + p01 * r11) * b0 + (p10 * r01 + p11 * r11) * b1) + s * s * m02 * b2)
   + q1 * (m10 * ((p00 * r00 + p01 * r10) * b0 + (p10 * r00 + p11 * r10) * b1) + m11 * ((p00 * r01 + p01 * r11) * b0 + (p10 * r01 + p11 * r11) * b1) + s * s * m12 * b2)
   + q2 * (m20 * ((p00 * r00 + p01 * r10) * b0 + (p10 * r00 + p11 * r10) * b1) + m21 * ((p00 * r01 + p01 * r11) * b0 + (p10 * r01 + p11 * r11) * b1) + s * s * m22 * b2)); [ring|].
  rewrite I00, I01, I10, I11, SS. ring.
Qed.
End Shell.

(* halves of shell form *)
Lemma hrel_of P s ho hd ho' hd' : det2 P <> 0 -> s * s = 1 ->
  shell_G (hGcov ho) -> shell_G (hGcov hd) -> shell_G (hGcov ho') -> shell_G (hGcov hd') ->
  hGcon ho = inv3 (hGcov ho) -> hGcon hd = inv3 (hGcov hd) -> hGcon ho' = inv3 (hGcov ho') -> hGcon hd' = inv3 (hGcov hd') ->
  (forall i j, (i < 2)%nat -> (j < 2)%nat -> hGcov ho' i j = pb P (hGcov ho) i j) ->
  (forall i j, (i < 2)%nat -> (j < 2)%nat -> hGcov hd' i j = pb P (hGcov hd) i j) ->
  det3 (hGcov ho) <> 0 -> det3 (hGcov hd) <> 0 ->
  (forall i c, (i < 3)%nat -> hgcon ho' i c = sum3 (fun a => blk (inv2 P) s i a * hgcon ho a c)) ->
  hrel (inv2 P) s P ho hd ho' hd'.
Proof.
  intros DP SS So Sd So' Sd' Eo Ed Eo' Ed' Po Pd Do Dd G.
  assert (Do2 : det2 (hGcov ho) <> 0) by (rewrite <- det3_shell1; assumption). assert (Dd2 : det2 (hGcov hd) <> 0) by (rewrite <- det3_shell1; assumption).
  constructor; try assumption; try (rewrite ?Eo, ?Ed; auto using sh_inv, inv3_symm; fail).
  - intros; apply inv2_l; assumption.
  - intros; apply inv2_r; assumption.
  - rewrite Eo, Eo'. apply inv3_T2; assumption.
  - rewrite Ed, Ed'. apply inv3_T2; assumption.
  - apply det3_pb; assumption.
  - apply det3_pb; assumption.
  - rewrite Eo. apply inv3_shell_33; assumption.
Qed.

(* ---------- change of parametrisation of a shell ---------- *)
Section Repar.
Variables (P : mat) (K : nat -> nat -> R) (g : geo).
Hypothesis DP : det2 P <> 0.
Hypothesis RG : regular g.
Notation s := (side P).
Notation g' := (repar P K g).
Lemma side_sq : s * s = 1. Proof. unfold side. destruct (Rlt_dec 0 (det2 P)); ring. Qed.
Lemma side_abs : Rabs (det2 P) = s * det2 P.
Proof. unfold side. destruct (Rlt_dec 0 (det2 P)); [rewrite Rabs_pos_eq by lra; ring|rewrite Rabs_left by lra; ring]. Qed.
Lemma cross_repar c : cross3 (tang g' 0) (tang g' 1) c = det2 P * cross3 (tang g 0) (tang g 1) c.
Proof. unfold repar, cross3, det2, sum2. cbn [tang]. destruct c as [|[|c]]; ring. Qed.
Lemma regular_repar : regular g'.
Proof. destruct RG as (c & Hc & X). exists c. split; [exact Hc|]. rewrite cross_repar. intro Z. apply Rmult_integral in Z as [Z|Z]; contradiction. Qed.
Lemma normal_repar c : normal g' c = s * normal g c.
Proof.
  rewrite (normal_eq _ regular_repar), (normal_eq _ RG). rewrite cross_repar.
  assert (E : norm3 (cross3 (tang g' 0) (tang g' 1)) = s * det2 P * norm3 (cross3 (tang g 0) (tang g 1))).
  { unfold norm3. replace (dot3 (cross3 (tang g' 0) (tang g' 1)) (cross3 (tang g' 0) (tang g' 1)))
      with ((det2 P)² * dot3 (cross3 (tang g 0) (tang g 1)) (cross3 (tang g 0) (tang g 1))) by (unfold dot3, sum3; rewrite !cross_repar; unfold Rsqr; ring).
    rewrite sqrt_mult by (apply Rle_0_sqr || apply dot3_self_nonneg). rewrite sqrt_Rsqr_abs, side_abs. reflexivity. }
  rewrite E. pose proof (norm_cross_pos _ RG) as N. pose proof side_sq as SS.
  assert (s <> 0) by (intro Z; rewrite Z in SS; lra).
  transitivity (/ s * (cross3 (tang g 0) (tang g 1) c / norm3 (cross3 (tang g 0) (tang g 1)))); [field; repeat split; lra|].
  f_equal. apply (Rmult_eq_reg_l s); [|assumption]. rewrite SS. field. assumption.
Qed.
Lemma Acov_repar i j : Acov g' i j = pb P (Acov g) i j.
Proof. unfold Acov, repar, pb, dot3, sum3, sum2. cbn [tang]. ring. Qed.
Lemma Bcov_repar i j : (i < 2)%nat -> (j < 2)%nat -> Bcov g' i j = s * pb P (Bcov g) i j.
Proof.
  intros Hi Hj.
  assert (O : forall a, (a < 2)%nat -> dot3 (tang g a) (normal g) = 0) by (intros; apply normal_orth; assumption).
  assert (X : forall r, dot3 (der2 g' r) (normal g') = s * (sum2 (fun a => sum2 (fun b => P a (fst (row_pair r)) * P b (snd (row_pair r)) * dot3 (dd g a b) (normal g))))).
  { intro r. pose proof (O 0%nat ltac:(lia)) as O0. pose proof (O 1%nat ltac:(lia)) as O1.
    transitivity (s * (sum2 (fun a => sum2 (fun b => P a (fst (row_pair r)) * P b (snd (row_pair r)) * dot3 (dd g a b) (normal g))) + K 0%nat r * dot3 (tang g 0) (normal g) + K 1%nat r * dot3 (tang g 1) (normal g))).
    - unfold dot3, sum3. rewrite !normal_repar. unfold repar, sum2. cbn [der2]. ring.
    - rewrite O0, O1. ring. }
  destruct i as [|[|i]]; try lia; destruct j as [|[|j]]; try lia; unfold Bcov at 1; rewrite X; cbn [row_pair fst snd]; unfold pb, sum2; cbn [dd]; unfold Bcov; ring.
Qed.
Lemma mixed_repar i j : (i < 2)%nat -> (j < 2)%nat -> mixedB g' i j = s * sum2 (fun a => sum2 (fun b => inv2 P i a * P b j * mixedB g a b)).
Proof.
  intros Hi Hj. unfold mixedB at 1. rewrite !Bcov_repar by lia. unfold Acon. pose proof (det2_Acov_pos g RG) as DA.
  rewrite !(inv2_pb P (Acov g) (Acov g')) by (try (intros; apply Acov_repar); assumption || lra || lia).
  pose proof (inv2_r P 0%nat 0%nat DP ltac:(lia) ltac:(lia)) as I00. pose proof (inv2_r P 0%nat 1%nat DP ltac:(lia) ltac:(lia)) as I01.
  pose proof (inv2_r P 1%nat 0%nat DP ltac:(lia) ltac:(lia)) as I10. pose proof (inv2_r P 1%nat 1%nat DP ltac:(lia) ltac:(lia)) as I11.
  unfold pb, mixedB, Acon, sum2, delta in *. cbn [Nat.eqb] in *. 
  set (q0 := inv2 P i 0%nat). set (q1 := inv2 P i 1%nat). clearbody q0 q1. set (u0 := P 0%nat j). set (u1 := P 1%nat j). clearbody u0 u1.
  revert I00 I01 I10 I11.
  generalize (P 0%nat 0%nat) (P 0%nat 1%nat) (P 1%nat 0%nat) (P 1%nat 1%nat) (inv2 P 0%nat 0%nat) (inv2 P 0%nat 1%nat) (inv2 P 1%nat 0%nat) (inv2 P 1%nat 1%nat).
  intros p00 p01 p10 p11 r00 r01 r10 r11 I00 I01 I10 I11.
  generalize (inv2 (Acov g) 0%nat 0%nat) (inv2 (Acov g) 0%nat 1%nat) (inv2 (Acov g) 1%nat 0%nat) (inv2 (Acov g) 1%nat 1%nat) (Bcov g 0%nat 0%nat) (Bcov g 0%nat 1%nat) (Bcov g 1%nat 0%nat) (Bcov g 1%nat 1%nat).
  intros m00 m01 m10 m11 b00 b01 b10 b11.
  transitivity (s * ((q0 * m00 + q1 * m10) * ((p00 * r00 + p01 * r10) * (u0 * b00 + u1 * b01) + (p10 * r00 + p11 * r10) * (u0 * b10 + u1 * b11))
    + (q0 * m01 + q1 * m11) * ((p00 * r01 + p01 * r11) * (u0 * b00 + u1 * b01) + (p10 * r01 + p11 * r11) * (u0 * b10 + u1 * b11)))); [ring|].
  rewrite I00, I01, I10, I11. ring.
Qed.
Lemma ncov_repar i c : (i < 2)%nat -> ncov g' i c = s * sum2 (fun a => P a i * ncov g a c).
Proof.
  intro Hi. unfold ncov at 1. rewrite !mixed_repar by lia.
  pose proof (inv2_r P 0%nat 0%nat DP ltac:(lia) ltac:(lia)) as I00. pose proof (inv2_r P 0%nat 1%nat DP ltac:(lia) ltac:(lia)) as I01.
  pose proof (inv2_r P 1%nat 0%nat DP ltac:(lia) ltac:(lia)) as I10. pose proof (inv2_r P 1%nat 1%nat DP ltac:(lia) ltac:(lia)) as I11.
  unfold repar, ncov, sum2, delta in *. cbn [Nat.eqb tang] in *. set (u0 := P 0%nat i). set (u1 := P 1%nat i). clearbody u0 u1.
  revert I00 I01 I10 I11.
  generalize (P 0%nat 0%nat) (P 0%nat 1%nat) (P 1%nat 0%nat) (P 1%nat 1%nat) (inv2 P 0%nat 0%nat) (inv2 P 0%nat 1%nat) (inv2 P 1%nat 0%nat) (inv2 P 1%nat 1%nat).
  intros p00 p01 p10 p11 r00 r01 r10 r11 I00 I01 I10 I11.
  generalize (mixedB g 0%nat 0%nat) (mixedB g 0%nat 1%nat) (mixedB g 1%nat 0%nat) (mixedB g 1%nat 1%nat) (tang g 0%nat c) (tang g 1%nat c).
  intros m00 m01 m10 m11 t0 t1.
  transitivity (- s * ((m00 * u0 + m01 * u1) * ((p00 * r00 + p01 * r10) * t0 + (p10 * r00 + p11 * r10) * t1) + (m10 * u0 + m11 * u1) * ((p00 * r01 + p01 * r11) * t0 + (p10 * r01 + p11 * r11) * t1))); [ring|].
  rewrite I00, I01, I10, I11. ring.
Qed.
Lemma gcov_repar z i c : (i < 2)%nat -> gcov g' z i c = sum2 (fun a => P a i * gcov g (s * z) a c).
Proof.
  intro Hi. destruct i as [|[|i]]; try lia; cbn [gcov]; rewrite ncov_repar by lia; unfold sum2; cbn [gcov]; unfold repar, sum2; cbn [tang]; ring.
Qed.
Lemma Gcov_shell h z : shell_G (Gcov h z).
Proof.
  unfold shell_G, shell_shape. cbn [Gcov]. repeat split; try reflexivity. unfold Acov. rewrite (Bcov_sym h 0 1), (dot3_comm (tang h 0)), (dot3_comm (ncov h 0)) by lia. reflexivity.
Qed.
Lemma Gcov_repar z i j : (i < 2)%nat -> (j < 2)%nat -> Gcov g' z i j = pb P (Gcov g (s * z)) i j.
Proof.
  intros Hi Hj. rewrite (Gcov_gram _ z regular_repar) by lia. unfold dot3 at 1, sum3 at 1. rewrite !gcov_repar by assumption.
  unfold pb, sum2. rewrite !(Gcov_gram _ (s * z) RG) by lia. unfold dot3, sum3. ring.
Qed.
Lemma gcon_repar z i c : det3 (Gcov g (s * z)) <> 0 -> (i < 3)%nat -> gcon g' z i c = sum3 (fun a => blk (inv2 P) s i a * gcon g (s * z) a c).
Proof.
  intros D Hi. apply (con_rel P (Gcov g (s * z)) (Gcov g' z) s DP side_sq (Gcov_repar z) (Gcov_shell g (s * z)) (Gcov_shell g' z)); [rewrite <- det3_Gcov; exact D|intros; apply gcov_repar; assumption| |exact Hi].
  intro c'. cbn [gcov]. apply normal_repar.
Qed.
End Repar.

Lemma hrel_repar P Ko Kd go gd z : det2 P <> 0 -> regular go -> regular gd ->
  det3 (Gcov go (side P * z)) <> 0 -> det3 (Gcov gd (side P * z)) <> 0 ->
  hrel (inv2 P) (side P) P (half3 go (side P * z)) (half3 gd (side P * z)) (half3 (repar P Ko go) z) (half3 (repar P Kd gd) z).
Proof.
  intros DP Ro Rd Do Dd. apply hrel_of; cbn [half3 hGcov hGcon hgcon]; try reflexivity; try assumption; try apply Gcov_shell.
  - apply side_sq.
  - intros; apply Gcov_repar; assumption.
  - intros; apply Gcov_repar; assumption.
  - intros; apply gcon_repar; assumption.
Qed.

(* ---------- planar elements ---------- *)
Lemma Gcov2_shell g : shell_G (Gcov2 g).
Proof. unfold shell_G, shell_shape. cbn [Gcov2]. repeat split; try reflexivity. unfold Acov2, sum2. ring. Qed.
Lemma hrel_repar2 P go gd z z' : det2 P <> 0 -> det3 (Gcov2 go) <> 0 -> det3 (Gcov2 gd) <> 0 ->
  hrel (inv2 P) 1 P (half2 go z) (half2 gd z) (half2 (repar2 P go) z') (half2 (repar2 P gd) z').
Proof.
  intros DP Do Dd.
  assert (E : forall g i j, (i < 2)%nat -> (j < 2)%nat -> Gcov2 (repar2 P g) i j = pb P (Gcov2 g) i j).
  { intros g i j Hi Hj. destruct i as [|[|i]]; try lia; destruct j as [|[|j]]; try lia; unfold pb, sum2; cbn [Gcov2]; unfold Acov2, repar2, sum2; cbn [tang2]; ring. }
  apply hrel_of; cbn [half2 hGcov hGcon hgcon]; try reflexivity; try assumption; try apply Gcov2_shell; try (intros; apply E; assumption); [ring|].
  intros i c Hi. apply (con_rel P (Gcov2 go) (Gcov2 (repar2 P go)) 1 DP (Rmult_1_l 1) (E go) (Gcov2_shell _) (Gcov2_shell _)); [rewrite <- det3_shell1; [exact Do|apply Gcov2_shell]| | |exact Hi].
  - intros a d Ha. destruct a as [|[|a]]; try lia; unfold sum2; cbn [gcov2]; destruct d as [|[|d]]; unfold repar2, sum2; cbn [tang2]; ring.
  - intro d. cbn [gcov2]. destruct d as [|[|d]]; ring.
Qed.

(* ---------- prescribed deformation tensor ---------- *)
Lemma Gi_inv C : det2 (G_of C) <> 0 -> Gi_of C = inv3 (G_of C).
Proof.
  intro D. apply functional_extensionality; intro i. apply functional_extensionality; intro j.
  assert (S : shell_G (G_of C)) by (unfold shell_G, shell_shape; cbn [G_of]; repeat split).
  unfold Gi_of, inv3, inv2. rewrite det3_shell1 by exact S. destruct i as [|[|i]]; destruct j as [|[|j]]; cbn [G_of]; unfold Rdiv; try ring; rewrite ?Rmult_0_l.
  all: try (unfold det2, G_of in D |- *; field; exact D).
Qed.
Lemma G_of_shell C : shell_G (G_of C). Proof. unfold shell_G, shell_shape; cbn [G_of]; repeat split. Qed.
Lemma hrel_C P ho ho' C s : hrel (inv2 P) s P ho ho ho' ho' -> det2 P <> 0 -> det3 (G_of C) <> 0 -> hrel (inv2 P) s P ho (halfC C) ho' (halfC (pullC P C)).
Proof.
  intros H DP D. assert (D2 : det2 (G_of C) <> 0) by (rewrite <- det3_shell1 by apply G_of_shell; exact D).
  assert (E : forall i j, (i < 2)%nat -> (j < 2)%nat -> G_of (pullC P C) i j = pb P (G_of C) i j).
  { intros i j Hi Hj. destruct i as [|[|i]]; try lia; destruct j as [|[|j]]; try lia; unfold pb, pullC, sum2; cbn [G_of row_pair fst snd]; unfold pullback2, sum2; ring. }
  assert (D2' : det2 (G_of (pullC P C)) <> 0) by (exact (dm' P _ _ DP E D2)).
  assert (SS := h_s _ _ _ _ _ _ _ H).
  destruct H. constructor; cbn [halfC hGcov hGcon]; try assumption.
  - rewrite !Gi_inv by assumption. apply inv3_T2; auto using G_of_shell.
  - apply det3_pb; auto using G_of_shell.
  - rewrite Gi_inv by assumption. apply sh_inv, G_of_shell.
  - rewrite Gi_inv by assumption. apply inv3_symm, G_of_shell.
Qed.
