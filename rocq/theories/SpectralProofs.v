From Coq Require Import Reals Lra Lia List.
From Coquelicot Require Import Coquelicot.
From Verif Require Import Tensor MetricModel MetricSpec MetricProofs LinearModel LinearSpec LinearProofs PrincipalModel PrincipalSpec PrincipalProofs
  NonlinearModel NonlinearSpec NonlinearProofs SpectralModel SpectralSpec.
Open Scope R_scope.

(* ---------- the frame facts ---------- *)
Lemma ortho_complete (v1 v2 n u w : vec) : dot3 v1 v1 = 1 -> dot3 v2 v2 = 1 -> dot3 n n = 1 -> dot3 v1 v2 = 0 -> dot3 v1 n = 0 -> dot3 v2 n = 0 ->
  dot3 u w = dot3 u v1 * dot3 w v1 + dot3 u v2 * dot3 w v2 + dot3 u n * dot3 w n.
Proof.
  intros A B C D E F.
  pose (V := fun i => match i with 0%nat => v1 | 1%nat => v2 | _ => n end).
  assert (I1 : inverse3 V (mtr V)).
  { assert (S : forall a b, dot3 a b = dot3 b a) by (intros; unfold dot3, sum3; ring).
    intros i j Hi Hj. change (mmul3 V (mtr V) i j) with (dot3 (V i) (V j)).
    idx3 i Hi; idx3 j Hj; cbv [V delta Nat.eqb]; try assumption; rewrite S; assumption. }
  apply inv_comm in I1.
  assert (K : forall a b, (a < 3)%nat -> (b < 3)%nat -> v1 a * v1 b + v2 a * v2 b + n a * n b = delta a b).
  { intros a b Ha Hb. rewrite <- (I1 a b Ha Hb). unfold mmul3, mtr, sum3, V. reflexivity. }
  transitivity (sum3 (fun a => sum3 (fun b => u a * w b * delta a b))).
  - cbv [dot3 sum3 delta Nat.eqb]. ring.
  - cbv [sum3]. rewrite <- !K by lia. unfold dot3, sum3. ring.
Qed.

Section FRAME.
Variables (g : geo) (z : R) (C : mat) (l1 l2 : R) (v1 v2 : vec).
Hypothesis P : principal_state g z C l1 l2 v1 v2.
Let gc := gcon g z.
Let v := frame3 v1 v2 (gc 2%nat).
Definition qf := pr gc v.

Lemma gc2_normal a : (a < 3)%nat -> gc 2%nat a = normal g a.
Proof.
  intro Ha. unfold gc, gcon, Gcon. cbn [gcov].
  assert (D : det3 (Gcov g z) = det2 (Gcov g z)) by (unfold det3, det2, Gcov; ring).
  assert (N : det3 (Gcov g z) <> 0) by apply P.
  assert (E0 : inv3 (Gcov g z) 2%nat 0%nat = 0) by (unfold inv3, Gcov; unfold Rdiv; ring).
  assert (E1 : inv3 (Gcov g z) 2%nat 1%nat = 0) by (unfold inv3, Gcov; unfold Rdiv; ring).
  assert (E2 : inv3 (Gcov g z) 2%nat 2%nat = 1).
  { unfold inv3. change (det2 (Gcov g z) / det3 (Gcov g z) = 1). rewrite <- D. field. exact N. }
  rewrite E0, E1, E2. ring.
Qed.

Lemma fr : frame (gcov g z) gc. Proof. destruct P as (A & B & _). now apply shell_frame. Qed.
Lemma normal_unit : dot3 (normal g) (normal g) = 1. Proof. exact (proj1 (proj2 fr)). Qed.
Lemma gc_normal i : (i < 2)%nat -> dot3 (gc i) (normal g) = 0.
Proof.
  intro Hi. destruct fr as (D & _ & _). 
  assert (S : dot3 (gc i) (normal g) = dot3 (gcov g z 2%nat) (gc i)) by (cbn [gcov]; unfold dot3, sum3; ring).
  rewrite S. rewrite (D 2%nat i) by lia. idx2 i Hi; reflexivity.
Qed.
Lemma dot_gc2 u : dot3 u (gc 2%nat) = dot3 u (normal g).
Proof. unfold dot3, sum3. rewrite !gc2_normal by lia. reflexivity. Qed.
Lemma dot_sym (u w : vec) : dot3 u w = dot3 w u. Proof. unfold dot3, sum3. ring. Qed.

Lemma Gcon_gram i j : (i < 3)%nat -> (j < 3)%nat -> Gcon g z i j = dot3 (gc i) (gc j).
Proof.
  intros Hi Hj. destruct fr as (D & _ & _).
  (* gc i = sum_k Gcon i k gcov k *)
  transitivity (sum3 (fun k => Gcon g z i k * dot3 (gcov g z k) (gc j))).
  - unfold sum3. rewrite !(D _ j) by lia. idx3 j Hj; cbv [delta Nat.eqb]; ring.
  - unfold gc at 2. unfold gcon, dot3, sum3. ring.
Qed.

Lemma q_ori i j : (i < 2)%nat -> (j < 2)%nat -> Gcon g z i j = qf i 0%nat * qf j 0%nat + qf i 1%nat * qf j 1%nat.
Proof.
  intros Hi Hj. rewrite Gcon_gram by lia. destruct P as (_ & _ & (_ & _ & _ & A & B & D & E & F)).
  rewrite (ortho_complete v1 v2 (normal g) (gc i) (gc j) A B normal_unit D E F).
  rewrite !gc_normal by assumption. unfold qf, pr, v, frame3. ring.
Qed.
Lemma q_def a b : (a < 2)%nat -> (b < 2)%nat -> sum2 (fun k => sum2 (fun l => C k l * qf k a * qf l b)) = if Nat.eqb a b then (triple l1 l2 1 a) ^ 2 else 0.
Proof.
  intros Ha Hb. destruct P as (_ & _ & (_ & X & Y & A & B & D & E & F)).
  pose proof (Bten_quad C gc (v b) (v a)) as Q. unfold qf, pr. rewrite <- Q.
  assert (M : forall w, dot3 w (mvec3 (Bten C gc) (v b)) = (triple l1 l2 1 b) ^ 2 * dot3 w (v b)).
  { intro w. unfold dot3, sum3. idx2 b Hb; cbn [v frame3 triple].
    - unfold gc. rewrite !X by lia. ring.
    - unfold gc. rewrite !Y by lia. ring. }
  rewrite M. idx2 a Ha; idx2 b Hb; cbn [v frame3 triple Nat.eqb]; rewrite ?A, ?B, ?D, ?(dot_sym v2 v1), ?D; ring.
Qed.
Lemma q_2 a : (a < 2)%nat -> qf 2%nat a = 0.
Proof.
  intro Ha. unfold qf, pr. rewrite dot_sym, dot_gc2. destruct P as (_ & _ & (_ & _ & _ & _ & _ & _ & E & F)).
  idx2 a Ha; assumption.
Qed.
Lemma q_i2 i : (i < 2)%nat -> qf i 2%nat = 0.
Proof. intro Hi. unfold qf, pr, v, frame3. rewrite dot_gc2. now apply gc_normal. Qed.
Lemma q_22 : qf 2%nat 2%nat = 1.
Proof. unfold qf, pr, v, frame3. rewrite dot_gc2, dot_sym, dot_gc2. exact normal_unit. Qed.
End FRAME.

(* ---------- 2x2 algebra: q^T C q = diag  ==>  C^-1 = q diag^-1 q^T ---------- *)
Lemma inv_comm2 a b c d e f x y : a * e + b * x = 1 -> a * f + b * y = 0 -> c * e + d * x = 0 -> c * f + d * y = 1 ->
  e * a + f * c = 1 /\ e * b + f * d = 0 /\ x * a + y * c = 0 /\ x * b + y * d = 1.
Proof.
  intros H1 H2 H3 H4.
  assert (D : (a * d - b * c) * (e * y - f * x) = 1).
  { transitivity ((a * e + b * x) * (c * f + d * y) - (a * f + b * y) * (c * e + d * x)); [ring|]. rewrite H1, H2, H3, H4. ring. }
  set (D1 := a * d - b * c) in *.
  assert (N : D1 <> 0) by (intro E; rewrite E in D; lra).
  assert (Ee : e = d / D1). { apply (Rmult_eq_reg_r D1); [|exact N]. transitivity (d * (a * e + b * x) - b * (c * e + d * x)); [unfold D1; ring|]. rewrite H1, H3. field. exact N. }
  assert (Ex : x = - c / D1). { apply (Rmult_eq_reg_r D1); [|exact N]. transitivity (a * (c * e + d * x) - c * (a * e + b * x)); [unfold D1; ring|]. rewrite H1, H3. field. exact N. }
  assert (Ef : f = - b / D1). { apply (Rmult_eq_reg_r D1); [|exact N]. transitivity (d * (a * f + b * y) - b * (c * f + d * y)); [unfold D1; ring|]. rewrite H2, H4. field. exact N. }
  assert (Ey : y = a / D1). { apply (Rmult_eq_reg_r D1); [|exact N]. transitivity (a * (c * f + d * y) - c * (a * f + b * y)); [unfold D1; ring|]. rewrite H2, H4. field. exact N. }
  rewrite Ee, Ex, Ef, Ey. unfold D1 in *. repeat split; field; exact N.
Qed.

Lemma congruence_inverse (C q : mat) (m1 m2 : R) : m1 <> 0 -> m2 <> 0 ->
  (forall a b, (a < 2)%nat -> (b < 2)%nat -> sum2 (fun k => sum2 (fun l => C k l * q k a * q l b)) = if Nat.eqb a b then triple m1 m2 1 a else 0) ->
  det2 C * (det2 q * det2 q) = m1 * m2 /\ det2 C <> 0 /\
  forall i j, (i < 2)%nat -> (j < 2)%nat -> inv2 C i j = q i 0%nat * q j 0%nat / m1 + q i 1%nat * q j 1%nat / m2.
Proof.
  intros N1 N2 H.
  pose proof (H 0 0 ltac:(lia) ltac:(lia))%nat as H00. pose proof (H 0 1 ltac:(lia) ltac:(lia))%nat as H01.
  pose proof (H 1 0 ltac:(lia) ltac:(lia))%nat as H10. pose proof (H 1 1 ltac:(lia) ltac:(lia))%nat as H11.
  cbn [sum2 Nat.eqb triple] in *. unfold sum2 in *. clear H.
  assert (D : det2 C * (det2 q * det2 q) = m1 * m2 /\ forall i j, (i < 2)%nat -> (j < 2)%nat ->
     C i 0%nat * (q 0%nat 0%nat * q j 0%nat / m1 + q 0%nat 1%nat * q j 1%nat / m2) + C i 1%nat * (q 1%nat 0%nat * q j 0%nat / m1 + q 1%nat 1%nat * q j 1%nat / m2) = delta i j).
  { unfold det2.
    set (a := C 0%nat 0%nat) in *. set (b := C 0%nat 1%nat) in *. set (c := C 1%nat 0%nat) in *. set (d := C 1%nat 1%nat) in *.
    set (x := q 0%nat 0%nat) in *. set (y := q 0%nat 1%nat) in *. set (u := q 1%nat 0%nat) in *. set (w := q 1%nat 1%nat) in *.
    split.
    - transitivity ((a * x * x + b * x * u + (c * u * x + d * u * u)) * (a * y * y + b * y * w + (c * w * y + d * w * w))
                - (a * x * y + b * x * w + (c * u * y + d * u * w)) * (a * y * x + b * y * u + (c * w * x + d * w * u))).
      + ring. + rewrite H00, H11, H01, H10. ring.
    - destruct (inv_comm2 x u y w ((a * x + b * u) / m1) ((a * y + b * w) / m2) ((c * x + d * u) / m1) ((c * y + d * w) / m2)) as (K1 & K2 & K3 & K4).
      + transitivity ((a * x * x + b * x * u + (c * u * x + d * u * u)) / m1); [field; exact N1|]. rewrite H00. field. exact N1.
      + transitivity ((a * x * y + b * x * w + (c * u * y + d * u * w)) / m2); [field; exact N2|]. rewrite H01. field. exact N2.
      + transitivity ((a * y * x + b * y * u + (c * w * x + d * w * u)) / m1); [field; exact N1|]. rewrite H10. field. exact N1.
      + transitivity ((a * y * y + b * y * w + (c * w * y + d * w * w)) / m2); [field; exact N2|]. rewrite H11. field. exact N2.
      + intros i j Hi Hj. idx2 i Hi; idx2 j Hj; cbv [delta Nat.eqb]; fold a b c d x y u w.
        * rewrite <- K1. field. split; assumption.
        * rewrite <- K2. field. split; assumption.
        * rewrite <- K3. field. split; assumption.
        * rewrite <- K4. field. split; assumption. }
  destruct D as (D & Y). split; [exact D|].
  assert (NC : det2 C <> 0). { intro E. rewrite E in D. apply (Rmult_integral_contrapositive_currified _ _ N1 N2). lra. }
  split; [exact NC|]. intros i j Hi Hj.
  set (Yj := fun k => q k 0%nat * q j 0%nat / m1 + q k 1%nat * q j 1%nat / m2).
  change (inv2 C i j = Yj i).
  pose proof (Y 0%nat j ltac:(lia) Hj) as Y0. pose proof (Y 1%nat j ltac:(lia) Hj) as Y1.
  change (C 0%nat 0%nat * Yj 0%nat + C 0%nat 1%nat * Yj 1%nat = delta 0 j) in Y0.
  change (C 1%nat 0%nat * Yj 0%nat + C 1%nat 1%nat * Yj 1%nat = delta 1 j) in Y1.
  assert (E0 : Yj 0%nat = (C 1%nat 1%nat * delta 0 j - C 0%nat 1%nat * delta 1 j) / det2 C).
  { rewrite <- Y0, <- Y1. unfold det2. field. exact NC. }
  assert (E1 : Yj 1%nat = (C 0%nat 0%nat * delta 1 j - C 1%nat 0%nat * delta 0 j) / det2 C).
  { rewrite <- Y0, <- Y1. unfold det2. field. exact NC. }
  idx2 i Hi; rewrite ?E0, ?E1; idx2 j Hj; cbv [delta Nat.eqb inv2]; field; exact NC.
Qed.

(* ---------- what the laws read, in terms of the principal frame ---------- *)
Record spectral (m : metric) (q : mat) (l1 l2 : R) : Prop := {
  sp_pos : 0 < l1 /\ 0 < l2;
  sp_ori : forall i j, (i < 2)%nat -> (j < 2)%nat -> Gori m i j = q i 0%nat * q j 0%nat + q i 1%nat * q j 1%nat;
  sp_defi : forall i j, (i < 2)%nat -> (j < 2)%nat -> Gdefi m i j = q i 0%nat * q j 0%nat / l1 ^ 2 + q i 1%nat * q j 1%nat / l2 ^ 2;
  sp_tr : traceCt m = l1 ^ 2 + l2 ^ 2;
  sp_J : J0 m = l1 ^ 2 * l2 ^ 2 }.

Lemma state_spectral g z G l1 l2 v1 v2 : shell_G G -> principal_state g z G l1 l2 v1 v2 ->
  spectral (metric_of (Gcov g z) G) (pr (gcon g z) (frame3 v1 v2 (gcon g z 2%nat))) l1 l2.
Proof.
  intros SG P. set (q := pr _ _).
  assert (PL : 0 < l1 /\ 0 < l2) by (destruct P as (_ & _ & ((A & B) & _)); lra).
  assert (N1 : l1 ^ 2 <> 0) by (apply pow_nonzero; lra). assert (N2 : l2 ^ 2 <> 0) by (apply pow_nonzero; lra).
  pose proof (q_ori g z G l1 l2 v1 v2 P) as QO. pose proof (q_def g z G l1 l2 v1 v2 P) as QD.
  change (qf g z v1 v2) with q in *.
  destruct (congruence_inverse G q (l1 ^ 2) (l2 ^ 2) N1 N2) as (D & NG & I).
  { intros a b Ha Hb. rewrite (QD a b Ha Hb). idx2 a Ha; idx2 b Hb; reflexivity. }
  assert (EO : det2 (Gcov g z) * (det2 q * det2 q) = 1).
  { assert (EG : det2 (Gcon g z) = det2 q * det2 q).
    { unfold det2. rewrite !QO by lia. ring. }
    rewrite <- EG. unfold Gcon, det2 at 2, inv3.
    assert (E3 : det3 (Gcov g z) = det2 (Gcov g z)) by (unfold det3, det2, Gcov; ring).
    assert (N : det2 (Gcov g z) <> 0) by (rewrite <- E3; apply P).
    rewrite E3. unfold det2 in *. unfold Gcov in *. field. exact N. }
  split; [exact PL|exact QO| | |]; cbn [metric_of Gori Gdef Gdefi J0].
  - intros i j Hi Hj. rewrite inv3_shell by assumption. now apply I.
  - unfold traceCt. cbn [metric_of Gori Gdef]. change (inv3 (Gcov g z)) with (Gcon g z). rewrite !QO by lia.
    pose proof (QD 0%nat 0%nat ltac:(lia) ltac:(lia)) as H0. pose proof (QD 1%nat 1%nat ltac:(lia) ltac:(lia)) as H1.
    cbn [Nat.eqb triple] in *. rewrite <- H0, <- H1. unfold sum2. ring.
  - rewrite (det3_shell1 G SG). assert (E3 : det3 (Gcov g z) = det2 (Gcov g z)) by (unfold det3, det2, Gcov; ring).
    rewrite E3. rewrite <- D. assert (N : det2 (Gcov g z) <> 0) by (rewrite <- E3; apply P).
    assert (Q : det2 q * det2 q = / det2 (Gcov g z)). { apply (Rmult_eq_reg_l (det2 (Gcov g z))); [|exact N]. rewrite EO. field. exact N. }
    rewrite Q. reflexivity.
Qed.

(* ---------- agreement with the analytical laws ---------- *)
Definition stretches_i (l1 l2 : R) : vec := triple l1 l2 (/ (l1 * l2)).
Ltac pick i j Hi Hj := rewrite ?(sp_ori _ _ _ _ _ i j Hi Hj), ?(sp_defi _ _ _ _ _ i j Hi Hj).

Lemma spec_S_inc w p m q l1 l2 i j : spectral m q l1 l2 -> w <> NHe -> (i < 2)%nat -> (j < 2)%nat ->
  sum2 (fun a => Sa_i (L w) p (stretches_i l1 l2) a * (q i a * q j a)) = S_inc w p m i j.
Proof.
  intros [(P1 & P2) HO HD HT HJ] Hw Hi Hj.
  destruct w; [| |congruence]; unfold S_inc; rewrite HJ, ?HT, HO, HD by assumption;
    cbv [Sa_i dPsi_da_i pr_p dJ_da dI1a dI2a sI1 stretches_i triple sum2]; field; repeat split; lra.
Qed.

Lemma near_eq_refl s a b : s a = s b -> s a <> 0 -> near_eq s a b = true.
Proof.
  intros E N. unfold near_eq. rewrite <- E. replace ((s a - s a) / s a) with 0 by (field; exact N). rewrite Rabs_R0.
  destruct (Rlt_dec 0 (/ 10 ^ 14)) as [|K]; [reflexivity|]. exfalso. apply K. apply Rinv_0_lt_compat. apply pow_lt. lra.
Qed.
Lemma near_neq s a b : s a <> 0 -> near_eq s a b = false -> s a <> s b.
Proof.
  intros N H E. unfold near_eq in H. replace (s a - s b) with 0 in H by lra. unfold Rdiv in H. rewrite Rmult_0_l, Rabs_R0 in H.
  destruct (Rlt_dec 0 (/ 10 ^ 14)) as [|K]; [discriminate|]. apply K. apply Rinv_0_lt_compat. apply pow_lt. lra.
Qed.
Lemma sq_neq a b : 0 < a -> 0 < b -> a <> b -> b ^ 2 - a ^ 2 <> 0.
Proof. intros A B N E. assert (K : (b - a) * (b + a) = 0) by (rewrite <- E; ring). apply Rmult_integral in K. destruct K; lra. Qed.

Lemma spec_C_inc w p m q l1 l2 i j k l : spectral m q l1 l2 -> w <> NHe -> (i < 2)%nat -> (j < 2)%nat -> (k < 2)%nat -> (l < 2)%nat ->
  (l1 = l2 \/ near_eq (stretches_i l1 l2) 0 1 = false) ->
  let C := Cabcd_i (L w) p (stretches_i l1 l2) in
  project (fun a => C a a a a) (C 0%nat 0%nat 1%nat 1%nat) (C 0%nat 1%nat 0%nat 1%nat) q i j k l = C_inc w p m i j k l.
Proof.
  intros [(P1 & P2) HO HD HT HJ] Hw Hi Hj Hk Hl HE C.
  assert (EQ : quotient (stretches_i l1 l2) (Sa_i (L w) p (stretches_i l1 l2)) (dSa_db_i (L w) p (stretches_i l1 l2)) 0 1 =
    match w with NH => mu p / (l1 ^ 4 * l2 ^ 4) | _ => (c1 p + c2 p * (l1 ^ 2 + l2 ^ 2)) / (l1 ^ 4 * l2 ^ 4) - c2 p end).
  { unfold quotient. destruct HE as [HE|HE].
    - subst l2.
      assert (NE : near_eq (stretches_i l1 l1) 0 1 = true) by (apply (near_eq_refl (stretches_i l1 l1) 0); [reflexivity|cbn; lra]).
      rewrite NE. destruct w; [| |congruence];
      cbv [Sa_i dSa_db_i dPsi_da_i d2Psi_dab_i dp_da pr_p dJ_da d2J_dab dI1a dI2a sI1 d2I1 d2I2 idelta delta Nat.eqb stretches_i triple sum2]; field; repeat split; lra.
    - rewrite HE. assert (NL := near_neq (stretches_i l1 l2) 0 1 ltac:(cbn; lra) HE). cbn in NL.
      pose proof (sq_neq l1 l2 P1 P2 NL) as NS.
      destruct w; [| |congruence];
      cbv [Sa_i dSa_db_i dPsi_da_i d2Psi_dab_i dp_da pr_p dJ_da d2J_dab dI1a dI2a sI1 d2I1 d2I2 idelta delta Nat.eqb stretches_i triple sum2]; field; repeat split; lra. }
  assert (ES : C 0%nat 1%nat 0%nat 1%nat = match w with NH => mu p / (l1 ^ 4 * l2 ^ 4) | _ => (c1 p + c2 p * (l1 ^ 2 + l2 ^ 2)) / (l1 ^ 4 * l2 ^ 4) - c2 p end)
    by (rewrite <- EQ; reflexivity).
  assert (EN : forall a c, (a < 2)%nat -> (c < 2)%nat -> C a a c c = 1 / stretches_i l1 l2 c * dSa_db_i (L w) p (stretches_i l1 l2) a c
    + 1 / ((stretches_i l1 l2 a) ^ 2 * (stretches_i l1 l2 c) ^ 2) * ((stretches_i l1 l2 2%nat) ^ 2 * d2Psi_dab_i (L w) p (stretches_i l1 l2) 2 2 + 2 * dPsi_da_i (L w) p (stretches_i l1 l2) 2 * stretches_i l1 l2 2%nat)).
  { intros a c Ha Hc. unfold C, Cabcd_i. rewrite !Nat.eqb_refl. reflexivity. }
  unfold project. rewrite ES, !EN by lia. clearbody C. clear ES EN EQ HE C.
  destruct w; [| |congruence]; unfold C_inc, X4, dX4; rewrite HJ, ?HT, ?HO, ?HD by assumption;
    cbv [dSa_db_i dPsi_da_i d2Psi_dab_i dp_da pr_p dJ_da d2J_dab dI1a dI2a sI1 d2I1 d2I2 idelta delta Nat.eqb stretches_i triple].
  - field. repeat split; lra.
  - field. repeat split; lra.
Qed.

(* ---------- compressible ---------- *)
Record spectral3 (m : metric) (q : mat) (l1 l2 : R) : Prop := {
  sp3 : spectral m q l1 l2;
  sp3_2 : forall a, (a < 2)%nat -> q 2%nat a = 0 /\ q a 2%nat = 0;
  sp3_22 : q 2%nat 2%nat = 1;
  sp3_G : Gori m 2%nat 2%nat = 1 }.

Lemma state_spectral3 g z G l1 l2 v1 v2 : shell_G G -> principal_state g z G l1 l2 v1 v2 ->
  spectral3 (metric_of (Gcov g z) G) (pr (gcon g z) (frame3 v1 v2 (gcon g z 2%nat))) l1 l2.
Proof.
  intros SG P. split.
  - now apply state_spectral.
  - intros a Ha. split; [exact (q_2 g z G l1 l2 v1 v2 P a Ha)|exact (q_i2 g z G l1 l2 v1 v2 P a Ha)].
  - exact (q_22 g z G l1 l2 v1 v2 P).
  - cbn [metric_of Gori]. apply inv3_shell_33.
    + repeat split; unfold Gcov; try reflexivity. unfold Bcov, Acov, dot3, sum3. ring.
    + destruct P as (_ & N & _). assert (E : det3 (Gcov g z) = det2 (Gcov g z)) by (unfold det3, det2, Gcov; ring). rewrite <- E. exact N.
Qed.

Section COMP.
Variables (m : metric) (q : mat) (l1 l2 l3 : R) (p : par).
Hypothesis SP : spectral3 m q l1 l2.
Hypothesis P3 : 0 < l3.
Let s := triple l1 l2 l3.
Let J := J_sq m (l3 ^ 2).

Lemma J_val : J = (l1 * l2 * l3) ^ 2.
Proof. unfold J, J_sq. rewrite (sp_J _ _ _ _ (sp3 _ _ _ _ SP)). ring. Qed.

Lemma spec_S_comp w i j : shell_pair i j -> sum3 (fun a => Sa_c (L w) p s J a * (q i a * q j a)) = S_comp w p m (l3 ^ 2) i j.
Proof.
  destruct SP as [[(P1 & P2) HO HD HT HJ] H2 H22 HG]. intros [(Hi & Hj)|(-> & ->)].
  - assert (E2 : sum3 (fun a => Sa_c (L w) p s J a * (q i a * q j a)) = sum2 (fun a => Sa_c (L w) p s J a * (q i a * q j a))).
    { unfold sum3, sum2. rewrite (proj2 (H2 i Hi)). ring. }
    rewrite E2. assert (CI : cinvmat m (l3 ^ 2) i j = q i 0%nat * q j 0%nat / l1 ^ 2 + q i 1%nat * q j 1%nat / l2 ^ 2).
    { rewrite <- (HD i j Hi Hj). idx2 i Hi; idx2 j Hj; reflexivity. }
    assert (DI : dI_2 m (l3 ^ 2) i j = l3 ^ 2 * Gori m i j + J0 m * cinvmat m (l3 ^ 2) i j).
    { unfold dI_2, idelta, dI_1. idx2 i Hi; idx2 j Hj; cbv [delta Nat.eqb]; ring. }
    unfold S_comp. fold J. rewrite CI, ?DI, ?CI, HO by assumption. unfold I_1, I_2. rewrite HT, ?HJ.
    clear E2 CI DI. generalize J. intro J'. 
    destruct w; cbv [Sa_c dPsi_da_c dPsi_da_vol dI1a dI2a sI1 sI2 s triple sum2]; field; lra.
  - unfold sum3. rewrite (proj1 (H2 0%nat ltac:(lia))), (proj1 (H2 1%nat ltac:(lia))), H22.
    unfold S_comp. fold J. assert (DI : dI_2 m (l3 ^ 2) 2%nat 2%nat = traceCt m) by (unfold dI_2, idelta; cbv [delta Nat.eqb]; ring).
    rewrite DI, HG. unfold I_1, I_2. rewrite HT, ?HJ. cbn [cinvmat]. clear DI. generalize J. intro J'. 
    destruct w; cbv [Sa_c dPsi_da_c dPsi_da_vol dI1a dI2a sI1 sI2 s triple]; field; lra.
Qed.

Definition quot_c (w : law) : R :=
  match w with
  | NH => 2 / 3 * mu p * Rpower J (- (1 / 3)) * (1 / 2) * sI1 s / (l1 ^ 2 * l2 ^ 2) - bulk p * (1 / 2) * (J - 1) / (l1 ^ 2 * l2 ^ 2)
  | MR => 2 / 3 * c1 p * Rpower J (- (1 / 3)) * (1 / 2) * sI1 s / (l1 ^ 2 * l2 ^ 2)
          + c2 p * Rpower J (- (2 / 3)) * (2 / 3 * sI2 s / (l1 ^ 2 * l2 ^ 2) - 1) - bulk p * (1 / 2) * (J - 1) / (l1 ^ 2 * l2 ^ 2)
  | NHe => mu p / (l1 ^ 2 * l2 ^ 2) - lam p / 2 * (J - 1) / (l1 ^ 2 * l2 ^ 2)
  end.

Lemma quotient_c w : (l1 = l2 \/ near_eq s 0 1 = false) -> quotient s (Sa_c (L w) p s J) (dSa_db_c (L w) p s J) 0 1 = quot_c w.
Proof.
  destruct SP as [[(P1 & P2) _ _ _ _] _ _ _]. pose proof J_val as JV. intro HE. unfold quotient.
  destruct HE as [HE|HE].
  - assert (NE : near_eq s 0 1 = true) by (apply near_eq_refl; [exact HE|cbn; lra]).
    rewrite NE. clear NE. unfold quot_c. subst l2. destruct w;
    cbv [dSa_db_c dPsi_da_c d2Psi_dab_c dPsi_da_vol d2Psi_dab_vol dI1a dI2a sI1 sI2 d2I1 d2I2 idelta delta Nat.eqb s triple];
    generalize (Rpower J (- (1 / 3))) as A, (Rpower J (- (2 / 3))) as B; intros; rewrite JV; field; lra.
  - rewrite HE. assert (NL := near_neq s 0 1 ltac:(cbn; lra) HE). cbn in NL. pose proof (sq_neq l1 l2 P1 P2 NL) as NS.
    unfold quot_c. destruct w;
    cbv [Sa_c dPsi_da_c dPsi_da_vol dI1a dI2a sI1 sI2 idelta delta Nat.eqb s triple];
    generalize (Rpower J (- (1 / 3))) as A, (Rpower J (- (2 / 3))) as B; intros; rewrite JV; field; repeat split; lra.
Qed.

Lemma spec_C3D w i j k l : (i < 2)%nat -> (j < 2)%nat -> (k < 2)%nat -> (l < 2)%nat -> (l1 = l2 \/ near_eq s 0 1 = false) ->
  let C := Cabcd_c (L w) p s J in
  project (fun a => C a a a a) (C 0%nat 0%nat 1%nat 1%nat) (C 0%nat 1%nat 0%nat 1%nat) q i j k l = C3D w p m (l3 ^ 2) i j k l.
Proof.
  intros Hi Hj Hk Hl HE C. pose proof (quotient_c w HE) as EQ. pose proof J_val as JV.
  destruct SP as [[(P1 & P2) HO HD HT HJ] H2 H22 HG].
  assert (ES : C 0%nat 1%nat 0%nat 1%nat = quot_c w) by (rewrite <- EQ; reflexivity).
  assert (EN : forall a c, C a a c c = 1 / s c * dSa_db_c (L w) p s J a c).
  { intros a c. unfold C, Cabcd_c. rewrite !Nat.eqb_refl. reflexivity. }
  unfold project. rewrite ES, !EN. clearbody C. clear ES EN EQ HE C.
  assert (CI : forall i j, (i < 2)%nat -> (j < 2)%nat -> cinvmat m (l3 ^ 2) i j = q i 0%nat * q j 0%nat / l1 ^ 2 + q i 1%nat * q j 1%nat / l2 ^ 2).
  { intros a b Ha Hb. rewrite <- (HD a b Ha Hb). idx2 a Ha; idx2 b Hb; reflexivity. }
  assert (DI : forall i j, (i < 2)%nat -> (j < 2)%nat -> dI_2 m (l3 ^ 2) i j = l3 ^ 2 * Gori m i j + J0 m * cinvmat m (l3 ^ 2) i j).
  { intros a b Ha Hb. unfold dI_2, idelta, dI_1. idx2 a Ha; idx2 b Hb; cbv [delta Nat.eqb]; ring. }
  assert (D2 : d2I_2 m (l3 ^ 2) i j k l = let ci := cinvmat m (l3 ^ 2) in J0 m * (ci i j * ci k l + dX4 ci i j k l)).
  { assert (Z : forall x, (x < 2)%nat -> delta x 2 = 0 /\ idelta x 2 = 1).
    { intros x Hx. unfold idelta. idx2 x Hx; cbv [delta Nat.eqb]; split; ring. }
    unfold d2I_2. rewrite !(proj1 (Z i Hi)), !(proj1 (Z k Hk)), !(proj2 (Z i Hi)), !(proj2 (Z j Hj)), !(proj2 (Z k Hk)), !(proj2 (Z l Hl)). cbv zeta. ring. }
  unfold C3D. fold J. rewrite D2. cbv zeta. rewrite !DI by assumption. unfold dI_1, dX4. rewrite !CI, !HO by assumption. unfold I_1, I_2. rewrite HT, ?HJ.
  clear CI DI D2. unfold quot_c.
  destruct w; cbv [dSa_db_c dPsi_da_c d2Psi_dab_c dPsi_da_vol d2Psi_dab_vol dI1a dI2a sI1 sI2 d2I1 d2I2 idelta delta Nat.eqb s triple];
  generalize (Rpower J (- (1 / 3))) as A, (Rpower J (- (2 / 3))) as B; intros; rewrite JV; field; lra.
Qed.

Lemma spec_C3D_22 w i j : (i < 2)%nat -> (j < 2)%nat ->
  let C := Cabcd_c (L w) p s J in
  sum2 (fun a => C a a 2%nat 2%nat * (q i a * q j a)) = C3D w p m (l3 ^ 2) i j 2%nat 2%nat /\
  sum2 (fun a => C 2%nat 2%nat a a * (q i a * q j a)) = C3D w p m (l3 ^ 2) 2%nat 2%nat i j.
Proof.
  intros Hi Hj C. pose proof J_val as JV.
  destruct SP as [[(P1 & P2) HO HD HT HJ] H2 H22 HG].
  assert (EN : forall a c, C a a c c = 1 / s c * dSa_db_c (L w) p s J a c).
  { intros a c. unfold C, Cabcd_c. rewrite !Nat.eqb_refl. reflexivity. }
  unfold sum2. rewrite !EN. clearbody C. clear EN C.
  assert (CI : forall i j, (i < 2)%nat -> (j < 2)%nat -> cinvmat m (l3 ^ 2) i j = q i 0%nat * q j 0%nat / l1 ^ 2 + q i 1%nat * q j 1%nat / l2 ^ 2).
  { intros a b Ha Hb. rewrite <- (HD a b Ha Hb). idx2 a Ha; idx2 b Hb; reflexivity. }
  assert (DI : forall i j, (i < 2)%nat -> (j < 2)%nat -> dI_2 m (l3 ^ 2) i j = l3 ^ 2 * Gori m i j + J0 m * cinvmat m (l3 ^ 2) i j).
  { intros a b Ha Hb. unfold dI_2, idelta, dI_1. idx2 a Ha; idx2 b Hb; cbv [delta Nat.eqb]; ring. }
  assert (DI2 : dI_2 m (l3 ^ 2) 2%nat 2%nat = traceCt m) by (unfold dI_2, idelta; cbv [delta Nat.eqb]; ring).
  assert (Z : forall x, (x < 2)%nat -> delta x 2 = 0 /\ idelta x 2 = 1).
  { intros x Hx. unfold idelta. idx2 x Hx; cbv [delta Nat.eqb]; split; ring. }
  assert (Z2 : delta 2 2 = 1 /\ idelta 2 2 = 0) by (unfold idelta; cbv [delta Nat.eqb]; split; ring).
  assert (D2 : d2I_2 m (l3 ^ 2) i j 2%nat 2%nat = Gori m i j /\ d2I_2 m (l3 ^ 2) 2%nat 2%nat i j = Gori m i j).
  { unfold d2I_2. rewrite !(proj1 (Z i Hi)), !(proj1 (Z j Hj)), !(proj2 (Z i Hi)), !(proj2 (Z j Hj)), !(proj1 Z2), !(proj2 Z2). cbv zeta. unfold dI_1. split; ring. }
  assert (C2 : forall a, (a < 2)%nat -> cinvmat m (l3 ^ 2) a 2%nat = 0 /\ cinvmat m (l3 ^ 2) 2%nat a = 0).
  { intros a Ha. idx2 a Ha; split; reflexivity. }
  assert (C22 : cinvmat m (l3 ^ 2) 2%nat 2%nat = 1 / l3 ^ 2) by reflexivity.
  unfold C3D. fold J. rewrite !(proj1 D2), !(proj2 D2). cbv zeta. rewrite !DI2, !DI by assumption. unfold dI_1, dX4.
  rewrite ?(proj1 (C2 i Hi)), ?(proj1 (C2 j Hj)), ?(proj2 (C2 i Hi)), ?(proj2 (C2 j Hj)), !C22, !HG.
  rewrite !CI, !HO by assumption. unfold I_1, I_2. rewrite HT, ?HJ.
  clear CI DI D2 C2 C22 DI2 Z Z2.
  split; destruct w; cbv [dSa_db_c dPsi_da_c d2Psi_dab_c dPsi_da_vol d2Psi_dab_vol dI1a dI2a sI1 sI2 d2I1 d2I2 idelta delta Nat.eqb s triple];
  generalize (Rpower J (- (1 / 3))) as A, (Rpower J (- (2 / 3))) as B; intros; rewrite JV; field; lra.
Qed.

Lemma spec_C3333 w : C3333_spec (L w) p s J = C3D w p m (l3 ^ 2) 2%nat 2%nat 2%nat 2%nat.
Proof.
  pose proof J_val as JV. destruct SP as [[(P1 & P2) HO HD HT HJ] H2 H22 HG].
  assert (EN : C3333_spec (L w) p s J = 1 / s 2%nat * dSa_db_c (L w) p s J 2 2) by reflexivity.
  rewrite EN. clear EN.
  assert (DI2 : dI_2 m (l3 ^ 2) 2%nat 2%nat = traceCt m) by (unfold dI_2, idelta; cbv [delta Nat.eqb]; ring).
  assert (D2 : d2I_2 m (l3 ^ 2) 2%nat 2%nat 2%nat 2%nat = 0) by (unfold d2I_2, idelta; cbv [delta Nat.eqb]; ring).
  assert (C22 : cinvmat m (l3 ^ 2) 2%nat 2%nat = 1 / l3 ^ 2) by reflexivity.
  unfold C3D. fold J. rewrite D2, DI2. unfold dI_1, dX4. rewrite C22, HG. unfold I_1, I_2. rewrite HT, ?HJ. clear C22 D2 DI2.
  destruct w; cbv [dSa_db_c dPsi_da_c d2Psi_dab_c dPsi_da_vol d2Psi_dab_vol dI1a dI2a sI1 sI2 d2I1 d2I2 idelta delta Nat.eqb s triple];
  generalize (Rpower J (- (1 / 3))) as A, (Rpower J (- (2 / 3))) as B; intros; rewrite JV; field; lra.
Qed.

Lemma spec_C_comp w i j k l : (i < 2)%nat -> (j < 2)%nat -> (k < 2)%nat -> (l < 2)%nat -> (l1 = l2 \/ near_eq s 0 1 = false) ->
  let C := Cabcd_c (L w) p s J in
  project (fun a => C a a a a - (C 2%nat 2%nat a a) ^ 2 / C 2%nat 2%nat 2%nat 2%nat)
          (C 0%nat 0%nat 1%nat 1%nat - C 0%nat 0%nat 2%nat 2%nat * C 2%nat 2%nat 1%nat 1%nat / C 2%nat 2%nat 2%nat 2%nat)
          (C 0%nat 1%nat 0%nat 1%nat - (C 2%nat 2%nat 0%nat 1%nat) ^ 2 / C 2%nat 2%nat 2%nat 2%nat) q i j k l
  = condense (C3D w p m (l3 ^ 2)) i j k l.
Proof.
  intros Hi Hj Hk Hl HE C. unfold condense.
  rewrite <- (spec_C3D w i j k l Hi Hj Hk Hl HE), <- (proj1 (spec_C3D_22 w i j Hi Hj)), <- (proj2 (spec_C3D_22 w k l Hk Hl)), <- spec_C3333.
  change (C3333_spec (L w) p s J) with (C 2%nat 2%nat 2%nat 2%nat). fold C. cbv zeta.
  assert (Z : C 2%nat 2%nat 0%nat 1%nat = 0) by reflexivity.
  assert (SY : forall a, (a < 2)%nat -> C 2%nat 2%nat a a = C a a 2%nat 2%nat).
  { pose proof J_val as JV. destruct SP as [[(P1 & P2) HO HD HT HJ] H2 H22 HG]. intros a Ha. unfold C, Cabcd_c. cbn [Nat.eqb andb]. rewrite Nat.eqb_refl.
    idx2 a Ha; destruct w; cbv [dSa_db_c dPsi_da_c d2Psi_dab_c dPsi_da_vol d2Psi_dab_vol dI1a dI2a sI1 sI2 d2I1 d2I2 idelta delta Nat.eqb s triple andb];
    generalize (Rpower J (- (1 / 3))) as A, (Rpower J (- (2 / 3))) as B; intros; rewrite ?JV; field; lra. }
  rewrite Z. unfold project, sum2, Rdiv. generalize (/ C 2%nat 2%nat 2%nat 2%nat). intro r.
  rewrite !SY by lia. ring.
Qed.
End COMP.
