(* The search interval of the wrinkling angle: trigonometry of the arcs. *)
From Coq Require Import Reals List Bool Arith Lra Lia Psatz ZArith.
From Verif Require Import Tensor BatchModel TFTModel TFTIvModel TFTSpec.
Import ListNotations.
Open Scope R_scope.

(* --- cosine on arcs --- *)
Lemma cos_abs : forall x, cos (Rabs x) = cos x.
Proof. intros x. unfold Rabs. destruct (Rcase_abs x). apply cos_neg. reflexivity. Qed.
Lemma cos_dec : forall x y, 0 <= x -> x <= y -> y <= PI -> cos y <= cos x.
Proof. intros x y H1 H2 H3. destruct (Req_dec x y) as [->|]; [lra|]. left. apply cos_decreasing_1; lra. Qed.
Lemma cos_decs : forall x y, 0 <= x -> x < y -> y <= PI -> cos y < cos x.
Proof. intros. apply cos_decreasing_1; lra. Qed.
Lemma arc_in : forall x a, a <= PI -> Rabs x < a -> cos a < cos x.
Proof. intros x a Ha H. rewrite <- (cos_abs x). apply cos_decs; try lra. apply Rabs_pos. Qed.
Lemma arc_in_c : forall x a, a <= PI -> Rabs x <= a -> cos a <= cos x.
Proof. intros x a Ha H. rewrite <- (cos_abs x). apply cos_dec; try lra. apply Rabs_pos. Qed.
Lemma arc_in_inv : forall x a, 0 <= a -> Rabs x <= PI -> cos a < cos x -> Rabs x < a.
Proof.
  intros x a Ha Hx H. destruct (Rlt_dec (Rabs x) a) as [L|L]; [exact L|].
  assert (cos (Rabs x) <= cos a) by (apply cos_dec; lra). rewrite cos_abs in H0. lra.
Qed.
Lemma cos_2pi_sub : forall x, cos (2 * PI - x) = cos x.
Proof. intros x. rewrite cos_minus, cos_2PI, sin_2PI. ring. Qed.
Lemma cos_shift : forall x k, cos (x + 2 * PI * IZR k) = cos x.
Proof.
  assert (P : forall n x, cos (x + 2 * INR n * PI) = cos x) by (intros; apply cos_period).
  intros x k. destruct (Z_le_gt_dec 0 k).
  - rewrite <- (Z2Nat.id k) by lia. rewrite <- INR_IZR_INZ. rewrite <- (P (Z.to_nat k) x). f_equal. ring.
  - rewrite <- (P (Z.to_nat (- k)) (x + 2 * PI * IZR k)). f_equal. rewrite INR_IZR_INZ, Z2Nat.id, opp_IZR by lia. ring.
Qed.
Lemma arc_out : forall x b, 0 <= b -> b < x < 2 * PI - b -> cos x < cos b.
Proof.
  intros x b Hb (H1 & H2). destruct (Rle_dec x PI).
  - apply cos_decs; lra.
  - rewrite <- (cos_2pi_sub x). apply cos_decs; lra.
Qed.
Lemma arc_out_c : forall x b, 0 <= b -> b <= x <= 2 * PI - b -> cos x <= cos b.
Proof.
  intros x b Hb (H1 & H2). destruct (Rle_dec x PI).
  - apply cos_dec; lra.
  - rewrite <- (cos_2pi_sub x). apply cos_dec; lra.
Qed.
Lemma arc_out_inv : forall x b, 0 <= b <= PI -> 0 <= x <= 2 * PI -> cos x < cos b -> b < x < 2 * PI - b.
Proof.
  intros x b Hb Hx H. split.
  - destruct (Rlt_dec b x); [assumption|]. assert (cos b <= cos x) by (apply cos_dec; lra). lra.
  - destruct (Rlt_dec x (2 * PI - b)); [assumption|]. assert (cos b <= cos (2 * PI - x)) by (apply cos_dec; lra). rewrite cos_2pi_sub in H0. lra.
Qed.

(* --- atan2 --- *)
Lemma atan2p_range : forall s c, 0 <= atan2p s c <= PI.
Proof. intros. unfold atan2p. destruct Req_EM_T. generalize PI_RGT_0; lra. apply acos_bound. Qed.
Lemma unit_bound : forall s c, c * c + s * s <> 0 -> - 1 <= c / sqrt (c * c + s * s) <= 1.
Proof.
  intros s c H. assert (P : 0 < c * c + s * s) by (assert (0 <= c * c + s * s) by nra; lra).
  assert (Q := sqrt_lt_R0 _ P). assert (S := sqrt_sqrt _ (Rlt_le _ _ P)). set (r := sqrt (c * c + s * s)) in *.
  assert (A : (c / r) * (c / r) <= 1).
  { replace (c / r * (c / r)) with (c * c / (r * r)) by (field; lra). apply Rmult_le_reg_r with (r * r); [nra|].
    unfold Rdiv. rewrite Rmult_assoc, Rinv_l by nra. nra. }
  split; nra.
Qed.
Lemma atan2p_polar : forall s c, 0 <= s -> c * c + s * s <> 0 ->
  sqrt (c * c + s * s) * cos (atan2p s c) = c /\ sqrt (c * c + s * s) * sin (atan2p s c) = s.
Proof.
  intros s c Hs H. assert (B := unit_bound s c H).
  assert (P : 0 < c * c + s * s) by (assert (0 <= c * c + s * s) by nra; lra).
  assert (Q := sqrt_lt_R0 _ P). assert (S := sqrt_sqrt _ (Rlt_le _ _ P)).
  unfold atan2p. destruct Req_EM_T as [e|e]; [contradiction|].
  rewrite cos_acos, sin_acos by exact B. set (r := sqrt (c * c + s * s)) in *. split. field; lra.
  replace (1 - (c / r)²) with ((s / r) * (s / r)). 2:{ unfold Rsqr. apply Rmult_eq_reg_r with (r * r); [|nra]. field_simplify; nra. }
  rewrite sqrt_square. field; lra. apply Rmult_le_pos; [exact Hs|]. left. apply Rinv_0_lt_compat. exact Q.
Qed.
Lemma atan2_polar : forall z s c, c * c + s * s <> 0 ->
  sqrt (c * c + s * s) * cos (atan2 z s c) = c /\ sqrt (c * c + s * s) * sin (atan2 z s c) = s.
Proof.
  intros z s c H. unfold atan2. destruct (Rlt_dec s 0) as [L|L].
  - replace (c * c + s * s) with (c * c + - s * - s) in * by ring. destruct (atan2p_polar (- s) c) as (A & B); [lra|exact H|].
    rewrite cos_neg, sin_neg. lra.
  - destruct (Req_EM_T s 0) as [e|e].
    + destruct (atan2p_polar s c) as (A & B); [lra|exact H|]. destruct z; [rewrite cos_neg, sin_neg; split; lra|lra].
    + apply atan2p_polar; [lra|exact H].
Qed.
(* with radius r *)
Lemma atan2_radius : forall z r s c, 0 < r -> r * r = c * c + s * s -> r * cos (atan2 z s c) = c /\ r * sin (atan2 z s c) = s.
Proof.
  intros z r s c Hr H. assert (H0 : c * c + s * s <> 0) by nra. assert (E := atan2_polar z s c H0).
  replace (sqrt (c * c + s * s)) with r in E; [exact E|]. rewrite <- H. symmetry. apply sqrt_square. lra.
Qed.
Lemma atan2_opp : forall s c, 0 <= s -> atan2 true (- s) c = - atan2 false s c.
Proof.
  intros s c H. unfold atan2. destruct (Req_EM_T s 0) as [e|e].
  - subst s. rewrite Ropp_0. destruct (Rlt_dec 0 0); [lra|]. destruct (Req_EM_T 0 0); [reflexivity|lra].
  - destruct (Rlt_dec (- s) 0); [|lra]. destruct (Rlt_dec s 0); [lra|]. rewrite Ropp_involutive. reflexivity.
Qed.
Lemma atan2_pos : forall s c, 0 <= s -> atan2 false s c = atan2p s c.
Proof. intros s c H. unfold atan2. destruct (Rlt_dec s 0); [lra|]. destruct (Req_EM_T s 0); reflexivity. Qed.

(* --- the half angle of the arc where a quadratic form changes sign --- *)
Lemma csqrt_nn : forall x, 0 <= csqrt_re x.
Proof. intros. unfold csqrt_re. destruct Rlt_dec. lra. apply sqrt_pos. Qed.
Lemma half_arc : forall p q w r, 0 < r -> r * r = ((p - q) / 2) ^ 2 + w * w ->
  let c := - (p + q) / (2 * r) in let al := atan2 false (csqrt_re (w * w - p * q) / r) c in
  0 <= al <= PI /\ (0 < al -> c <= cos al) /\ (al < PI -> cos al <= c).
Proof.
  intros p q w r Hr H c al.
  assert (S0 : 0 <= csqrt_re (w * w - p * q) / r) by (apply Rmult_le_pos; [apply csqrt_nn|left; apply Rinv_0_lt_compat; exact Hr]).
  assert (RA : 0 <= al <= PI) by (unfold al; rewrite atan2_pos by exact S0; apply atan2p_range).
  split; [exact RA|].
  assert (CC : c * c * (r * r) = (p + q) ^ 2 / 4) by (unfold c; field; lra).
  destruct (Rlt_dec (w * w - p * q) 0) as [L|L].
  - (* no direction without stretch *)
    assert (Z : csqrt_re (w * w - p * q) / r = 0) by (unfold csqrt_re; destruct Rlt_dec; [unfold Rdiv; ring|contradiction]).
    assert (C1 : 1 < c * c) by nra.
    assert (A : al = acos (c / sqrt (c * c + 0 * 0))).
    { unfold al. rewrite Z, atan2_pos by lra. unfold atan2p. destruct Req_EM_T; [nra|reflexivity]. }
    replace (c * c + 0 * 0) with (c²) in A by (unfold Rsqr; ring). rewrite sqrt_Rsqr_abs in A.
    destruct (Rlt_dec 0 c) as [P|P].
    + rewrite Rabs_right in A by lra. replace (c / c) with 1 in A by (field; lra). rewrite acos_1 in A. rewrite A, cos_0. split; [lra|]. intros _. nra.
    + rewrite Rabs_left in A by nra. replace (c / - c) with (- (1)) in A by (field; nra). rewrite acos_opp, acos_1 in A.
      rewrite A, Rminus_0_r, cos_PI. split; [intros _; nra|lra].
  - assert (SS : csqrt_re (w * w - p * q) / r * (csqrt_re (w * w - p * q) / r) * (r * r) = w * w - p * q).
    { unfold csqrt_re. destruct Rlt_dec; [contradiction|]. set (g := sqrt (w * w - p * q)). assert (g * g = w * w - p * q) by (apply sqrt_sqrt; lra).
      rewrite <- H0. field. lra. }
    destruct (atan2_radius false 1 (csqrt_re (w * w - p * q) / r) c) as (A & _); [lra| |].
    { apply Rmult_eq_reg_r with (r * r); [|nra]. rewrite Rmult_plus_distr_r, CC, SS. nra. }
    fold al in A. lra.
Qed.

(* --- the quadratic forms --- *)
Lemma strain_form : forall E th a r, r * cos a = (E 1%nat - E 0%nat) / 2 -> r * sin a = E 2%nat / 2 ->
  along (strain_tensor E) (tdir th) (tdir th) = (E 0%nat + E 1%nat) / 2 + r * cos (2 * th + a).
Proof.
  intros E th a r H1 H2. rewrite cos_plus, cos_2a, sin_2a.
  replace (r * ((cos th * cos th - sin th * sin th) * cos a - 2 * sin th * cos th * sin a))
    with ((cos th * cos th - sin th * sin th) * (r * cos a) - 2 * sin th * cos th * (r * sin a)) by ring.
  rewrite H1, H2. unfold along, sum2, strain_tensor, tdir. assert (S := sin2_cos2 th). unfold Rsqr in S.
  replace ((E 0%nat + E 1%nat) / 2) with ((E 0%nat + E 1%nat) / 2 * (sin th * sin th + cos th * cos th)) by (rewrite S; field). field.
Qed.
Lemma stress_form : forall N th b r, r * cos b = (N 0%nat - N 1%nat) / 2 -> r * sin b = - N 2%nat ->
  along (stress_tensor N) (wdir th) (wdir th) = (N 0%nat + N 1%nat) / 2 + r * cos (2 * th + b).
Proof.
  intros N th b r H1 H2. rewrite cos_plus, cos_2a, sin_2a.
  replace (r * ((cos th * cos th - sin th * sin th) * cos b - 2 * sin th * cos th * sin b))
    with ((cos th * cos th - sin th * sin th) * (r * cos b) - 2 * sin th * cos th * (r * sin b)) by ring.
  rewrite H1, H2. unfold along, sum2, stress_tensor, wdir. assert (S := sin2_cos2 th). unfold Rsqr in S.
  replace ((N 0%nat + N 1%nat) / 2) with ((N 0%nat + N 1%nat) / 2 * (sin th * sin th + cos th * cos th)) by (rewrite S; field). field.
Qed.

(* --- fmod --- *)
Lemma fmod_spec : forall x, exists k, fmod x (2 * PI) = x - 2 * PI * IZR k /\ 0 <= fmod x (2 * PI) < 2 * PI.
Proof.
  intros x. exists (Int_part (x / (2 * PI))). assert (P := PI_RGT_0). unfold fmod. split; [ring|].
  destruct (base_Int_part (x / (2 * PI))) as (A & B). set (k := IZR (Int_part (x / (2 * PI)))) in *.
  assert (E : x = x / (2 * PI) * (2 * PI)) by (field; lra). set (y := x / (2 * PI)) in *. rewrite E. clearbody y k. nra.
Qed.
Lemma wrap : forall x, exists k, 0 <= x + 2 * PI * IZR k < 2 * PI.
Proof.
  intros x. destruct (fmod_spec x) as (k & A & B). exists (- k)%Z. rewrite opp_IZR. rewrite A in B. lra.
Qed.

Section Arcs.
  Variables (E N : vec) (zE zN : bool).
  Notation a := (th0E E zE). Notation b := (th0N N zN).
  Notation al := (th2E E). Notation be := (th1N N).
  Lemma RE_pos : 0 < iRE E.
  Proof. unfold iRE. destruct Req_EM_T. lra. unfold iRE0 in *. assert (0 <= sqrt (((E 0%nat - E 1%nat) / 2) ^ 2 + iE12 E * iE12 E)) by apply sqrt_pos. lra. Qed.
  Lemma RN_pos : 0 < iRN N.
  Proof. unfold iRN. destruct Req_EM_T. lra. unfold iRN0 in *. assert (0 <= sqrt (((N 0%nat - N 1%nat) / 2) ^ 2 + N 2%nat * N 2%nat)) by apply sqrt_pos. lra. Qed.
  Lemma iEs_nn : 0 <= iEs E.
  Proof. unfold iEs. apply Rmult_le_pos; [apply csqrt_nn|left; apply Rinv_0_lt_compat; apply RE_pos]. Qed.
  Lemma iNs_nn : 0 <= iNs N.
  Proof. unfold iNs. apply Rmult_le_pos; [apply csqrt_nn|left; apply Rinv_0_lt_compat; apply RN_pos]. Qed.
  Lemma th1E_opp : th1E E = - al.
  Proof. apply atan2_opp. apply iEs_nn. Qed.
  Lemma th2N_opp : th2N N = - be.
  Proof. apply atan2_opp. apply iNs_nn. Qed.
  Lemma al_range : 0 <= al <= PI.
  Proof. unfold th2E. rewrite atan2_pos by apply iEs_nn. apply atan2p_range. Qed.
  Lemma be_range : 0 <= be <= PI.
  Proof. unfold th1N. rewrite atan2_pos by apply iNs_nn. apply atan2p_range. Qed.

  Definition in_c (x : R) (i : R * R) : Prop := fst i <= x <= snd i.
  Definition in_o (x : R) (i : R * R) : Prop := fst i < x < snd i.

  Lemma meet_o : forall s1 s2 x, in_o x (meet E zE s1 s2) <-> (- al < 2 * x + a < al /\ s1 < 2 * x < s2).
  Proof.
    intros. unfold in_o, meet, qEmin, qEmax. cbn [fst snd]. rewrite th1E_opp. unfold Rmax, Rmin.
    destruct (Rle_dec (- al - a) s1), (Rle_dec (al - a) s2); split; intros; lra.
  Qed.
  Lemma meet_c : forall s1 s2 x, in_c x (meet E zE s1 s2) <-> (- al <= 2 * x + a <= al /\ s1 <= 2 * x <= s2).
  Proof.
    intros. unfold in_c, meet, qEmin, qEmax. cbn [fst snd]. rewrite th1E_opp. unfold Rmax, Rmin.
    destruct (Rle_dec (- al - a) s1), (Rle_dec (al - a) s2); split; intros; lra.
  Qed.

  (* the integers removed by mod *)
  Lemma mods : exists k1 k2 : Z, ith1 E N zE zN = be - b + a + PI - 2 * PI * IZR k1 /\ ith2 E N zE zN = - be - b + a + PI - 2 * PI * IZR k2 /\
    0 <= ith1 E N zE zN < 2 * PI /\ 0 <= ith2 E N zE zN < 2 * PI.
  Proof.
    unfold ith1, ith2. rewrite th2N_opp. destruct (fmod_spec (be - b + a + PI)) as (k1 & A1 & B1).
    destruct (fmod_spec (- be - b + a + PI)) as (k2 & A2 & B2). exists k1, k2. repeat split; try assumption; lra.
  Qed.
  Lemma IZR_between : forall k : Z, forall m : Z, IZR m - 1 < IZR k < IZR m + 1 -> k = m.
  Proof.
    intros k m (A & B). rewrite <- plus_IZR in B. rewrite <- minus_IZR in A. apply lt_IZR in A. apply lt_IZR in B. lia.
  Qed.
  (* psi = 2 x + a + pi; the arc of the stress *)
  Lemma arcs_o : forall i x, In i (arcs E N zE zN) -> in_o x i -> cos al < cos (2 * x + a) /\ cos (2 * x + b) < cos be.
  Proof.
    intros i x Hi Hx. assert (PP := PI_RGT_0). assert (AR := al_range). assert (BR := be_range).
    destruct mods as (k1 & k2 & E1 & E2 & R1 & R2). unfold arcs in Hi.
    set (t1 := ith1 E N zE zN) in *. set (t2 := ith2 E N zE zN) in *.
    destruct (Rlt_dec t1 t2) as [L|L]; [|destruct (Rlt_dec t2 t1) as [G|G]; [|destruct Hi]].
    - assert (K : (k1 - k2)%Z = 1%Z) by (apply IZR_between; rewrite minus_IZR; nra).
      assert (KR : IZR k1 - IZR k2 = 1) by (rewrite <- minus_IZR, K; reflexivity).
      destruct Hi as [<-|[]]. apply meet_o in Hx. destruct Hx as (X1 & X2). split.
      + apply arc_in; [lra|]. apply Rabs_def1; lra.
      + rewrite <- (cos_shift (2 * x + b) k1). apply arc_out; [lra|]. nra.
    - assert (K : (k1 - k2)%Z = 0%Z) by (apply IZR_between; rewrite minus_IZR; nra).
      assert (KR : IZR k1 = IZR k2) by (f_equal; lia).
      destruct Hi as [<-|[<-|[]]]; apply meet_o in Hx; destruct Hx as (X1 & X2); (split; [apply arc_in; [lra|]; apply Rabs_def1; lra|]).
      + rewrite <- (cos_shift (2 * x + b) k1). apply arc_out; [lra|]. rewrite KR in *. nra.
      + rewrite <- (cos_shift (2 * x + b) (k1 + 1)). apply arc_out; [lra|]. rewrite plus_IZR, KR in *. nra.
  Qed.
  Lemma arcs_c : forall i x, In i (arcs E N zE zN) -> in_c x i -> cos al <= cos (2 * x + a) /\ cos (2 * x + b) <= cos be.
  Proof.
    intros i x Hi Hx. assert (PP := PI_RGT_0). assert (AR := al_range). assert (BR := be_range).
    destruct mods as (k1 & k2 & E1 & E2 & R1 & R2). unfold arcs in Hi.
    set (t1 := ith1 E N zE zN) in *. set (t2 := ith2 E N zE zN) in *.
    destruct (Rlt_dec t1 t2) as [L|L]; [|destruct (Rlt_dec t2 t1) as [G|G]; [|destruct Hi]].
    - assert (K : (k1 - k2)%Z = 1%Z) by (apply IZR_between; rewrite minus_IZR; nra).
      assert (KR : IZR k1 - IZR k2 = 1) by (rewrite <- minus_IZR, K; reflexivity).
      destruct Hi as [<-|[]]. apply meet_c in Hx. destruct Hx as (X1 & X2). split.
      + apply arc_in_c; [lra|]. apply Rabs_le; lra.
      + rewrite <- (cos_shift (2 * x + b) k1). apply arc_out_c; [lra|]. nra.
    - assert (K : (k1 - k2)%Z = 0%Z) by (apply IZR_between; rewrite minus_IZR; nra).
      assert (KR : IZR k1 = IZR k2) by (f_equal; lia).
      destruct Hi as [<-|[<-|[]]]; apply meet_c in Hx; destruct Hx as (X1 & X2); (split; [apply arc_in_c; [lra|]; apply Rabs_le; lra|]).
      + rewrite <- (cos_shift (2 * x + b) k1). apply arc_out_c; [lra|]. rewrite KR in *. nra.
      + rewrite <- (cos_shift (2 * x + b) (k1 + 1)). apply arc_out_c; [lra|]. rewrite plus_IZR, KR in *. nra.
  Qed.
  (* every admissible direction is, up to half turns, in one of the arcs *)
  Lemma arcs_all : forall x, cos al < cos (2 * x + a) \/ al = PI -> cos (2 * x + b) < cos be -> 0 < be ->
    exists i k, In i (arcs E N zE zN) /\ in_c (x + PI * IZR k) i.
  Proof.
    intros x H1 H2 HB. assert (PP := PI_RGT_0). assert (AR := al_range). assert (BR := be_range).
    destruct mods as (k1 & k2 & E1 & E2 & R1 & R2). unfold arcs.
    set (t1 := ith1 E N zE zN) in *. set (t2 := ith2 E N zE zN) in *.
    destruct (wrap (2 * x + a + PI)) as (k & W).
    set (y := x + PI * IZR k). assert (W' : 0 <= 2 * y + a + PI < 2 * PI) by (unfold y; lra).
    assert (C1 : cos (2 * x + a) = cos (2 * y + a)) by (rewrite <- (cos_shift (2 * x + a) k); f_equal; unfold y; ring).
    assert (C2 : forall j, cos (2 * x + b) = cos (2 * y + b + 2 * PI * IZR j)) by (intros j; rewrite cos_shift, <- (cos_shift (2 * x + b) k); f_equal; unfold y; ring).
    assert (AA : - al <= 2 * y + a <= al).
    { destruct H1 as [H1| ->]; [|lra]. rewrite C1 in H1. apply arc_in_inv in H1; [|lra|apply Rabs_le; lra]. apply Rabs_def2 in H1. lra. }
    assert (NO : forall z, Rabs z <= be -> cos (2 * x + b) = cos z -> False).
    { intros z Hz Ez. rewrite Ez in H2. assert (cos be <= cos z) by (apply arc_in_c; lra). lra. }
    destruct (Rlt_dec t1 t2) as [L|L]; [|destruct (Rlt_dec t2 t1) as [G|G]].
    - assert (K : (k1 - k2)%Z = 1%Z) by (apply IZR_between; rewrite minus_IZR; nra).
      assert (KR : IZR k1 = IZR k2 + 1) by (rewrite <- plus_IZR; f_equal; lia). rewrite KR in E1.
      eexists; exists k. split; [left; reflexivity|]. fold y. apply meet_c. split; [exact AA|].
      assert (Y1 := C2 k2). assert (Y2 := C2 k2). split.
      + destruct (Rle_dec (t1 - PI - a) (2 * y)); [assumption|]. exfalso. refine (NO _ _ (C2 k1)); apply Rabs_le; rewrite ?KR; split; lra.
      + destruct (Rle_dec (2 * y) (t2 - PI - a)); [assumption|]. exfalso. refine (NO _ _ (C2 k2)); apply Rabs_le; split; lra.
    - assert (K : (k1 - k2)%Z = 0%Z) by (apply IZR_between; rewrite minus_IZR; nra).
      assert (KR : IZR k1 = IZR k2) by (f_equal; lia). assert (Y1 := C2 k1).
      destruct (Rle_dec (t1 - PI - a) (2 * y)) as [P|P].
      + eexists; exists k. split; [left; reflexivity|]. fold y. apply meet_c. split; [exact AA|]. lra.
      + destruct (Rle_dec (2 * y) (t2 - PI - a)) as [Q|Q].
        * eexists; exists k. split; [right; left; reflexivity|]. fold y. apply meet_c. split; [exact AA|]. lra.
        * exfalso. refine (NO _ _ (C2 k1)); apply Rabs_le; rewrite ?KR in *; split; lra.
    - assert (T : t1 = t2) by lra. assert (K : (k1 - k2)%Z = 1%Z).
      { apply IZR_between. rewrite minus_IZR. nra. }
      assert (KR : IZR k1 - IZR k2 = 1) by (rewrite <- minus_IZR, K; reflexivity).
      assert (BP : be = PI) by nra. rewrite BP, cos_PI in H2. assert (Q := COS_bound (2 * x + b)). lra.
  Qed.

  Lemma interval_arc : forall f x, in_o x (theta_interval E N f zE zN) \/ in_c x (theta_interval E N f zE zN) /\ arcs E N zE zN <> [] ->
    In (theta_interval E N f zE zN) (arcs E N zE zN).
  Proof.
    intros f x. unfold theta_interval. destruct (arcs E N zE zN) as [|i [|j l]].
    - unfold in_o. cbn. intros [H|(_ & H)]; [lra|contradiction].
    - intros _. left. reflexivity.
    - intros _. destruct Rlt_dec; [right; left|left]; reflexivity.
  Qed.
End Arcs.
