(* Wrinkling of a linear inner material: existence, uniqueness and smoothness of the wrinkled state. *)
From Coq Require Import Reals Lra Lia List Psatz.
From Coquelicot Require Import Coquelicot.
From Verif Require Import Tensor TFTModel TFTSpec TFTProofs TFTBranch.
Import ListNotations.
Open Scope R_scope.

(* root with compression across and extension along the tension direction *)
Definition physical (C : mat) (S E : vec) (th : R) : Prop :=
  objf C S th = 0 /\ along (stress_tensor S) (wdir th) (wdir th) < 0 /\ 0 < along (strain_tensor E) (tdir th) (tdir th).

Lemma quad_expand C (X Y : vec) g : sym3 C -> quad (fun i => X i + g * Y i) C (fun i => X i + g * Y i) = quad X C X + 2 * g * quad Y C X + g * g * quad Y C Y.
Proof. intro H. pose proof (H 0 1 ltac:(lia) ltac:(lia))%nat. pose proof (H 0 2 ltac:(lia) ltac:(lia))%nat. pose proof (H 1 2 ltac:(lia) ltac:(lia))%nat. t3. nra. Qed.
Lemma quad_stress C (S E : vec) u : (forall i, (i < 3)%nat -> S i = sum3 (fun j => C i j * E j)) -> quad u C E = dot3 u S.
Proof. intro H. t3. rewrite !H by lia. unfold sum3. ring. Qed.
Lemma quad_ext u u' C : (forall i, (i < 3)%nat -> u i = u' i) -> quad u C u = quad u' C u'.
Proof. intro H. t3. rewrite !H by lia. reflexivity. Qed.

(* ---------------- uniqueness ---------------- *)
Lemma dot_uniaxial S th s u : uniaxial S th s -> dot3 (n1v u) S = s * Rsqr (cos u * tdir th 0%nat + sin u * tdir th 1%nat).
Proof.
  intro U. rewrite <- along_nn. unfold along, sum2. rewrite !U by lia. unfold wdir, Rsqr. ring.
Qed.
Lemma n1_period th k : n1v (th + IZR k * PI) = n1v th.
Proof.
  assert (P1 : forall x, n1v (x + PI) = n1v x). { intro x. unfold n1v. rewrite neg_cos, neg_sin. f_equal; ring. }
  assert (PN : forall n x, n1v (x + INR n * PI) = n1v x).
  { induction n; intro x; [f_equal; cbn; ring|]. rewrite S_INR. replace (x + (INR n + 1) * PI) with ((x + INR n * PI) + PI) by ring. rewrite P1. apply IHn. }
  destruct (Z_le_gt_dec 0 k) as [K|K].
  - rewrite <- (Z2Nat.id k K), <- INR_IZR_INZ. apply PN.
  - rewrite <- (PN (Z.to_nat (- k)) (th + IZR k * PI)). rewrite INR_IZR_INZ, Z2Nat.id by lia. rewrite opp_IZR. f_equal. ring.
Qed.
Lemma n1_eq_angle th th' : (forall i, (i < 3)%nat -> n1v th i = n1v th' i) -> exists k, th' = th + IZR k * PI.
Proof.
  intro H. pose proof (H 0%nat ltac:(lia)) as A. pose proof (H 1%nat ltac:(lia)) as B. pose proof (H 2%nat ltac:(lia)) as C. cbn in A, B, C.
  assert (S : sin (th' - th) = 0).
  { rewrite sin_minus. pose proof (cs2 th) as E. pose proof (cs2 th') as E'.
    set (c := cos th) in *. set (s := sin th) in *. set (c' := cos th') in *. set (s' := sin th') in *.
    assert (Q : (s' * c - c' * s) * (s' * c - c' * s) = 0).
    { replace ((s' * c - c' * s) * (s' * c - c' * s)) with ((s' * s') * (c * c) + (c' * c') * (s * s) - (c' * s') * (2 * c * s)) by ring.
      rewrite C. replace (c' * s' * (2 * c' * s')) with (2 * (c' * c') * (s' * s')) by ring. rewrite <- A, <- B. ring. }
    nra. }
  apply sin_eq_0_0 in S as (k & K). exists k. lra.
Qed.

Lemma wrinkling_unique C S E th th' : sym3 C -> posdef3 C -> (forall i, (i < 3)%nat -> S i = sum3 (fun j => C i j * E j)) ->
  physical C S E th -> physical C S E th' ->
  gamma th C S = gamma th' C S /\ (forall i, (i < 3)%nat -> n1v th i = n1v th' i).
Proof.
  intros HS HP HL (R1 & N1 & M1) (R2 & N2 & M2).
  destruct (physical_state th C S E HS HP HL R1 N1 M1) as (G1 & (s1 & P1 & U1) & _).
  destruct (physical_state th' C S E HS HP HL R2 N2 M2) as (G2 & (s2 & P2 & U2) & _).
  set (g1 := gamma th C S) in *. set (g2 := gamma th' C S) in *.
  set (w := fun i => g1 * n1v th i - g2 * n1v th' i).
  assert (D1 := posdef_D C th HP). assert (D2 := posdef_D C th' HP).
  (* stresses across *)
  assert (A1 : dot3 (n1v th) (compute_S th C S) = 0). { rewrite <- along_nn. apply no_normal_stress. lra. }
  assert (A2 : dot3 (n1v th') (compute_S th' C S) = 0). { rewrite <- along_nn. apply no_normal_stress. lra. }
  assert (B1 : 0 <= dot3 (n1v th') (compute_S th C S)). { rewrite (dot_uniaxial _ _ _ _ U1). apply Rmult_le_pos; [lra|apply Rle_0_sqr]. }
  assert (B2 : 0 <= dot3 (n1v th) (compute_S th' C S)). { rewrite (dot_uniaxial _ _ _ _ U2). apply Rmult_le_pos; [lra|apply Rle_0_sqr]. }
  assert (Q : quad w C w = - g2 * dot3 (n1v th') (compute_S th C S) - g1 * dot3 (n1v th) (compute_S th' C S)).
  { transitivity (dot3 w (fun i => compute_S th C S i - compute_S th' C S i)).
    - unfold w, compute_S. fold g1 g2. t3. ring.
    - unfold w. transitivity (g1 * dot3 (n1v th) (compute_S th C S) - g1 * dot3 (n1v th) (compute_S th' C S) - g2 * dot3 (n1v th') (compute_S th C S) + g2 * dot3 (n1v th') (compute_S th' C S)).
      + t3. ring. + rewrite A1, A2. ring. }
  assert (W : forall i, (i < 3)%nat -> w i = 0).
  { assert (L : quad w C w <= 0) by (rewrite Q; nra).
    destruct (Req_dec (w 0%nat) 0) as [Z0|Z0]; [destruct (Req_dec (w 1%nat) 0) as [Z1|Z1]; [destruct (Req_dec (w 2%nat) 0) as [Z2|Z2]|]|].
    - intros i Hi. three i Hi; assumption.
    - exfalso. assert (K := HP w ltac:(tauto)). rewrite <- quad_sum in K. lra.
    - exfalso. assert (K := HP w ltac:(tauto)). rewrite <- quad_sum in K. lra.
    - exfalso. assert (K := HP w ltac:(tauto)). rewrite <- quad_sum in K. lra. }
  assert (GE : g1 = g2).
  { pose proof (W 0%nat ltac:(lia)) as W0. pose proof (W 1%nat ltac:(lia)) as W1. unfold w, n1v, v3 in W0, W1. pose proof (cs2 th). pose proof (cs2 th'). nra. }
  split; [exact GE|]. intros i Hi. pose proof (W i Hi) as Wi. unfold w in Wi. rewrite <- GE in Wi. nra.
Qed.

(* ---------------- existence ---------------- *)
Lemma angle_of (a b : R) : exists th g, 0 <= th <= PI /\ 0 <= g /\ a * a = g * (cos th * cos th) /\ b * b = g * (sin th * sin th) /\ a * b = g * (cos th * sin th).
Proof.
  assert (K : forall a b, 0 <= b -> 0 < a * a + b * b -> exists th, 0 <= th <= PI /\ a = sqrt (a * a + b * b) * cos th /\ b = sqrt (a * a + b * b) * sin th).
  { clear. intros a b Hb P. set (r := sqrt (a * a + b * b)). assert (Pr : 0 < r) by (apply sqrt_lt_R0, P).
    assert (R2 : r * r = a * a + b * b) by (apply sqrt_sqrt; lra).
    assert (Bd : -1 <= a / r <= 1).
    { split; apply (Rmult_le_reg_r r); try exact Pr; unfold Rdiv; rewrite Rmult_assoc, Rinv_l by lra; nra. }
    exists (acos (a / r)). split; [apply acos_bound|]. rewrite cos_acos by exact Bd. split; [field; lra|].
    rewrite sin_acos by exact Bd. replace (1 - (a / r)²) with ((b / r) * (b / r)).
    - rewrite sqrt_square. field; lra. apply Rmult_le_pos; [exact Hb|]. apply Rlt_le, Rinv_0_lt_compat, Pr.
    - unfold Rsqr. apply (Rmult_eq_reg_r (r * r)); [|nra]. replace (b / r * (b / r) * (r * r)) with (b * b) by (field; lra).
      replace ((1 - a / r * (a / r)) * (r * r)) with (r * r - a * a) by (field; lra). lra. }
  destruct (Rle_lt_dec (a * a + b * b) 0) as [Z|P].
  - exists 0, 0. pose proof PI_RGT_0. assert (a = 0) by nra. assert (b = 0) by nra. subst. repeat split; try lra; ring.
  - assert (SQ : sqrt (a * a + b * b) * sqrt (a * a + b * b) = a * a + b * b) by (apply sqrt_sqrt; lra).
    destruct (Rle_dec 0 b) as [B|B].
    + destruct (K a b B P) as (th & H & A & B'). exists th, (a * a + b * b). set (r := sqrt (a * a + b * b)) in *.
      split; [exact H|]. split; [lra|]. rewrite <- SQ. split; [rewrite A at 1 2; ring|]. split; [rewrite B' at 1 2; ring|]. rewrite A at 1; rewrite B' at 1; ring.
    + destruct (K (- a) (- b) ltac:(lra) ltac:(nra)) as (th & H & A & B').
      replace (- a * - a + - b * - b) with (a * a + b * b) in * by ring. set (r := sqrt (a * a + b * b)) in *. exists th, (a * a + b * b).
      split; [exact H|]. split; [lra|]. rewrite <- SQ. split; [replace (a * a) with (- a * - a) by ring; rewrite A; ring|].
      split; [replace (b * b) with (- b * - b) by ring; rewrite B'; ring|]. replace (a * b) with (- a * - b) by ring. rewrite A, B'. ring.
Qed.

Section Exist.
  Variables (C : mat) (S E : vec).
  Hypotheses (HS : sym3 C) (HP : posdef3 C) (HL : forall i, (i < 3)%nat -> S i = sum3 (fun j => C i j * E j)).
  Hypothesis NT : exists a, along (stress_tensor S) (wdir a) (wdir a) < 0.
  Hypothesis NSl : exists b, 0 < along (strain_tensor E) (wdir b) (wdir b).
  Let q th := dot3 (n1v th) S.
  Let D th := quad (n1v th) C (n1v th).
  Let gain th := Rmin (q th) 0 * Rmin (q th) 0 / D th.

  Lemma q_der th : is_derive q th (2 * dot3 (n2v th) S).
  Proof. unfold q, n1v, n2v. t3. auto_derive; [exact I|ring]. Qed.
  Lemma D_der th : is_derive D th (4 * quad (n2v th) C (n1v th)).
  Proof.
    pose proof (HS 0 1 ltac:(lia) ltac:(lia))%nat as A. pose proof (HS 0 2 ltac:(lia) ltac:(lia))%nat as B. pose proof (HS 1 2 ltac:(lia) ltac:(lia))%nat as F.
    unfold D, n1v, n2v. t3. rewrite <- A, <- B, <- F. auto_derive; [exact I|ring].
  Qed.
  Lemma D_pos th : 0 < D th.
  Proof. apply posdef_D, HP. Qed.
  Lemma gain_cont : continuity gain.
  Proof.
    intro x. apply continuity_pt_ext with (fun th => ((q th - Rabs (q th)) / 2) * ((q th - Rabs (q th)) / 2) / D th).
    { intro t. unfold gain. assert (M : Rmin (q t) 0 = (q t - Rabs (q t)) / 2). { unfold Rmin, Rabs. destruct (Rle_dec (q t) 0), (Rcase_abs (q t)); lra. } rewrite M. reflexivity. }
    assert (CQ : continuity_pt q x). { apply derivable_continuous_pt. exists (2 * dot3 (n2v x) S). apply is_derive_Reals, q_der. }
    assert (CD : continuity_pt D x). { apply derivable_continuous_pt. exists (4 * quad (n2v x) C (n1v x)). apply is_derive_Reals, D_der. }
    assert (CA : continuity_pt (fun th => (q th - Rabs (q th)) / 2) x).
    { apply (continuity_pt_mult (fun th => q th - Rabs (q th)) (fun _ => / 2)); [|apply continuity_pt_const; intros ? ?; reflexivity].
      apply (continuity_pt_minus q (fun th => Rabs (q th))); [exact CQ|]. apply (continuity_pt_comp q Rabs); [exact CQ|apply Rcontinuity_abs]. }
    apply (continuity_pt_div (fun th => (q th - Rabs (q th)) / 2 * ((q th - Rabs (q th)) / 2)) D); [|exact CD|generalize (D_pos x); lra].
    apply (continuity_pt_mult _ _ _ CA CA).
  Qed.
  Lemma same_dir x : exists th, 0 <= th <= PI /\ n1v th = n1v x.
  Proof.
    destruct (angle_of (cos x) (sin x)) as (th & g & H & Pg & A & B & F). exists th. split; [exact H|].
    assert (G : g = 1). { pose proof (cs2 x). pose proof (cs2 th). nra. } rewrite G in A, B, F. unfold n1v. f_equal; lra.
  Qed.
  Lemma best : exists th, (forall x, gain x <= gain th) /\ q th < 0.
  Proof.
    destruct (continuity_ab_maj gain 0 PI) as (th & M & _). { generalize PI_RGT_0; lra. } { intros; apply gain_cont. }
    exists th. assert (MX : forall x, gain x <= gain th).
    { intro x. destruct (same_dir x) as (x' & H & Ex). specialize (M x' H). unfold gain, q, D in *. rewrite Ex in M. exact M. }
    split; [exact MX|]. destruct NT as (a & Na). rewrite along_nn in Na. specialize (MX a). destruct (Rlt_dec (q th) 0) as [Q|Q]; [exact Q|exfalso].
    assert (Z : gain th = 0). { unfold gain. rewrite Rmin_right by lra. unfold Rdiv. ring. }
    assert (P : 0 < gain a). { unfold gain. rewrite Rmin_left by (unfold q; lra). apply Rdiv_lt_0_compat; [unfold q in *; nra|apply D_pos]. }
    lra.
  Qed.
  Lemma best_root th : (forall x, gain x <= gain th) -> q th < 0 -> objf C S th = 0.
  Proof.
    intros M N.
    assert (CQ : continuity_pt q th). { apply derivable_continuous_pt. exists (2 * dot3 (n2v th) S). apply is_derive_Reals, q_der. }
    destruct (CQ (- q th / 2) ltac:(lra)) as (al & Pal & NB).
    assert (NEG : forall x, th - al < x -> x < th + al -> q x < 0).
    { intros x A B. destruct (Req_dec th x) as [<-|NE]; [exact N|]. specialize (NB x). unfold dist, R_met, D_x, no_cond in NB. cbn in NB. unfold R_dist in NB.
      assert (K : Rabs (q x - q th) < - q th / 2). { apply NB. split; [split; [exact I|congruence]|]. apply Rabs_def1; lra. }
      apply Rabs_def2 in K. lra. }
    set (Phi := fun x => q x * q x / D x).
    assert (DP : is_derive Phi th (4 * q th / D th * objf C S th)).
    { assert (Dth := D_pos th). evar_last.
      - apply (is_derive_div (fun x => q x * q x) D); [|apply D_der|lra].
        apply (is_derive_mult (K := R_AbsRing) q q); [apply q_der|apply q_der|]. intros; apply Rmult_comm.
      - unfold objf, gamma. fold (q th). fold (D th). unfold plus, mult; cbn. field. lra. }
    assert (pr : derivable_pt Phi th). { eexists. apply is_derive_Reals, DP. }
    assert (Z := deriv_maximum Phi (th - al) (th + al) th pr ltac:(lra) ltac:(lra)).
    assert (Z0 : derive_pt Phi th pr = 0).
    { apply Z. intros x A B. specialize (M x). unfold gain in M. rewrite !Rmin_left in M by (try lra; apply Rlt_le, NEG; assumption). exact M. }
    assert (E0 : derive_pt Phi th pr = 4 * q th / D th * objf C S th) by (apply derive_pt_eq_0, is_derive_Reals, DP).
    rewrite E0 in Z0. assert (NZ : 4 * q th / D th <> 0). { generalize (D_pos th). intro. apply Rlt_not_eq. apply (Rmult_lt_reg_r (D th)); [lra|]. unfold Rdiv. rewrite Rmult_assoc, Rinv_l by lra. lra. }
    destruct (Rmult_integral _ _ Z0); [contradiction|assumption].
  Qed.
  (* the relaxed energy is not above that of any wrinkling strain v (x) v *)
  Lemma best_energy th a b : (forall x, gain x <= gain th) -> q th < 0 ->
    let V := v3 (a * a) (b * b) (2 * (a * b)) in
    quad (compute_E th C S E) C (compute_E th C S E) <= quad (fun i => E i + V i) C (fun i => E i + V i).
  Proof.
    intros M N V. destruct (angle_of a b) as (x & g & _ & Pg & A & B & F).
    assert (EV : quad (fun i => E i + V i) C (fun i => E i + V i) = quad (fun i => E i + g * n1v x i) C (fun i => E i + g * n1v x i)).
    { apply quad_ext. intros i Hi. unfold V, n1v, v3. three i Hi; rewrite ?A, ?B, ?F; ring. }
    rewrite EV, quad_expand by exact HS.
    change (quad (compute_E th C S E) C (compute_E th C S E)) with (quad (fun i => E i + gamma th C S * n1v th i) C (fun i => E i + gamma th C S * n1v th i)).
    rewrite (quad_expand C E (n1v th) (gamma th C S) HS), !(quad_stress C S E _ HL). fold (q th) (q x) (D th) (D x).
    assert (Dt := D_pos th). assert (Dx := D_pos x).
    assert (G1 : 2 * gamma th C S * q th + gamma th C S * gamma th C S * D th = - gain th).
    { unfold gain. rewrite Rmin_left by lra. unfold gamma. fold (q th) (D th). field. lra. }
    assert (G2 : - gain x <= 2 * g * q x + g * g * D x).
    { unfold gain. destruct (Rle_dec (q x) 0) as [Q|Q].
      - rewrite Rmin_left by exact Q. apply (Rmult_le_reg_r (D x)); [exact Dx|]. replace (- (q x * q x / D x) * D x) with (- (q x * q x)) by (field; lra).
        assert (0 <= (g * D x + q x) * (g * D x + q x)) by apply Rle_0_sqr. nra.
      - rewrite Rmin_right by lra. unfold Rdiv. rewrite !Rmult_0_l, Ropp_0. nra. }
    specialize (M x). lra.
  Qed.

  Lemma wrinkling_exists : exists th, physical C S E th.
  Proof.
    destruct best as (th & M & N). exists th. assert (R0 := best_root th M N). split; [exact R0|]. split; [rewrite along_nn; exact N|].
    assert (Dt := D_pos th). destruct (proj2 (uniaxial_iff th C S ltac:(unfold D in Dt; lra)) R0) as [s U].
    assert (EN := tension_energy th C S E s HL U). rewrite <- quad_sum in EN.
    assert (G : 0 < gamma th C S). { unfold gamma. fold (q th) (D th). apply Rdiv_lt_0_compat; lra. }
    set (Es := compute_E th C S E) in *. set (g := gamma th C S) in *.
    set (en := along (strain_tensor E) (wdir th) (wdir th)). set (ex := along (strain_tensor E) (wdir th) (tdir th)). set (em := along (strain_tensor E) (tdir th) (tdir th)) in *.
    set (c := cos th). set (z := sin th). assert (T1 := cs2 th). fold c z in T1.
    assert (E0 : E 0%nat = en * c * c - 2 * ex * c * z + em * z * z).
    { unfold en, ex, em, along, strain_tensor, sum2, wdir, tdir. fold c z. assert (K : (c * c + z * z) * (c * c + z * z) = 1) by nra.
      transitivity (E 0%nat * ((c * c + z * z) * (c * c + z * z))); [rewrite K; ring|field]. }
    assert (E1 : E 1%nat = en * z * z + 2 * ex * c * z + em * c * c).
    { unfold en, ex, em, along, strain_tensor, sum2, wdir, tdir. fold c z. assert (K : (c * c + z * z) * (c * c + z * z) = 1) by nra.
      transitivity (E 1%nat * ((c * c + z * z) * (c * c + z * z))); [rewrite K; ring|field]. }
    assert (E2 : E 2%nat = 2 * (en * c * z + ex * (c * c - z * z) - em * c * z)).
    { unfold en, ex, em, along, strain_tensor, sum2, wdir, tdir. fold c z. assert (K : (c * c + z * z) * (c * c + z * z) = 1) by nra.
      transitivity (E 2%nat * ((c * c + z * z) * (c * c + z * z))); [rewrite K; ring|field]. }
    assert (ES : forall i, (i < 3)%nat -> Es i = E i + g * n1v th i) by (intros; reflexivity).
    destruct NSl as (b & Pb).
    assert (FB : along (strain_tensor E) (wdir b) (wdir b) =
      let x := cos b * c + sin b * z in let y := - cos b * z + sin b * c in x * x * en + 2 * x * y * ex + y * y * em).
    { unfold along, strain_tensor, sum2, wdir. rewrite E0, E1, E2. cbv zeta. field. }
    rewrite FB in Pb. cbv zeta in Pb. set (x := cos b * c + sin b * z) in Pb. set (y := - cos b * z + sin b * c) in Pb.
    assert (NZ : 0 < quad Es C Es).
    { rewrite quad_sum. apply HP.
      destruct (Req_dec (Es 0%nat) 0) as [A|A]; [|left; exact A]. destruct (Req_dec (Es 1%nat) 0) as [B|B]; [|right; left; exact B].
      right; right. intro F. rewrite ES in A, B, F by lia. unfold n1v, v3 in A, B, F. fold c z in A, B, F. rewrite E0 in A. rewrite E1 in B. rewrite E2 in F.
      (* E = - g n (x) n *)
      assert (Z1 : em = 0). { assert (K : z * z * (en * c * c - 2 * ex * c * z + em * z * z) + c * c * (en * z * z + 2 * ex * c * z + em * c * c) - c * z * (2 * (en * c * z + ex * (c * c - z * z) - em * c * z)) = em * ((c * c + z * z) * (c * c + z * z))) by ring.
        assert (K2 : (c * c + z * z) * (c * c + z * z) = 1) by nra. rewrite K2 in K.
        replace (en * c * c - 2 * ex * c * z + em * z * z) with (- (g * (c * c))) in K by lra. replace (en * z * z + 2 * ex * c * z + em * c * c) with (- (g * (z * z))) in K by lra.
        replace (2 * (en * c * z + ex * (c * c - z * z) - em * c * z)) with (- (g * (2 * c * z))) in K by lra. nra. }
      assert (Z2 : ex = 0). { assert (K : - (c * z) * (en * c * c - 2 * ex * c * z + em * z * z) + c * z * (en * z * z + 2 * ex * c * z + em * c * c) + (c * c - z * z) / 2 * (2 * (en * c * z + ex * (c * c - z * z) - em * c * z)) = ex * ((c * c + z * z) * (c * c + z * z))) by field.
        assert (K2 : (c * c + z * z) * (c * c + z * z) = 1) by nra. rewrite K2 in K.
        replace (en * c * c - 2 * ex * c * z + em * z * z) with (- (g * (c * c))) in K by lra. replace (en * z * z + 2 * ex * c * z + em * c * c) with (- (g * (z * z))) in K by lra.
        replace (2 * (en * c * z + ex * (c * c - z * z) - em * c * z)) with (- (g * (2 * c * z))) in K by lra. nra. }
      assert (Z3 : en = - g). { rewrite Z1, Z2 in A, B. assert (K : (en + g) * (c * c) = 0) by lra. assert (K' : (en + g) * (z * z) = 0) by lra. nra. }
      rewrite Z1, Z2, Z3 in Pb. nra. }
    destruct (Rtotal_order em 0) as [Q|[Q|Q]]; [exfalso| |exact Q].
    2:{ rewrite Q, Rmult_0_r in EN. lra. }
    (* indefinite strain: the segment from the wrinkled to the stress-free state leaves the cone at a rank one strain *)
    assert (DT : en * em - ex * ex < 0).
    { destruct (Rlt_dec (en * em - ex * ex) 0) as [K|K]; [exact K|exfalso].
      assert (I : em * (x * x * en + 2 * x * y * ex + y * y * em) = (y * em + x * ex) * (y * em + x * ex) + x * x * (en * em - ex * ex)) by ring.
      assert (0 <= (y * em + x * ex) * (y * em + x * ex)) by apply Rle_0_sqr. assert (0 <= x * x) by apply Rle_0_sqr. nra. }
    set (k := en - ex * ex / em). assert (Pk : 0 < k).
    { unfold k. replace (en - ex * ex / em) with ((en * em - ex * ex) / em) by (field; lra).
      replace ((en * em - ex * ex) / em) with ((- (en * em - ex * ex)) / (- em)) by (field; lra). apply Rdiv_lt_0_compat; lra. }
    set (sg := k / (k + g)). assert (SG : 0 < sg < 1).
    { unfold sg. split; [apply Rdiv_lt_0_compat; lra|]. apply (Rmult_lt_reg_r (k + g)); [lra|]. unfold Rdiv. rewrite Rmult_assoc, Rinv_l by lra. lra. }
    assert (SE : sg * g = (1 - sg) * k) by (unfold sg; field; lra).
    set (vm := sqrt (- (1 - sg) * em)). assert (PV : 0 < - (1 - sg) * em) by nra.
    assert (VM : vm * vm = - (1 - sg) * em) by (apply sqrt_sqrt; lra). assert (Pvm : 0 < vm) by (apply sqrt_lt_R0, PV).
    set (vn := - (1 - sg) * ex / vm).
    assert (VX : vn * vm = - (1 - sg) * ex) by (unfold vn; field; lra).
    assert (VN : vn * vn = sg * g - (1 - sg) * en).
    { apply (Rmult_eq_reg_r (vm * vm)); [|nra]. replace (vn * vn * (vm * vm)) with ((vn * vm) * (vn * vm)) by ring. rewrite VX, VM, SE. unfold k. field. lra. }
    assert (L := best_energy th (vn * c - vm * z) (vn * z + vm * c) M N). cbv zeta in L. fold Es in L.
    assert (EQ : quad (fun i => E i + v3 ((vn * c - vm * z) * (vn * c - vm * z)) ((vn * z + vm * c) * (vn * z + vm * c)) (2 * ((vn * c - vm * z) * (vn * z + vm * c))) i) C
                      (fun i => E i + v3 ((vn * c - vm * z) * (vn * c - vm * z)) ((vn * z + vm * c) * (vn * z + vm * c)) (2 * ((vn * c - vm * z) * (vn * z + vm * c))) i)
               = quad (fun i => sg * Es i) C (fun i => sg * Es i)).
    { apply quad_ext. intros i Hi. rewrite ES by exact Hi. unfold n1v, v3. fold c z. three i Hi.
      - replace ((vn * c - vm * z) * (vn * c - vm * z)) with ((vn * vn) * (c * c) - 2 * (vn * vm) * (c * z) + (vm * vm) * (z * z)) by ring. rewrite VN, VX, VM, E0. ring.
      - replace ((vn * z + vm * c) * (vn * z + vm * c)) with ((vn * vn) * (z * z) + 2 * (vn * vm) * (c * z) + (vm * vm) * (c * c)) by ring. rewrite VN, VX, VM, E1. ring.
      - replace ((vn * c - vm * z) * (vn * z + vm * c)) with ((vn * vn - vm * vm) * (c * z) + (vn * vm) * (c * c - z * z)) by ring. rewrite VN, VX, VM, E2. ring. }
    rewrite EQ in L. replace (quad (fun i => sg * Es i) C (fun i => sg * Es i)) with (sg * sg * quad Es C Es) in L by (t3; ring).
    assert (sg * sg < 1) by nra. nra.
  Qed.
End Exist.
