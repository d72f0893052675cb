(* The relaxed energy of a membrane: complementarity, gradient, monotonicity. *)
From Coq Require Import Reals Lra Lia List Psatz Classical.
From Coquelicot Require Import Coquelicot.
From Verif Require Import Tensor TFTModel TFTSpec TFTProofs TFTRoot TFTBranch TFTWrinkle TFTImplicit TFTBranchProps KinModel KinSpec TfrModel TfrSpec.
Import ListNotations.
Open Scope R_scope.

(* ---------------- 2x2 tensors ---------------- *)
Lemma psd_all (X : mat) : (forall a, 0 <= along X (wdir a) (wdir a)) -> X 0%nat 1%nat = X 1%nat 0%nat ->
  forall a b, 0 <= a * a * X 0%nat 0%nat + 2 * (a * b) * X 0%nat 1%nat + b * b * X 1%nat 1%nat.
Proof.
  intros H Y a b. destruct (angle_of a b) as (th & g & _ & G & A & B & AB). rewrite A, B, AB.
  specialize (H th). unfold along, sum2, wdir in H. rewrite <- Y in H.
  replace (g * (cos th * cos th) * X 0%nat 0%nat + 2 * (g * (cos th * sin th)) * X 0%nat 1%nat + g * (sin th * sin th) * X 1%nat 1%nat)
    with (g * (cos th * X 0%nat 0%nat * cos th + cos th * X 0%nat 1%nat * sin th + (sin th * X 0%nat 1%nat * cos th + sin th * X 1%nat 1%nat * sin th))) by ring.
  apply Rmult_le_pos; assumption.
Qed.
Lemma psd_entries (X : mat) : (forall a, 0 <= along X (wdir a) (wdir a)) -> X 0%nat 1%nat = X 1%nat 0%nat ->
  0 <= X 0%nat 0%nat /\ 0 <= X 1%nat 1%nat /\ X 0%nat 1%nat * X 0%nat 1%nat <= X 0%nat 0%nat * X 1%nat 1%nat.
Proof.
  intros H Y. assert (K := psd_all X H Y).
  assert (A := K 1 0). assert (B := K 0 1). assert (A' : 0 <= X 0%nat 0%nat) by lra. assert (B' : 0 <= X 1%nat 1%nat) by lra.
  split; [exact A'|]. split; [exact B'|].
  destruct (Req_dec (X 0%nat 0%nat) 0) as [Z|Z].
  - rewrite Z. assert (Q : X 0%nat 1%nat = 0); [|rewrite Q; lra].
    destruct (Req_dec (X 0%nat 1%nat) 0) as [Q|Q]; [exact Q|exfalso].
    assert (W := K (- (1 + X 1%nat 1%nat) / (2 * X 0%nat 1%nat)) 1). rewrite Z in W.
    replace (2 * (- (1 + X 1%nat 1%nat) / (2 * X 0%nat 1%nat) * 1) * X 0%nat 1%nat) with (- (1 + X 1%nat 1%nat)) in W by (field; exact Q). lra.
  - assert (W := K (- X 0%nat 1%nat) (X 0%nat 0%nat)).
    assert (0 < X 0%nat 0%nat) by lra. apply (Rmult_le_reg_l (X 0%nat 0%nat)); [assumption|]. nra.
Qed.
Lemma strain_sym P : strain_tensor P 0%nat 1%nat = strain_tensor P 1%nat 0%nat. Proof. reflexivity. Qed.
Lemma stress_sym S : stress_tensor S 0%nat 1%nat = stress_tensor S 1%nat 0%nat. Proof. reflexivity. Qed.

(* a stress and a strain without compression have non-negative product *)
Lemma psd_dot S P : psd_stress S -> psd_strain P -> 0 <= dot3 S P.
Proof.
  intros HS HP. destruct (psd_entries _ HS (stress_sym S)) as (s0 & s1 & sd). assert (K := psd_all _ HP (strain_sym P)).
  cbn [stress_tensor strain_tensor] in *. unfold dot3, sum3.
  destruct (Req_dec (S 0%nat) 0) as [Z|Z].
  - assert (Q : S 2%nat = 0) by nra. rewrite Z, Q. assert (B := K 0 1). nra.
  - assert (A := K (S 0%nat) (S 2%nat)). assert (B := K 0 1). assert (0 < S 0%nat) by lra.
    apply (Rmult_le_reg_l (S 0%nat)); [assumption|]. rewrite Rmult_0_r.
    assert (0 <= P 1%nat) by lra.
    replace (S 0%nat * (S 0%nat * P 0%nat + S 1%nat * P 1%nat + S 2%nat * P 2%nat))
      with ((S 0%nat * S 0%nat * P 0%nat + 2 * (S 0%nat * S 2%nat) * (P 2%nat / 2) + S 2%nat * S 2%nat * P 1%nat) + (S 0%nat * S 1%nat - S 2%nat * S 2%nat) * P 1%nat) by field.
    nra.
Qed.

(* ---------------- complementarity ---------------- *)
Definition kkt (C : mat) (E P : vec) : Prop :=
  psd_strain P /\ psd_stress (inner_stress C (plus3 E P)) /\ dot3 (inner_stress C (plus3 E P)) P = 0.

Lemma energy_quad C E : inner_energy C E = / 2 * quad E C E.
Proof. unfold inner_energy. t3. ring. Qed.
Lemma energy_pos C E : posdef3 C -> 0 <= inner_energy C E.
Proof.
  intro HP. unfold inner_energy. destruct (Req_dec (E 0%nat) 0) as [A|A]; [destruct (Req_dec (E 1%nat) 0) as [B|B]; [destruct (Req_dec (E 2%nat) 0) as [D|D]|]|].
  - unfold sum3. rewrite A, B, D. lra.
  - assert (K := HP E ltac:(tauto)). lra. - assert (K := HP E ltac:(tauto)). lra. - assert (K := HP E ltac:(tauto)). lra.
Qed.
Lemma energy_zero C E : posdef3 C -> inner_energy C E <= 0 -> forall i, (i < 3)%nat -> E i = 0.
Proof.
  intros HP K. unfold inner_energy in K. destruct (Req_dec (E 0%nat) 0) as [A|A]; [destruct (Req_dec (E 1%nat) 0) as [B|B]; [destruct (Req_dec (E 2%nat) 0) as [D|D]|]|].
  - intros i Hi. three i Hi; assumption.
  - exfalso. assert (Q := HP E ltac:(tauto)). lra. - exfalso. assert (Q := HP E ltac:(tauto)). lra. - exfalso. assert (Q := HP E ltac:(tauto)). lra.
Qed.
(* Taylor formula of the quadratic energy *)
Lemma energy_taylor C X Y : sym3 C -> inner_energy C Y = inner_energy C X + dot3 (inner_stress C X) (minus3 Y X) + inner_energy C (minus3 Y X).
Proof.
  intro H. pose proof (H 0 1 ltac:(lia) ltac:(lia))%nat as A. pose proof (H 0 2 ltac:(lia) ltac:(lia))%nat as B. pose proof (H 1 2 ltac:(lia) ltac:(lia))%nat as D.
  unfold inner_energy, inner_stress, minus3, dot3, sum3. rewrite A, B, D. field.
Qed.

Lemma kkt_relaxed C E P : sym3 C -> posdef3 C -> kkt C E P -> relaxed C E (inner_energy C (plus3 E P)).
Proof.
  intros HS HP (A & B & D). split; [exists P; split; [exact A|reflexivity]|]. intros P' A'.
  rewrite (energy_taylor C (plus3 E P) (plus3 E P') HS).
  assert (K := energy_pos C (minus3 (plus3 E P') (plus3 E P)) HP).
  assert (Q : dot3 (inner_stress C (plus3 E P)) (minus3 (plus3 E P') (plus3 E P)) = dot3 (inner_stress C (plus3 E P)) P' - dot3 (inner_stress C (plus3 E P)) P).
  { unfold dot3, minus3, plus3, sum3. ring. }
  assert (R := psd_dot _ _ B A'). lra.
Qed.
Lemma relaxed_unique C E w w' : relaxed C E w -> relaxed C E w' -> w = w'.
Proof.
  intros ((P & A & B) & M) ((P' & A' & B') & M'). apply Rle_antisym; [rewrite <- B'; apply M, A'|rewrite <- B; apply M', A].
Qed.

(* two states *)
Lemma kkt_pair C E P E' P' : sym3 C -> posdef3 C -> kkt C E P -> kkt C E' P' ->
  let w := inner_energy C (plus3 E P) in let w' := inner_energy C (plus3 E' P') in
  let S := inner_stress C (plus3 E P) in
  0 <= w' - w - dot3 S (minus3 E' E) <= inner_energy C (minus3 E' E) /\
  inner_energy C (minus3 (plus3 E' P') (plus3 E P)) <= inner_energy C (minus3 E' E).
Proof.
  intros HS HP K K' w w' S.
  assert (RX := kkt_relaxed C E' P' HS HP K'). destruct K as (A & B & D), K' as (A' & B' & D').
  assert (T1 := energy_taylor C (plus3 E P) (plus3 E' P') HS). fold w w' S in T1.
  assert (N1 := energy_pos C (minus3 (plus3 E' P') (plus3 E P)) HP).
  assert (Q1 : dot3 S (minus3 (plus3 E' P') (plus3 E P)) = dot3 S (minus3 E' E) + dot3 S P' - dot3 S P).
  { unfold dot3, minus3, plus3, sum3. ring. }
  assert (R1 := psd_dot _ _ B A'). assert (R2 := psd_dot _ _ B' A). fold S in R1, D.
  split.
  - split; [lra|]. destruct RX as (_ & M). specialize (M P A). fold w' in M.
    rewrite (energy_taylor C (plus3 E P) (plus3 E' P) HS) in M. fold w S in M.
    assert (Q2 : dot3 S (minus3 (plus3 E' P) (plus3 E P)) = dot3 S (minus3 E' E)). { unfold dot3, minus3, plus3, sum3. ring. }
    assert (Q3 : inner_energy C (minus3 (plus3 E' P) (plus3 E P)) = inner_energy C (minus3 E' E)). { unfold inner_energy, minus3, plus3, sum3. field. }
    lra.
  - (* X = strain difference after relaxation, Y = strain difference *)
    set (X := minus3 (plus3 E' P') (plus3 E P)) in *. set (Y := minus3 E' E) in *.
    assert (Q4 : dot3 (inner_stress C X) (minus3 X Y) = dot3 (inner_stress C (plus3 E' P')) P' - dot3 (inner_stress C (plus3 E' P')) P - dot3 S P' + dot3 S P).
    { unfold S, X, Y, dot3, inner_stress, minus3, plus3, sum3. ring. }
    assert (T2 := energy_taylor C X Y HS). assert (N2 := energy_pos C (minus3 Y X) HP).
    assert (Q5 : dot3 (inner_stress C X) (minus3 Y X) = - dot3 (inner_stress C X) (minus3 X Y)). { unfold dot3, minus3, sum3. ring. }
    lra.
Qed.
Lemma kkt_unique C E P P' : sym3 C -> posdef3 C -> kkt C E P -> kkt C E P' -> forall i, (i < 3)%nat -> P' i = P i.
Proof.
  intros HS HP K K' i Hi. destruct (kkt_pair C E P E P' HS HP K K') as (_ & Q).
  assert (Z : inner_energy C (minus3 E E) = 0). { unfold inner_energy, minus3, sum3. field. }
  rewrite Z in Q. assert (W := energy_zero C _ HP Q i Hi). unfold minus3, plus3 in W. lra.
Qed.

(* ---------------- the three states ---------------- *)
Lemma psd_ext P P' : (forall i, (i < 3)%nat -> P i = P' i) -> psd_strain P -> psd_strain P'.
Proof. intros X H a. specialize (H a). unfold along, sum2, strain_tensor in *. rewrite <- !X by lia. exact H. Qed.
Lemma psds_ext P P' : (forall i, (i < 3)%nat -> P i = P' i) -> psd_stress P -> psd_stress P'.
Proof. intros X H a. specialize (H a). unfold along, sum2, stress_tensor in *. rewrite <- !X by lia. exact H. Qed.
Lemma kkt_taut C E : psd_stress (inner_stress C E) -> kkt C E (fun _ => 0).
Proof.
  intro H. split; [|split].
  - intro a. unfold along, sum2, strain_tensor. lra.
  - apply (psds_ext (inner_stress C E)); [|exact H]. intros i Hi. unfold inner_stress, plus3, sum3. ring.
  - unfold dot3, sum3. ring.
Qed.
Lemma kkt_slack C E : psd_strain (fun i => - E i) -> kkt C E (fun i => - E i).
Proof.
  intro H. split; [exact H|]. assert (Z : forall i, inner_stress C (plus3 E (fun i => - E i)) i = 0) by (intro i; unfold inner_stress, plus3, sum3; ring).
  split.
  - intro a. unfold along, sum2, stress_tensor. rewrite !Z. lra.
  - unfold dot3, sum3. rewrite !Z. ring.
Qed.
Lemma kkt_wrinkled C E th g s : wrinkled_state C E th g s -> kkt C E (fun i => g * dyad th i).
Proof.
  intros (G & Ps & U). split; [|split].
  - intro a. replace (along (strain_tensor (fun i => g * dyad th i)) (wdir a) (wdir a)) with (g * Rsqr (wdir a 0%nat * wdir th 0%nat + wdir a 1%nat * wdir th 1%nat)).
    + apply Rmult_le_pos; [lra|apply Rle_0_sqr].
    + unfold along, sum2, strain_tensor, dyad, Rsqr. field.
  - intro a. rewrite along_nn. rewrite (dot_uniaxial (inner_stress C (plus3 E (fun i => g * dyad th i))) th s a U). apply Rmult_le_pos; [lra|apply Rle_0_sqr].
  - assert (Q := dot_uniaxial (inner_stress C (plus3 E (fun i => g * dyad th i))) th s th U).
    transitivity (g * dot3 (n1v th) (inner_stress C (plus3 E (fun i => g * dyad th i)))).
    + generalize (inner_stress C (plus3 E (fun i => g * dyad th i))). intro S. unfold dot3, sum3. rewrite !dyad_n1. ring.
    + rewrite Q. unfold tdir, Rsqr. ring.
Qed.
Lemma psd_dec_strain E : psd_strain (fun i => - E i) \/ exists b, 0 < along (strain_tensor E) (wdir b) (wdir b).
Proof.
  destruct (classic (exists b, 0 < along (strain_tensor E) (wdir b) (wdir b))) as [H|H]; [right; exact H|left].
  intro a. destruct (Rlt_dec 0 (along (strain_tensor E) (wdir a) (wdir a))) as [L|L]; [exfalso; apply H; exists a; exact L|].
  replace (along (strain_tensor (fun i => - E i)) (wdir a) (wdir a)) with (- along (strain_tensor E) (wdir a) (wdir a)); [lra|]. unfold along, sum2, strain_tensor. field.
Qed.
Lemma state_exists C E : sym3 C -> posdef3 C -> exists tf th, describes C E tf th.
Proof.
  intros HS HP. destruct (psd_dec_strain E) as [H|B]; [exists (-1), 0; apply is_slack; [reflexivity|exact H]|].
  destruct (classic (exists a, along (stress_tensor (hooke C E)) (wdir a) (wdir a) < 0)) as [A|A].
  - destruct (proj2 (C120_exists_iff C E HS HP) (conj A B)) as (th & g & s & W). exists 0, th. eapply is_wrinkled; [reflexivity|exact W].
  - exists 1, 0. apply is_taut; [reflexivity|]. intro a. destruct (Rle_dec 0 (along (stress_tensor (hooke C E)) (wdir a) (wdir a))) as [L|L]; [exact L|].
    exfalso. apply A. exists a. lra.
Qed.
Definition wrinkle_strain (C : mat) (E : vec) (tf th : R) : vec := fun i =>
  if Req_EM_T tf 1 then 0 else if Req_EM_T tf (-1) then - E i else gamma th C (inner_stress C E) * dyad th i.
Lemma describes_kkt C E tf th : sym3 C -> posdef3 C -> describes C E tf th -> kkt C E (wrinkle_strain C E tf th).
Proof.
  intros HS HP D. unfold wrinkle_strain. destruct D as [T H|T H|g s T W]; subst tf.
  - destruct (Req_EM_T 1 1); [apply kkt_taut; exact H|lra].
  - destruct (Req_EM_T (-1) 1); [lra|]. destruct (Req_EM_T (-1) (-1)); [apply kkt_slack; exact H|lra].
  - destruct (Req_EM_T 0 1); [lra|]. destruct (Req_EM_T 0 (-1)); [lra|].
    destruct (proj2 (state_iff C E th HS HP) g s W) as (G & _). change (gamma th C (inner_stress C E)) with (gamma th C (hooke C E)). rewrite <- G. eapply kkt_wrinkled, W.
Qed.

(* what the code returns *)
Lemma stress_returned mult C E tf th theta : describes C E tf th -> (tf = 0 -> theta C (inner_stress C E) E = Ok th) ->
  exists S, tft_stress mult C E tf theta = Ok S /\
    forall i, (i < 3)%nat -> S i = inner_stress C (plus3 E (wrinkle_strain C E tf th)) i + (if Req_EM_T tf (-1) then mult * inner_stress C E i else 0).
Proof.
  intros D T. unfold tft_stress, stress_at, wrinkle_strain. destruct D as [A H|A H|g s A W]; subst tf.
  - rewrite dispatch_taut. eexists; split; [reflexivity|]. intros i Hi. destruct (Req_EM_T 1 1); [|lra]. destruct (Req_EM_T 1 (-1)); [lra|].
    unfold inner_stress, plus3, sum3. ring.
  - rewrite dispatch_slack. eexists; split; [reflexivity|]. intros i Hi. destruct (Req_EM_T (-1) 1); [lra|]. destruct (Req_EM_T (-1) (-1)); [|lra].
    unfold smul, inner_stress, plus3, sum3. ring.
  - rewrite dispatch_wrinkled. cbn [bindo]. rewrite T by reflexivity. cbn [bindo]. eexists; split; [reflexivity|]. intros i Hi.
    destruct (Req_EM_T 0 1); [lra|]. destruct (Req_EM_T 0 (-1)); [lra|].
    unfold compute_S, inner_stress at 3, plus3, mvec3, sum3. rewrite !dyad_n1.
    change (inner_stress C E i) with (C i 0%nat * E 0%nat + C i 1%nat * E 1%nat + C i 2%nat * E 2%nat). ring.
Qed.

(* ---------------- derivative of the relaxed energy along a strain path ---------------- *)
Lemma squeeze (f g h : R -> R) l : (forall t, Rabs (f t - f 0 - g t) <= h t) -> g 0 = 0 -> h 0 = 0 -> is_derive g 0 l -> is_derive h 0 0 -> is_derive f 0 l.
Proof.
  intros B G0 H0 DG DH.
  assert (DR : is_derive (fun t => f t - f 0 - g t) 0 0).
  { apply is_derive_Reals. apply is_derive_Reals in DH. intros e He. destruct (DH e He) as (d & Hd). exists d. intros t Ht Hl.
    specialize (Hd t Ht Hl). rewrite Rplus_0_l in *. rewrite G0, H0 in *.
    replace ((f t - f 0 - g t - (f 0 - f 0 - 0)) / t - 0) with ((f t - f 0 - g t) / t) by (field; exact Ht).
    replace ((h t - 0) / t - 0) with (h t / t) in Hd by (field; exact Ht). eapply Rle_lt_trans; [|exact Hd].
    unfold Rdiv. rewrite !Rabs_mult. apply Rmult_le_compat_r; [apply Rabs_pos|]. eapply Rle_trans; [apply B|apply Rle_abs]. }
  assert (K := is_derive_plus (K := R_AbsRing) (V := R_NormedModule) _ _ _ _ _ DR (is_derive_plus (K := R_AbsRing) (V := R_NormedModule) _ _ _ _ _ DG (is_derive_const (K := R_AbsRing) (V := R_NormedModule) (f 0) 0))).
  eapply is_derive_ext; [|evar_last; [exact K|]].
  - intro t. cbv beta. unfold plus; cbn. ring.
  - unfold plus, zero; cbn. ring.
Qed.
Lemma d_energy C (e : R -> vec) H : is_dvec e 0 H -> is_derive (fun t => inner_energy C (minus3 (e t) (e 0))) 0 0.
Proof.
  intro D. assert (D0 := D 0%nat ltac:(lia)). assert (D1 := D 1%nat ltac:(lia)). assert (D2 := D 2%nat ltac:(lia)). cbv beta in D0, D1, D2.
  set (f0 := fun t => e t 0%nat) in *. set (f1 := fun t => e t 1%nat) in *. set (f2 := fun t => e t 2%nat) in *.
  apply (is_derive_ext (fun t => inner_energy C (v3 (f0 t - f0 0) (f1 t - f1 0) (f2 t - f2 0)))). { reflexivity. }
  assert (Y0 : is_derive f0 0 (H 0%nat)) by exact D0. assert (Y1 : is_derive f1 0 (H 1%nat)) by exact D1. assert (Y2 : is_derive f2 0 (H 2%nat)) by exact D2.
  clear D D0 D1 D2. clearbody f0 f1 f2.
  assert (X0 : ex_derive (fun x => f0 x) 0) by (eexists; exact Y0). assert (X1 : ex_derive (fun x => f1 x) 0) by (eexists; exact Y1). assert (X2 : ex_derive (fun x => f2 x) 0) by (eexists; exact Y2).
  unfold inner_energy, v3, sum3. auto_derive.
  - repeat split; first [exact I|exact X0|exact X1|exact X2].
  - ring.
Qed.
Lemma d_dotlin S (e : R -> vec) H : is_dvec e 0 H -> is_derive (fun t => dot3 S (minus3 (e t) (e 0))) 0 (dot3 S H).
Proof.
  intro D. assert (D0 := D 0%nat ltac:(lia)). assert (D1 := D 1%nat ltac:(lia)). assert (D2 := D 2%nat ltac:(lia)). cbv beta in D0, D1, D2.
  set (f0 := fun t => e t 0%nat) in *. set (f1 := fun t => e t 1%nat) in *. set (f2 := fun t => e t 2%nat) in *.
  apply (is_derive_ext (fun t => dot3 S (v3 (f0 t - f0 0) (f1 t - f1 0) (f2 t - f2 0)))). { reflexivity. }
  assert (Y0 : is_derive f0 0 (H 0%nat)) by exact D0. assert (Y1 : is_derive f1 0 (H 1%nat)) by exact D1. assert (Y2 : is_derive f2 0 (H 2%nat)) by exact D2.
  clear D D0 D1 D2. clearbody f0 f1 f2.
  assert (X0 : ex_derive (fun x => f0 x) 0) by (eexists; exact Y0). assert (X1 : ex_derive (fun x => f1 x) 0) by (eexists; exact Y1). assert (X2 : ex_derive (fun x => f2 x) 0) by (eexists; exact Y2).
  unfold v3, dot3, sum3. auto_derive.
  - repeat split; first [exact I|exact X0|exact X1|exact X2].
  - replace (Derive (fun x => f0 x) 0) with (H 0%nat) by (symmetry; apply is_derive_unique, Y0).
    replace (Derive (fun x => f1 x) 0) with (H 1%nat) by (symmetry; apply is_derive_unique, Y1).
    replace (Derive (fun x => f2 x) 0) with (H 2%nat) by (symmetry; apply is_derive_unique, Y2). ring.
Qed.
Lemma relaxed_derive C Wr (e : R -> vec) H P : sym3 C -> posdef3 C -> (forall E, relaxed C E (Wr E)) -> is_dvec e 0 H -> kkt C (e 0) P ->
  is_derive (fun t => Wr (e t)) 0 (dot3 (inner_stress C (plus3 (e 0) P)) H).
Proof.
  intros HS HP HW D K.
  apply (squeeze _ (fun t => dot3 (inner_stress C (plus3 (e 0) P)) (minus3 (e t) (e 0))) (fun t => inner_energy C (minus3 (e t) (e 0)))).
  - intro t. destruct (state_exists C (e t) HS HP) as (tf & th & DS). assert (K' := describes_kkt _ _ _ _ HS HP DS).
    destruct (kkt_pair C (e 0) P (e t) _ HS HP K K') as (B & _). cbv zeta in B.
    rewrite (relaxed_unique C (e t) _ _ (HW (e t)) (kkt_relaxed _ _ _ HS HP K')), (relaxed_unique C (e 0) _ _ (HW (e 0)) (kkt_relaxed _ _ _ HS HP K)).
    rewrite Rabs_pos_eq; lra.
  - unfold dot3, minus3, sum3. ring.
  - unfold inner_energy, minus3, sum3. field.
  - apply d_dotlin, D.
  - eapply d_energy, D.
Qed.
