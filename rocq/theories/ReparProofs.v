(* Proofs for ReparProps: the evaluations at a point under a change of parametrisation or of units. *)
From Coq Require Import Reals Lra Lia Arith Bool List FunctionalExtensionality.
From Verif Require Import Tensor MetricModel MetricSpec MetricProofs LinearModel LinearSpec NonlinearModel NonlinearSpec NonlinearProofs PrincipalModel PrincipalSpec SpectralModel Newton33Model SizeModel PtModel ReparSpec ReparTens.
Import ListNotations.
Open Scope R_scope.

Lemma law_dec (w v : law) : {w = v} + {w <> v}.
Proof. decide equality. Qed.

Record hrel (R0 : mat) (s : R) (P : mat) (ho hd ho' hd' : half) : Prop := mkhrel {
  h_s : s * s = 1;
  h_inv : forall i j, (i < 2)%nat -> (j < 2)%nat -> sum2 (fun a => R0 i a * P a j) = delta i j;
  h_inv' : forall i j, (i < 2)%nat -> (j < 2)%nat -> sum2 (fun a => P i a * R0 a j) = delta i j;
  h_go : T2 (blk R0 s) (hGcon ho) (hGcon ho');
  h_gi : T2 (blk R0 s) (hGcon hd) (hGcon hd');
  h_gd : forall i j, (i < 2)%nat -> (j < 2)%nat -> hGcov hd' i j = sum2 (fun a => sum2 (fun b => P a i * P b j * hGcov hd a b));
  h_P : det2 P <> 0;
  h_det0 : det3 (hGcov ho') = det2 P * det2 P * det3 (hGcov ho); h_det1 : det3 (hGcov hd') = det2 P * det2 P * det3 (hGcov hd);
  h_d0 : det3 (hGcov ho) <> 0; h_d1 : det3 (hGcov hd) <> 0;
  h_so : sh (hGcon ho); h_si : sh (hGcon hd);
  h_yo : symmetric 3 (hGcon ho); h_yi : symmetric 3 (hGcon hd); h_33 : hGcon ho 2%nat 2%nat = 1;
  h_g : forall i c, (i < 3)%nat -> hgcon ho' i c = sum3 (fun a => blk R0 s i a * hgcon ho a c) }.

Section Rel.
Variables (R0 : mat) (s : R) (P : mat) (ho hd ho' hd' : half).
Hypothesis H : hrel R0 s P ho hd ho' hd'.
Notation Q := (blk R0 s).

Lemma ratio_rel : ratio (hGcov ho') (hGcov hd') = ratio (hGcov ho) (hGcov hd).
Proof.
  pose proof (h_det0 _ _ _ _ _ _ _ H) as E1. pose proof (h_det1 _ _ _ _ _ _ _ H) as E2. pose proof (h_P _ _ _ _ _ _ _ H) as DP.
  assert (K : 0 < det2 P * det2 P) by nra. revert E1 E2 K. generalize (det2 P * det2 P). intros k E1 E2 K. pose proof (h_d0 _ _ _ _ _ _ _ H) as D.
  unfold ratio. cbv zeta. rewrite E1, E2.
  destruct (Req_EM_T (k * det3 (hGcov ho)) 0) as [X|X]; [exfalso; apply Rmult_integral in X as [X|X]; lra|].
  destruct (Req_EM_T (det3 (hGcov ho)) 0) as [Y|Y]; [contradiction|].
  replace (k * det3 (hGcov hd) / (k * det3 (hGcov ho))) with (det3 (hGcov hd) / det3 (hGcov ho)) by (field; split; lra). reflexivity.
Qed.
Lemma rel_of m : getM ho hd = Ok m -> exists m', getM ho' hd' = Ok m' /\ related R0 s P m m' /\ sym_metric m /\ Gori m 2%nat 2%nat = 1 /\ J0 m <> 0
  /\ (forall i j, (i < 2)%nat -> (j < 2)%nat -> Gdef m' i j = sum2 (fun a => sum2 (fun b => P a i * P b j * Gdef m a b))).
Proof.
  unfold getM. rewrite ratio_rel. destruct (ratio (hGcov ho) (hGcov hd)) as [j| |] eqn:E; cbn [obind]; try discriminate. intro X. injection X as <-.
  eexists. split; [reflexivity|]. destruct H. split; [|split; [|split; [|split]]]; cbn [Gori Gdef Gdefi J0]; try assumption.
  - constructor; cbn [Gori Gdef Gdefi J0]; auto.
  - split; assumption.
  - unfold ratio in E. cbv zeta in E. destruct (Req_EM_T (det3 (hGcov ho)) 0) as [Y|Y]; [contradiction|].
    destruct (Rle_dec 0 (det3 (hGcov hd) / det3 (hGcov ho))); inversion E. unfold Rdiv. intro Z. apply Rmult_integral in Z as [Z|Z]; [contradiction|].
    exact (Rinv_neq_0_compat _ Y Z).
Qed.
Lemma rel_fail : (forall m, getM ho hd <> Ok m) -> getM ho' hd' = getM ho hd.
Proof. unfold getM. rewrite ratio_rel. destruct (ratio (hGcov ho) (hGcov hd)) as [j| |]; cbn [obind]; intro X; [exfalso; exact (X _ eq_refl)|reflexivity|reflexivity]. Qed.

Section AtPoint.
Variables (m m' : metric).
Hypothesis RM : related R0 s P m m'.
Hypothesis SM : sym_metric m.
Hypothesis G1 : Gori m 2%nat 2%nat = 1.
Hypothesis JN : J0 m <> 0.
Notation g := (hgcon ho).
Notation g' := (hgcon ho').

Lemma Bten_rel c : Bten (cmat m' c) g' = Bten (cmat m c) g.
Proof.
  apply functional_extensionality; intro x. apply functional_extensionality; intro y. unfold Bten, sum2. cbn [cmat].
  rewrite !(r_gd _ _ _ _ _ RM) by lia. rewrite !(h_g _ _ _ _ _ _ _ H) by lia. unfold sum3, sum2. cbn [blk].
  pose proof (h_inv' _ _ _ _ _ _ _ H) as I.
  pose proof (I 0%nat 0%nat ltac:(lia) ltac:(lia)) as I00. pose proof (I 0%nat 1%nat ltac:(lia) ltac:(lia)) as I01.
  pose proof (I 1%nat 0%nat ltac:(lia) ltac:(lia)) as I10. pose proof (I 1%nat 1%nat ltac:(lia) ltac:(lia)) as I11.
  unfold sum2, delta in *. cbn [Nat.eqb] in *. clear I. revert I00 I01 I10 I11.
  generalize (P 0%nat 0%nat) (P 0%nat 1%nat) (P 1%nat 0%nat) (P 1%nat 1%nat) (R0 0%nat 0%nat) (R0 0%nat 1%nat) (R0 1%nat 0%nat) (R0 1%nat 1%nat).
  intros p00 p01 p10 p11 r00 r01 r10 r11 I00 I01 I10 I11.
  generalize (Gdef m 0%nat 0%nat) (Gdef m 0%nat 1%nat) (Gdef m 1%nat 0%nat) (Gdef m 1%nat 1%nat) (g 0%nat x) (g 0%nat y) (g 1%nat x) (g 1%nat y) (g 2%nat x) (g 2%nat y).
  intros x00 x01 x10 x11 y0x y0y y1x y1y y2x y2y.
  transitivity (x00 * ((p00 * r00 + p01 * r10) * y0x + (p00 * r01 + p01 * r11) * y1x) * ((p00 * r00 + p01 * r10) * y0y + (p00 * r01 + p01 * r11) * y1y)
    + x01 * ((p00 * r00 + p01 * r10) * y0x + (p00 * r01 + p01 * r11) * y1x) * ((p10 * r00 + p11 * r10) * y0y + (p10 * r01 + p11 * r11) * y1y)
    + x10 * ((p10 * r00 + p11 * r10) * y0x + (p10 * r01 + p11 * r11) * y1x) * ((p00 * r00 + p01 * r10) * y0y + (p00 * r01 + p01 * r11) * y1y)
    + x11 * ((p10 * r00 + p11 * r10) * y0x + (p10 * r01 + p11 * r11) * y1x) * ((p10 * r00 + p11 * r10) * y0y + (p10 * r01 + p11 * r11) * y1y)); [ring|].
  rewrite I00, I01, I10, I11. ring.
Qed.
Variables (epsm : R) (eig : mat -> vec * (nat -> vec)).
Section Stretch.
Variable c : R.
Let B := Bten (cmat m c) g.
Let r := evalStretch epsm (cmat m c) g (fst (eig B)) (snd (eig B)).
Let r' := evalStretch epsm (cmat m' c) g' (fst (eig B)) (snd (eig B)).
Lemma st_same : fst r' = fst r.
Proof. unfold r, r', evalStretch. rewrite Bten_rel. destruct (shortcut epsm (Bten (cmat m c) g)); reflexivity. Qed.
Lemma st_vec a : (a < 2)%nat -> snd r' a = snd r a.
Proof. intro Ha. unfold r, r', evalStretch. rewrite Bten_rel. destruct a as [|[|a]]; try lia; destruct (shortcut epsm (Bten (cmat m c) g)); reflexivity. Qed.
Lemma st_vec2 x : snd r' 2%nat x = s * snd r 2%nat x.
Proof.
  assert (E : forall X Y v w, snd (evalStretch epsm X Y v w) 2%nat = Y 2%nat) by (intros; unfold evalStretch; destruct (shortcut epsm (Bten X Y)); reflexivity).
  unfold r, r'. rewrite !E, (h_g _ _ _ _ _ _ _ H) by lia. unfold sum3. cbn [blk]. ring.
Qed.
Lemma pr_rel a : (a < 2)%nat -> T1 Q (fun i => pr g (snd r) i a) (fun i => pr g' (snd r') i a).
Proof. intros Ha i Hi. unfold pr. rewrite (st_vec a Ha). unfold dot3, sum3. rewrite !(h_g _ _ _ _ _ _ _ H) by assumption. unfold sum3. ring. Qed.
Lemma pr_rel2 : T1 Q (fun i => s * pr g (snd r) i 2%nat) (fun i => pr g' (snd r') i 2%nat).
Proof. intros i Hi. unfold pr, dot3, sum3. rewrite !st_vec2, !(h_g _ _ _ _ _ _ _ H) by assumption. unfold sum3. ring. Qed.
Lemma T2_spec_i w p : T2 Q (S_spec_i w p (fst r) g (snd r)) (S_spec_i w p (fst r') g' (snd r')).
Proof.
  unfold S_spec_i. rewrite st_same. unfold sum2. apply T2_add; apply T2_scal; apply T2_prod; apply pr_rel; lia.
Qed.
Lemma T2_spec_c w p J : T2 Q (S_spec_c w p (fst r) J g (snd r)) (S_spec_c w p (fst r') J g' (snd r')).
Proof.
  unfold S_spec_c. rewrite st_same. unfold sum3.
  apply (T2_ext Q _ _ (fun i j => Sa_c w p (fst r) J 0 * (pr g (snd r) i 0 * pr g (snd r) j 0) + Sa_c w p (fst r) J 1 * (pr g (snd r) i 1 * pr g (snd r) j 1)
      + Sa_c w p (fst r) J 2 * ((s * pr g (snd r) i 2) * (s * pr g (snd r) j 2)))
    (fun i j => Sa_c w p (fst r) J 0 * (pr g' (snd r') i 0 * pr g' (snd r') j 0) + Sa_c w p (fst r) J 1 * (pr g' (snd r') i 1 * pr g' (snd r') j 1)
      + Sa_c w p (fst r) J 2 * (pr g' (snd r') i 2 * pr g' (snd r') j 2))).
  - intros i j _ _. replace (s * pr g (snd r) i 2 * (s * pr g (snd r) j 2)) with (s * s * (pr g (snd r) i 2 * pr g (snd r) j 2)) by ring.
    rewrite (h_s _ _ _ _ _ _ _ H). ring.
  - intros i j _ _. reflexivity.
  - apply T2_add; [apply T2_add|]; apply T2_scal.
    + apply T2_prod; apply pr_rel; lia.
    + apply T2_prod; apply pr_rel; lia.
    + apply (T2_prod Q (fun i => s * pr g (snd r) i 2) (fun i => pr g' (snd r') i 2%nat) (fun i => s * pr g (snd r) i 2) (fun i => pr g' (snd r') i 2%nat)); apply pr_rel2.
Qed.
Lemma T4_project Cn Cx Cs : T4 Q (project Cn Cx Cs (pr g (snd r))) (project Cn Cx Cs (pr g' (snd r'))).
Proof.
  pose proof (pr_rel 0%nat ltac:(lia)) as A0. pose proof (pr_rel 1%nat ltac:(lia)) as A1.
  set (q := fun a b i j => pr g (snd r) i a * pr g (snd r) j b). set (q' := fun a b i j => pr g' (snd r') i a * pr g' (snd r') j b).
  assert (X : forall a b, (a < 2)%nat -> (b < 2)%nat -> T2 Q (q a b) (q' a b)) by (intros a b Ha Hb; apply T2_prod; apply pr_rel; assumption).
  apply (T4_ext Q _ _ (fun i j k l => Cn 0%nat * (q 0%nat 0%nat i j * q 0%nat 0%nat k l) + Cx * (q 0%nat 0%nat i j * q 1%nat 1%nat k l + q 1%nat 1%nat i j * q 0%nat 0%nat k l)
      + Cs * (q 0%nat 1%nat i j * q 0%nat 1%nat k l + q 1%nat 0%nat i j * q 1%nat 0%nat k l + q 0%nat 1%nat i j * q 1%nat 0%nat k l + q 1%nat 0%nat i j * q 0%nat 1%nat k l)
      + Cn 1%nat * (q 1%nat 1%nat i j * q 1%nat 1%nat k l))
    (fun i j k l => Cn 0%nat * (q' 0%nat 0%nat i j * q' 0%nat 0%nat k l) + Cx * (q' 0%nat 0%nat i j * q' 1%nat 1%nat k l + q' 1%nat 1%nat i j * q' 0%nat 0%nat k l)
      + Cs * (q' 0%nat 1%nat i j * q' 0%nat 1%nat k l + q' 1%nat 0%nat i j * q' 1%nat 0%nat k l + q' 0%nat 1%nat i j * q' 1%nat 0%nat k l + q' 1%nat 0%nat i j * q' 0%nat 1%nat k l)
      + Cn 1%nat * (q' 1%nat 1%nat i j * q' 1%nat 1%nat k l))); [intros; reflexivity..|].
  pose proof (X 0%nat 0%nat ltac:(lia) ltac:(lia)). pose proof (X 0%nat 1%nat ltac:(lia) ltac:(lia)). pose proof (X 1%nat 0%nat ltac:(lia) ltac:(lia)). pose proof (X 1%nat 1%nat ltac:(lia) ltac:(lia)).
  clearbody q q'. tens.
Qed.
End Stretch.

Lemma S_i_rel imp w p : I2 R0 (S_i epsm eig imp w p m g) (S_i epsm eig imp w p m' g').
Proof.
  pose proof (r_J _ _ _ _ _ RM) as RJ. pose proof (T2_33 _ _ _ _ _ RM _ _ (r_go _ _ _ _ _ RM)) as R33.
  destruct imp, w as [w|pars]; cbn [S_i]; try (intros i j _ _; unfold mzero, sum2; ring).
  - apply (T2_I2 _ s), (T2_S_inc _ _ _ _ _ RM).
  - destruct (law_dec w NHe) as [->|N]; [intros i j _ _; unfold S_inc_gen, dPsi_inc, sum2; ring|].
    intros i j Hi Hj. rewrite gen_S_inc by (assumption || congruence). rewrite (T2_I2 _ s _ _ (T2_S_inc _ _ _ _ _ RM w p)) by assumption.
    unfold sum2. rewrite !gen_S_inc by (assumption || congruence || lia). reflexivity.
  - cbv zeta. unfold stress_code_i. rewrite RJ, Bten_rel. apply (T2_I2 _ s), T2_spec_i.
  - cbv zeta. unfold stress_code_i. rewrite RJ, Bten_rel. apply (T2_I2 _ s), T2_spec_i.
Qed.
Lemma C_i_rel imp w p : I4 R0 (C_i epsm eig imp w p m g) (C_i epsm eig imp w p m' g').
Proof.
  pose proof (r_J _ _ _ _ _ RM) as RJ. pose proof (T2_33 _ _ _ _ _ RM _ _ (r_go _ _ _ _ _ RM)) as R33.
  destruct imp, w as [w|pars]; cbn [C_i]; try (intros i j k l _ _ _ _; unfold sum2; ring).
  - apply (T4_I4 _ s), (T4_C_inc _ _ _ _ _ RM).
  - destruct (law_dec w NHe) as [->|N]; [intros i j k l _ _ _ _; unfold C_inc_gen, dPsi_inc, d2Psi_inc, sum2, Rdiv; ring|].
    intros i j k l Hi Hj Hk Hl. rewrite gen_C_inc by (assumption || congruence). rewrite (T4_I4 _ s _ _ (T4_C_inc _ _ _ _ _ RM w p)) by assumption.
    unfold sum2. rewrite !gen_C_inc by (assumption || congruence || lia). reflexivity.
  - cbv zeta. unfold tangent_code_i, C_spec_i. rewrite RJ, Bten_rel. rewrite st_same. apply (T4_I4 _ s), T4_project.
  - cbv zeta. unfold tangent_code_i, C_spec_i. rewrite RJ, Bten_rel. rewrite st_same. apply (T4_I4 _ s), T4_project.
Qed.
Lemma S_c_rel imp w p c : T2 Q (S_c epsm eig imp w p m g c) (S_c epsm eig imp w p m' g' c).
Proof.
  pose proof (r_J _ _ _ _ _ RM) as RJ.
  destruct imp, w as [w|pars]; cbn [S_c]; try (intros i j _ _; unfold mzero, sum3; ring).
  - apply (T2_S_comp _ _ _ _ _ RM).
  - apply (T2_S_comp_gen _ _ _ _ _ RM).
  - cbv zeta. unfold stress_code_c, J_sq. rewrite RJ, Bten_rel. apply T2_spec_c.
  - cbv zeta. unfold stress_code_c, J_sq. rewrite RJ, Bten_rel. apply T2_spec_c.
Qed.
Lemma C_c_rel imp w p c : T4 Q (C_c epsm eig imp w p m g c) (C_c epsm eig imp w p m' g' c).
Proof.
  pose proof (r_J _ _ _ _ _ RM) as RJ.
  destruct imp, w as [w|pars]; cbn [C_c]; try (intros i j k l _ _ _ _; unfold sum3; ring).
  - apply T4_condense with (1 := RM), (T4_C3D _ _ _ _ _ RM).
  - apply T4_condense with (1 := RM), (T4_C3D_gen _ _ _ _ _ RM).
  - cbv zeta. unfold tangent_code_c, C_spec_c, J_sq. rewrite RJ, Bten_rel, st_same. apply T4_project.
  - cbv zeta. unfold tangent_code_c, C_spec_c, J_sq. rewrite RJ, Bten_rel, st_same. apply T4_project.
Qed.
Lemma C3333_rel imp w p c : C3333_c epsm eig imp w p m' g' c = C3333_c epsm eig imp w p m g c.
Proof.
  pose proof (r_J _ _ _ _ _ RM) as RJ.
  destruct imp, w as [w|pars]; cbn [C3333_c]; try reflexivity.
  - apply (T4_33 _ _ _ _ _ RM _ _ (T4_C3D _ _ _ _ _ RM w p c)).
  - apply (T4_33 _ _ _ _ _ RM _ _ (T4_C3D_gen _ _ _ _ _ RM w p c)).
  - cbv zeta. unfold J_sq. rewrite RJ, Bten_rel, st_same. reflexivity.
  - cbv zeta. unfold J_sq. rewrite RJ, Bten_rel, st_same. reflexivity.
Qed.
Lemma c33_rel eps imp w p : c33_of eps (fun c => S_c epsm eig imp w p m' g' c 2%nat 2%nat) (C3333_c epsm eig imp w p m' g') (J0 m')
  = c33_of eps (fun c => S_c epsm eig imp w p m g c 2%nat 2%nat) (C3333_c epsm eig imp w p m g) (J0 m).
Proof.
  rewrite (r_J _ _ _ _ _ RM). f_equal.
  - apply functional_extensionality; intro c. apply (T2_33 _ _ _ _ _ RM), S_c_rel.
  - apply functional_extensionality; intro c. apply C3333_rel.
Qed.
End AtPoint.
End Rel.

Lemma mms_le C : minor_major_symmetric 3 C -> minor_major_symmetric 2 C.
Proof. intros X i j k l Hi Hj Hk Hl. apply X; lia. Qed.
Lemma work_of S e : S 0%nat 1%nat = S 1%nat 0%nat -> workV (stress_out false S) e = sum2 (fun i => sum2 (fun j => S i j * e i j)).
Proof. intro Y. unfold workV, stress_out, voi, sum3, sum2. rewrite <- Y. ring. Qed.
Lemma form_of C e f : minor_major_symmetric 2 C ->
  formV (fun a b => matrix_out C a b) e f = sum2 (fun i => sum2 (fun j => sum2 (fun k => sum2 (fun l => C i j k l * f k l)) * e i j)).
Proof.
  intro Y. unfold formV, matrix_out, voi, sum3, sum2.
  assert (m1 : forall i j k l, (i < 2)%nat -> (j < 2)%nat -> (k < 2)%nat -> (l < 2)%nat -> C i j k l = C j i k l) by (intros; apply Y; assumption).
  assert (m2 : forall i j k l, (i < 2)%nat -> (j < 2)%nat -> (k < 2)%nat -> (l < 2)%nat -> C i j k l = C i j l k) by (intros; apply Y; assumption).
  assert (m3 : forall i j k l, (i < 2)%nat -> (j < 2)%nat -> (k < 2)%nat -> (l < 2)%nat -> C i j k l = C k l i j) by (intros; apply Y; assumption).
  rewrite (m1 1%nat 0%nat 0%nat 0%nat), (m1 1%nat 0%nat 0%nat 1%nat), (m1 1%nat 0%nat 1%nat 0%nat), (m1 1%nat 0%nat 1%nat 1%nat) by lia.
  rewrite (m2 0%nat 0%nat 1%nat 0%nat), (m2 0%nat 1%nat 1%nat 0%nat), (m2 1%nat 1%nat 1%nat 0%nat) by lia.
  rewrite (m3 0%nat 1%nat 0%nat 0%nat), (m3 0%nat 1%nat 1%nat 1%nat), (m3 1%nat 1%nat 0%nat 0%nat) by lia. ring.
Qed.
Lemma sym2_T2 R0 s A A' : T2 (blk R0 s) A A' -> symmetric 3 A -> symmetric 3 A'.
Proof.
  intros T Y i j Hi Hj. rewrite (T i j), (T j i) by assumption. unfold sum3. rewrite (Y 1%nat 0%nat), (Y 2%nat 0%nat), (Y 2%nat 1%nat) by lia. ring.
Qed.

Section Symm.
Variables (epsm : R) (eig : mat -> vec * (nat -> vec)) (m : metric) (g : nat -> vec).
Hypothesis SM : sym_metric m.
Lemma dI2_sym3 c : symmetric 3 (dI_2 m c). Proof. intros i j Hi Hj. apply dI2_sym; assumption. Qed.
Lemma S_inc_sym w p : symmetric 3 (S_inc w p m).
Proof. destruct SM as (A & B). intros i j Hi Hj. unfold S_inc. rewrite (A i j), (B i j) by assumption. destruct w; reflexivity. Qed.
Lemma S_comp_sym w p c : symmetric 3 (S_comp w p m c).
Proof. destruct SM as (A & B). intros i j Hi Hj. unfold S_comp. cbv zeta. rewrite (A i j), (cinv_sym m c SM i j), (dI2_sym3 c i j) by assumption. destruct w; reflexivity. Qed.
Lemma S_i_sym imp w p : S_i epsm eig imp w p m g 0%nat 1%nat = S_i epsm eig imp w p m g 1%nat 0%nat.
Proof.
  destruct imp, w as [w|pars]; cbn [S_i]; try reflexivity.
  - apply S_inc_sym; lia.
  - destruct SM as (A & B). unfold S_inc_gen, dPsi_inc. cbn [Nat.eqb andb]. rewrite (A 0%nat 1%nat), (B 0%nat 1%nat) by lia. destruct w; reflexivity.
  - cbv zeta. unfold stress_code_i, S_spec_i, sum2. ring.
  - cbv zeta. unfold stress_code_i, S_spec_i, sum2. ring.
Qed.
Lemma S_c_sym imp w p c : S_c epsm eig imp w p m g c 0%nat 1%nat = S_c epsm eig imp w p m g c 1%nat 0%nat.
Proof.
  destruct imp, w as [w|pars]; cbn [S_c]; try reflexivity.
  - apply S_comp_sym; lia.
  - rewrite !gen_S_comp. apply S_comp_sym; lia.
  - cbv zeta. unfold stress_code_c, S_spec_c, sum3. ring.
  - cbv zeta. unfold stress_code_c, S_spec_c, sum3. ring.
Qed.
Lemma project_sym Cn Cx Cs q n : minor_major_symmetric n (project Cn Cx Cs q).
Proof. intros i j k l _ _ _ _. unfold project. repeat split; ring. Qed.
Lemma mms_ext n C D : (forall i j k l, (i < n)%nat -> (j < n)%nat -> (k < n)%nat -> (l < n)%nat -> C i j k l = D i j k l) -> minor_major_symmetric n D -> minor_major_symmetric n C.
Proof. intros E Y i j k l Hi Hj Hk Hl. rewrite !E by assumption. apply Y; assumption. Qed.
Lemma C_i_sym imp w p : Gori m 2%nat 2%nat = 1 -> J0 m <> 0 -> minor_major_symmetric 2 (C_i epsm eig imp w p m g).
Proof.
  intros G1 JN. destruct imp, w as [w|pars]; cbn [C_i]; try (intros i j k l _ _ _ _; repeat split; reflexivity).
  - apply mms_le, C_inc_sym, SM.
  - destruct (law_dec w NHe) as [->|N].
    + intros i j k l _ _ _ _. unfold C_inc_gen, dPsi_inc, d2Psi_inc, Rdiv. repeat split; ring.
    + apply (mms_ext _ _ (C_inc w p m)); [intros; apply gen_C_inc; assumption|]. apply mms_le, C_inc_sym, SM.
  - apply project_sym.
  - apply project_sym.
Qed.
Lemma C_c_sym imp w p c : minor_major_symmetric 2 (C_c epsm eig imp w p m g c).
Proof.
  destruct imp, w as [w|pars]; cbn [C_c]; try (intros i j k l _ _ _ _; repeat split; reflexivity).
  - apply mms_le, condense_sym, C3D_sym, SM.
  - apply (mms_ext _ _ (condense (C3D w p m c))); [intros; unfold condense; rewrite !gen_C3D; reflexivity|]. apply mms_le, condense_sym, C3D_sym, SM.
  - apply project_sym.
  - apply project_sym.
Qed.
End Symm.

(* the two evaluations at a point *)
Section Eval.
Variables (R0 : mat) (s : R) (P : mat) (ho hd ho' hd' : half).
Hypothesis H : hrel R0 s P ho hd ho' hd'.
Variables (close : mat -> mat -> bool) (eps epsm : R) (eig : mat -> vec * (nat -> vec)).
Lemma same_work S S' b : I2 R0 S S' -> S 0%nat 1%nat = S 1%nat 0%nat -> S' 0%nat 1%nat = S' 1%nat 0%nat -> forall m m', related R0 s P m m' ->
  same_stress P (stress_out b S) (stress_out b S').
Proof.
  intros T Y Y' m m' RM e He. destruct b; [unfold workV, stress_out, sum3; ring|]. rewrite !work_of by assumption. apply (I2_work _ _ _ _ _ RM). exact T.
Qed.
Lemma same_form C C' : I4 R0 C C' -> minor_major_symmetric 2 C -> minor_major_symmetric 2 C' -> forall m m', related R0 s P m m' ->
  same_stiffness P (fun a b => matrix_out C a b) (fun a b => matrix_out C' a b).
Proof. intros T Y Y' m m' RM e f He Hf. rewrite !form_of by assumption. apply (I4_work _ _ _ _ _ RM). exact T. Qed.

Lemma getM_cases : (exists m m', getM ho hd = Ok m /\ getM ho' hd' = Ok m' /\ related R0 s P m m' /\ sym_metric m /\ sym_metric m' /\ Gori m 2%nat 2%nat = 1 /\ J0 m <> 0
    /\ Gori m' 2%nat 2%nat = 1 /\ J0 m' <> 0)
  \/ (getM ho' hd' = getM ho hd /\ (getM ho hd = Throw \/ getM ho hd = UB)).
Proof.
  destruct (getM ho hd) as [m| |] eqn:E.
  - left. destruct (rel_of _ _ _ _ _ _ _ H m E) as (m' & E' & RM & SM & G1 & JN & _). exists m, m'. split; [reflexivity|]. split; [exact E'|]. split; [exact RM|]. split; [exact SM|].
    split; [split; [exact (sym2_T2 _ _ _ _ (r_go _ _ _ _ _ RM) (proj1 SM))|exact (sym2_T2 _ _ _ _ (r_gi _ _ _ _ _ RM) (proj2 SM))]|].
    split; [exact G1|]. split; [exact JN|]. split; [rewrite (T2_33 _ _ _ _ _ RM _ _ (r_go _ _ _ _ _ RM)); exact G1|rewrite (r_J _ _ _ _ _ RM); exact JN].
  - right. split; [rewrite <- E; apply (rel_fail _ _ _ _ _ _ _ H); rewrite E; discriminate|auto].
  - right. split; [rewrite <- E; apply (rel_fail _ _ _ _ _ _ _ H); rewrite E; discriminate|auto].
Qed.
Lemma c33_pt_rel imp w p : c33_pt eps epsm eig imp w p ho' hd' = c33_pt eps epsm eig imp w p ho hd.
Proof.
  unfold c33_pt. destruct getM_cases as [(m & m' & E & E' & RM & _)|(E' & [E|E])]; [|rewrite E', E; cbn [obind]; reflexivity..].
  rewrite E, E'. cbn [obind]. apply (c33_rel _ _ _ _ _ _ _ H _ _ RM).
Qed.
Lemma stress_rel comp imp w p : close (hGcon ho') (hGcon hd') = close (hGcon ho) (hGcon hd) ->
  both (same_stress P) (stress_pt close eps epsm eig comp imp w p ho hd) (stress_pt close eps epsm eig comp imp w p ho' hd').
Proof.
  intro CL. destruct comp; cbn [stress_pt]; [unfold stress_comp; rewrite c33_pt_rel; destruct (c33_pt eps epsm eig imp w p ho hd) as [c| |]; cbn [obind both]; try exact I|unfold stress_inc].
  all: destruct getM_cases as [(m & m' & E & E' & RM & SM & SM' & G1 & JN & G1' & JN')|(E' & [E|E])]; rewrite ?E', E; cbn [obind both]; try exact I; rewrite CL.
  - refine (same_work _ _ _ _ _ _ _ _ RM); [|apply S_c_sym; assumption|apply S_c_sym; assumption]. apply (T2_I2 _ s). apply (S_c_rel _ _ _ _ _ _ _ H _ _ RM).
  - refine (same_work _ _ _ _ _ _ _ _ RM); [|apply S_i_sym; assumption|apply S_i_sym; assumption]. apply (S_i_rel _ _ _ _ _ _ _ H _ _ RM); assumption.
Qed.
Lemma matrix_rel comp imp w p :
  both (same_stiffness P) (matrix_pt eps epsm eig comp imp w p ho hd) (matrix_pt eps epsm eig comp imp w p ho' hd').
Proof.
  destruct comp; cbn [matrix_pt]; [unfold matrix_comp; rewrite c33_pt_rel; destruct (c33_pt eps epsm eig imp w p ho hd) as [c| |]; cbn [obind both]; try exact I|unfold matrix_inc].
  all: destruct getM_cases as [(m & m' & E & E' & RM & SM & SM' & G1 & JN & G1' & JN')|(E' & [E|E])]; rewrite ?E', E; cbn [obind both]; try exact I.
  - refine (same_form _ _ _ _ _ _ _ RM); [|apply C_c_sym; assumption|apply C_c_sym; assumption]. apply (T4_I4 _ s). apply (C_c_rel _ _ _ _ _ _ _ H _ _ RM).
  - refine (same_form _ _ _ _ _ _ _ RM); [|apply C_i_sym; assumption|apply C_i_sym; assumption]. apply (C_i_rel _ _ _ _ _ _ _ H _ _ RM); assumption.
Qed.
End Eval.
