(* Proofs for UnitProps: the evaluations at a point under a change of the units of length and of stress. *)
From Coq Require Import Reals Lra Lia Arith Bool List FunctionalExtensionality.
From Verif Require Import Tensor MetricModel MetricSpec MetricProofs LinearModel LinearSpec NonlinearModel NonlinearSpec NonlinearProofs PrincipalModel PrincipalSpec SpectralModel Newton33Model SizeModel PtModel ReparSpec ReparTens ReparProofs ReparGeo.
Import ListNotations.
Open Scope R_scope.

(* ---------- length ---------- *)
Definition rI (r : R) : mat := fun i j => r * delta i j.
Section Length.
Variables (r : R) (g : geo).
Hypothesis Pr : 0 < r.
Hypothesis RG : regular g.
Notation g' := (scaled r g).
Lemma det_rI : det2 (rI r) = r * r. Proof. unfold det2, rI, delta. cbn [Nat.eqb]. ring. Qed.
Lemma det_rI_nz : det2 (rI r) <> 0. Proof. rewrite det_rI. nra. Qed.
Lemma cross_scaled c : cross3 (tang g' 0) (tang g' 1) c = r * r * cross3 (tang g 0) (tang g 1) c.
Proof. unfold scaled, cross3. cbn [tang]. destruct c as [|[|c]]; ring. Qed.
Lemma regular_scaled : regular g'.
Proof. destruct RG as (c & Hc & X). exists c. split; [exact Hc|]. rewrite cross_scaled. intro Z. apply Rmult_integral in Z as [Z|Z]; [nra|contradiction]. Qed.
Lemma normal_scaled c : normal g' c = normal g c.
Proof.
  rewrite (normal_eq _ regular_scaled), (normal_eq _ RG). rewrite cross_scaled.
  assert (E : norm3 (cross3 (tang g' 0) (tang g' 1)) = r * r * norm3 (cross3 (tang g 0) (tang g 1))).
  { unfold norm3. replace (dot3 (cross3 (tang g' 0) (tang g' 1)) (cross3 (tang g' 0) (tang g' 1)))
      with ((r * r)² * dot3 (cross3 (tang g 0) (tang g 1)) (cross3 (tang g 0) (tang g 1))) by (unfold dot3, sum3; rewrite !cross_scaled; unfold Rsqr; ring).
    rewrite sqrt_mult by (apply Rle_0_sqr || apply dot3_self_nonneg). rewrite sqrt_Rsqr by nra. reflexivity. }
  rewrite E. pose proof (norm_cross_pos _ RG). field. split; nra.
Qed.
Lemma Acov_scaled i j : Acov g' i j = r * r * Acov g i j.
Proof. unfold Acov, scaled, dot3, sum3. cbn [tang]. ring. Qed.
Lemma Bcov_scaled i j : Bcov g' i j = r * Bcov g i j.
Proof.
  assert (X : forall k, dot3 (der2 g' k) (normal g') = r * dot3 (der2 g k) (normal g)) by (intro k; unfold dot3, sum3; rewrite !normal_scaled; unfold scaled; cbn [der2]; ring).
  unfold Bcov. destruct i as [|[|i]], j as [|[|j]]; apply X.
Qed.
Lemma Acon_scaled i j : Acon g' i j = Acon g i j / (r * r).
Proof.
  pose proof (det2_Acov_pos g RG) as D. unfold Acon, inv2, det2 in *. rewrite !Acov_scaled. revert D.
  generalize (Acov g 0%nat 0%nat) (Acov g 0%nat 1%nat) (Acov g 1%nat 0%nat) (Acov g 1%nat 1%nat). intros a b c d D.
  assert (r * r * a * (r * r * d) - r * r * b * (r * r * c) <> 0) by (replace (r * r * a * (r * r * d) - r * r * b * (r * r * c)) with (r * r * (r * r) * (a * d - b * c)) by ring; apply Rgt_not_eq; repeat apply Rmult_lt_0_compat; assumption).
  destruct i as [|i], j as [|j]; field; repeat split; lra.
Qed.
Lemma ncov_scaled i c : ncov g' i c = ncov g i c.
Proof. unfold ncov, mixedB. rewrite !Acon_scaled, !Bcov_scaled. unfold scaled. cbn [tang]. field. lra. Qed.
Lemma gcov_scaled z i c : (i < 2)%nat -> gcov g' (r * z) i c = r * gcov g z i c.
Proof. intro Hi. destruct i as [|[|i]]; try lia; cbn [gcov]; rewrite ncov_scaled; unfold scaled; cbn [tang]; ring. Qed.
Lemma Gcov_scaled z i j : (i < 2)%nat -> (j < 2)%nat -> Gcov g' (r * z) i j = r * r * Gcov g z i j.
Proof.
  intros Hi Hj. rewrite (Gcov_gram _ _ regular_scaled), (Gcov_gram _ _ RG) by lia. unfold dot3, sum3. rewrite !gcov_scaled by assumption. ring.
Qed.
Lemma pb_rI M i j : (i < 2)%nat -> (j < 2)%nat -> pb (rI r) M i j = r * r * M i j.
Proof. intros Hi Hj. destruct i as [|[|i]]; try lia; destruct j as [|[|j]]; try lia; unfold pb, rI, delta, sum2; cbn [Nat.eqb]; ring. Qed.
Lemma gcon_scaled z i c : det3 (Gcov g z) <> 0 -> (i < 3)%nat -> gcon g' (r * z) i c = sum3 (fun a => blk (inv2 (rI r)) 1 i a * gcon g z a c).
Proof.
  intros D Hi. apply (con_rel (rI r) (Gcov g z) (Gcov g' (r * z)) 1 det_rI_nz (Rmult_1_l 1)); try apply Gcov_shell; try assumption.
  - intros a b Ha Hb. rewrite pb_rI by assumption. apply Gcov_scaled; assumption.
  - rewrite <- det3_Gcov. exact D.
  - intros a d Ha. rewrite gcov_scaled by assumption. destruct a as [|[|a]]; try lia; unfold rI, delta, sum2; cbn [Nat.eqb]; ring.
  - intro d. cbn [gcov]. rewrite normal_scaled. ring.
Qed.
End Length.
Lemma hrel_scaled r go gd z : 0 < r -> regular go -> regular gd -> det3 (Gcov go z) <> 0 -> det3 (Gcov gd z) <> 0 ->
  hrel (inv2 (rI r)) 1 (rI r) (half3 go z) (half3 gd z) (half3 (scaled r go) (r * z)) (half3 (scaled r gd) (r * z)).
Proof.
  intros Pr Ro Rd Do Dd. apply hrel_of; cbn [half3 hGcov hGcon hgcon]; try reflexivity; try assumption; try apply Gcov_shell; try ring; try (apply det_rI_nz; exact Pr).
  - intros; rewrite pb_rI by assumption. apply Gcov_scaled; assumption.
  - intros; rewrite pb_rI by assumption. apply Gcov_scaled; assumption.
  - intros; apply gcon_scaled; assumption.
Qed.
Definition uvec (k : nat) : mat := fun i j => match k with 0%nat => delta i 0 * delta j 0 | 1%nat => delta i 1 * delta j 1 | _ => / 2 * (delta i 0 * delta j 1 + delta i 1 * delta j 0) end.
Lemma uvec_sym k : symmetric 2 (uvec k). Proof. intros i j _ _. unfold uvec; destruct k as [|[|k]]; ring. Qed.
Lemma voi_u k a : (k < 3)%nat -> (a < 3)%nat -> voi (uvec k) a = delta k a.
Proof. intros Hk Ha. destruct k as [|[|[|k]]]; try lia; destruct a as [|[|[|a]]]; try lia; unfold voi, uvec, delta; cbn [Nat.eqb]; lra. Qed.
Lemma voi_pb r e a : voi (pullback2 (rI r) e) a = r * r * voi e a.
Proof. destruct a as [|[|a]]; unfold voi, pullback2, rI, delta, sum2; cbn [Nat.eqb]; ring. Qed.
Lemma stress_scale r s s' : 0 < r -> same_stress (rI r) s s' -> forall a, (a < 3)%nat -> s' a = s a / (r * r).
Proof.
  intros Pr H a Ha. pose proof (H (uvec a) (uvec_sym a)) as E. unfold workV, sum3 in E. rewrite !voi_pb, !voi_u in E by lia.
  assert (X : forall x y, r * r * x = y -> x = y / (r * r)) by (intros; subst; field; lra). apply X.
  unfold delta in E. destruct a as [|[|[|a]]]; try lia; cbn [Nat.eqb] in E; lra.
Qed.
Lemma form_scale r M M' : 0 < r -> same_stiffness (rI r) M M' -> forall a b, (a < 3)%nat -> (b < 3)%nat -> M' a b = M a b / (r * r * (r * r)).
Proof.
  intros Pr H a b Ha Hb. pose proof (H (uvec a) (uvec b) (uvec_sym a) (uvec_sym b)) as E. unfold formV, sum3 in E. rewrite !voi_pb, !voi_u in E by lia.
  assert (X : forall x y, r * r * (r * r) * x = y -> x = y / (r * r * (r * r))) by (intros; subst; field; lra). apply X.
  unfold delta in E. destruct a as [|[|[|a]]]; try lia; destruct b as [|[|[|b]]]; try lia; cbn [Nat.eqb] in E; lra.
Qed.

(* ---------- stress ---------- *)
Section Stress.
Variable k : R.
Hypothesis Nk : k <> 0.
Notation pk p := (units_par k p).
Notation wk w := (units_law k w).
Lemma mu_k p : mu (pk p) = k * mu p. Proof. unfold units_par, mu, mu_of. cbn [units_par pE pnu]. unfold Rdiv. ring. Qed.
Lemma lam_k p : lam (pk p) = k * lam p. Proof. unfold lam, lambda_of. cbn [units_par pE pnu]. unfold Rdiv. ring. Qed.
Lemma bulk_k p : bulk (pk p) = k * bulk p. Proof. unfold bulk. cbn [units_par pE pnu]. unfold Rdiv. ring. Qed.
Lemma c2_k p : c2 (pk p) = k * c2 p. Proof. unfold c2. rewrite mu_k. cbn [units_par pratio]. unfold Rdiv. ring. Qed.
Lemma c1_k p : c1 (pk p) = k * c1 p. Proof. unfold c1. rewrite c2_k. cbn [units_par pratio]. ring. Qed.

Lemma nth_even : forall l n, nth (2 * n) (scale_moduli k l) 0 = k * nth (2 * n) l 0 /\ nth (2 * n + 1) (scale_moduli k l) 0 = nth (2 * n + 1) l 0.
Proof.
  fix IH 1. intros [|a [|b l]] n.
  - cbn [scale_moduli]. destruct n; cbn; split; try (destruct (n + S (n + 0))%nat; cbn); try ring; destruct n; cbn; ring.
  - cbn [scale_moduli]. destruct n as [|n]; [cbn; split; ring|]. replace (2 * S n)%nat with (S (S (2 * n))) by lia. cbn [nth plus]. destruct (2 * n)%nat; cbn; split; ring.
  - cbn [scale_moduli]. destruct n as [|n]; [cbn; split; ring|]. replace (2 * S n)%nat with (S (S (2 * n))) by lia. cbn [nth plus]. apply IH.
Qed.
Lemma length_k : forall l, length (scale_moduli k l) = length l.
Proof. fix IH 1. intros [|a [|b l]]; try reflexivity. cbn. do 2 f_equal. apply IH. Qed.
Lemma ogden_sum_k pars (f f' : R -> R -> R) : (forall mi al, f' (k * mi) al = k * f mi al) -> ogden_sum (scale_moduli k pars) f' = k * ogden_sum pars f.
Proof.
  intro E. unfold ogden_sum, ogden_terms. rewrite length_k. induction (seq 0 ((length pars - 2) / 2)) as [|n ns IH]; cbn [map fold_right]; [ring|].
  rewrite IH. cbn [fst snd]. destruct (nth_even pars (n + 1)) as (-> & ->). rewrite E. ring.
Qed.

Lemma dPsi_da_c_k w p s J a : dPsi_da_c (wk w) (pk p) s J a = k * dPsi_da_c w p s J a.
Proof.
  destruct w as [[| |]|pars]; cbn [units_law dPsi_da_c]; unfold dPsi_da_vol; rewrite ?mu_k, ?lam_k, ?bulk_k, ?c1_k, ?c2_k; unfold Rdiv; try ring.
  rewrite (ogden_sum_k pars (fun mi al => mi * Rpower J (- al * / 6) * (Rpower (s a) (al - 1) - 1 * / 3 * 1 * / s a * Lambda s al))) by (intros; ring). ring.
Qed.
Lemma dPsi_da_i_k w p s a : dPsi_da_i (wk w) (pk p) s a = k * dPsi_da_i w p s a.
Proof.
  destruct w as [[| |]|pars]; cbn [units_law dPsi_da_i]; rewrite ?mu_k, ?lam_k, ?bulk_k, ?c1_k, ?c2_k; unfold Rdiv; try ring.
  apply ogden_sum_k; intros; ring.
Qed.
Lemma d2Psi_vol_k p s a b : d2Psi_dab_vol (pk p) s a b = k * d2Psi_dab_vol p s a b.
Proof. unfold d2Psi_dab_vol. rewrite bulk_k. cbv zeta. unfold Rdiv. ring. Qed.
Lemma d2Psi_dab_c_k w p s J a b : d2Psi_dab_c (wk w) (pk p) s J a b = k * d2Psi_dab_c w p s J a b.
Proof.
  destruct w as [[| |]|pars]; cbn [units_law d2Psi_dab_c]; rewrite ?d2Psi_vol_k; rewrite ?mu_k, ?lam_k, ?bulk_k, ?c1_k, ?c2_k; unfold Rdiv; try ring.
  rewrite (ogden_sum_k pars (fun mi al => mi * Rpower J (- al * / 6) *
        (- (al * / 3) * (Rpower (s a) (al - 1) * / s b + Rpower (s b) (al - 1) * / s a - 1 * / 3 * 1 * / (s a * s b) * Lambda s al)
         + delta a b * ((al - 1) * Rpower (s a) (al - 2) + Lambda s al * / 3 * Rpower (s a) (- (2)))))) by (intros; ring). ring.
Qed.
Lemma d2Psi_dab_i_k w p s a b : d2Psi_dab_i (wk w) (pk p) s a b = k * d2Psi_dab_i w p s a b.
Proof.
  destruct w as [[| |]|pars]; cbn [units_law d2Psi_dab_i]; rewrite ?mu_k, ?lam_k, ?bulk_k, ?c1_k, ?c2_k; unfold Rdiv; try ring.
  apply ogden_sum_k; intros; ring.
Qed.
Lemma Sa_c_k w p s J a : Sa_c (wk w) (pk p) s J a = k * Sa_c w p s J a.
Proof. unfold Sa_c. rewrite dPsi_da_c_k. ring. Qed.
Lemma Sa_i_k w p s a : Sa_i (wk w) (pk p) s a = k * Sa_i w p s a.
Proof. unfold Sa_i, pr_p. rewrite !dPsi_da_i_k. ring. Qed.
Lemma dSa_c_k w p s J a b : dSa_db_c (wk w) (pk p) s J a b = k * dSa_db_c w p s J a b.
Proof. unfold dSa_db_c. rewrite d2Psi_dab_c_k, dPsi_da_c_k. destruct (Nat.eqb a b); ring. Qed.
Lemma dp_k w p s a : dp_da (wk w) (pk p) s a = k * dp_da w p s a.
Proof. unfold dp_da. rewrite !d2Psi_dab_i_k, !dPsi_da_i_k. destruct (Nat.eqb a 2); ring. Qed.
Lemma dSa_i_k w p s a b : dSa_db_i (wk w) (pk p) s a b = k * dSa_db_i w p s a b.
Proof. unfold dSa_db_i, pr_p. rewrite d2Psi_dab_i_k, !dPsi_da_i_k, !dp_k. destruct (Nat.eqb a b); ring. Qed.
Lemma quotient_k s S S' D D' a b : (forall a, S' a = k * S a) -> (forall a b, D' a b = k * D a b) -> quotient s S' D' a b = k * quotient s S D a b.
Proof. intros E F. unfold quotient. rewrite !E, !F. unfold Rdiv. destruct (near_eq s a b); ring. Qed.
Lemma Cabcd_c_k w p s J a b c d : Cabcd_c (wk w) (pk p) s J a b c d = k * Cabcd_c w p s J a b c d.
Proof.
  unfold Cabcd_c. destruct (Nat.eqb a b && Nat.eqb c d)%bool; [rewrite dSa_c_k; ring|]. destruct (shear_pair a b c d); [|ring].
  apply quotient_k; intros; [apply Sa_c_k|apply dSa_c_k].
Qed.
Lemma Cabcd_i_k w p s a b c d : Cabcd_i (wk w) (pk p) s a b c d = k * Cabcd_i w p s a b c d.
Proof.
  unfold Cabcd_i. destruct (Nat.eqb a b && Nat.eqb c d)%bool; [rewrite dSa_i_k, d2Psi_dab_i_k, dPsi_da_i_k; ring|]. destruct (shear_pair a b c d); [|ring].
  apply quotient_k; intros; [apply Sa_i_k|apply dSa_i_k].
Qed.
Lemma frac_k x y z : k * x * (k * y) / (k * z) = k * (x * y / z).
Proof. unfold Rdiv. rewrite Rinv_mult. replace (k * x * (k * y) * (/ k * / z)) with (k * (x * y * / z) * (k * / k)) by ring. rewrite Rinv_r by exact Nk. ring. Qed.
Lemma condense_k C C' i j l m : (forall i j l m, C' i j l m = k * C i j l m) -> condense C' i j l m = k * condense C i j l m.
Proof. intro E. unfold condense. rewrite !E, frac_k. ring. Qed.

Variables (epsm : R) (eig : mat -> vec * (nat -> vec)).
Lemma C3D_k w p m c i j a b : C3D w (pk p) m c i j a b = k * C3D w p m c i j a b.
Proof. unfold C3D. cbv zeta. rewrite ?mu_k, ?lam_k, ?bulk_k, ?c1_k, ?c2_k. destruct w; ring. Qed.
Lemma S_comp_k w p m c i j : S_comp w (pk p) m c i j = k * S_comp w p m c i j.
Proof. unfold S_comp. cbv zeta. rewrite ?mu_k, ?lam_k, ?bulk_k, ?c1_k, ?c2_k. unfold Rdiv. destruct w; ring. Qed.
Lemma S_i_k imp w p m g i j : S_i epsm eig imp (wk w) (pk p) m g i j = k * S_i epsm eig imp w p m g i j.
Proof.
  destruct imp, w as [w|pars]; cbn [S_i units_law]; try (unfold mzero; ring).
  - unfold S_inc. rewrite ?mu_k, ?c1_k, ?c2_k. unfold Rdiv. destruct w; ring.
  - unfold S_inc_gen, dPsi_inc. rewrite ?mu_k, ?c1_k, ?c2_k. unfold Rdiv. destruct w; try ring. cbn [Nat.eqb andb]. destruct (Nat.eqb i 2 && Nat.eqb j 2)%bool; ring.
  - cbv zeta. unfold stress_code_i, S_spec_i, sum2. rewrite !(Sa_i_k (L w)). ring.
  - cbv zeta. unfold stress_code_i, S_spec_i, sum2. rewrite !(Sa_i_k (OG pars)). ring.
Qed.
Lemma S_c_k imp w p m g c i j : S_c epsm eig imp (wk w) (pk p) m g c i j = k * S_c epsm eig imp w p m g c i j.
Proof.
  destruct imp, w as [w|pars]; cbn [S_c units_law]; try (unfold mzero; ring).
  - apply S_comp_k.
  - rewrite !gen_S_comp. apply S_comp_k.
  - cbv zeta. unfold stress_code_c, S_spec_c, sum3. rewrite !(Sa_c_k (L w)). ring.
  - cbv zeta. unfold stress_code_c, S_spec_c, sum3. rewrite !(Sa_c_k (OG pars)). ring.
Qed.
Lemma project_k Cn Cn' Cx Cx' Cs Cs' q i j a b : (forall n, Cn' n = k * Cn n) -> Cx' = k * Cx -> Cs' = k * Cs -> project Cn' Cx' Cs' q i j a b = k * project Cn Cx Cs q i j a b.
Proof. intros E -> ->. unfold project. rewrite !E. ring. Qed.
Lemma C_i_k imp w p m g i j a b : C_i epsm eig imp (wk w) (pk p) m g i j a b = k * C_i epsm eig imp w p m g i j a b.
Proof.
  destruct imp, w as [w|pars]; cbn [C_i units_law]; try ring.
  - unfold C_inc. rewrite ?mu_k, ?c1_k, ?c2_k. unfold Rdiv. destruct w; ring.
  - unfold C_inc_gen.
    assert (E1 : forall i j, dPsi_inc w (pk p) m i j = k * dPsi_inc w p m i j) by (intros x y; unfold dPsi_inc; rewrite ?mu_k, ?c1_k, ?c2_k; unfold Rdiv; destruct w; try ring; destruct (Nat.eqb x 2 && Nat.eqb y 2)%bool; ring).
    assert (E2 : forall i j u v, d2Psi_inc w (pk p) m i j u v = k * d2Psi_inc w p m i j u v).
    { intros x y u v. unfold d2Psi_inc. destruct w; try ring. cbv zeta. rewrite c2_k. unfold Rdiv. destruct (Nat.eqb x 2 && Nat.eqb y 2)%bool, (Nat.eqb u 2 || Nat.eqb v 2)%bool; cbn [andb negb]; ring. }
    rewrite !E1, !E2. unfold Rdiv. ring.
  - cbv zeta. unfold tangent_code_i, C_spec_i. apply project_k; intros; apply (Cabcd_i_k (L w)).
  - cbv zeta. unfold tangent_code_i, C_spec_i. apply project_k; intros; apply (Cabcd_i_k (OG pars)).
Qed.
Lemma pow2_k x z : (k * x) ^ 2 / (k * z) = k * (x ^ 2 / z).
Proof. replace ((k * x) ^ 2) with (k * x * (k * x)) by ring. rewrite frac_k. replace (x ^ 2) with (x * x) by ring. reflexivity. Qed.
Lemma C_c_k imp w p m g c i j a b : C_c epsm eig imp (wk w) (pk p) m g c i j a b = k * C_c epsm eig imp w p m g c i j a b.
Proof.
  destruct imp, w as [w|pars]; cbn [C_c units_law]; try ring.
  - apply condense_k. intros; apply C3D_k.
  - apply condense_k. intros; rewrite !gen_C3D; apply C3D_k.
  - cbv zeta. unfold tangent_code_c, C_spec_c. apply project_k; intros; rewrite !(Cabcd_c_k (L w)), ?pow2_k, ?frac_k; ring.
  - cbv zeta. unfold tangent_code_c, C_spec_c. apply project_k; intros; rewrite !(Cabcd_c_k (OG pars)), ?pow2_k, ?frac_k; ring.
Qed.
Lemma C3333_k imp w p m g c : C3333_c epsm eig imp (wk w) (pk p) m g c = k * C3333_c epsm eig imp w p m g c.
Proof.
  destruct imp, w as [w|pars]; cbn [C3333_c units_law]; try ring.
  - apply C3D_k.
  - rewrite !gen_C3D. apply C3D_k.
  - cbv zeta. apply (Cabcd_c_k (L w)).
  - cbv zeta. apply (Cabcd_c_k (OG pars)).
Qed.
Lemma loop_k eps S C S' C' : (forall c, S' c = k * S c) -> (forall c, C' c = k * C c) -> forall n c d, loop33 eps S' C' n c d = loop33 eps S C n c d.
Proof.
  intros E F. assert (X : forall c, correction S' C' c = correction S C c).
  { intro c. unfold correction. rewrite E, F. unfold Rdiv. rewrite Rinv_mult. replace (-2 * (k * S c) * (/ k * / C c)) with (-2 * S c * / C c * (k * / k)) by ring. rewrite Rinv_r by exact Nk. ring. }
  induction n as [|n IH]; intros c d; cbn [loop33]; [reflexivity|]. cbv zeta. rewrite X, IH. reflexivity.
Qed.
Lemma c33_k eps imp w p ho hd : c33_pt eps epsm eig imp (wk w) (pk p) ho hd = c33_pt eps epsm eig imp w p ho hd.
Proof.
  unfold c33_pt. destruct (getM ho hd) as [m| |]; cbn [obind]; [|reflexivity|reflexivity]. unfold c33_of. cbv zeta.
  transitivity (loop33 eps (fun c => S_c epsm eig imp w p m (hgcon ho) c 2%nat 2%nat) (C3333_c epsm eig imp w p m (hgcon ho)) itmax (/ J0 m)
    (correction (fun c => S_c epsm eig imp (wk w) (pk p) m (hgcon ho) c 2%nat 2%nat) (C3333_c epsm eig imp (wk w) (pk p) m (hgcon ho)) (/ J0 m))).
  - apply loop_k; intros; [apply S_c_k|apply C3333_k].
  - apply f_equal. unfold correction. rewrite S_c_k, C3333_k. unfold Rdiv. rewrite Rinv_mult.
    match goal with |- -2 * (k * ?x) * (/ k * / ?y) = _ => replace (-2 * (k * x) * (/ k * / y)) with (-2 * x * / y * (k * / k)) by ring end. rewrite Rinv_r by exact Nk. ring.
Qed.
Variable close : mat -> mat -> bool.
Lemma stress_k eps comp imp w p ho hd :
  both (fun x y => forall a, y a = k * x a) (stress_pt close eps epsm eig comp imp w p ho hd) (stress_pt close eps epsm eig comp imp (wk w) (pk p) ho hd).
Proof.
  destruct comp; cbn [stress_pt]; [unfold stress_comp; rewrite c33_k; destruct (c33_pt eps epsm eig imp w p ho hd) as [c| |]; cbn [obind both]; try exact I|unfold stress_inc].
  all: destruct (getM ho hd) as [m| |]; cbn [obind both]; try exact I; intro a; unfold stress_out; destruct (close (hGcon ho) (hGcon hd)); try ring.
  - destruct a as [|[|a]]; apply S_c_k.
  - destruct a as [|[|a]]; apply S_i_k.
Qed.
Lemma matrix_k eps comp imp w p ho hd :
  both (fun x y => forall a b, y a b = k * x a b) (matrix_pt eps epsm eig comp imp w p ho hd) (matrix_pt eps epsm eig comp imp (wk w) (pk p) ho hd).
Proof.
  destruct comp; cbn [matrix_pt]; [unfold matrix_comp; rewrite c33_k; destruct (c33_pt eps epsm eig imp w p ho hd) as [c| |]; cbn [obind both]; try exact I|unfold matrix_inc].
  all: destruct (getM ho hd) as [m| |]; cbn [obind both]; try exact I; intros a b; unfold matrix_out.
  - destruct a as [|[|[|a]]], b as [|[|[|b]]]; apply C_c_k.
  - destruct a as [|[|[|a]]], b as [|[|[|b]]]; apply C_i_k.
Qed.
End Stress.

(* ---------- the test on unchanged metrics ---------- *)
Lemma max9_le M x : 0 <= x -> (forall i j, (i < 3)%nat -> (j < 3)%nat -> Rabs (M i j) <= x) -> maxabs9 M <= x.
Proof. intros Px E. unfold maxabs9. cbn -[Rmax]. repeat apply Rmax_lub; try (apply E; lia). exact Px. Qed.
Lemma max9_ge M i j : (i < 3)%nat -> (j < 3)%nat -> Rabs (M i j) <= maxabs9 M.
Proof.
  intros Hi Hj. unfold maxabs9. cbn -[Rmax].
  assert (A : forall x y z, x <= z -> x <= Rmax y z) by (intros x y z L; apply Rle_trans with (1 := L), Rmax_r).
  destruct i as [|[|[|i]]]; try lia; destruct j as [|[|[|j]]]; try lia; repeat first [apply Rmax_l | apply A].
Qed.
Lemma close_far tol close r s ho hd ho' hd' : relative_close tol close -> 0 < tol -> 0 < r -> hrel (inv2 (rI r)) s (rI r) ho hd ho' hd' -> hGcon hd 2%nat 2%nat = 1 ->
  (forall i j, (i < 2)%nat -> (j < 2)%nat -> Rabs (hGcon ho i j - hGcon hd i j) <= tol * (r * r)) -> close (hGcon ho') (hGcon hd') = true.
Proof.
  intros RC Pt Pr H D1 DB. apply RC.
  assert (INV : forall i j, (i < 2)%nat -> (j < 2)%nat -> inv2 (rI r) i j = delta i j / r).
  { intros i j Hi Hj. destruct i as [|[|i]]; try lia; destruct j as [|[|j]]; try lia; unfold inv2; rewrite det_rI; unfold rI, delta; cbn [Nat.eqb]; field; lra. }
  assert (PL : forall A A', T2 (blk (inv2 (rI r)) s) A A' -> sh A -> (forall i j, (i < 2)%nat -> (j < 2)%nat -> A' i j = A i j / (r * r)) /\ sh A' /\ A' 2%nat 2%nat = A 2%nat 2%nat).
  { intros A A' T (a & b & c & d). split; [|split].
    - intros i j Hi Hj. rewrite T by lia. destruct i as [|[|i]]; try lia; destruct j as [|[|j]]; try lia; unfold sum3; cbn [blk]; rewrite !INV by lia; unfold delta; cbn [Nat.eqb]; field; lra.
    - unfold sh. rewrite !T by lia. unfold sum3; cbn [blk]. rewrite a, b, c, d. repeat split; ring.
    - rewrite T by lia. unfold sum3; cbn [blk]. replace (A 2%nat 2%nat) with (s * s * A 2%nat 2%nat) at 2 by (rewrite (h_s _ _ _ _ _ _ _ H); ring). ring. }
  destruct (PL _ _ (h_go _ _ _ _ _ _ _ H) (h_so _ _ _ _ _ _ _ H)) as (Eo & (a & b & c & d) & Zo).
  destruct (PL _ _ (h_gi _ _ _ _ _ _ _ H) (h_si _ _ _ _ _ _ _ H)) as (Ed & (a' & b' & c' & d') & Zd).
  assert (M1 : 1 <= Rmax (maxabs9 (hGcon ho')) (maxabs9 (hGcon hd'))).
  { apply Rle_trans with (2 := Rmax_l _ _). apply Rle_trans with (2 := max9_ge _ 2 2 ltac:(lia) ltac:(lia)). rewrite Zo, (h_33 _ _ _ _ _ _ _ H), Rabs_R1. lra. }
  apply Rle_trans with tol; [|nra]. apply max9_le; [lra|].
  assert (Z : forall x y, x = 0 -> y = 0 -> Rabs (x - y) <= tol) by (intros x y -> ->; rewrite Rminus_0_r, Rabs_R0; lra).
  assert (X : forall i j, (i < 2)%nat -> (j < 2)%nat -> Rabs (hGcon ho' i j - hGcon hd' i j) <= tol).
  { intros i j Hi Hj. rewrite Eo, Ed by assumption. replace (hGcon ho i j / (r * r) - hGcon hd i j / (r * r)) with ((hGcon ho i j - hGcon hd i j) * / (r * r)) by (field; lra).
    assert (Prr : 0 < r * r) by nra. rewrite Rabs_mult, (Rabs_pos_eq (/ (r * r))) by (left; apply Rinv_0_lt_compat; exact Prr).
    apply (Rmult_le_reg_r (r * r)); [exact Prr|]. rewrite Rmult_assoc, Rinv_l by lra. rewrite Rmult_1_r. apply DB; assumption. }
  intros i j Hi Hj. destruct i as [|[|[|i]]]; try lia; destruct j as [|[|[|j]]]; try lia; try (apply X; lia); try (apply Z; assumption).
  rewrite Zo, Zd, D1, (h_33 _ _ _ _ _ _ _ H). unfold Rminus. rewrite Rplus_opp_r, Rabs_R0. lra.
Qed.
(* the stress vanishes when the test holds *)
Lemma stress_close close eps epsm eig comp imp w p ho hd : close (hGcon ho) (hGcon hd) = true ->
  forall s, stress_pt close eps epsm eig comp imp w p ho hd = Ok s -> forall a, s a = 0.
Proof.
  intros CL s. destruct comp; cbn [stress_pt]; [unfold stress_comp; destruct (c33_pt eps epsm eig imp w p ho hd) as [c| |]; cbn [obind]; try discriminate|unfold stress_inc].
  all: destruct (getM ho hd) as [m| |]; cbn [obind]; try discriminate; intros E a; injection E as <-; unfold stress_out; rewrite CL; reflexivity.
Qed.
