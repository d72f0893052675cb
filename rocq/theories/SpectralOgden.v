From Coq Require Import Reals Lra Lia List.
From Coquelicot Require Import Coquelicot.
From Verif Require Import Tensor MetricModel MetricSpec MetricProofs LinearModel LinearSpec LinearProofs PrincipalModel PrincipalSpec PrincipalProofs
  NonlinearModel NonlinearSpec NonlinearProofs EnergyProofs SpectralModel SpectralSpec SpectralProofs SpectralTangent SpectralMain.
Open Scope R_scope.

Definition tsum (T : list (R * R)) (f : R -> R -> R) : R := fold_right (fun t acc => f (fst t) (snd t) + acc) 0 T.
Lemma tsum_ogden pars f : ogden_sum pars f = tsum (ogden_terms pars) f. Proof. reflexivity. Qed.
Lemma tsum_ext T f g : (forall mi al, f mi al = g mi al) -> tsum T f = tsum T g.
Proof. intro E. unfold tsum. induction T as [|x T IH]; cbn [fold_right]; [reflexivity|]. now rewrite E, IH. Qed.
Lemma tsum_lin3 T (f g h : R -> R -> R) (a b c : R) :
  tsum T f * a + tsum T g * b + tsum T h * c = tsum T (fun mi al => f mi al * a + g mi al * b + h mi al * c).
Proof. unfold tsum. induction T as [|x T IH]; cbn [fold_right]; [ring|]. rewrite <- IH. ring. Qed.


Lemma der_sum3c (m al : R) (A B C : R -> R) (dA dB dC : R) : is_derive A 0 dA -> is_derive B 0 dB -> is_derive C 0 dC ->
  is_derive (fun t => m / al * (A t + B t + C t - 3)) 0 (m / al * (dA + dB + dC)).
Proof. intros DA DB DC. auto_derive; [der_side|]. der_val DA; der_val DB; der_val DC. ring. Qed.

Lemma der_ogden_W T (a b c : R -> R) (da db dc : R) : (forall t, In t T -> snd t <> 0) -> 0 < a 0 -> 0 < b 0 -> 0 < c 0 ->
  is_derive a 0 da -> is_derive b 0 db -> is_derive c 0 dc ->
  is_derive (fun t => ogden_W T (a t) (b t) (c t)) 0
    (tsum T (fun mi al => mi * (Rpower (a 0) al * (da / a 0) + Rpower (b 0) al * (db / b 0) + Rpower (c 0) al * (dc / c 0)))).
Proof.
  intros N P1 P2 P3 D1 D2 D3. unfold ogden_W, tsum. induction T as [|x T IH]; cbn [fold_right]; [apply @is_derive_const|].
  apply der_add; [|apply IH; intros t Ht; apply N; now right].
  assert (Nx : snd x <> 0) by (apply N; now left).
  evar_last. { exact (der_sum3c (fst x) (snd x) _ _ _ _ _ _ (der_pow (snd x) a da P1 D1) (der_pow (snd x) b db P2 D2) (der_pow (snd x) c dc P3 D3)). }
  field. repeat split; lra || assumption.
Qed.

Section ENERGY.
Variables (g : geo) (z : R) (G H : mat) (l1 l2 : R -> R) (v1 v2 : R -> vec) (p : par) (pars : list R).
Hypotheses (SG : shell_G G) (SH : in_plane H) (PF : principal_family g z G H l1 l2 v1 v2) (LT : l1 0 < l2 0).
Hypothesis NZ : forall t, In t (ogden_terms pars) -> snd t <> 0.
Let fr t := frame3 (v1 t) (v2 t) (gcon g z 2%nat).
Let gc := gcon g z.
Let h := hab g z H v1 v2.

Lemma en_pos : 0 < l1 0 /\ 0 < l2 0. Proof. exact (sp_pos _ _ _ _ (fam0 g z G H l1 l2 v1 v2 SG SH PF)). Qed.

Lemma ogden_energy_inc :
  is_derive (fun t => ogden_W (ogden_terms pars) (l1 t) (l2 t) (/ (l1 t * l2 t))) 0
    (/ 2 * dotdot (S_spec_i (OG pars) p (stretches_i (l1 0) (l2 0)) gc (fr 0)) H).
Proof.
  destruct en_pos as (P1 & P2). pose proof (fam_l1 g z G H l1 l2 v1 v2 SG SH PF LT) as D1. pose proof (fam_l2 g z G H l1 l2 v1 v2 SG SH PF LT) as D2.
  pose proof (der_l3 l1 l2 _ _ P1 P2 D1 D2) as D3. fold h in D1, D2, D3.
  assert (P3 : 0 < / (l1 0 * l2 0)) by (apply Rinv_0_lt_compat, Rmult_lt_0_compat; assumption).
  evar_last. { exact (der_ogden_W (ogden_terms pars) l1 l2 (fun t => / (l1 t * l2 t)) _ _ _ NZ P1 P2 P3 D1 D2 D3). }
  cbv beta. rewrite dotdot_shell by apply SH. rewrite (proj2 SH). unfold S_spec_i, sum2.
  set (s := stretches_i (l1 0) (l2 0)).
  transitivity (/ 2 * (Sa_i (OG pars) p s 0 * h 0%nat 0%nat + Sa_i (OG pars) p s 1 * h 1%nat 1%nat)).
  2:{ unfold h, hab, sum2. destruct SH as ((HS & _) & _). change (pr (gcon g z) (frame3 (v1 0) (v2 0) (gcon g z 2))) with (pr gc (fr 0)). rewrite HS. ring. }
  unfold Sa_i, pr_p, dJ_da. cbn [dPsi_da_i]. rewrite !tsum_ogden.
  set (x := l1 0) in *. set (y := l2 0) in *. change (s 0%nat) with x. change (s 1%nat) with y. change (s 2%nat) with (/ (x * y)).
  transitivity (tsum (ogden_terms pars) (fun mi al => mi * Rpower x (al - 1)) * (h 0%nat 0%nat / (2 * x)) + tsum (ogden_terms pars) (fun mi al => mi * Rpower y (al - 1)) * (h 1%nat 1%nat / (2 * y))
     + tsum (ogden_terms pars) (fun mi al => mi * Rpower (/ (x * y)) (al - 1)) * (- / (x * y) * (h 0%nat 0%nat / (2 * x) / x + h 1%nat 1%nat / (2 * y) / y))).
  - rewrite tsum_lin3. apply tsum_ext. intros mi al. rewrite !Rpow_pred by assumption. field. lra.
  - field. lra.
Qed.

Variables (l3 : R -> R) (k3 : R).
Hypotheses (P3 : 0 < l3 0) (D3 : is_derive l3 0 k3).
Let m := metric_of (Gcov g z) G.

Lemma der_volW3 (K : R) (a b c : R -> R) (da db dc : R) : 0 < a 0 -> 0 < b 0 -> 0 < c 0 -> is_derive a 0 da -> is_derive b 0 db -> is_derive c 0 dc ->
  is_derive (fun t => vol_W K (a t) (b t) (c t)) 0 (K / 2 * ((a 0 * b 0 * c 0) ^ 2 - 1) * (da / a 0 + db / b 0 + dc / c 0)).
Proof.
  intros A B C DA DB DC. unfold vol_W. 
  assert (DP : is_derive (fun t => a t * b t * c t * (a t * b t * c t)) 0 (2 * (a 0 * b 0 * c 0) ^ 2 * (da / a 0 + db / b 0 + dc / c 0))).
  { auto_derive; [der_side|]. der_val DA; der_val DB; der_val DC. field. lra. }
  assert (PP : 0 < a 0 * b 0 * c 0) by (apply Rmult_lt_0_compat; [apply Rmult_lt_0_compat|]; assumption).
  assert (PQ : 0 < a 0 * b 0 * c 0 * (a 0 * b 0 * c 0)) by (apply Rmult_lt_0_compat; assumption).
  evar_last. { exact (der_volW K (fun t => a t * b t * c t * (a t * b t * c t)) _ _ _ DP (der_ln (fun t => a t * b t * c t * (a t * b t * c t)) _ PQ DP)). }
  cbv beta. field. lra.
Qed.

Lemma Rpower_sq x e : 0 < x -> Rpower (x ^ 2) e = Rpower x (2 * e).
Proof. intro P. unfold Rpower. f_equal. replace (x ^ 2) with (x * x) by ring. rewrite ln_mult by assumption. ring. Qed.
Lemma Rpower_prod x y e : 0 < x -> 0 < y -> Rpower (x * y) e = Rpower x e * Rpower y e.
Proof. intros. unfold Rpower. rewrite ln_mult by assumption. rewrite Rmult_plus_distr_l. apply exp_plus. Qed.

Lemma ogden_energy_comp :
  is_derive (fun t => ogden_W_iso (ogden_terms pars) (l1 t) (l2 t) (l3 t) + vol_W (bulk p) (l1 t) (l2 t) (l3 t)) 0
    (/ 2 * dotdot (S_spec_c (OG pars) p (triple (l1 0) (l2 0) (l3 0)) (J_sq m (l3 0 ^ 2)) gc (fr 0)) (with33 H (2 * l3 0 * k3))).
Proof.
  destruct en_pos as (P1 & P2). pose proof (fam_l1 g z G H l1 l2 v1 v2 SG SH PF LT) as D1. pose proof (fam_l2 g z G H l1 l2 v1 v2 SG SH PF LT) as D2.
  fold h in D1, D2.
  assert (PJ : 0 < l1 0 * l2 0 * l3 0) by (apply Rmult_lt_0_compat; [apply Rmult_lt_0_compat|]; assumption).
  assert (DJ : is_derive (fun t => l1 t * l2 t * l3 t) 0 (l1 0 * l2 0 * l3 0 * (h 0%nat 0%nat / (2 * l1 0) / l1 0 + h 1%nat 1%nat / (2 * l2 0) / l2 0 + k3 / l3 0))).
  { evar_last. { apply der_mul; [apply der_mul; [exact D1|exact D2]|exact D3]. } cbv beta. field. lra. }
  pose proof (der_pow (- (1 / 3)) (fun t => l1 t * l2 t * l3 t) _ PJ DJ) as DR. cbv beta in DR.
  set (r := fun t => Rpower (l1 t * l2 t * l3 t) (- (1 / 3))) in *.
  assert (Pr : 0 < r 0) by apply exp_pos.
  pose proof (der_mul r l1 _ _ DR D1) as E1. pose proof (der_mul r l2 _ _ DR D2) as E2. pose proof (der_mul r l3 _ _ DR D3) as E3.
  assert (Q1 : 0 < r 0 * l1 0) by (apply Rmult_lt_0_compat; assumption). assert (Q2 : 0 < r 0 * l2 0) by (apply Rmult_lt_0_compat; assumption).
  assert (Q3 : 0 < r 0 * l3 0) by (apply Rmult_lt_0_compat; assumption).
  evar_last.
  { apply der_add; [|exact (der_volW3 (bulk p) l1 l2 l3 _ _ _ P1 P2 P3 D1 D2 D3)].
    exact (der_ogden_W (ogden_terms pars) (fun t => r t * l1 t) (fun t => r t * l2 t) (fun t => r t * l3 t) _ _ _ NZ Q1 Q2 Q3 E1 E2 E3). }
  cbv beta. clear DR E1 E2 E3 DJ.
  assert (SH3 : shell_shape (with33 H (2 * l3 0 * k3))).
  { destruct SH as ((A & _) & _). repeat split; try reflexivity. exact A. }
  rewrite dotdot_shell by exact SH3. unfold S_spec_c, sum3, with33.
  pose proof (state_spectral3 _ _ _ _ _ _ _ SG (fam_state g z G H l1 l2 v1 v2 PF)) as SP. destruct SP as [SP0 SP2 SP22 SPG].
  change (pr (gcon g z) (frame3 (v1 0) (v2 0) (gcon g z 2))) with (pr gc (fr 0)) in *.
  destruct (SP2 0%nat ltac:(lia)) as (Z20 & Z02). destruct (SP2 1%nat ltac:(lia)) as (Z21 & Z12). rewrite Z20, Z02, Z21, Z12, SP22.
  assert (JV : J_sq m (l3 0 ^ 2) = (l1 0 * l2 0 * l3 0) ^ 2) by (unfold J_sq, m; rewrite (sp_J _ _ _ _ SP0); ring).
  rewrite JV.
  set (s := triple (l1 0) (l2 0) (l3 0)). set (J := (l1 0 * l2 0 * l3 0) ^ 2).
  transitivity (/ 2 * (Sa_c (OG pars) p s J 0 * h 0%nat 0%nat + Sa_c (OG pars) p s J 1 * h 1%nat 1%nat + Sa_c (OG pars) p s J 2 * (2 * l3 0 * k3))).
  2:{ unfold h, hab, sum2. destruct SH as ((HS & _) & _). change (pr (gcon g z) (frame3 (v1 0) (v2 0) (gcon g z 2))) with (pr gc (fr 0)). rewrite HS. ring. }
  unfold Sa_c. cbn [dPsi_da_c]. unfold dPsi_da_vol. rewrite !tsum_ogden.
  set (x := l1 0) in *. set (y := l2 0) in *. set (w := l3 0) in *. change (s 0%nat) with x. change (s 1%nat) with y. change (s 2%nat) with w.
  set (F := fun c => tsum (ogden_terms pars) (fun mi al => mi * Rpower J (- al / 6) * (Rpower c (al - 1) - 1 / 3 * 1 / c * Lambda s al))).
  change (tsum (ogden_terms pars) (fun mi al => mi * Rpower J (- al / 6) * (Rpower x (al - 1) - 1 / 3 * 1 / x * Lambda s al))) with (F x).
  change (tsum (ogden_terms pars) (fun mi al => mi * Rpower J (- al / 6) * (Rpower y (al - 1) - 1 / 3 * 1 / y * Lambda s al))) with (F y).
  change (tsum (ogden_terms pars) (fun mi al => mi * Rpower J (- al / 6) * (Rpower w (al - 1) - 1 / 3 * 1 / w * Lambda s al))) with (F w).
  transitivity (F x * (h 0%nat 0%nat / (2 * x)) + F y * (h 1%nat 1%nat / (2 * y)) + F w * k3 + bulk p / 2 * (J - 1) * (h 0%nat 0%nat / (2 * x) / x + h 1%nat 1%nat / (2 * y) / y + k3 / w)).
  2:{ field. lra. }
  f_equal. unfold F. rewrite tsum_lin3. apply tsum_ext. intros mi al. unfold Lambda. change (s 0%nat) with x. change (s 1%nat) with y. change (s 2%nat) with w.
  rewrite (Rpower_prod (r 0) x), (Rpower_prod (r 0) y), (Rpower_prod (r 0) w) by assumption. rewrite !Rpow_pred by assumption. unfold J. rewrite Rpower_sq by exact PJ.
  assert (ER : Rpower (r 0) al = Rpower (x * y * w) (2 * (- al / 6))) by (unfold r; fold x y w; rewrite Rpower_mult; f_equal; field).
  rewrite ER. set (c := Rpower (x * y * w) (2 * (- al / 6))). generalize (Rpower x al) (Rpower y al) (Rpower w al) c. intros.
  change (Rpower (x * y * w) (- (1 / 3))) with (r 0). field. lra.
Qed.
End ENERGY.

(* ---------- the undeformed state ---------- *)
Lemma Rpower_one e : Rpower 1 e = 1. Proof. unfold Rpower. rewrite ln_1, Rmult_0_r. apply exp_0. Qed.
Definition ogden_mu (pars : list R) : R := / 2 * ogden_sum pars (fun mi al => mi * al).

Lemma tsum_lin2 T (f g : R -> R -> R) a b : tsum T f * a + tsum T g * b = tsum T (fun mi al => f mi al * a + g mi al * b).
Proof. unfold tsum. induction T as [|x T IH]; cbn [fold_right]; [ring|]. rewrite <- IH. ring. Qed.

Lemma ref_Sa_i pars p a : (a < 2)%nat -> Sa_i (OG pars) p (stretches_i 1 1) a = 0.
Proof.
  intro Ha. unfold Sa_i, pr_p, dJ_da. cbn [dPsi_da_i]. unfold stretches_i. replace (/ (1 * 1)) with 1 by field.
  idx2 a Ha; cbn [triple]; field.
Qed.
Lemma ref_Sa_c pars p a : (a < 3)%nat -> Sa_c (OG pars) p (triple 1 1 1) 1 a = 0.
Proof.
  intro Ha. unfold Sa_c. cbn [dPsi_da_c]. unfold dPsi_da_vol. 
  assert (E : forall a, (a < 3)%nat -> triple 1 1 1 a = 1) by (intros k Hk; idx3 k Hk; reflexivity).
  rewrite E by assumption.
  replace (ogden_sum pars (fun mi al => mi * Rpower 1 (- al / 6) * (Rpower 1 (al - 1) - 1 / 3 * 1 / 1 * Lambda (triple 1 1 1) al))) with 0; [field|].
  rewrite tsum_ogden. symmetry. transitivity (tsum (ogden_terms pars) (fun _ _ => 0)).
  - apply tsum_ext. intros mi al. unfold Lambda. rewrite !E by lia. rewrite !Rpower_one. field.
  - unfold tsum. induction (ogden_terms pars) as [|x T IH]; cbn [fold_right]; [reflexivity|]. rewrite IH. ring.
Qed.

Lemma ogden_stress_free g z v1 v2 p pars i j : 
  S_spec_i (OG pars) p (stretches_i 1 1) g (frame3 v1 v2 z) i j = 0 /\ S_spec_c (OG pars) p (triple 1 1 1) 1 g (frame3 v1 v2 z) i j = 0.
Proof.
  split.
  - unfold S_spec_i, sum2. rewrite !ref_Sa_i by lia. ring.
  - unfold S_spec_c, sum3. rewrite !ref_Sa_c by lia. ring.
Qed.

Lemma ref_C_i pars p : let C := Cabcd_i (OG pars) p (stretches_i 1 1) in let M := ogden_mu pars in
  C 0%nat 0%nat 0%nat 0%nat = 4 * M /\ C 1%nat 1%nat 1%nat 1%nat = 4 * M /\ C 0%nat 0%nat 1%nat 1%nat = 2 * M /\ C 0%nat 1%nat 0%nat 1%nat = M.
Proof.
  cbv zeta. unfold stretches_i. replace (/ (1 * 1)) with 1 by field. set (s := triple 1 1 1).
  assert (E : forall a, (a < 3)%nat -> s a = 1) by (intros k Hk; unfold s; idx3 k Hk; reflexivity).
  assert (N : near_eq s 0 1 = true) by (apply near_eq_refl; rewrite !E by lia; lra).
  assert (P1 : forall a, (a < 3)%nat -> dPsi_da_i (OG pars) p s a = ogden_sum pars (fun mi al => mi)).
  { intros a Ha. cbn [dPsi_da_i]. apply ogden_ext. intros. rewrite E by assumption. rewrite Rpower_one. ring. }
  assert (P2 : forall a b, (a < 3)%nat -> d2Psi_dab_i (OG pars) p s a b = delta a b * (2 * ogden_mu pars - ogden_sum pars (fun mi al => mi))).
  { intros a b Ha. cbn [d2Psi_dab_i]. transitivity (ogden_sum pars (fun mi al => mi * al * delta a b + mi * (- delta a b) + 0 * 0)).
    - apply ogden_ext. intros. rewrite E by assumption. rewrite Rpower_one. ring.
    - rewrite <- (ogden_lin3 pars (fun mi al => mi * al) (fun mi al => mi) (fun _ _ => 0)). unfold ogden_mu. field. }
  unfold Cabcd_i. cbn [Nat.eqb andb orb negb shear_pair]. unfold quotient. rewrite N. unfold dSa_db_i, dp_da, pr_p, dJ_da, d2J_dab. cbn [Nat.eqb].
  rewrite !P1, !P2 by lia. rewrite !E by lia. cbv [delta Nat.eqb]. repeat split; field.
Qed.
Lemma ref_C_c pars p : let C := Cabcd_c (OG pars) p (triple 1 1 1) 1 in let M := ogden_mu pars in let La := bulk p - 2 / 3 * M in
  (forall a, (a < 3)%nat -> C a a a a = La + 2 * M) /\ (forall a b, (a < 3)%nat -> (b < 3)%nat -> a <> b -> C a a b b = La) /\ C 0%nat 1%nat 0%nat 1%nat = M.
Proof.
  cbv zeta. set (s := triple 1 1 1).
  assert (E : forall a, (a < 3)%nat -> s a = 1) by (intros k Hk; unfold s; idx3 k Hk; reflexivity).
  assert (N : near_eq s 0 1 = true) by (apply near_eq_refl; rewrite !E by lia; lra).
  assert (P1 : forall a, (a < 3)%nat -> dPsi_da_c (OG pars) p s 1 a = 0).
  { intros a Ha. pose proof (ref_Sa_c pars p a Ha) as S. unfold Sa_c in S. fold s in S. rewrite E in S by assumption. lra. }
  assert (P2 : forall a b, (a < 3)%nat -> (b < 3)%nat -> d2Psi_dab_c (OG pars) p s 1 a b = 2 * (delta a b - 1 / 3) * ogden_mu pars + bulk p).
  { intros a b Ha Hb. cbn [d2Psi_dab_c]. unfold d2Psi_dab_vol. rewrite !(E 0%nat), !(E 1%nat), !(E 2%nat), !(E a), !(E b) by lia.
    transitivity (ogden_sum pars (fun mi al => mi * al * (delta a b - 1 / 3) + 0 * 0 + 0 * 0) + bulk p).
    - f_equal; [|field]. apply ogden_ext. intros. unfold Lambda. rewrite !E by lia. rewrite !Rpower_one. field.
    - rewrite <- (ogden_lin3 pars (fun mi al => mi * al) (fun _ _ => 0) (fun _ _ => 0)). unfold ogden_mu. field. }
  unfold Cabcd_c. repeat split.
  - intros a Ha. rewrite !Nat.eqb_refl. cbn [andb]. unfold dSa_db_c. rewrite Nat.eqb_refl, P1, P2, E by assumption. unfold delta. rewrite Nat.eqb_refl. field.
  - intros a b Ha Hb NE. rewrite !Nat.eqb_refl. cbn [andb]. unfold dSa_db_c. rewrite (proj2 (Nat.eqb_neq a b) NE), P2, !E by assumption. unfold delta. rewrite (proj2 (Nat.eqb_neq a b) NE). field.
  - cbn [Nat.eqb andb orb negb shear_pair]. unfold quotient. rewrite N. unfold dSa_db_c. cbn [Nat.eqb]. rewrite P1, !P2, !E by lia. cbv [delta Nat.eqb]. field.
Qed.

Section REF.
Variables (g : geo) (z : R) (v1 v2 : vec) (p : par) (pars : list R).
Hypothesis PS : principal_state g z (Gcov g z) 1 1 v1 v2.
Let A := Gcon g z.
Let fr := frame3 v1 v2 (gcon g z 2%nat).

Lemma ogden_ref_i i j k l : (i < 2)%nat -> (j < 2)%nat -> (k < 2)%nat -> (l < 2)%nat ->
  C_spec_i (OG pars) p (stretches_i 1 1) (gcon g z) fr i j k l = ogden_mu pars * (2 * A i j * A k l + A i k * A j l + A i l * A j k).
Proof.
  intros Hi Hj Hk Hl. unfold C_spec_i. destruct (ref_C_i pars p) as (E1 & E2 & E3 & E4). cbv zeta in *. unfold project. rewrite E1, E2, E3, E4.
  unfold A. rewrite !(q_ori g z _ _ _ _ _ PS) by assumption. unfold qf. fold fr. ring.
Qed.
Lemma ogden_ref_c i j k l : (i < 2)%nat -> (j < 2)%nat -> (k < 2)%nat -> (l < 2)%nat -> bulk p + 4 / 3 * ogden_mu pars <> 0 ->
  let M := ogden_mu pars in let La := bulk p - 2 / 3 * M in
  C_spec_c (OG pars) p (triple 1 1 1) 1 (gcon g z) fr i j k l = 2 * La * M / (La + 2 * M) * (A i j * A k l) + M * (A i k * A j l + A i l * A j k).
Proof.
  intros Hi Hj Hk Hl N. cbv zeta. unfold C_spec_c. destruct (ref_C_c pars p) as (E1 & E2 & E3). cbv zeta in *.
  assert (Z : Cabcd_c (OG pars) p (triple 1 1 1) 1 2%nat 2%nat 0%nat 1%nat = 0) by reflexivity.
  unfold project. rewrite Z, E3, !E1, !E2 by lia. unfold A. rewrite !(q_ori g z _ _ _ _ _ PS) by assumption. unfold qf. fold fr. field. lra.
Qed.
End REF.
