From Coq Require Import Reals Lra Lia List.
From Coquelicot Require Import Coquelicot.
From Verif Require Import Tensor MetricModel MetricSpec MetricProofs LinearModel LinearSpec LinearProofs PrincipalModel PrincipalSpec PrincipalProofs
  NonlinearModel NonlinearSpec NonlinearProofs SpectralModel SpectralSpec SpectralProofs SpectralTangent.
Open Scope R_scope.

Lemma d2Psi_i_sym w p s a b : (a < 3)%nat -> (b < 3)%nat -> d2Psi_dab_i w p s a b = d2Psi_dab_i w p s b a.
Proof.
  intros Ha Hb. destruct w as [w|pars].
  - destruct w; unfold d2Psi_dab_i, d2I1, d2I2, idelta; idx3 a Ha; idx3 b Hb; cbv [delta Nat.eqb]; ring.
  - unfold d2Psi_dab_i. apply ogden_ext. intros mi al. idx3 a Ha; idx3 b Hb; cbv [delta Nat.eqb]; ring.
Qed.
Lemma d2Psi_c_sym w p s J a b : (forall k, (k < 3)%nat -> s k <> 0) -> (a < 3)%nat -> (b < 3)%nat -> d2Psi_dab_c w p s J a b = d2Psi_dab_c w p s J b a.
Proof.
  intros N Ha Hb. pose proof (N 0%nat ltac:(lia)). pose proof (N 1%nat ltac:(lia)). pose proof (N 2%nat ltac:(lia)).
  destruct w as [w|pars].
  - destruct w; unfold d2Psi_dab_c, d2Psi_dab_vol, d2I1, d2I2, dI1a, dI2a, idelta; idx3 a Ha; idx3 b Hb; cbv [delta Nat.eqb]; try reflexivity; field; repeat split; assumption.
  - unfold d2Psi_dab_c. f_equal.
    + apply ogden_ext. intros mi al. idx3 a Ha; idx3 b Hb; cbv [delta Nat.eqb]; try reflexivity; field; repeat split; assumption.
    + unfold d2Psi_dab_vol. idx3 a Ha; idx3 b Hb; cbv [delta Nat.eqb]; try reflexivity; field; repeat split; assumption.
Qed.

(* derivative of (1/x) (D - y E (1/x)) *)
Lemma der_Sai (x y D E : R -> R) (dx dy dD dE : R) : 0 < x 0 -> is_derive x 0 dx -> is_derive y 0 dy -> is_derive D 0 dD -> is_derive E 0 dE ->
  is_derive (fun t => 1 / x t * (D t - y t * E t * (1 / x t))) 0
   (- dx / x 0 ^ 2 * (D 0 - y 0 * E 0 / x 0) + / x 0 * (dD - (dy * E 0 + y 0 * dE) / x 0 + y 0 * E 0 * dx / x 0 ^ 2)).
Proof.
  intros P A B C F. assert (N : x 0 <> 0) by lra. auto_derive; [repeat split; first [exact I|exact N|eexists; eassumption]|].
  der_val A; der_val B; der_val C; der_val F. field. exact N.
Qed.
Lemma der_Sac (x D : R -> R) (dx dD : R) : 0 < x 0 -> is_derive x 0 dx -> is_derive D 0 dD ->
  is_derive (fun t => 1 / x t * D t) 0 (- dx / x 0 ^ 2 * D 0 + / x 0 * dD).
Proof.
  intros P A B. assert (N : x 0 <> 0) by lra. auto_derive; [repeat split; first [exact I|exact N|eexists; eassumption]|].
  der_val A; der_val B. field. exact N.
Qed.
Lemma der_l3 (a b : R -> R) (da db : R) : 0 < a 0 -> 0 < b 0 -> is_derive a 0 da -> is_derive b 0 db ->
  is_derive (fun t => / (a t * b t)) 0 (- (/ (a 0 * b 0)) * (da / a 0 + db / b 0)).
Proof.
  intros P Q A B. assert (N : a 0 * b 0 <> 0) by (apply Rmult_integral_contrapositive; split; lra). auto_derive; [repeat split; first [exact I|exact N|eexists; eassumption]|].
  der_val A; der_val B. field. lra.
Qed.

Lemma contract_project Cn Cx Cs (q H : mat) i j : in_plane H ->
  let h := fun a b => sum2 (fun k => sum2 (fun l => q k a * q l b * H k l)) in
  contract (project Cn Cx Cs q) H i j =
    (Cn 0%nat * h 0%nat 0%nat + Cx * h 1%nat 1%nat) * (q i 0%nat * q j 0%nat) + (Cx * h 0%nat 0%nat + Cn 1%nat * h 1%nat 1%nat) * (q i 1%nat * q j 1%nat)
    + 2 * Cs * h 0%nat 1%nat * (q i 0%nat * q j 1%nat + q i 1%nat * q j 0%nat).
Proof.
  intros (SS & Z). rewrite contract_shell by exact SS. rewrite Z. cbv zeta. unfold project, sum2. rewrite (proj1 SS). ring.
Qed.

Section MAIN.
Variables (g : geo) (z : R) (G H : mat) (l1 l2 : R -> R) (v1 v2 : R -> vec) (p : par) (w : slaw).
Hypotheses (SG : shell_G G) (SH : in_plane H) (PF : principal_family g z G H l1 l2 v1 v2).
Let fr t := frame3 (v1 t) (v2 t) (gcon g z 2%nat).
Let gc := gcon g z.
Let h := hab g z H v1 v2.

Lemma le0 : l1 0 <= l2 0.
Proof. pose proof (fam_state g z G H l1 l2 v1 v2 PF) as (_ & _ & ((_ & P) & _)). exact P. Qed.

Section INC.
Hypothesis NE : near_eq (stretches_i (l1 0) (l2 0)) 0 1 = false.
Let s t := stretches_i (l1 t) (l2 t).
Lemma lt0 : l1 0 < l2 0.
Proof.
  pose proof le0 as L. destruct (sp_pos _ _ _ _ (fam0 g z G H l1 l2 v1 v2 SG SH PF)) as (A & B).
  pose proof (near_neq (stretches_i (l1 0) (l2 0)) 0 1 ltac:(cbn; lra) NE) as N. cbn in N. lra.
Qed.
Lemma pos0 : 0 < l1 0 /\ 0 < l2 0. Proof. exact (sp_pos _ _ _ _ (fam0 g z G H l1 l2 v1 v2 SG SH PF)). Qed.

Lemma der_Sa_i a : (a < 2)%nat -> is_derive (fun t => Sa_i w p (s t) a) 0
   (/ 2 * (Cabcd_i w p (s 0) a a 0%nat 0%nat * h 0%nat 0%nat + Cabcd_i w p (s 0) a a 1%nat 1%nat * h 1%nat 1%nat)).
Proof.
  intro Ha. destruct pos0 as (P1 & P2). pose proof (fam_l1 g z G H l1 l2 v1 v2 SG SH PF lt0) as D1. pose proof (fam_l2 g z G H l1 l2 v1 v2 SG SH PF lt0) as D2.
  fold h in D1, D2. pose proof (der_l3 l1 l2 _ _ P1 P2 D1 D2) as D3.
  set (ds := triple (h 0%nat 0%nat / (2 * l1 0)) (h 1%nat 1%nat / (2 * l2 0)) (- / (l1 0 * l2 0) * (h 0%nat 0%nat / (2 * l1 0) / l1 0 + h 1%nat 1%nat / (2 * l2 0) / l2 0))).
  assert (Ds : forall k, (k < 3)%nat -> is_derive (fun t => s t k) 0 (ds k)).
  { intros k Hk. idx3 k Hk; assumption. }
  assert (Ps : forall k, (k < 3)%nat -> 0 < s 0 k).
  { intros k Hk. idx3 k Hk; cbn; [assumption|assumption|]. apply Rinv_0_lt_compat. apply Rmult_lt_0_compat; assumption. }
  assert (Ha3 : (a < 3)%nat) by lia.
  pose proof (der_dPsi_i s ds p Ds Ps w a Ha3) as DA. pose proof (der_dPsi_i s ds p Ds Ps w 2 ltac:(lia)) as D22.
  unfold Sa_i, pr_p, dJ_da.
  evar_last. { exact (der_Sai (fun t => s t a) (fun t => s t 2%nat) (fun t => dPsi_da_i w p (s t) a) (fun t => dPsi_da_i w p (s t) 2) _ _ _ _ (Ps a Ha3) (Ds a Ha3) (Ds 2%nat ltac:(lia)) DA D22). }
  cbv beta. clear DA D22 Ds Ps.
  assert (EN : forall c, (c < 2)%nat -> Cabcd_i w p (s 0) a a c c = 1 / s 0 c * dSa_db_i w p (s 0) a c
     + 1 / ((s 0 a) ^ 2 * (s 0 c) ^ 2) * ((s 0 2%nat) ^ 2 * d2Psi_dab_i w p (s 0) 2 2 + 2 * dPsi_da_i w p (s 0) 2 * s 0 2%nat)).
  { intros c Hc. unfold Cabcd_i. rewrite !Nat.eqb_refl. reflexivity. }
  rewrite !EN by lia. clear EN. unfold dSa_db_i, pr_p, dp_da, dJ_da, d2J_dab, sum3.
  rewrite ?(d2Psi_i_sym w p (s 0) 0 2), ?(d2Psi_i_sym w p (s 0) 1 2), ?(d2Psi_i_sym w p (s 0) a 2) by lia.
  rewrite ?(d2Psi_i_sym w p (s 0) 1 0) by lia.
  assert (E0 : s 0 0%nat = l1 0) by reflexivity. assert (E1 : s 0 1%nat = l2 0) by reflexivity. assert (E2 : s 0 2%nat = / (l1 0 * l2 0)) by reflexivity.
  idx2 a Ha; cbn [Nat.eqb]; rewrite ?(d2Psi_i_sym w p (s 0) 1 0) by lia; rewrite E0, E1, E2; unfold ds, triple; field; lra.
Qed.

Theorem spectral_tangent_i i j : (i < 2)%nat -> (j < 2)%nat ->
  is_derive (fun t => S_spec_i w p (stretches_i (l1 t) (l2 t)) gc (fr t) i j) 0 (/ 2 * contract (C_spec_i w p (stretches_i (l1 0) (l2 0)) gc (fr 0)) H i j).
Proof.
  intros Hi Hj. unfold S_spec_i, sum2. 
  pose proof (iso_derivative g z G H l1 l2 v1 v2 SG SH PF lt0 _ _ _ _ i j Hi Hj (der_Sa_i 0%nat ltac:(lia)) (der_Sa_i 1%nat ltac:(lia))) as D.
  evar_last. { exact D. }
  unfold C_spec_i. rewrite contract_project by exact SH. cbv zeta.
  change (sum2 (fun k => sum2 (fun l => pr gc (fr 0) k 0%nat * pr gc (fr 0) l 0%nat * H k l))) with (h 0%nat 0%nat).
  change (sum2 (fun k => sum2 (fun l => pr gc (fr 0) k 1%nat * pr gc (fr 0) l 1%nat * H k l))) with (h 1%nat 1%nat).
  change (sum2 (fun k => sum2 (fun l => pr gc (fr 0) k 0%nat * pr gc (fr 0) l 1%nat * H k l))) with (h 0%nat 1%nat).
  change (hab g z H v1 v2 0 1) with (h 0%nat 1%nat). fold (s 0).
  change (pr (gcon g z) (frame3 (v1 0) (v2 0) (gcon g z 2))) with (pr gc (fr 0)).
  assert (ES : Cabcd_i w p (s 0) 0%nat 1%nat 0%nat 1%nat = (Sa_i w p (s 0) 1 - Sa_i w p (s 0) 0) / (l2 0 ^ 2 - l1 0 ^ 2)).
  { unfold Cabcd_i. cbn [Nat.eqb andb orb negb shear_pair]. unfold quotient. fold (s 0) in NE. rewrite NE. reflexivity. }
  rewrite ES.
  assert (SY : Cabcd_i w p (s 0) 1%nat 1%nat 0%nat 0%nat = Cabcd_i w p (s 0) 0%nat 0%nat 1%nat 1%nat).
  { unfold Cabcd_i. cbn [Nat.eqb andb]. unfold dSa_db_i, pr_p, dp_da, dJ_da, d2J_dab. cbn [Nat.eqb]. rewrite (d2Psi_i_sym w p (s 0) 1 0) by lia.
    destruct pos0 as (P1 & P2). assert (E0 : s 0 0%nat = l1 0) by reflexivity. assert (E1 : s 0 1%nat = l2 0) by reflexivity. assert (E2 : s 0 2%nat = / (l1 0 * l2 0)) by reflexivity.
    rewrite E0, E1, E2. field. lra. }
  rewrite SY. field. destruct pos0. pose proof lt0. pose proof (sq_neq (l1 0) (l2 0)). lra.
Qed.
End INC.

Section COMP.
Variables (l3 : R -> R) (k3 : R).
Hypotheses (P3 : 0 < l3 0) (D3 : is_derive l3 0 k3) (NE : near_eq (triple (l1 0) (l2 0) (l3 0)) 0 1 = false).
Let s t := triple (l1 t) (l2 t) (l3 t).
Let m t := metric_of (Gcov g z) (line G H t).
Let J t := J_sq (m t) (l3 t ^ 2).
Lemma pos0c : 0 < l1 0 /\ 0 < l2 0. Proof. exact (sp_pos _ _ _ _ (fam0 g z G H l1 l2 v1 v2 SG SH PF)). Qed.
Lemma lt0c : l1 0 < l2 0.
Proof.
  pose proof le0 as L. destruct pos0c as (A & B).
  pose proof (near_neq (triple (l1 0) (l2 0) (l3 0)) 0 1 ltac:(cbn; lra) NE) as N. cbn in N. lra.
Qed.
Let ds := triple (h 0%nat 0%nat / (2 * l1 0)) (h 1%nat 1%nat / (2 * l2 0)) k3.
Lemma Ds_c : forall k, (k < 3)%nat -> is_derive (fun t => s t k) 0 (ds k).
Proof.
  pose proof (fam_l1 g z G H l1 l2 v1 v2 SG SH PF lt0c) as D1. pose proof (fam_l2 g z G H l1 l2 v1 v2 SG SH PF lt0c) as D2.
  intros k Hk. idx3 k Hk; assumption.
Qed.
Lemma Ps_c : forall k, (k < 3)%nat -> 0 < s 0 k.
Proof. destruct pos0c. intros k Hk. idx3 k Hk; assumption. Qed.
Lemma J_loc : locally 0 (fun t => J t = (s t 0%nat * s t 1%nat * s t 2%nat) ^ 2).
Proof.
  generalize (fam_spec g z G H l1 l2 v1 v2 SG SH PF). apply filter_imp. intros t S. unfold J, J_sq, m. rewrite (sp_J _ _ _ _ S). cbn. ring.
Qed.

Lemma der_Sa_c a : (a < 3)%nat -> is_derive (fun t => Sa_c w p (s t) (J t) a) 0 (sum3 (fun b => dSa_db_c w p (s 0) (J 0) a b * ds b)).
Proof.
  intro Ha. pose proof (der_dPsi_c s ds p Ds_c Ps_c w a Ha) as DA.
  apply (is_derive_ext_loc (fun t => Sa_c w p (s t) ((s t 0%nat * s t 1%nat * s t 2%nat) ^ 2) a)).
  { generalize J_loc. apply filter_imp. intros t E. rewrite E. reflexivity. }
  pose proof (locally_singleton _ _ J_loc) as EJ. cbv beta in EJ. rewrite EJ. clear EJ.
  unfold Sa_c. evar_last. { exact (der_Sac (fun t => s t a) (fun t => dPsi_da_c w p (s t) ((s t 0%nat * s t 1%nat * s t 2%nat) ^ 2) a) _ _ (Ps_c a Ha) (Ds_c a Ha) DA). }
  cbv beta. unfold sum3, dSa_db_c. pose proof (Ps_c a Ha) as Pa.
  idx3 a Ha; cbn [Nat.eqb]; field; lra.
Qed.

Theorem spectral_tangent_c i j : (i < 2)%nat -> (j < 2)%nat -> locally 0 (fun t => Sa_c w p (s t) (J t) 2 = 0) -> C3333_spec w p (s 0) (J 0) <> 0 ->
  is_derive (fun t => S_spec_c w p (s t) (J t) gc (fr t) i j) 0 (/ 2 * contract (C_spec_c w p (s 0) (J 0) gc (fr 0)) H i j).
Proof.
  intros Hi Hj Z N.
  assert (D2 : is_derive (fun t => Sa_c w p (s t) (J t) 2) 0 0).
  { apply (is_derive_ext_loc (fun _ => 0)). { generalize Z. apply filter_imp. intros t E. symmetry. exact E. } apply @is_derive_const. }
  assert (E2 : sum3 (fun b => dSa_db_c w p (s 0) (J 0) 2 b * ds b) = 0).
  { rewrite <- (is_derive_unique _ _ _ (der_Sa_c 2%nat ltac:(lia))). exact (is_derive_unique _ _ _ D2). }
  set (C := Cabcd_c w p (s 0) (J 0)).
  assert (EC : forall a b, C a a b b = / s 0 b * dSa_db_c w p (s 0) (J 0) a b).
  { intros a b. unfold C, Cabcd_c. rewrite !Nat.eqb_refl. cbn [andb]. unfold Rdiv. rewrite Rmult_1_l. reflexivity. }
  assert (P' := Ps_c). pose proof (P' 0%nat ltac:(lia)) as Q0. pose proof (P' 1%nat ltac:(lia)) as Q1. pose proof (P' 2%nat ltac:(lia)) as Q2.
  change (C3333_spec w p (s 0) (J 0)) with (C 2%nat 2%nat 2%nat 2%nat) in N.
  assert (ED : forall a b, (b < 3)%nat -> dSa_db_c w p (s 0) (J 0) a b = s 0 b * C a a b b).
  { intros a b Hb. rewrite EC. pose proof (P' b Hb). field. lra. }
  assert (K3 : s 0 2%nat * k3 = - / 2 * (C 2%nat 2%nat 0%nat 0%nat * h 0%nat 0%nat + C 2%nat 2%nat 1%nat 1%nat * h 1%nat 1%nat) / C 2%nat 2%nat 2%nat 2%nat).
  { unfold sum3, ds in E2. cbn [triple] in E2. rewrite !ED in E2 by lia. change (s 0 0%nat) with (l1 0) in *. change (s 0 1%nat) with (l2 0) in *.
    apply (Rmult_eq_reg_r (C 2%nat 2%nat 2%nat 2%nat)); [|exact N]. 
    transitivity (s 0 2%nat * C 2%nat 2%nat 2%nat 2%nat * k3 - (l1 0 * C 2%nat 2%nat 0%nat 0%nat * (h 0%nat 0%nat / (2 * l1 0)) + l2 0 * C 2%nat 2%nat 1%nat 1%nat * (h 1%nat 1%nat / (2 * l2 0)) + s 0 2%nat * C 2%nat 2%nat 2%nat 2%nat * k3)).
    - rewrite E2. ring_simplify. transitivity (s 0 2%nat * k3 * C 2%nat 2%nat 2%nat 2%nat); [ring|]. ring.
    - field. repeat split; lra || assumption. }
  assert (DA : forall a, (a < 2)%nat -> is_derive (fun t => Sa_c w p (s t) (J t) a) 0
     (/ 2 * ((C a a 0%nat 0%nat - C a a 2%nat 2%nat * C 2%nat 2%nat 0%nat 0%nat / C 2%nat 2%nat 2%nat 2%nat) * h 0%nat 0%nat
           + (C a a 1%nat 1%nat - C a a 2%nat 2%nat * C 2%nat 2%nat 1%nat 1%nat / C 2%nat 2%nat 2%nat 2%nat) * h 1%nat 1%nat))).
  { intros a Ha. evar_last. { apply (der_Sa_c a). lia. } unfold sum3, ds. cbn [triple]. rewrite !ED by lia.
    transitivity (C a a 0%nat 0%nat * (l1 0 * (h 0%nat 0%nat / (2 * l1 0))) + C a a 1%nat 1%nat * (l2 0 * (h 1%nat 1%nat / (2 * l2 0))) + C a a 2%nat 2%nat * (s 0 2%nat * k3)).
    - change (s 0 0%nat) with (l1 0). change (s 0 1%nat) with (l2 0). ring.
    - rewrite K3. destruct pos0c. field. repeat split; lra || assumption. }
  apply (is_derive_ext_loc (fun t => Sa_c w p (s t) (J t) 0 * (pr gc (fr t) i 0%nat * pr gc (fr t) j 0%nat) + Sa_c w p (s t) (J t) 1 * (pr gc (fr t) i 1%nat * pr gc (fr t) j 1%nat))).
  { generalize PF. unfold principal_family. apply filter_imp. intros t P. unfold S_spec_c, sum3.
    pose proof (q_i2 g z _ _ _ _ _ P i Hi) as Qi. change (pr gc (fr t) i 2%nat = 0) in Qi. rewrite Qi. req. ring. }
  pose proof (iso_derivative g z G H l1 l2 v1 v2 SG SH PF lt0c _ _ _ _ i j Hi Hj (DA 0%nat ltac:(lia)) (DA 1%nat ltac:(lia))) as D.
  evar_last. { exact D. }
  unfold C_spec_c. rewrite contract_project by exact SH. cbv zeta. fold C.
  change (sum2 (fun k => sum2 (fun l => pr gc (fr 0) k 0%nat * pr gc (fr 0) l 0%nat * H k l))) with (h 0%nat 0%nat).
  change (sum2 (fun k => sum2 (fun l => pr gc (fr 0) k 1%nat * pr gc (fr 0) l 1%nat * H k l))) with (h 1%nat 1%nat).
  change (sum2 (fun k => sum2 (fun l => pr gc (fr 0) k 0%nat * pr gc (fr 0) l 1%nat * H k l))) with (h 0%nat 1%nat).
  change (hab g z H v1 v2 0 1) with (h 0%nat 1%nat).
  change (pr (gcon g z) (frame3 (v1 0) (v2 0) (gcon g z 2))) with (pr gc (fr 0)).
  assert (ES : C 0%nat 1%nat 0%nat 1%nat = (Sa_c w p (s 0) (J 0) 1 - Sa_c w p (s 0) (J 0) 0) / (l2 0 ^ 2 - l1 0 ^ 2)).
  { unfold C, Cabcd_c. cbn [Nat.eqb andb orb negb shear_pair]. unfold quotient. fold (s 0) in NE. rewrite NE. reflexivity. }
  assert (ZS : C 2%nat 2%nat 0%nat 1%nat = 0) by reflexivity.
  assert (SY : forall a b, (a < 3)%nat -> (b < 3)%nat -> C a a b b = C b b a a).
  { intros a b Ha Hb. rewrite !EC. unfold dSa_db_c. rewrite (d2Psi_c_sym w p (s 0) (J 0) b a) by (try assumption; intros k Hk; pose proof (P' k Hk); lra).
    pose proof (P' a Ha). pose proof (P' b Hb). idx3 a Ha; idx3 b Hb; cbn [Nat.eqb]; try reflexivity; field; lra. }
  rewrite ES, ZS. rewrite (SY 1%nat 0%nat), (SY 2%nat 0%nat), (SY 2%nat 1%nat) by lia. field.
  split; [exact N|]. destruct pos0c. pose proof lt0c. pose proof (sq_neq (l1 0) (l2 0)). lra.
Qed.
End COMP.
End MAIN.
