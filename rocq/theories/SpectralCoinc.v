(* The derivative of the stretch based stress at coincident stretches, along any line of metrics through the state. *)
From Coq Require Import Reals Lra Lia List.
From Coquelicot Require Import Coquelicot.
From Verif Require Import Tensor MetricModel MetricSpec MetricProofs LinearModel LinearSpec LinearProofs PrincipalModel PrincipalSpec PrincipalProofs
  NonlinearModel NonlinearSpec NonlinearProofs EnergyProofs SpectralModel SpectralSpec SpectralProofs SpectralTangent SpectralMain SpectralOgden SpectralEqual.
Open Scope R_scope.

(* a symmetric 2x2 matrix is diagonal in a turned frame *)
Lemma diag2 (a b d : R) : exists c s k1 k2, c * c + s * s = 1 /\ a = c * c * k1 + s * s * k2 /\ d = s * s * k1 + c * c * k2 /\ b = c * s * (k1 - k2).
Proof.
  destruct (Req_dec b 0) as [E|N].
  { exists 1, 0, a, d. rewrite E. repeat split; ring. }
  set (r := sqrt ((a - d) ^ 2 + 4 * b ^ 2)). assert (B2 : 0 < b ^ 2) by (apply pow2_gt_0; exact N).
  assert (Q : (a - d) ^ 2 + 4 * b ^ 2 > 0) by (pose proof (pow2_ge_0 (a - d)); lra).
  assert (PR : 0 < r) by (apply sqrt_lt_R0; exact Q). assert (R2 : r * r = (a - d) ^ 2 + 4 * b ^ 2) by (apply sqrt_sqrt; lra).
  assert (LT : 0 < r + (a - d)). { destruct (Rle_dec 0 (a - d)); [lra|]. nra. }
  set (c := sqrt ((r + (a - d)) / (2 * r))). assert (PC : 0 < c) by (apply sqrt_lt_R0; apply Rdiv_lt_0_compat; lra).
  assert (C2 : c * c = (r + (a - d)) / (2 * r)) by (apply sqrt_sqrt; apply Rlt_le; apply Rdiv_lt_0_compat; lra).
  set (s := b / (r * c)). assert (CS : c * s = b / r) by (unfold s; field; lra).
  assert (S2 : s * s = (r - (a - d)) / (2 * r)).
  { transitivity (b ^ 2 / (r * r * (c * c))); [unfold s; field; lra|]. rewrite C2. transitivity (2 * b ^ 2 / (r * (r + (a - d)))); [field; lra|].
    apply (Rmult_eq_reg_r (2 * (r * (r + (a - d))))); [|nra]. transitivity (4 * b ^ 2); [field; lra|]. transitivity (r * r - (a - d) ^ 2); [lra|field; lra]. }
  exists c, s, ((a + d + r) / 2), ((a + d - r) / 2). rewrite CS, S2, C2. repeat split; field; lra.
Qed.

(* derivatives of the principal stresses along any curve of stretches *)
Section GEN.
Variables (w : slaw) (p : par).
Lemma gen_Sa_i (x y : R -> R) (dx dy : R) a : 0 < x 0 -> 0 < y 0 -> is_derive x 0 dx -> is_derive y 0 dy -> (a < 2)%nat ->
  is_derive (fun t => Sa_i w p (stretches_i (x t) (y t)) a) 0
   (Cabcd_i w p (stretches_i (x 0) (y 0)) a a 0%nat 0%nat * (x 0 * dx) + Cabcd_i w p (stretches_i (x 0) (y 0)) a a 1%nat 1%nat * (y 0 * dy)).
Proof.
  intros P1 P2 D1 D2 Ha. set (s t := stretches_i (x t) (y t)).
  pose proof (der_l3 x y _ _ P1 P2 D1 D2) as D3.
  set (ds := triple dx dy (- / (x 0 * y 0) * (dx / x 0 + dy / y 0))).
  assert (Ds : forall k, (k < 3)%nat -> is_derive (fun t => s t k) 0 (ds k)).
  { intros k Hk. idx3 k Hk; assumption. }
  assert (Ps : forall k, (k < 3)%nat -> 0 < s 0 k).
  { intros k Hk. idx3 k Hk; cbn; [assumption|assumption|]. apply Rinv_0_lt_compat. apply Rmult_lt_0_compat; assumption. }
  assert (Ha3 : (a < 3)%nat) by lia.
  pose proof (der_dPsi_i s ds p Ds Ps w a Ha3) as DA. pose proof (der_dPsi_i s ds p Ds Ps w 2 ltac:(lia)) as D22.
  change (is_derive (fun t => Sa_i w p (s t) a) 0 (Cabcd_i w p (s 0) a a 0%nat 0%nat * (x 0 * dx) + Cabcd_i w p (s 0) a a 1%nat 1%nat * (y 0 * dy))).
  unfold Sa_i, pr_p, dJ_da.
  evar_last. { exact (der_Sai (fun t => s t a) (fun t => s t 2%nat) (fun t => dPsi_da_i w p (s t) a) (fun t => dPsi_da_i w p (s t) 2) _ _ _ _ (Ps a Ha3) (Ds a Ha3) (Ds 2%nat ltac:(lia)) DA D22). }
  cbv beta. clear DA D22 Ds Ps.
  assert (EN : forall c, (c < 2)%nat -> Cabcd_i w p (s 0) a a c c = 1 / s 0 c * dSa_db_i w p (s 0) a c
     + 1 / ((s 0 a) ^ 2 * (s 0 c) ^ 2) * ((s 0 2%nat) ^ 2 * d2Psi_dab_i w p (s 0) 2 2 + 2 * dPsi_da_i w p (s 0) 2 * s 0 2%nat)).
  { intros c Hc. unfold Cabcd_i. rewrite !Nat.eqb_refl. reflexivity. }
  rewrite !EN by lia. clear EN. unfold dSa_db_i, pr_p, dp_da, dJ_da, d2J_dab, sum3.
  rewrite ?(d2Psi_i_sym w p (s 0) 0 2), ?(d2Psi_i_sym w p (s 0) 1 2), ?(d2Psi_i_sym w p (s 0) a 2) by lia.
  rewrite ?(d2Psi_i_sym w p (s 0) 1 0) by lia.
  assert (E0 : s 0 0%nat = x 0) by reflexivity. assert (E1 : s 0 1%nat = y 0) by reflexivity. assert (E2 : s 0 2%nat = / (x 0 * y 0)) by reflexivity.
  idx2 a Ha; cbn [Nat.eqb]; rewrite ?(d2Psi_i_sym w p (s 0) 1 0) by lia; rewrite E0, E1, E2; unfold ds, triple; field; lra.
Qed.
Lemma gen_Sa_c (x y l3 : R -> R) (dx dy k3 : R) a : 0 < x 0 -> 0 < y 0 -> 0 < l3 0 -> is_derive x 0 dx -> is_derive y 0 dy -> is_derive l3 0 k3 -> (a < 3)%nat ->
  let s t := triple (x t) (y t) (l3 t) in let J t := (x t * y t * l3 t) ^ 2 in
  is_derive (fun t => Sa_c w p (s t) (J t) a) 0 (sum3 (fun b => Cabcd_c w p (s 0) (J 0) a a b b * (s 0 b * triple dx dy k3 b))).
Proof.
  intros P1 P2 P3 D1 D2 D3 Ha s J. set (ds := triple dx dy k3).
  assert (Ds : forall k, (k < 3)%nat -> is_derive (fun t => s t k) 0 (ds k)) by (intros k Hk; idx3 k Hk; assumption).
  assert (Ps : forall k, (k < 3)%nat -> 0 < s 0 k) by (intros k Hk; idx3 k Hk; assumption).
  pose proof (der_dPsi_c s ds p Ds Ps w a Ha) as DA.
  unfold Sa_c. evar_last. { exact (der_Sac (fun t => s t a) (fun t => dPsi_da_c w p (s t) ((s t 0%nat * s t 1%nat * s t 2%nat) ^ 2) a) _ _ (Ps a Ha) (Ds a Ha) DA). }
  assert (EC : forall b, Cabcd_c w p (s 0) (J 0) a a b b = / s 0 b * dSa_db_c w p (s 0) (J 0) a b).
  { intro b. unfold Cabcd_c. rewrite !Nat.eqb_refl. cbn [andb]. unfold Rdiv. rewrite Rmult_1_l. reflexivity. }
  cbv beta. unfold sum3. rewrite !EC. change ((s 0 0%nat * s 0 1%nat * s 0 2%nat) ^ 2) with (J 0). clear DA. unfold dSa_db_c.
  pose proof (Ps 0%nat ltac:(lia)). pose proof (Ps 1%nat ltac:(lia)). pose proof (Ps 2%nat ltac:(lia)).
  idx3 a Ha; cbn [Nat.eqb]; field; lra.
Qed.
End GEN.

Section COINC.
Variables (g : geo) (z : R) (G H : mat) (l1 l2 : R -> R) (v1 v2 : R -> vec).
Hypotheses (SG : shell_G G) (SH : in_plane H) (PF : principal_family g z G H l1 l2 v1 v2) (EQ : l1 0 = l2 0).
Let l := l1 0.
Let q t := qs g z (v1 t) (v2 t).
Let A := Gcon g z.
Let K i j := sum2 (fun k => sum2 (fun m => A i k * H k m * A m j)).
Let T := sum2 (fun k => sum2 (fun m => A k m * H k m)).

Lemma lpos : 0 < l.
Proof. pose proof (state_frame _ _ _ _ _ _ _ (fam_state g z G H l1 l2 v1 v2 PF)) as (P & _). exact P. Qed.

(* a frame in which all metrics of the line are diagonal *)
Lemma turned : exists (u : mat) (k1 k2 : R), 
  (forall i j, (i < 2)%nat -> (j < 2)%nat -> A i j = dy u 0 i j + dy u 1 i j) /\
  (forall i j, (i < 2)%nat -> (j < 2)%nat -> K i j = k1 * dy u 0 i j + k2 * dy u 1 i j) /\ k1 + k2 = T /\
  (forall t i j, (i < 2)%nat -> (j < 2)%nat -> sum2 (fun k => sum2 (fun m => A i k * line G H t k m * A m j)) = (l ^ 2 + t * k1) * dy u 0 i j + (l ^ 2 + t * k2) * dy u 1 i j).
Proof.
  pose proof (state_frame _ _ _ _ _ _ _ (fam_state g z G H l1 l2 v1 v2 PF)) as (_ & _ & _ & _ & QA & QB & _). cbv zeta in QA, QB. fold (q 0) in QA, QB. fold A in QA, QB.
  set (h a b := sum2 (fun k => sum2 (fun m => q 0 k a * q 0 m b * H k m))).
  assert (SS : H 1%nat 0%nat = H 0%nat 1%nat) by (destruct SH as (S & _); rewrite (proj1 S); reflexivity).
  destruct (diag2 (h 0%nat 0%nat) (h 0%nat 1%nat) (h 1%nat 1%nat)) as (c & s & k1 & k2 & U & E0 & E2 & E1).
  assert (E1' : h 1%nat 0%nat = c * s * (k1 - k2)). { rewrite <- E1. unfold h, sum2. rewrite SS. ring. }
  exists (fun i a => match a with 0%nat => c * q 0 i 0%nat + s * q 0 i 1%nat | _ => - s * q 0 i 0%nat + c * q 0 i 1%nat end), k1, k2.
  set (u := fun i a => match a with 0%nat => c * q 0 i 0%nat + s * q 0 i 1%nat | _ => - s * q 0 i 0%nat + c * q 0 i 1%nat end).
  assert (UA : forall i j, (i < 2)%nat -> (j < 2)%nat -> A i j = dy u 0 i j + dy u 1 i j).
  { intros i j Hi Hj. rewrite QA by assumption. transitivity ((c * c + s * s) * (dy (q 0) 0 i j + dy (q 0) 1 i j)); [rewrite U; ring|unfold dy, u; ring]. }
  assert (UK : forall i j, (i < 2)%nat -> (j < 2)%nat -> K i j = k1 * dy u 0 i j + k2 * dy u 1 i j).
  { intros i j Hi Hj. transitivity (h 0%nat 0%nat * (q 0 i 0%nat * q 0 j 0%nat) + h 0%nat 1%nat * (q 0 i 0%nat * q 0 j 1%nat) + h 1%nat 0%nat * (q 0 i 1%nat * q 0 j 0%nat) + h 1%nat 1%nat * (q 0 i 1%nat * q 0 j 1%nat)).
    - unfold K, sum2. rewrite !QA by lia. unfold h, sum2, dy. ring.
    - rewrite E0, E1, E1', E2. unfold dy, u. ring. }
  split; [exact UA|]. split; [exact UK|]. split.
  - transitivity (h 0%nat 0%nat + h 1%nat 1%nat). { rewrite E0, E2. transitivity ((c * c + s * s) * (k1 + k2)); [rewrite U; ring|ring]. }
    unfold T, sum2. rewrite !QA by lia. unfold h, sum2, dy. ring.
  - intros t i j Hi Hj. transitivity (sum2 (fun k => sum2 (fun m => A i k * G k m * A m j)) + t * K i j).
    + unfold K, line, sum2. ring.
    + rewrite QB, UK, <- EQ by assumption. fold l. rewrite <- (Rmult_plus_distr_l (l ^ 2)), <- QA, UA by assumption. ring.
Qed.

(* every isotropic function of the two stretches can be followed in the turned frame *)
Section FOLLOW.
Variables (u : mat) (k1 k2 : R).
Hypotheses (UA : forall i j, (i < 2)%nat -> (j < 2)%nat -> A i j = dy u 0 i j + dy u 1 i j)
  (UB : forall t i j, (i < 2)%nat -> (j < 2)%nat -> sum2 (fun k => sum2 (fun m => A i k * line G H t k m * A m j)) = (l ^ 2 + t * k1) * dy u 0 i j + (l ^ 2 + t * k2) * dy u 1 i j).
Let x t := sqrt (l ^ 2 + t * k1).
Let y t := sqrt (l ^ 2 + t * k2).
Lemma xy0 : x 0 = l /\ y 0 = l.
Proof. unfold x, y. rewrite !Rmult_0_l, !Rplus_0_r. pose proof lpos. rewrite sqrt_pow2 by lra. split; reflexivity. Qed.
Lemma xy_der : is_derive x 0 (k1 / (2 * l)) /\ is_derive y 0 (k2 / (2 * l)).
Proof.
  pose proof lpos as P. assert (Q : 0 < l ^ 2) by (apply pow_lt; exact P). split; unfold x, y; (auto_derive; [lra|]); rewrite !Rmult_0_l, !Rplus_0_r; (replace (l * (l * 1)) with (l ^ 2) by ring);
    rewrite sqrt_pow2 by lra; field; lra.
Qed.
Lemma xy_line : locally 0 (fun t => (l1 t = x t /\ l2 t = y t /\ (x t <> y t -> forall i j, (i < 2)%nat -> (j < 2)%nat -> dy (q t) 0 i j = dy u 0 i j /\ dy (q t) 1 i j = dy u 1 i j)) \/
   (l1 t = y t /\ l2 t = x t /\ (x t <> y t -> forall i j, (i < 2)%nat -> (j < 2)%nat -> dy (q t) 0 i j = dy u 1 i j /\ dy (q t) 1 i j = dy u 0 i j))).
Proof.
  generalize PF. unfold principal_family. apply filter_imp. intros t P.
  destruct (state_frame _ _ _ _ _ _ _ P) as (P1 & P2 & LE & ND & QA & QB & _).
  assert (R1 : l1 t = sqrt (l1 t ^ 2)) by (rewrite sqrt_pow2; lra). assert (R2 : l2 t = sqrt (l2 t ^ 2)) by (rewrite sqrt_pow2; lra).
  destruct (dyads (q t) u (l1 t ^ 2) (l2 t ^ 2) (l ^ 2 + t * k1) (l ^ 2 + t * k2) ND) as [(E & F & D)|(E & F & D)].
  - intros i j Hi Hj. unfold q. rewrite <- QA, <- UA by assumption. reflexivity.
  - intros i j Hi Hj. unfold q. rewrite <- QB, <- UB by assumption. reflexivity.
  - left. rewrite E in R1. rewrite F in R2. split; [exact R1|]. split; [exact R2|]. intro N. apply D. intro X. apply N. unfold x, y. rewrite <- E, <- F, X. reflexivity.
  - right. rewrite E in R1. rewrite F in R2. split; [exact R1|]. split; [exact R2|]. intro N. apply D. intro X. apply N. unfold x, y. rewrite <- E, <- F, X. reflexivity.
Qed.
Lemma follow (F0 F1 : R -> R -> R -> R) i j : (i < 2)%nat -> (j < 2)%nat -> (forall t a b, F0 t b a = F1 t a b) ->
  locally 0 (fun t => F0 t (l1 t) (l2 t) * dy (q t) 0 i j + F1 t (l1 t) (l2 t) * dy (q t) 1 i j = F0 t (x t) (y t) * dy u 0 i j + F1 t (x t) (y t) * dy u 1 i j).
Proof.
  intros Hi Hj S. assert (PQ := PF). generalize (filter_and _ _ xy_line PQ). apply filter_imp. intros t (C & P).
  destruct (state_frame _ _ _ _ _ _ _ P) as (_ & _ & _ & _ & QA & _). specialize (QA i j Hi Hj). fold A in QA. fold (q t) in QA. rewrite UA in QA by assumption.
  assert (EQ' : x t = y t -> F0 t (x t) (y t) * dy (q t) 0 i j + F1 t (x t) (y t) * dy (q t) 1 i j = F0 t (x t) (y t) * dy u 0 i j + F1 t (x t) (y t) * dy u 1 i j).
  { intro E. rewrite <- (S t (x t) (y t)), E, <- !Rmult_plus_distr_l, QA. reflexivity. }
  destruct C as [(E & F & D)|(E & F & D)]; rewrite E, F; (destruct (Req_dec (x t) (y t)) as [N|N]; [|destruct (D N i j Hi Hj) as (-> & ->)]).
  - apply EQ'; exact N.
  - reflexivity.
  - rewrite N in EQ' |- *. apply EQ'; reflexivity.
  - rewrite (S t (x t) (y t)), <- (S t (y t) (x t)). ring.
Qed.
Lemma follow_sym (F : R -> R -> R -> R) : (forall t a b, F t a b = F t b a) -> locally 0 (fun t => F t (l1 t) (l2 t) = F t (x t) (y t)).
Proof.
  intro S. generalize xy_line. apply filter_imp. intros t [(-> & -> & _)|(-> & -> & _)]; [reflexivity|apply S].
Qed.
End FOLLOW.

(* the isotropic tangent *)
Lemma contract_iso Cn Cx Cs i j : Cn 0%nat = Cx + 2 * Cs -> Cn 1%nat = Cx + 2 * Cs -> (i < 2)%nat -> (j < 2)%nat ->
  contract (project Cn Cx Cs (q 0)) H i j = Cx * T * A i j + 2 * Cs * K i j.
Proof.
  intros E F Hi Hj. pose proof (state_frame _ _ _ _ _ _ _ (fam_state g z G H l1 l2 v1 v2 PF)) as (_ & _ & _ & _ & QA & _). cbv zeta in QA. fold (q 0) in QA. fold A in QA.
  destruct SH as (SS & Z). rewrite contract_shell by exact SS. rewrite Z. cbv zeta. rewrite !project_iso by assumption. cbv zeta. rewrite <- !QA by (assumption || lia).
  unfold T, K, sum2. rewrite (proj1 SS). rewrite (QA i j), (QA i 0%nat), (QA i 1%nat), (QA j 0%nat), (QA j 1%nat), (QA 0%nat j), (QA 1%nat j), (QA 0%nat 0%nat), (QA 0%nat 1%nat), (QA 1%nat 0%nat), (QA 1%nat 1%nat) by (assumption || lia).
  unfold dy. ring.
Qed.

Theorem coincident_i w p i j : (i < 2)%nat -> (j < 2)%nat ->
  is_derive (fun t => S_spec_i w p (stretches_i (l1 t) (l2 t)) (gcon g z) (frame3 (v1 t) (v2 t) (gcon g z 2%nat)) i j) 0
    (/ 2 * contract (C_spec_i w p (stretches_i (l1 0) (l2 0)) (gcon g z) (frame3 (v1 0) (v2 0) (gcon g z 2%nat))) H i j).
Proof.
  intros Hi Hj. destruct turned as (u & k1 & k2 & UA & UK & UT & UB). pose proof lpos as P.
  set (x t := sqrt (l ^ 2 + t * k1)). set (y t := sqrt (l ^ 2 + t * k2)).
  destruct (xy0 k1 k2) as (X0 & Y0). destruct (xy_der k1 k2) as (DX & DY). change (x 0 = l) in X0. change (y 0 = l) in Y0. fold x in DX. fold y in DY.
  apply (is_derive_ext_loc (fun t => Sa_i w p (stretches_i (x t) (y t)) 0 * dy u 0 i j + Sa_i w p (stretches_i (x t) (y t)) 1 * dy u 1 i j)).
  { generalize (follow u k1 k2 UA UB (fun _ a b => Sa_i w p (stretches_i a b) 0) (fun _ a b => Sa_i w p (stretches_i a b) 1) i j Hi Hj).
    intro X. assert (SW : forall t a b : R, Sa_i w p (stretches_i b a) 0 = Sa_i w p (stretches_i a b) 1).
    { intros _ a b. rewrite <- (proj1 (Sa_i_swap w p (stretches_i a b))). unfold Sa_i, pr_p, dJ_da.
      assert (E2 : stretches_i b a 2%nat = swap (stretches_i a b) 2%nat) by (cbn; rewrite Rmult_comm; reflexivity).
      assert (E0 : forall k, (k < 2)%nat -> stretches_i b a k = swap (stretches_i a b) k) by (intros k Hk; idx2 k Hk; reflexivity).
      rewrite E2, (E0 0%nat) by lia. destruct w as [[]|pars]; cbn [dPsi_da_i]; unfold dI1a, dI2a, sI1; rewrite ?E2, ?(E0 0%nat), ?(E0 1%nat) by lia; reflexivity. }
    specialize (X SW). revert X. apply filter_imp. intros t E. symmetry. exact E. }
  evar_last.
  { apply (is_derive_plus (K := R_AbsRing) (V := R_NormedModule)); apply (is_derive_scal_l (K := R_AbsRing) (V := R_NormedModule));
      apply gen_Sa_i; try exact DX; try exact DY; try lia; rewrite ?X0, ?Y0; exact P. }
  rewrite X0, Y0. change (frame3 (v1 0) (v2 0) (gcon g z 2%nat)) with (frame3 (v1 0) (v2 0) (gcon g z 2%nat)). rewrite <- EQ. fold l. unfold C_spec_i. cbv zeta.
  destruct (C_i_equal w p l P) as (E0 & E1). set (C := Cabcd_i w p (stretches_i l l)) in *.
  change (pr (gcon g z) (frame3 (v1 0) (v2 0) (gcon g z 2))) with (q 0). rewrite contract_iso by assumption.
  assert (SY : C 1%nat 1%nat 0%nat 0%nat = C 0%nat 0%nat 1%nat 1%nat).
  { unfold C, Cabcd_i. cbn [Nat.eqb andb]. unfold dSa_db_i, pr_p, dp_da, dJ_da, d2J_dab. cbn [Nat.eqb]. rewrite (d2Psi_i_sym w p (stretches_i l l) 1 0) by lia.
    change (stretches_i l l 1%nat) with l. change (stretches_i l l 0%nat) with l. change (stretches_i l l 2%nat) with (/ (l * l)). field. lra. }
  rewrite UK, <- UT, UA, SY, E0, E1 by assumption. unfold plus, scal; cbn; unfold mult; cbn. req. field. lra.
Qed.
Section THICK.
Variables (w : slaw) (p : par) (l3 : R -> R) (k3 : R).
Hypotheses (P3 : 0 < l3 0) (D3 : is_derive l3 0 k3).
Let s t := triple (l1 t) (l2 t) (l3 t).
Let J t := J_sq (metric_of (Gcov g z) (line G H t)) (l3 t ^ 2).
Lemma J_stretch : locally 0 (fun t => J t = (l1 t * l2 t * l3 t) ^ 2).
Proof. generalize (fam_spec g z G H l1 l2 v1 v2 SG SH PF). apply filter_imp. intros t S. unfold J, J_sq. rewrite (sp_J _ _ _ _ S). ring. Qed.
Let Jn a b c := (a * b * c) ^ 2.
Lemma SW_c a b c k : Sa_c w p (triple b a c) (Jn b a c) k = Sa_c w p (swap (triple a b c)) (Jn a b c) k.
Proof.
  replace (Jn b a c) with (Jn a b c) by (unfold Jn; ring). unfold Sa_c. change (swap (triple a b c) k) with (swap (triple a b c) k).
  assert (E : forall n, triple b a c n = swap (triple a b c) n) by (intros [|[|[|n]]]; reflexivity).
  rewrite (E k). destruct w as [[]|pars]; cbn [dPsi_da_c]; unfold dI1a, dI2a, dPsi_da_vol, sI1, sI2; rewrite ?E; try reflexivity.
Qed.
Theorem coincident_c i j : (i < 2)%nat -> (j < 2)%nat -> locally 0 (fun t => Sa_c w p (s t) (J t) 2 = 0) -> C3333_spec w p (s 0) (J 0) <> 0 ->
  is_derive (fun t => S_spec_c w p (s t) (J t) (gcon g z) (frame3 (v1 t) (v2 t) (gcon g z 2%nat)) i j) 0
    (/ 2 * contract (C_spec_c w p (s 0) (J 0) (gcon g z) (frame3 (v1 0) (v2 0) (gcon g z 2%nat))) H i j).
Proof.
  intros Hi Hj Z N. destruct turned as (u & k1 & k2 & UA & UK & UT & UB). pose proof lpos as P.
  set (x t := sqrt (l ^ 2 + t * k1)). set (y t := sqrt (l ^ 2 + t * k2)).
  destruct (xy0 k1 k2) as (X0 & Y0). destruct (xy_der k1 k2) as (DX & DY). change (x 0 = l) in X0. change (y 0 = l) in Y0. fold x in DX. fold y in DY.
  assert (PX : 0 < x 0) by (rewrite X0; exact P). assert (PY : 0 < y 0) by (rewrite Y0; exact P).
  set (F k (t a b : R) := Sa_c w p (triple a b (l3 t)) (Jn a b (l3 t)) k).
  assert (DF : forall k, (k < 3)%nat -> is_derive (fun t => F k t (x t) (y t)) 0 (sum3 (fun b => Cabcd_c w p (triple (x 0) (y 0) (l3 0)) (Jn (x 0) (y 0) (l3 0)) k k b b * (triple (x 0) (y 0) (l3 0) b * triple (k1 / (2 * l)) (k2 / (2 * l)) k3 b)))).
  { intros k Hk. exact (gen_Sa_c w p x y l3 _ _ _ k PX PY P3 DX DY D3 Hk). }
  rewrite X0, Y0 in DF. pose proof (locally_singleton _ _ J_stretch) as EJ. cbv beta in EJ. rewrite <- EQ in EJ. fold l in EJ.
  unfold s in N. rewrite <- EQ in N. fold l in N. rewrite EJ in N. change ((l * l * l3 0) ^ 2) with (Jn l l (l3 0)) in N, EJ.
  set (sl := triple l l (l3 0)) in *. set (C := Cabcd_c w p sl (Jn l l (l3 0))) in *. change (C 2%nat 2%nat 2%nat 2%nat <> 0) in N.
  assert (D2 : is_derive (fun t => F 2%nat t (x t) (y t)) 0 0).
  { apply (is_derive_ext_loc (fun _ => 0)); [|apply @is_derive_const].
    assert (FS := follow_sym u k1 k2 UA UB (F 2%nat)). fold x in FS. fold y in FS.
    assert (SY : forall t a b, F 2%nat t a b = F 2%nat t b a). { intros t a b. unfold F. rewrite (SW_c a b). symmetry. apply (Sa_c_swap w p (triple a b (l3 t))). }
    generalize (filter_and _ _ (filter_and _ _ Z J_stretch) (FS SY)). apply filter_imp. intros t ((E0 & E1) & E2). rewrite E1 in E0. cbv beta in E2. transitivity (F 2%nat t (l1 t) (l2 t)); [symmetry; exact E0|exact E2]. }
  destruct (C_c_equal w p (Jn l l (l3 0)) l (l3 0) P) as (E0 & E1 & E2). fold sl in E0, E1, E2. fold C in E0, E1, E2.
  assert (SY := C_c_sym w p (Jn l l (l3 0)) l (l3 0) P P3). fold sl in SY. fold C in SY.
  assert (K3 : l3 0 * k3 = - / 2 * (C 2%nat 2%nat 0%nat 0%nat * (k1 + k2)) / C 2%nat 2%nat 2%nat 2%nat).
  { pose proof (is_derive_unique _ _ _ (DF 2%nat ltac:(lia))) as U1. rewrite (is_derive_unique _ _ _ D2) in U1. unfold sum3 in U1. change (sl 0%nat) with l in U1. change (sl 1%nat) with l in U1. change (sl 2%nat) with (l3 0) in U1. cbn [triple] in U1.
    rewrite <- E2 in U1. apply (Rmult_eq_reg_r (C 2%nat 2%nat 2%nat 2%nat)); [|exact N].
    transitivity (l3 0 * k3 * C 2%nat 2%nat 2%nat 2%nat - (C 2%nat 2%nat 0%nat 0%nat * (l * (k1 / (2 * l))) + C 2%nat 2%nat 0%nat 0%nat * (l * (k2 / (2 * l))) + C 2%nat 2%nat 2%nat 2%nat * (l3 0 * k3))).
    - rewrite <- U1. ring.
    - field. split; [exact N|lra]. }
  apply (is_derive_ext_loc (fun t => F 0%nat t (x t) (y t) * dy u 0 i j + F 1%nat t (x t) (y t) * dy u 1 i j)).
  { assert (FO := follow u k1 k2 UA UB (F 0%nat) (F 1%nat) i j Hi Hj). fold x in FO. fold y in FO.
    assert (SWF : forall t a b, F 0%nat t b a = F 1%nat t a b). { intros t a b. unfold F. rewrite (SW_c a b). apply (Sa_c_swap w p (triple a b (l3 t))). }
    specialize (FO SWF). assert (PQ := PF). unfold principal_family in PQ. generalize (filter_and _ _ (filter_and _ _ FO J_stretch) PQ). apply filter_imp. intros t ((E & EJt) & Q). cbv beta in E.
    pose proof (q_i2 g z _ _ _ _ _ Q i Hi) as Qi. unfold S_spec_c, sum3. rewrite EJt. change (pr (gcon g z) (frame3 (v1 t) (v2 t) (gcon g z 2)) i 2%nat = 0) in Qi. rewrite Qi.
    transitivity (F 0%nat t (l1 t) (l2 t) * dy (q t) 0 i j + F 1%nat t (l1 t) (l2 t) * dy (q t) 1 i j); [symmetry; exact E|].
    unfold F, Jn, s, dy, q, qs. req. ring. }
  evar_last.
  { apply (is_derive_plus (K := R_AbsRing) (V := R_NormedModule)); apply (is_derive_scal_l (K := R_AbsRing) (V := R_NormedModule)); apply DF; lia. }
  fold sl. fold C. unfold s. rewrite EJ, <- EQ. fold l. fold sl. unfold C_spec_c. cbv zeta. fold C.
  change (pr (gcon g z) (frame3 (v1 0) (v2 0) (gcon g z 2))) with (q 0).
  destruct (cond_equal w p (Jn l l (l3 0)) l (l3 0) P P3 N) as (I0 & I1).
  rewrite contract_iso by assumption.
  assert (ZS : C 2%nat 2%nat 0%nat 1%nat = 0) by reflexivity.
  unfold sum3. change (sl 0%nat) with l. change (sl 1%nat) with l. change (sl 2%nat) with (l3 0). cbn [triple]. rewrite K3.
  rewrite UK, <- UT, UA, ZS, (SY 1%nat 0%nat), (SY 0%nat 2%nat), (SY 1%nat 2%nat), <- E2, E1, E0 by (assumption || lia).
  clear SY DF I0 I1 E0 E1 E2 ZS K3. clearbody C. unfold plus, scal; cbn; unfold mult; cbn. req. field. repeat split; first [exact N|lra].
Qed.
End THICK.
Section ENERGY.
Variables (p : par) (pars : list R).
Hypothesis NZ : forall t, In t (ogden_terms pars) -> snd t <> 0.
Lemma ogden_W_sym TT a b c : ogden_W TT a b c = ogden_W TT b a c.
Proof. unfold ogden_W. induction TT as [|t TT IH]; cbn [fold_right]; [reflexivity|]. rewrite IH. f_equal. ring. Qed.
Lemma S_trace (q' : mat) (F : R) : (forall i j, (i < 2)%nat -> (j < 2)%nat -> A i j = dy q' 0 i j + dy q' 1 i j) ->
  let S i j := F * (q' i 0%nat * q' j 0%nat) + F * (q' i 1%nat * q' j 1%nat) in
  S 0%nat 0%nat * H 0%nat 0%nat + S 1%nat 1%nat * H 1%nat 1%nat + 2 * S 0%nat 1%nat * H 1%nat 0%nat = F * T.
Proof.
  intros QA S. unfold T, sum2. rewrite !QA by lia. destruct SH as ((HS & _) & _). rewrite HS. unfold S, dy. ring.
Qed.
Theorem coincident_energy_i : is_derive (fun t => ogden_W (ogden_terms pars) (l1 t) (l2 t) (/ (l1 t * l2 t))) 0
    (/ 2 * dotdot (S_spec_i (OG pars) p (stretches_i (l1 0) (l2 0)) (gcon g z) (frame3 (v1 0) (v2 0) (gcon g z 2%nat))) H).
Proof.
  destruct turned as (u & k1 & k2 & UA & UK & UT & UB). pose proof lpos as P.
  set (x t := sqrt (l ^ 2 + t * k1)). set (y t := sqrt (l ^ 2 + t * k2)).
  destruct (xy0 k1 k2) as (X0 & Y0). destruct (xy_der k1 k2) as (D1 & D2). change (x 0 = l) in X0. change (y 0 = l) in Y0. fold x in D1. fold y in D2.
  assert (P1 : 0 < x 0) by (rewrite X0; exact P). assert (P2 : 0 < y 0) by (rewrite Y0; exact P).
  assert (FS := follow_sym u k1 k2 UA UB (fun _ a b => ogden_W (ogden_terms pars) a b (/ (a * b)))). fold x in FS. fold y in FS.
  apply (is_derive_ext_loc (fun t => ogden_W (ogden_terms pars) (x t) (y t) (/ (x t * y t)))).
  { assert (S0 : forall t a b : R, ogden_W (ogden_terms pars) a b (/ (a * b)) = ogden_W (ogden_terms pars) b a (/ (b * a))) by (intros _ a b; rewrite ogden_W_sym, (Rmult_comm a b); reflexivity).
    generalize (FS S0). apply filter_imp. intros t E. symmetry. exact E. }
  pose proof (der_l3 x y _ _ P1 P2 D1 D2) as D3.
  assert (P3 : 0 < / (x 0 * y 0)) by (apply Rinv_0_lt_compat, Rmult_lt_0_compat; assumption).
  evar_last. { exact (der_ogden_W (ogden_terms pars) x y (fun t => / (x t * y t)) _ _ _ NZ P1 P2 P3 D1 D2 D3). }
  cbv beta. rewrite dotdot_shell by apply SH. rewrite (proj2 SH). unfold S_spec_i, sum2. rewrite <- EQ. fold l.
  set (s := stretches_i l l). rewrite X0, Y0. rewrite (equal_stretches (OG pars) p l (/ (l * l)) : Sa_i (OG pars) p s 0 = Sa_i (OG pars) p s 1).
  pose proof (state_frame _ _ _ _ _ _ _ (fam_state g z G H l1 l2 v1 v2 PF)) as (_ & _ & _ & _ & QA & _). cbv zeta in QA.
  pose proof (S_trace _ (Sa_i (OG pars) p s 1) QA) as ST. cbv zeta in ST. unfold qs in ST.
  transitivity (/ 2 * (Sa_i (OG pars) p s 1 * T)); [|rewrite <- ST; ring]. clear ST QA.
  unfold Sa_i, pr_p, dJ_da. cbn [dPsi_da_i]. rewrite !tsum_ogden.
  change (s 1%nat) with l. change (s 2%nat) with (/ (l * l)). rewrite <- UT.
  transitivity (tsum (ogden_terms pars) (fun mi al => mi * Rpower l (al - 1)) * (k1 / (2 * l)) + tsum (ogden_terms pars) (fun mi al => mi * Rpower l (al - 1)) * (k2 / (2 * l))
     + tsum (ogden_terms pars) (fun mi al => mi * Rpower (/ (l * l)) (al - 1)) * (- / (l * l) * (k1 / (2 * l) / l + k2 / (2 * l) / l))).
  - rewrite tsum_lin3. apply tsum_ext. intros mi al. rewrite !Rpow_pred by (assumption || (rewrite X0, Y0 in P3; exact P3)). field. lra.
  - field. lra.
Qed.
Variables (l3 : R -> R) (k3 : R).
Hypotheses (P3 : 0 < l3 0) (D3 : is_derive l3 0 k3).
Theorem coincident_energy_c :
  is_derive (fun t => ogden_W_iso (ogden_terms pars) (l1 t) (l2 t) (l3 t) + vol_W (bulk p) (l1 t) (l2 t) (l3 t)) 0
    (/ 2 * dotdot (S_spec_c (OG pars) p (triple (l1 0) (l2 0) (l3 0)) (J_sq (metric_of (Gcov g z) G) (l3 0 ^ 2)) (gcon g z) (frame3 (v1 0) (v2 0) (gcon g z 2%nat))) (with33 H (2 * l3 0 * k3))).
Proof.
  destruct turned as (u & k1 & k2 & UA & UK & UT & UB). pose proof lpos as P.
  set (x t := sqrt (l ^ 2 + t * k1)). set (y t := sqrt (l ^ 2 + t * k2)).
  destruct (xy0 k1 k2) as (X0 & Y0). destruct (xy_der k1 k2) as (D1 & D2). change (x 0 = l) in X0. change (y 0 = l) in Y0. fold x in D1. fold y in D2.
  assert (P1 : 0 < x 0) by (rewrite X0; exact P). assert (P2 : 0 < y 0) by (rewrite Y0; exact P).
  set (F (t a b : R) := ogden_W_iso (ogden_terms pars) a b (l3 t) + vol_W (bulk p) a b (l3 t)).
  assert (FS := follow_sym u k1 k2 UA UB F). fold x in FS. fold y in FS.
  apply (is_derive_ext_loc (fun t => F t (x t) (y t))).
  { assert (S0 : forall t a b : R, F t a b = F t b a).
    { intros t a b. unfold F, ogden_W_iso, vol_W. cbv zeta. rewrite ogden_W_sym, (Rmult_comm b a). reflexivity. }
    generalize (FS S0). apply filter_imp. intros t E. symmetry. exact E. }
  assert (PJ : 0 < x 0 * y 0 * l3 0) by (apply Rmult_lt_0_compat; [apply Rmult_lt_0_compat|]; assumption).
  assert (DJ : is_derive (fun t => x t * y t * l3 t) 0 (x 0 * y 0 * l3 0 * (k1 / (2 * l) / x 0 + k2 / (2 * l) / y 0 + k3 / l3 0))).
  { evar_last. { apply der_mul; [apply der_mul; [exact D1|exact D2]|exact D3]. } cbv beta. field. lra. }
  pose proof (der_pow (- (1 / 3)) (fun t => x t * y t * l3 t) _ PJ DJ) as DR. cbv beta in DR.
  set (r := fun t => Rpower (x t * y t * l3 t) (- (1 / 3))) in *.
  assert (Pr : 0 < r 0) by apply exp_pos.
  pose proof (der_mul r x _ _ DR D1) as E1. pose proof (der_mul r y _ _ DR D2) as E2. pose proof (der_mul r l3 _ _ DR D3) as E3.
  assert (Q1 : 0 < r 0 * x 0) by (apply Rmult_lt_0_compat; assumption). assert (Q2 : 0 < r 0 * y 0) by (apply Rmult_lt_0_compat; assumption).
  assert (Q3 : 0 < r 0 * l3 0) by (apply Rmult_lt_0_compat; assumption).
  unfold F.
  evar_last.
  { apply der_add; [|exact (der_volW3 (bulk p) x y l3 _ _ _ P1 P2 P3 D1 D2 D3)].
    exact (der_ogden_W (ogden_terms pars) (fun t => r t * x t) (fun t => r t * y t) (fun t => r t * l3 t) _ _ _ NZ Q1 Q2 Q3 E1 E2 E3). }
  cbv beta. clear DR E1 E2 E3 DJ.
  assert (SH3 : shell_shape (with33 H (2 * l3 0 * k3))).
  { destruct SH as ((HA & _) & _). repeat split; try reflexivity. exact HA. }
  rewrite dotdot_shell by exact SH3. unfold S_spec_c, sum3, with33.
  pose proof (state_spectral3 _ _ _ _ _ _ _ SG (fam_state g z G H l1 l2 v1 v2 PF)) as SP. destruct SP as [SP0 SP2 SP22 SPG].
  pose proof (state_frame _ _ _ _ _ _ _ (fam_state g z G H l1 l2 v1 v2 PF)) as (_ & _ & _ & _ & QA & _). cbv zeta in QA. unfold qs in QA.
  set (qq := pr (gcon g z) (frame3 (v1 0) (v2 0) (gcon g z 2))) in *.
  destruct (SP2 0%nat ltac:(lia)) as (Z20 & Z02). destruct (SP2 1%nat ltac:(lia)) as (Z21 & Z12). rewrite Z20, Z02, Z21, Z12, SP22.
  assert (JV : J_sq (metric_of (Gcov g z) G) (l3 0 ^ 2) = (l * l * l3 0) ^ 2) by (unfold J_sq; rewrite (sp_J _ _ _ _ SP0), <- EQ; fold l; ring).
  rewrite JV, <- EQ. fold l.
  set (s := triple l l (l3 0)). set (J := (l * l * l3 0) ^ 2).
  rewrite (equal_stretches_c (OG pars) p l (l3 0) J : Sa_c (OG pars) p s J 0 = Sa_c (OG pars) p s J 1).
  pose proof (S_trace qq (Sa_c (OG pars) p s J 1) QA) as ST. cbv zeta in ST.
  transitivity (/ 2 * (Sa_c (OG pars) p s J 1 * T + Sa_c (OG pars) p s J 2 * (2 * l3 0 * k3))).
  2:{ rewrite <- ST. ring. }
  rewrite <- UT. clear ST.
  unfold Sa_c. cbn [dPsi_da_c]. unfold dPsi_da_vol. rewrite !tsum_ogden.
  set (w := l3 0) in *. change (s 1%nat) with l. change (s 2%nat) with w.
  set (FF := fun c => tsum (ogden_terms pars) (fun mi al => mi * Rpower J (- al / 6) * (Rpower c (al - 1) - 1 / 3 * 1 / c * Lambda s al))).
  change (tsum (ogden_terms pars) (fun mi al => mi * Rpower J (- al / 6) * (Rpower l (al - 1) - 1 / 3 * 1 / l * Lambda s al))) with (FF l).
  change (tsum (ogden_terms pars) (fun mi al => mi * Rpower J (- al / 6) * (Rpower w (al - 1) - 1 / 3 * 1 / w * Lambda s al))) with (FF w).
  rewrite X0, Y0 in *.
  transitivity (FF l * (k1 / (2 * l)) + FF l * (k2 / (2 * l)) + FF w * k3 + bulk p / 2 * (J - 1) * (k1 / (2 * l) / l + k2 / (2 * l) / l + k3 / w)).
  2:{ field. lra. }
  f_equal. unfold FF. rewrite tsum_lin3. apply tsum_ext. intros mi al. unfold Lambda. change (s 0%nat) with l. change (s 1%nat) with l. change (s 2%nat) with w.
  rewrite (Rpower_prod (r 0) l), (Rpower_prod (r 0) w) by assumption. rewrite !Rpow_pred by assumption. unfold J. rewrite Rpower_sq by exact PJ.
  assert (ER : Rpower (r 0) al = Rpower (l * l * w) (2 * (- al / 6))) by (unfold r; fold w; rewrite X0, Y0, Rpower_mult; f_equal; field).
  rewrite ER. set (c := Rpower (l * l * w) (2 * (- al / 6))). generalize (Rpower l al) (Rpower w al) c. intros.
  assert (ER0 : Rpower (l * l * w) (- (1 / 3)) = r 0) by (unfold r; fold w; rewrite X0, Y0; reflexivity). rewrite ?ER0. field. lra.
Qed.
End ENERGY.
End COINC.
