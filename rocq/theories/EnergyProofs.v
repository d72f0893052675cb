From Coq Require Import Reals Lra Lia FunctionalExtensionality.
From Coquelicot Require Import Coquelicot.
From Verif Require Import Tensor MetricModel LinearModel LinearSpec NonlinearModel NonlinearSpec NonlinearProofs.
Open Scope R_scope.

(* the invariants of the specification at a shell tensor, in terms of the quantities of the code *)
Lemma inv1_shell Go C : shell_G Go -> shell_shape C -> det2 Go <> 0 ->
  inv1 (inv3 Go) C = I_1 (at_C Go C) (C 2%nat 2%nat).
Proof.
  intros SO SC D. unfold inv1. rewrite dotdot_shell by assumption. rewrite inv3_shell_33 by assumption.
  unfold I_1, traceCt, at_C. cbn [metric_of Gdef Gori with33]. destruct SC as (E & _). rewrite E. ring.
Qed.
Lemma J2_shell Go C : shell_G Go -> shell_shape C -> det2 Go <> 0 -> J2 (inv3 Go) C = J_sq (at_C Go C) (C 2%nat 2%nat).
Proof.
  intros SO SC D. unfold J2, J_sq, at_C. cbn [metric_of J0]. rewrite (det3_shell C SC), (det3_shell1 _ (with33_shell1 C SC)), (det3_shell1 Go SO).
  assert (E : det3 (inv3 Go) = / det2 Go).
  { unfold det3. rewrite inv3_shell_33 by assumption. destruct (inv3_shell_0 Go 0 SO ltac:(lia)) as [a a']. destruct (inv3_shell_0 Go 1 SO ltac:(lia)) as [b b'].
    rewrite a, a', b, b'. rewrite !inv3_shell by (assumption || lia). unfold inv2. unfold det2 in *. field. exact D. }
  rewrite E. unfold det2 at 3. unfold with33. fold (det2 C). unfold det2. field. exact D.
Qed.
Lemma inv2nd_shell Go C : shell_G Go -> shell_shape C -> det2 Go <> 0 -> inv2nd (inv3 Go) C = I_2 (at_C Go C) (C 2%nat 2%nat).
Proof.
  intros SO SC D. unfold inv2nd. rewrite inv1_shell by assumption. unfold I_1, I_2.
  destruct (inv3_shell_0 Go 0 SO ltac:(lia)) as [a a']. destruct (inv3_shell_0 Go 1 SO ltac:(lia)) as [b b'].
  assert (J : J0 (at_C Go C) = det2 (inv3 Go) * det2 C).
  { unfold at_C. cbn [metric_of J0]. rewrite (det3_shell1 _ (with33_shell1 C SC)), (det3_shell1 Go SO).
    unfold det2 at 3. rewrite !inv3_shell by (assumption || lia). unfold with33, inv2, det2 in *. field. exact D. }
  rewrite J. unfold traceCt, at_C. cbn [metric_of Gdef Gori with33].
  assert (S10 : inv3 Go 1%nat 0%nat = inv3 Go 0%nat 1%nat).
  { rewrite !inv3_shell by (assumption || lia). symmetry. apply inv2_sym, SO. }
  unfold AC, mmul3, sum3. rewrite (inv3_shell_33 Go SO D), a, a', b, b', S10. destruct SC as (e1 & e2 & e3 & e4 & e5). rewrite e1, e2, e3, e4, e5.
  unfold det2. rewrite e1, S10. field.
Qed.

Lemma der_ln (J : R -> R) (dJ : R) : 0 < J 0 -> is_derive J 0 dJ -> is_derive (fun t => ln (J t)) 0 (dJ / J 0).
Proof. intros P A. auto_derive; [repeat split; [eexists; exact A|exact P]|]. der_val A. field. lra. Qed.
Lemma der_isoW (a k : R) (P I : R -> R) (dP dI : R) : is_derive P 0 dP -> is_derive I 0 dI ->
  is_derive (fun t => a / 2 * (P t * I t - k)) 0 (a / 2 * (dP * I 0 + P 0 * dI)).
Proof. intros A B. auto_derive; [der_side|]. der_val A; der_val B. field. Qed.
Lemma der_volW (K : R) (J L : R -> R) (dJ dL : R) : is_derive J 0 dJ -> is_derive L 0 dL ->
  is_derive (fun t => K / 4 * (J t - 1 - L t)) 0 (K / 4 * (dJ - dL)).
Proof. intros A B. auto_derive; [der_side|]. der_val A; der_val B. field. Qed.
Lemma der_nheW (a : R) (I L : R -> R) (dI dL : R) : is_derive I 0 dI -> is_derive L 0 dL ->
  is_derive (fun t => a / 2 * (I t - 3 - L t)) 0 (a / 2 * (dI - dL)).
Proof. intros A B. auto_derive; [der_side|]. der_val A; der_val B. field. Qed.

Definition W_of (w : law) (p : par) (A C : mat) : R :=
  match w with NH => W_NH (mu p) (bulk p) A C | MR => W_MR (c1 p) (c2 p) (bulk p) A C | NHe => W_NHe (mu p) (lam p) A C end.

Lemma energy_comp Go C H w p : adm3 Go C -> shell_shape H ->
  gradient_of (W_of w p (inv3 Go)) (S_comp w p (at_C Go C) (C 2%nat 2%nat)) C H.
Proof.
  intros AD SH. unfold gradient_of.
  pose proof (adm3_adm _ _ AD) as AD'. pose proof (with33_in H SH) as SH'. destruct AD as (SO & SC & DO & DC & P33).
  assert (DO' : det2 Go <> 0) by lra.
  set (G1 := with33 C 1) in *. set (H1 := with33 H 0) in *. set (cc := fun t => line C H t 2%nat 2%nat).
  assert (Pc : 0 < cc 0) by (unfold cc; rewrite line_at0; exact P33).
  assert (dc : is_derive cc 0 (H 2%nat 2%nat)) by (apply der_line).
  assert (EI1 : forall t, inv1 (inv3 Go) (line C H t) = I_1 (metric_of Go (line G1 H1 t)) (cc t)).
  { intro t. rewrite inv1_shell by (try assumption; apply shell_line; assumption). unfold at_C. rewrite with33_line. reflexivity. }
  assert (EI2 : forall t, inv2nd (inv3 Go) (line C H t) = I_2 (metric_of Go (line G1 H1 t)) (cc t)).
  { intro t. rewrite inv2nd_shell by (try assumption; apply shell_line; assumption). unfold at_C. rewrite with33_line. reflexivity. }
  assert (EJ : forall t, J2 (inv3 Go) (line C H t) = J_sq (metric_of Go (line G1 H1 t)) (cc t)).
  { intro t. rewrite J2_shell by (try assumption; apply shell_line; assumption). unfold at_C. rewrite with33_line. reflexivity. }
  pose proof (d_Jsq Go G1 H1 cc _ AD' SH' Pc dc) as dJ. pose proof (d_P Go G1 H1 cc _ AD' SH' Pc dc (- (1/3))) as dP.
  pose proof (d_P Go G1 H1 cc _ AD' SH' Pc dc (- (2/3))) as dQ. pose proof (d_I1 Go G1 H1 cc _ AD' SH' dc) as dI1.
  pose proof (d_I2 Go G1 H1 cc _ AD' SH' dc) as dI2. pose proof (J_pos Go G1 cc AD' Pc) as PJ.
  cbv zeta in *. cbn beta in dI1, dI2.
  assert (dL := der_ln _ _ (eq_ind_r (fun M => 0 < J_sq (metric_of Go M) (cc 0)) PJ (line0 G1 H1)) dJ). cbv beta in dL. rewrite line0 in dL.
  pose proof (ci_sym Go G1 cc AD') as CS. pose proof (Go3_sym Go G1 AD') as GS. pose proof (Go3_33 Go G1 AD') as G33.
  rewrite dotdot_shell by assumption.
  change (at_C Go C) with (metric_of Go G1). replace (C 2%nat 2%nat) with (cc 0) by (unfold cc; apply line_at0).
  set (m := metric_of Go G1) in *.
  assert (DS : dI_2 m (cc 0) 0%nat 1%nat = dI_2 m (cc 0) 1%nat 0%nat).
  { unfold dI_2, dI_1, idelta, delta. cbn [Nat.eqb]. rewrite CS, GS. ring. }
  change (H1 0%nat 0%nat) with (H 0%nat 0%nat) in *. change (H1 1%nat 0%nat) with (H 1%nat 0%nat) in *. change (H1 1%nat 1%nat) with (H 1%nat 1%nat) in *.
  set (J := J_sq m (cc 0)) in *.
  destruct w; unfold W_of, W_NH, W_MR, W_NHe.
  - apply (is_derive_ext (fun t => mu p / 2 * (Rpower (J_sq (metric_of Go (line G1 H1 t)) (cc t)) (- (1/3)) * I_1 (metric_of Go (line G1 H1 t)) (cc t) - 3) + bulk p / 4 * (J_sq (metric_of Go (line G1 H1 t)) (cc t) - 1 - ln (J_sq (metric_of Go (line G1 H1 t)) (cc t))))). { intro t. rewrite EI1, EJ. reflexivity. }
    evar_last. { exact (der_add _ _ _ _ (der_isoW (mu p) 3 _ _ _ _ dP dI1) (der_volW (bulk p) _ _ _ _ dJ dL)). }
    cbv beta. rewrite line0. fold m. fold J. unfold S_comp. cbv zeta. fold J. rewrite G33, <- GS, <- CS. field. lra.
  - apply (is_derive_ext (fun t => c1 p / 2 * (Rpower (J_sq (metric_of Go (line G1 H1 t)) (cc t)) (- (1/3)) * I_1 (metric_of Go (line G1 H1 t)) (cc t) - 3) + c2 p / 2 * (Rpower (J_sq (metric_of Go (line G1 H1 t)) (cc t)) (- (2/3)) * I_2 (metric_of Go (line G1 H1 t)) (cc t) - 3) + bulk p / 4 * (J_sq (metric_of Go (line G1 H1 t)) (cc t) - 1 - ln (J_sq (metric_of Go (line G1 H1 t)) (cc t))))). { intro t. rewrite EI1, EI2, EJ. reflexivity. }
    evar_last. { exact (der_add _ _ _ _ (der_add _ _ _ _ (der_isoW (c1 p) 3 _ _ _ _ dP dI1) (der_isoW (c2 p) 3 _ _ _ _ dQ dI2)) (der_volW (bulk p) _ _ _ _ dJ dL)). }
    cbv beta. rewrite line0. fold m. fold J. unfold S_comp. cbv zeta. fold J. rewrite G33, <- GS, <- CS, <- DS. field. lra.
  - apply (is_derive_ext (fun t => mu p / 2 * (I_1 (metric_of Go (line G1 H1 t)) (cc t) - 3 - ln (J_sq (metric_of Go (line G1 H1 t)) (cc t))) + lam p / 4 * (J_sq (metric_of Go (line G1 H1 t)) (cc t) - 1 - ln (J_sq (metric_of Go (line G1 H1 t)) (cc t))))). { intro t. rewrite EI1, EJ. reflexivity. }
    evar_last. { exact (der_add _ _ _ _ (der_nheW (mu p) _ _ _ _ dI1 dL) (der_volW (lam p) _ _ _ _ dJ dL)). }
    cbv beta. rewrite ?line0. fold m. fold J. unfold S_comp. cbv zeta. fold J. rewrite G33, <- GS, <- CS. field. lra.
Qed.

Lemma der_incW (c1 c2 : R) (J T : R -> R) (dJ dT : R) : J 0 <> 0 -> is_derive J 0 dJ -> is_derive T 0 dT ->
  is_derive (fun t => c1 / 2 * (T t + / J t - 3) + c2 / 2 * (/ J t * T t + J t - 3)) 0
   (c1 / 2 * (dT - dJ / (J 0 * J 0)) + c2 / 2 * (dT / J 0 - dJ / (J 0 * J 0) * T 0 + dJ)).
Proof.
  intros N A B. auto_derive; [repeat split; first [exact N | exact I | eexists; eassumption]|]. der_val A; der_val B. field. exact N.
Qed.
Definition c1_of (w : law) (p : par) := match w with NH => mu p | MR => c1 p | NHe => 0 end.
Definition c2_of (w : law) (p : par) := match w with NH => 0 | MR => c2 p | NHe => 0 end.
Lemma with33_idem C c d : with33 (with33 C c) d = with33 C d.
Proof. apply functional_extensionality; intro i; apply functional_extensionality; intro j. destruct i as [|[|[|i]]], j as [|[|[|j]]]; reflexivity. Qed.
Lemma J2_shell1 Go G : shell_G Go -> shell_G G -> det2 Go <> 0 -> J2 (inv3 Go) (with33 G 1) = J0 (metric_of Go G).
Proof.
  intros SO SG D. rewrite J2_shell by (try assumption; apply with33_shell, SG). unfold J_sq, at_C. rewrite with33_idem.
  cbn [metric_of J0 with33]. rewrite (det3_shell1 _ (with33_shell1 G (proj1 SG))), (det3_shell1 G SG). unfold det2, with33. ring.
Qed.
Lemma W_inc_code Go G a b : shell_G Go -> shell_G G -> det2 Go <> 0 ->
  W_inc a b (inv3 Go) G = let m := metric_of Go G in a / 2 * (traceCt m + / J0 m - 3) + b / 2 * (/ J0 m * traceCt m + J0 m - 3).
Proof.
  intros SO SG D. unfold W_inc, isochoric. rewrite J2_shell1 by assumption. cbv zeta.
  assert (SS : shell_shape (with33 G (/ J0 (metric_of Go G)))) by apply with33_shell, SG.
  rewrite inv1_shell, inv2nd_shell by assumption. unfold I_1, I_2, at_C. rewrite with33_idem. cbn [with33].
  assert (ET : traceCt (metric_of Go (with33 G 1)) = traceCt (metric_of Go G)) by reflexivity.
  assert (EJ : J0 (metric_of Go (with33 G 1)) = J0 (metric_of Go G)).
  { cbn [metric_of J0]. rewrite (det3_shell1 _ (with33_shell1 G (proj1 SG))), (det3_shell1 G SG). reflexivity. }
  rewrite ET, EJ. reflexivity.
Qed.
Lemma energy_inc Go G H w p : w <> NHe -> adm Go G -> in_plane H ->
  gradient_of (W_inc (c1_of w p) (c2_of w p) (inv3 Go)) (S_inc w p (metric_of Go G)) G H.
Proof.
  intros NW AD SH. pose proof AD as (SO & SG & DO & DG). assert (DO' : det2 Go <> 0) by lra. assert (DG' : det2 G <> 0) by lra.
  pose proof (d_J0 Go G H SO SG SH DO' DG') as dJ. pose proof (d_tr Go G H) as dT.
  pose proof (J0_nz Go G SO SG DO' DG') as NJ. pose proof (Gi_sym Go G SG) as YS. pose proof (Go_sym Go G SO) as OS.
  unfold gradient_of. rewrite dotdot_shell by apply SH. rewrite (proj2 SH).
  apply (is_derive_ext (fun t => let m := metric_of Go (line G H t) in c1_of w p / 2 * (traceCt m + / J0 m - 3) + c2_of w p / 2 * (/ J0 m * traceCt m + J0 m - 3))).
  { intro t. rewrite W_inc_code by (try assumption; apply shell_line1; assumption). cbv zeta. reflexivity. }
  evar_last. { refine (der_incW _ _ _ _ _ _ _ dJ dT). rewrite line0. exact NJ. }
  cbv beta. rewrite line0. set (m := metric_of Go G) in *. unfold sum2. cbv beta. rewrite (dir_sym H SH).
  destruct w; [| |congruence]; cbn [c1_of c2_of S_inc]; rewrite YS, OS; field; exact NJ.
Qed.

(* ---------- statements in the form used by the property theorems ---------- *)
Lemma adm_facts Go G : adm Go G -> J0 (metric_of Go G) <> 0 /\ Gori (metric_of Go G) 2%nat 2%nat = 1.
Proof. intro AD. split; [apply Rgt_not_eq, (J0_pos Go G AD)|apply (Go3_33 Go G AD)]. Qed.
Lemma gen_S_inc_adm w p Go G i j : w <> NHe -> adm Go G -> (i < 2)%nat -> (j < 2)%nat -> S_inc_gen w p (metric_of Go G) i j = S_inc w p (metric_of Go G) i j.
Proof. intros W AD. destruct (adm_facts Go G AD). apply gen_S_inc; assumption. Qed.
Lemma gen_C_inc_adm w p Go G i j k l : w <> NHe -> adm Go G -> (i < 2)%nat -> (j < 2)%nat -> (k < 2)%nat -> (l < 2)%nat ->
  C_inc_gen w p (metric_of Go G) i j k l = C_inc w p (metric_of Go G) i j k l.
Proof. intros W AD. destruct (adm_facts Go G AD). apply gen_C_inc; assumption. Qed.
Lemma gen_C_comp w p m c33 i j k l : C3D_gen w p m c33 i j k l = C3D w p m c33 i j k l /\ condense (C3D_gen w p m c33) i j k l = condense (C3D w p m c33) i j k l.
Proof. split; [apply gen_C3D|]. unfold condense. rewrite !gen_C3D. reflexivity. Qed.
Lemma stress_free_inc_gen w p Go i j : w <> NHe -> shell_G Go -> det2 Go <> 0 -> (i < 2)%nat -> (j < 2)%nat -> S_inc_gen w p (metric_of Go Go) i j = 0.
Proof.
  intros W SO D Hi Hj. rewrite gen_S_inc; try assumption; [apply stress_free_inc; assumption|rewrite ref_J0 by assumption; lra|].
  cbn [metric_of Gori]. apply inv3_shell_33; assumption.
Qed.
Lemma stress_free_compressible w p Go i j : shell_G Go -> det2 Go <> 0 -> shell_pair i j ->
  / J0 (metric_of Go Go) = 1 /\ S_comp w p (metric_of Go Go) 1 i j = 0 /\ S_comp_gen w p (metric_of Go Go) 1 i j = 0.
Proof. intros SO D P. rewrite gen_S_comp. split; [apply ref_c33; assumption|]. split; apply stress_free_comp; assumption. Qed.
Lemma nhe_root_adm p Go G : adm Go G -> 0 < mu p -> 0 <= lam p ->
  0 < nhe_c33 p (metric_of Go G) /\ S_comp NHe p (metric_of Go G) (nhe_c33 p (metric_of Go G)) 2%nat 2%nat = 0.
Proof.
  intros AD PM PL. pose proof (J0_pos Go G AD) as PJ. pose proof (Rmult_le_pos _ _ PL (Rlt_le _ _ PJ)).
  split; [unfold nhe_c33; apply Rdiv_lt_0_compat; lra|]. apply nhe_root; [apply (Go3_33 Go G AD)|lra|lra].
Qed.
Lemma sym_ext n C D : (forall i j k l, C i j k l = D i j k l) -> minor_major_symmetric n D -> minor_major_symmetric n C.
Proof. intros E S i j k l Hi Hj Hk Hl. rewrite !E. apply S; assumption. Qed.
Lemma all_symmetric w p Go G c33 : shell_G Go -> shell_G G -> let m := metric_of Go G in
  minor_major_symmetric 3 (C_inc w p m) /\ minor_major_symmetric 3 (C3D w p m c33) /\ minor_major_symmetric 3 (condense (C3D w p m c33)) /\
  minor_major_symmetric 3 (C3D_gen w p m c33) /\ minor_major_symmetric 3 (condense (C3D_gen w p m c33)).
Proof.
  intros SO SG m. pose proof (metric_of_sym Go G SO SG) as SM. fold m in SM. pose proof (C3D_sym w p m c33 SM) as S3.
  split; [apply C_inc_sym, SM|]. split; [exact S3|]. split; [apply condense_sym, S3|].
  split; [|apply condense_sym]; (eapply sym_ext; [intros; apply gen_C3D|exact S3]).
Qed.

(* ---------- concrete states ---------- *)
Definition exI : mat := fun i j => delta i j.
Definition exG : mat := fun i j => match i, j with 0%nat, 0%nat => 4 | 0%nat, 1%nat | 1%nat, 0%nat => 1 | 1%nat, 1%nat => 2 | 2%nat, 2%nat => 1 | _, _ => 0 end.
Definition exH : mat := fun i j => match i, j with 0%nat, 0%nat => 1 | 0%nat, 1%nat | 1%nat, 0%nat => 3 | 1%nat, 1%nat => -2 | _, _ => 0 end.
Definition exP : par := mkPar 2 0 1.
Lemma ex_adm : adm exI exG.
Proof. unfold adm, shell_G, shell_shape, det2, exI, exG, delta. cbn. repeat split; lra. Qed.
Lemma ex_in_plane : in_plane exH.
Proof. unfold in_plane, shell_shape, exH. repeat split. Qed.
Lemma ex_adm3 : adm3 exI (with33 exG 3) /\ shell_shape exH.
Proof. unfold adm3, shell_G, shell_shape, det2, exI, exG, exH, with33, delta. cbn. repeat split; lra. Qed.
Lemma ex_inc : S_inc NH exP (metric_of exI exG) 0%nat 0%nat = 47 / 49.
Proof. unfold S_inc, exP, mu, mu_of, metric_of, inv3, det3, exI, exG, delta. cbn. field. Qed.
Lemma ex_ref : shell_G exG /\ det2 exG <> 0.
Proof. unfold shell_G, shell_shape, det2, exG. cbn. repeat split; lra. Qed.
Lemma cauchy_refuted : exists Go G p c33, adm Go G /\ 0 < c33 /\ S_comp NHe p (metric_of Go G) c33 2%nat 2%nat = 0 /\
  let S := S_comp NHe p (metric_of Go G) c33 in
  cauchy_comp false S (metric_of Go G) c33 0%nat <> stress_out false S 0%nat / sqrt (det3 G / det3 Go * c33).
Proof.
  exists exI, exG, exP, 1. split; [exact ex_adm|]. split; [lra|].
  assert (EJ : J0 (metric_of exI exG) = 7) by (unfold metric_of, det3, exI, exG, delta; cbn; field).
  split; [unfold S_comp, J_sq, metric_of, inv3, det3, exP, mu, lam, mu_of, lambda_of, exI, exG, delta; cbn; field|].
  cbv zeta. rewrite cauchy_zero. unfold stress_out. change (det3 exG / det3 exI) with (J0 (metric_of exI exG)). rewrite EJ.
  assert (E : S_comp NHe exP (metric_of exI exG) 1 0%nat 0%nat = 5 / 7).
  { unfold S_comp, J_sq, metric_of, inv3, det3, exP, mu, lam, mu_of, lambda_of, exI, exG, delta; cbn; field. }
  rewrite E. apply Rlt_not_eq. apply Rdiv_lt_0_compat; [lra|]. apply sqrt_lt_R0. lra.
Qed.

(* ---------- the tangent at the undeformed state is the linear elastic one ---------- *)
Lemma ref_metric Go i j : Gori (metric_of Go Go) i j = inv3 Go i j /\ Gdefi (metric_of Go Go) i j = inv3 Go i j.
Proof. split; reflexivity. Qed.
Lemma ref_tangent_inc w p Go i j k l : w <> NHe -> pratio p <> -1 -> shell_G Go -> det2 Go <> 0 ->
  C_inc w p (metric_of Go Go) i j k l = let A := inv3 Go in mu p * (2 * A i j * A k l + A i k * A j l + A i l * A j k).
Proof.
  intros W NR SO D. unfold C_inc. rewrite ref_J0, ref_trace by assumption. unfold X4, dX4. cbn [metric_of Gori Gdefi].
  destruct w; [| |congruence]; cbv zeta; unfold c1, c2; field; lra.
Qed.
Lemma ref_cinv Go i j : shell_G Go -> det2 Go <> 0 -> (i < 3)%nat -> (j < 3)%nat -> cinvmat (metric_of Go Go) 1 i j = inv3 Go i j.
Proof.
  intros SO D Hi Hj. destruct (inv3_shell_0 Go 0 SO ltac:(lia)) as [a a']. destruct (inv3_shell_0 Go 1 SO ltac:(lia)) as [b b'].
  pose proof (inv3_shell_33 Go SO D) as e. idx3 i Hi; idx3 j Hj; cbn [cinvmat metric_of Gdefi]; rewrite ?a, ?a', ?b, ?b', ?e; try reflexivity. field.
Qed.
(* 3D tensor at the reference: lambda A_ij A_kl + mu (A_ik A_jl + A_il A_jk) with the 3D Lame constants *)
Lemma ref_tangent_3D w p Go i j k l : pnu p <> -1 -> 1 - 2 * pnu p <> 0 -> pratio p <> -1 -> shell_G Go -> det2 Go <> 0 ->
  shell_pair i j -> shell_pair k l ->
  C3D w p (metric_of Go Go) 1 i j k l = let A := inv3 Go in lam p * A i j * A k l + mu p * (A i k * A j l + A i l * A j k).
Proof.
  intros N1 N2 N3 SO D Pij Pkl.
  assert (B : (i < 3 /\ j < 3 /\ k < 3 /\ l < 3)%nat) by (clear -Pij Pkl; unfold shell_pair in *; lia). destruct B as (Bi & Bj & Bk & Bl).
  assert (S : symmetric 3 (inv3 Go)) by (apply (proj1 (metric_of_sym Go Go SO SO))).
  unfold C3D, J_sq, I_1, I_2, d2I_2, dI_2, dI_1, dX4. cbv zeta. rewrite Rmult_1_r, ref_J0, ref_trace, !Rpow1 by assumption. rewrite !ref_cinv by assumption. cbn [metric_of Gori].
  destruct (inv3_shell_0 Go 0 SO ltac:(lia)) as [a a']. destruct (inv3_shell_0 Go 1 SO ltac:(lia)) as [b b']. pose proof (inv3_shell_33 Go SO D) as e.
  unfold c1, c2, bulk, lam, mu, lambda_of, mu_of.
  assert (N4 : 1 + pnu p <> 0) by (intro Q; apply N1; lra). assert (N5 : 3 - 6 * pnu p <> 0) by (intro Q; apply N2; lra). assert (N6 : pratio p + 1 <> 0) by (intro Q; apply N3; lra).
  destruct w.
  - cbv zeta. field. repeat split; assumption.
  - cbv zeta. assert (EQ : idelta i 2 * idelta j 2 * (1 * inv3 Go i j + 1 * inv3 Go i j) + delta i 2 * delta j 2 * 2 = 2 * inv3 Go i j).
    { unfold idelta, delta. destruct Pij as [[Hi Hj]|[-> ->]]; [idx2 i Hi; idx2 j Hj; cbn [Nat.eqb]; ring|cbn [Nat.eqb]; rewrite e; ring]. }
    assert (EQ' : idelta k 2 * idelta l 2 * (1 * inv3 Go k l + 1 * inv3 Go k l) + delta k 2 * delta l 2 * 2 = 2 * inv3 Go k l).
    { unfold idelta, delta. destruct Pkl as [[Hi Hj]|[-> ->]]; [idx2 k Hi; idx2 l Hj; cbn [Nat.eqb]; ring|cbn [Nat.eqb]; rewrite e; ring]. }
    rewrite EQ, EQ'. unfold idelta, delta.
    destruct Pij as [[Hi Hj]|[-> ->]], Pkl as [[Hk Hl]|[-> ->]]; clear EQ EQ' Bi Bj Bk Bl.
    + idx2 i Hi; idx2 j Hj; idx2 k Hk; idx2 l Hl; cbn [Nat.eqb]; field; repeat split; assumption.
    + idx2 i Hi; idx2 j Hj; cbn [Nat.eqb]; rewrite ?a, ?a', ?b, ?b', ?e; field; repeat split; assumption.
    + idx2 k Hk; idx2 l Hl; cbn [Nat.eqb]; rewrite ?a, ?a', ?b, ?b', ?e; field; repeat split; assumption.
    + cbn [Nat.eqb]; rewrite e; field; repeat split; assumption.
  - cbv zeta. field. repeat split; assumption.
Qed.
Lemma ref_tangent_comp w p Go i j k l : pE p <> 0 -> pnu p <> -1 -> 1 - 2 * pnu p <> 0 -> 1 - pnu p <> 0 -> pratio p <> -1 -> shell_G Go -> det2 Go <> 0 ->
  (i < 2)%nat -> (j < 2)%nat -> (k < 2)%nat -> (l < 2)%nat ->
  condense (C3D w p (metric_of Go Go) 1) i j k l = Cijkl (pE p) (pnu p) (inv3 Go) i j k l.
Proof.
  intros N0 N1 N2 N3 N4 SO D Hi Hj Hk Hl. unfold condense.
  assert (P : shell_pair i j) by (left; split; assumption). assert (Q : shell_pair k l) by (left; split; assumption).
  assert (Z : shell_pair 2 2) by (right; split; reflexivity).
  rewrite !ref_tangent_3D by assumption. cbv zeta.
  assert (a : forall q, (q < 2)%nat -> inv3 Go q 2%nat = 0 /\ inv3 Go 2%nat q = 0) by (intros; apply inv3_shell_0; assumption).
  rewrite (inv3_shell_33 Go SO D), !(proj1 (a _ Hi)), !(proj1 (a _ Hj)), !(proj2 (a _ Hk)), !(proj2 (a _ Hl)).
  unfold Cijkl, Cconstant, lam, mu, lambda_of, mu_of. assert (N5 : 1 + pnu p <> 0) by (intro E; apply N1; lra).
  assert (N6 : pE p * pnu p * (2 * (1 + pnu p)) + 2 * pE p * ((1 + pnu p) * (1 - 2 * pnu p)) <> 0).
  { replace (pE p * pnu p * (2 * (1 + pnu p)) + 2 * pE p * ((1 + pnu p) * (1 - 2 * pnu p))) with (2 * pE p * (1 + pnu p) * (1 - pnu p)) by ring.
    repeat apply Rmult_integral_contrapositive_currified; try assumption; lra. }
  field. repeat split; try assumption.
  replace (pE p * pnu p + pE p * (1 - 2 * pnu p)) with (pE p * (1 - pnu p)) by ring. apply Rmult_integral_contrapositive_currified; assumption.
Qed.
