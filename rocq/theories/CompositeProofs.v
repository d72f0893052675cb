From Coq Require Import Reals Lra Lia List.
From Coquelicot Require Import Coquelicot.
From Verif Require Import Tensor MetricModel MetricSpec MetricProofs LinearSpec LinearProofs IntegrateSpec IntegrateProofs PrincipalSpec PrincipalProofs
  CompositeModel CompositeSpec.
Import ListNotations.
Open Scope R_scope.

(* closed form of the layer loop *)
Fixpoint wsum (out : mout) (top : R) (f : ply -> R) (l : list ply) : R :=
  match l with [] => 0 | p :: l' => weight out (thick p) (top - thick p / 2) * f p + wsum out (top - thick p) f l' end.

Lemma loop_wsum out zm i j : forall l tt C, layer_loop out zm tt l C i j = C i j + wsum out (zm - tt) (fun p => plyD p i j) l.
Proof.
  induction l as [|p l IH]; intros tt C; cbn [layer_loop wsum]; [ring|].
  rewrite IH. unfold madd, mscal. replace (zm - (tt + thick p)) with (zm - tt - thick p) by ring.
  replace (zm - (thick p / 2 + tt)) with (zm - tt - thick p / 2) by ring. ring.
Qed.
Lemma laminate_wsum out l i j : laminate out l i j = wsum out (t_tot l / 2) (fun p => plyD p i j) l.
Proof. unfold laminate. rewrite loop_wsum. unfold mzero. rewrite Rminus_0_r. ring. Qed.

(* ---- C16 ---- *)
Definition stack_of (l : list ply) (i j : nat) : list (R * R) := map (fun p => (thick p, plyD p i j)) l.
Lemma total_stack l i j : total (stack_of l i j) = t_tot l.
Proof. induction l as [|p l IH]; cbn; [reflexivity|]. unfold total, stack_of in IH. rewrite IH. reflexivity. Qed.

Definition mom_out (m : nat) : mout := match m with 0%nat => MA | 1%nat => MB | _ => MD end.
Lemma weight_moment m t top : (m <= 2)%nat -> (top ^ (m + 1) - (top - t) ^ (m + 1)) / (INR m + 1) = weight (mom_out m) t (top - t / 2).
Proof. intro H. destruct m as [|[|[|m]]]; [| | |lia]; cbn; field. Qed.

Lemma value_at_integral m i j : (m <= 2)%nat -> forall l top, (forall p, In p l -> 0 <= thick p) ->
  is_RInt (fun z => z ^ m * value_at (stack_of l i j) top z) (top - t_tot l) top (wsum (mom_out m) top (fun p => plyD p i j) l).
Proof.
  intros Hm. induction l as [|p l IH]; intros top Hp; cbn [stack_of map value_at t_tot wsum].
  - rewrite Rminus_0_r. apply (is_RInt_point (V:=R_NormedModule)).
  - assert (Ht : 0 <= thick p) by (apply Hp; left; reflexivity).
    assert (Hl : forall q, In q l -> 0 <= thick q) by (intros q Hq; apply Hp; right; assumption).
    assert (HT : 0 <= t_tot l) by (clear -Hl; induction l as [|q l IH]; cbn; [lra|]; pose proof (Hl q (or_introl eq_refl)); assert (0 <= t_tot l) by (apply IH; intros; apply Hl; right; assumption); lra).
    specialize (IH (top - thick p) Hl).
    rewrite (Rplus_comm (weight _ _ _ * _)).
    apply (is_RInt_Chasles (V:=R_NormedModule) _ _ (top - thick p)).
    + replace (top - (thick p + t_tot l)) with (top - thick p - t_tot l) by ring.
      eapply is_RInt_ext; [|exact IH]. intros z Hz. rewrite Rmin_left, Rmax_right in Hz by lra.
      cbv beta. destruct (Rle_dec (top - thick p) z); [lra|reflexivity].
    + apply (is_RInt_ext (fun z => plyD p i j * z ^ m)).
      * intros z Hz. rewrite Rmin_left, Rmax_right in Hz by lra. cbv beta. destruct (Rle_dec (top - thick p) z); [apply Rmult_comm|lra].
      * rewrite <- (weight_moment m (thick p) top Hm). rewrite Rmult_comm. apply RI_scal. apply is_RInt_pow.
Qed.

Lemma laminate_integral m l i j : (m <= 2)%nat -> (forall p, In p l -> 0 <= thick p) ->
  stack_moment (stack_of l i j) m (laminate (mom_out m) l i j).
Proof.
  intros Hm Hp. unfold stack_moment. rewrite total_stack, laminate_wsum.
  replace (- (t_tot l / 2)) with (t_tot l / 2 - t_tot l) by field. apply value_at_integral; assumption.
Qed.
Lemma laminate_CB l : laminate MC l = laminate MB l.
Proof. unfold laminate. generalize (t_tot l / 2) 0 mzero. induction l as [|p l IH]; intros; cbn; [reflexivity|apply IH]. Qed.

(* ---- C17 ---- *)
Definition sgn_out (out : mout) : R := match out with MB | MC => -1 | _ => 1 end.
Lemma t_tot_app l l' : t_tot (l ++ l') = t_tot l + t_tot l'.
Proof. induction l as [|p l IH]; cbn; [ring|]. rewrite IH. ring. Qed.
Lemma t_tot_rev l : t_tot (rev l) = t_tot l.
Proof. induction l as [|p l IH]; cbn; [reflexivity|]. rewrite t_tot_app, IH. cbn. ring. Qed.
Lemma wsum_app out f : forall l l' top, wsum out top f (l ++ l') = wsum out top f l + wsum out (top - t_tot l) f l'.
Proof.
  induction l as [|p l IH]; intros l' top; cbn [app wsum t_tot]; [rewrite Rminus_0_r; ring|].
  rewrite IH. replace (top - (thick p + t_tot l)) with (top - thick p - t_tot l) by ring. ring.
Qed.
Lemma weight_neg out t dz : weight out t (- dz) = sgn_out out * weight out t dz.
Proof. destruct out; cbn; field. Qed.
Lemma wsum_rev out f : forall l top, wsum out top f (rev l) = sgn_out out * wsum out (- (top - t_tot l)) f l.
Proof.
  induction l as [|p l IH]; intro top; cbn [rev wsum t_tot]; [ring|].
  rewrite wsum_app, IH, t_tot_rev. cbn [wsum].
  replace (- (top - (thick p + t_tot l)) - thick p) with (- (top - t_tot l)) by ring.
  replace (top - t_tot l - thick p / 2) with (- (- (top - (thick p + t_tot l)) - thick p / 2)) by field.
  rewrite weight_neg. ring.
Qed.
Lemma laminate_rev out l i j : laminate out (rev l) i j = sgn_out out * laminate out l i j.
Proof.
  rewrite !laminate_wsum, t_tot_rev, wsum_rev. replace (- (t_tot l / 2 - t_tot l)) with (t_tot l / 2) by field. reflexivity.
Qed.
Lemma symmetric_no_coupling l i j : rev l = l -> laminate MB l i j = 0 /\ laminate MC l i j = 0.
Proof.
  intro H. assert (laminate MB l i j = 0).
  { pose proof (laminate_rev MB l i j) as E. rewrite H in E. cbn in E. lra. }
  rewrite laminate_CB. split; assumption.
Qed.

(* ---- C18 ---- *)
Lemma cs1 phi : cos phi * cos phi + sin phi * sin phi = 1.
Proof. pose proof (sin2_cos2 phi) as H. unfold Rsqr in H. lra. Qed.

Lemma T_strain phi e : symmetric 2 e -> forall r, (r < 3)%nat -> mvec3 (transformationMatrix phi) (eng e) r = eng (turned phi e) r.
Proof.
  intros He r Hr. pose proof (He 1%nat 0%nat ltac:(lia) ltac:(lia)) as E.
  idx3 r Hr; unfold mvec3, eng, turned, sum2, sum3, transformationMatrix; rewrite ?E; ring.
Qed.
Lemma T_zero : eq3 (transformationMatrix 0) delta.
Proof. intros i j Hi Hj. idx3 i Hi; idx3 j Hj; cbv [transformationMatrix delta Nat.eqb]; rewrite ?cos_0, ?sin_0; ring. Qed.
Lemma T_plus a b : eq3 (transformationMatrix (a + b)) (mmul3 (transformationMatrix a) (transformationMatrix b)).
Proof.
  intros i j Hi Hj. idx3 i Hi; idx3 j Hj; unfold mmul3, sum3, transformationMatrix; rewrite ?cos_plus, ?sin_plus; ring.
Qed.
Lemma T_pi phi : eq3 (transformationMatrix (phi + PI)) (transformationMatrix phi).
Proof. intros i j Hi Hj. idx3 i Hi; idx3 j Hj; unfold transformationMatrix; rewrite ?neg_cos, ?neg_sin; ring. Qed.

Lemma rotatedG_ext G H phi psi : eq3 G H -> eq3 (transformationMatrix phi) (transformationMatrix psi) -> eq3 (rotatedG G phi) (rotatedG H psi).
Proof.
  intros E1 E2 i j Hi Hj. unfold rotatedG, mmul3, mtr, sum3. rewrite !E1, !E2 by lia. reflexivity.
Qed.
Lemma rotatedG_sym G phi : symmetric 3 G -> symmetric 3 (rotatedG G phi).
Proof.
  intros H i j Hi Hj. unfold rotatedG, mmul3, mtr, sum3.
  rewrite (H 1%nat 0%nat), (H 2%nat 0%nat), (H 2%nat 1%nat) by lia. ring.
Qed.
Lemma rotatedG_zero G : eq3 (rotatedG G 0) G.
Proof.
  intros i j Hi Hj. unfold rotatedG, mmul3, mtr, sum3. rewrite !T_zero by lia. idx3 i Hi; idx3 j Hj; cbv [delta Nat.eqb]; ring.
Qed.
Lemma rotatedG_plus G a b : eq3 (rotatedG G (a + b)) (rotatedG (rotatedG G a) b).
Proof.
  intros i j Hi Hj. unfold rotatedG. unfold mmul3, mtr, sum3. rewrite !(T_plus a b) by lia. unfold mmul3, sum3. ring.
Qed.
Lemma rotatedG_pi G phi : eq3 (rotatedG G (phi + PI)) (rotatedG G phi).
Proof. apply rotatedG_ext; [intros i j _ _; reflexivity|apply T_pi]. Qed.
Lemma rotatedG_energy G phi e : quad (rotatedG G phi) e = quad G (mvec3 (transformationMatrix phi) e).
Proof. unfold quad, bilin, rotatedG, mmul3, mtr, mvec3, sum3. ring. Qed.
Lemma rotatedG_energy_turned G phi e : symmetric 2 e -> quad (rotatedG G phi) (eng e) = quad G (eng (turned phi e)).
Proof.
  intro He. rewrite rotatedG_energy. unfold quad, bilin, sum3. rewrite !(T_strain phi e He) by lia. reflexivity.
Qed.
Lemma rotatedG_iso G phi : isotropic3 G -> eq3 (rotatedG G phi) G.
Proof.
  intros (H1 & H2 & H3 & H4 & H5 & H6 & H7) i j Hi Hj.
  pose proof (cs1 phi) as P. set (c := cos phi) in *. set (s := sin phi) in *.
  assert (Q : c * c = 1 - s * s) by lra.
  idx3 i Hi; idx3 j Hj; unfold rotatedG, mmul3, mtr, sum3, transformationMatrix; fold c s; rewrite ?H4, ?H5, ?H6, ?H7, ?H3, <- ?H2, <- ?H1.
  - transitivity (G 0%nat 0%nat * (c * c + s * s) ^ 2); [field|rewrite P; ring].
  - transitivity (G 0%nat 1%nat * (c * c + s * s) ^ 2); [field|rewrite P; ring].
  - field.
  - transitivity (G 0%nat 1%nat * (c * c + s * s) ^ 2); [field|rewrite P; ring].
  - transitivity (G 0%nat 0%nat * (c * c + s * s) ^ 2); [field|rewrite P; ring].
  - field.
  - field.
  - field.
  - transitivity ((G 0%nat 0%nat - G 0%nat 1%nat) / 2 * (c * c + s * s) ^ 2); [field|rewrite P; field].
Qed.
Lemma rotatedG_invariant G phi : let Q := rotatedG G phi in
  Q 0%nat 0%nat + Q 0%nat 1%nat + Q 1%nat 0%nat + Q 1%nat 1%nat = G 0%nat 0%nat + G 0%nat 1%nat + G 1%nat 0%nat + G 1%nat 1%nat.
Proof.
  cbv zeta. pose proof (cs1 phi) as P. set (c := cos phi) in *. set (s := sin phi) in *.
  unfold rotatedG, mmul3, mtr, sum3, transformationMatrix; fold c s.
  transitivity ((G 0%nat 0%nat + G 0%nat 1%nat + G 1%nat 0%nat + G 1%nat 1%nat) * (c * c + s * s) ^ 2); [ring|rewrite P; ring].
Qed.
Lemma rotatedG_invariant2 G phi : let Q := rotatedG G phi in
  4 * Q 2%nat 2%nat - Q 0%nat 1%nat - Q 1%nat 0%nat + Q 0%nat 0%nat + Q 1%nat 1%nat - (4 * G 2%nat 2%nat - G 0%nat 1%nat - G 1%nat 0%nat + G 0%nat 0%nat + G 1%nat 1%nat) = 0.
Proof.
  cbv zeta. pose proof (cs1 phi) as P. set (c := cos phi) in *. set (s := sin phi) in *.
  unfold rotatedG, mmul3, mtr, sum3, transformationMatrix; fold c s.
  set (K := 4 * G 2%nat 2%nat - G 0%nat 1%nat - G 1%nat 0%nat + G 0%nat 0%nat + G 1%nat 1%nat).
  transitivity (K * (c * c + s * s) ^ 2 - K); [unfold K; ring|rewrite P; ring].
Qed.

Lemma T_inverse phi e r : (r < 3)%nat -> mvec3 (transformationMatrix (- phi)) (mvec3 (transformationMatrix phi) e) r = e r.
Proof.
  intro Hr. transitivity (mvec3 (transformationMatrix (- phi + phi)) e r).
  - unfold mvec3 at 3. unfold sum3. rewrite !(T_plus (- phi) phi) by lia. unfold mvec3, mmul3, sum3. ring.
  - replace (- phi + phi) with 0 by ring. unfold mvec3, sum3. rewrite !T_zero by lia. idx3 r Hr; cbv [delta Nat.eqb]; ring.
Qed.
Lemma rotatedG_posdef G phi : posdef3 G -> posdef3 (rotatedG G phi).
Proof.
  intros H e (r & Hr & Ne). rewrite rotatedG_energy. apply H.
  destruct (Req_dec (mvec3 (transformationMatrix phi) e 0%nat) 0) as [z0|]; [|exists 0%nat; split; [lia|assumption]].
  destruct (Req_dec (mvec3 (transformationMatrix phi) e 1%nat) 0) as [z1|]; [|exists 1%nat; split; [lia|assumption]].
  destruct (Req_dec (mvec3 (transformationMatrix phi) e 2%nat) 0) as [z2|]; [|exists 2%nat; split; [lia|assumption]].
  exfalso. apply Ne. rewrite <- (T_inverse phi e r Hr). unfold mvec3 at 1. unfold sum3. rewrite z0, z1, z2. ring.
Qed.

(* ---- positive definite ABD ---- *)
Definition abd_energy (l : list ply) (eps kap : vec) : R :=
  quad (laminate MA l) eps + bilin (laminate MB l) eps kap + bilin (laminate MC l) kap eps + quad (laminate MD l) kap.
Lemma bilin_wsum out l x y : bilin (laminate out l) x y = wsum out (t_tot l / 2) (fun p => bilin (plyD p) x y) l.
Proof.
  unfold bilin, sum3. rewrite !laminate_wsum. generalize (t_tot l / 2).
  induction l as [|p l IH]; intro top; cbn [wsum]; [ring|].
  rewrite <- IH. ring.
Qed.
Fixpoint esum (top : R) (eps kap : vec) (l : list ply) : R :=
  match l with [] => 0 | p :: l' =>
   thick p * quad (plyD p) (fun r => eps r + (top - thick p / 2) * kap r) + thick p * thick p * thick p / 12 * quad (plyD p) kap + esum (top - thick p) eps kap l' end.
Lemma abd_esum l eps kap : abd_energy l eps kap = esum (t_tot l / 2) eps kap l.
Proof.
  unfold abd_energy, quad. rewrite laminate_CB, !bilin_wsum. generalize (t_tot l / 2).
  induction l as [|p l IH]; intro top; cbn [wsum esum]; [ring|].
  rewrite <- IH. cbn [weight]. unfold bilin, quad, bilin, sum3. field.
Qed.
Lemma posdef_nonneg Q e : posdef3 Q -> 0 <= quad Q e.
Proof.
  intro H. 
  destruct (Req_dec (e 0%nat) 0) as [z0|]; [|left; apply H; exists 0%nat; split; [lia|assumption]].
  destruct (Req_dec (e 1%nat) 0) as [z1|]; [|left; apply H; exists 1%nat; split; [lia|assumption]].
  destruct (Req_dec (e 2%nat) 0) as [z2|]; [|left; apply H; exists 2%nat; split; [lia|assumption]].
  right. unfold quad, bilin, sum3. rewrite z0, z1, z2. ring.
Qed.
Lemma cube_pos t : 0 < t -> 0 < t * t * t / 12.
Proof. intro H. apply Rdiv_lt_0_compat; [|lra]. apply Rmult_lt_0_compat; [apply Rmult_lt_0_compat|]; assumption. Qed.
Lemma esum_nonneg eps kap : forall l top, (forall p, In p l -> 0 < thick p /\ posdef3 (plyD p)) -> 0 <= esum top eps kap l.
Proof.
  induction l as [|p l IH]; intros top H; cbn [esum]; [lra|].
  destruct (H p (or_introl eq_refl)) as (Ht & Hq).
  assert (0 <= esum (top - thick p) eps kap l) by (apply IH; intros q Hin; apply H; right; assumption).
  assert (0 <= thick p * quad (plyD p) (fun r => eps r + (top - thick p / 2) * kap r)) by (apply Rmult_le_pos; [lra|apply posdef_nonneg; assumption]).
  assert (0 <= thick p * thick p * thick p / 12 * quad (plyD p) kap).
  { apply Rmult_le_pos; [left; apply cube_pos; assumption|apply posdef_nonneg; assumption]. }
  lra.
Qed.
Lemma abd_posdef l eps kap : l <> [] -> (forall p, In p l -> 0 < thick p /\ posdef3 (Gply p)) ->
  (exists r, (r < 3)%nat /\ (eps r <> 0 \/ kap r <> 0)) -> 0 < abd_energy l eps kap.
Proof.
  intros Hl Hp (r & Hr & Hne). rewrite abd_esum.
  assert (HD : forall p, In p l -> 0 < thick p /\ posdef3 (plyD p)).
  { intros p Hi. destruct (Hp p Hi). split; [assumption|apply rotatedG_posdef; assumption]. }
  destruct l as [|p l]; [congruence|]. cbn [esum].
  destruct (HD p (or_introl eq_refl)) as (Ht & Hq).
  set (top := t_tot (p :: l) / 2).
  pose proof (esum_nonneg eps kap l (top - thick p) (fun q Hi => HD q (or_intror Hi))) as H3.
  pose proof (posdef_nonneg (plyD p) (fun r => eps r + (top - thick p / 2) * kap r) Hq) as H1.
  pose proof (posdef_nonneg (plyD p) kap Hq) as H2.
  pose proof (cube_pos _ Ht) as C.
  assert (M1 : 0 <= thick p * quad (plyD p) (fun r => eps r + (top - thick p / 2) * kap r)) by (apply Rmult_le_pos; lra).
  assert (M2 : 0 <= thick p * thick p * thick p / 12 * quad (plyD p) kap) by (apply Rmult_le_pos; lra).
  assert (K : (exists a, (a < 3)%nat /\ kap a <> 0) \/ (forall a, (a < 3)%nat -> kap a = 0)).
  { destruct (Req_dec (kap 0%nat) 0) as [z0|]; [|left; exists 0%nat; split; [lia|assumption]].
    destruct (Req_dec (kap 1%nat) 0) as [z1|]; [|left; exists 1%nat; split; [lia|assumption]].
    destruct (Req_dec (kap 2%nat) 0) as [z2|]; [|left; exists 2%nat; split; [lia|assumption]].
    right. intros a Ha. idx3 a Ha; assumption. }
  destruct K as [K|K].
  - pose proof (Hq kap K) as P. pose proof (Rmult_lt_0_compat _ _ C P). lra.
  - assert (P : 0 < quad (plyD p) (fun r => eps r + (top - thick p / 2) * kap r)).
    { apply Hq. exists r. split; [assumption|]. rewrite K by assumption. rewrite K in Hne by assumption. destruct Hne as [Hne|Hne]; [|congruence]. lra. }
    pose proof (Rmult_lt_0_compat _ _ Ht P). lra.
Qed.

(* ---- C20 ---- *)
Lemma composite_matrix_sym Exx Eyy Gxy nuxy nuyx : nuyx * Exx = nuxy * Eyy -> symmetric 3 (gsCompositeMatrix Exx Eyy Gxy nuxy nuyx).
Proof. intros H i j Hi Hj. idx3 i Hi; idx3 j Hj; cbn; try reflexivity; rewrite H; reflexivity. Qed.
Lemma composite_matrix_inverse Exx Eyy Gxy nuxy nuyx : Exx <> 0 -> Eyy <> 0 -> Gxy <> 0 -> 1 - nuxy * nuyx <> 0 ->
  eq3 (mmul3 (gsCompositeMatrix Exx Eyy Gxy nuxy nuyx) (compliance Exx Eyy Gxy nuxy nuyx)) delta.
Proof.
  intros H1 H2 H3 H4 i j Hi Hj. idx3 i Hi; idx3 j Hj; unfold mmul3, sum3, gsCompositeMatrix, compliance, delta; cbn [Nat.eqb]; field; repeat split; assumption.
Qed.
Lemma composite_matrix_posdef Exx Eyy Gxy nuxy nuyx : 0 < Exx -> 0 < Eyy -> 0 < Gxy -> nuxy * nuyx < 1 -> nuyx * Exx = nuxy * Eyy ->
  posdef3 (gsCompositeMatrix Exx Eyy Gxy nuxy nuyx).
Proof.
  intros H1 H2 H3 H4 Hs e (r & Hr & Hne).
  set (d := 1 - nuxy * nuyx). assert (Hd : 0 < d) by (unfold d; lra).
  assert (E : quad (gsCompositeMatrix Exx Eyy Gxy nuxy nuyx) e =
     (Exx * (e 0%nat + nuyx * e 1%nat) ^ 2 + (Eyy - nuyx * nuyx * Exx) * (e 1%nat) ^ 2) / d + Gxy * (e 2%nat) ^ 2).
  { unfold quad, bilin, sum3, gsCompositeMatrix. fold d. rewrite <- Hs. field. lra. }
  rewrite E. clear E.
  assert (Y : 0 < Eyy - nuyx * nuyx * Exx).
  { replace (nuyx * nuyx * Exx) with (nuxy * nuyx * Eyy) by (rewrite (Rmult_assoc nuyx nuyx), Hs; ring).
    replace (Eyy - nuxy * nuyx * Eyy) with (d * Eyy) by (unfold d; ring). apply Rmult_lt_0_compat; assumption. }
  assert (S : forall x, 0 <= x ^ 2) by (intro x; apply pow2_ge_0).
  assert (T1 : 0 <= Exx * (e 0%nat + nuyx * e 1%nat) ^ 2) by (apply Rmult_le_pos; [lra|apply S]).
  assert (T2 : 0 <= (Eyy - nuyx * nuyx * Exx) * (e 1%nat) ^ 2) by (apply Rmult_le_pos; [lra|apply S]).
  assert (T3 : 0 <= Gxy * (e 2%nat) ^ 2) by (apply Rmult_le_pos; [lra|apply S]).
  assert (T12 : 0 <= (Exx * (e 0%nat + nuyx * e 1%nat) ^ 2 + (Eyy - nuyx * nuyx * Exx) * (e 1%nat) ^ 2) / d) by (apply Rdiv_le_0_compat; lra).
  destruct (Req_dec (e 2%nat) 0) as [z2|n2].
  2:{ pose proof (Rmult_lt_0_compat _ _ H3 (sq_pos _ n2)). lra. }
  destruct (Req_dec (e 1%nat) 0) as [z1|n1].
  2:{ pose proof (Rmult_lt_0_compat _ _ Y (sq_pos _ n1)) as P.
      assert (0 < (Exx * (e 0%nat + nuyx * e 1%nat) ^ 2 + (Eyy - nuyx * nuyx * Exx) * (e 1%nat) ^ 2) / d) by (apply Rdiv_lt_0_compat; lra). lra. }
  destruct (Req_dec (e 0%nat) 0) as [z0|n0]; [exfalso; apply Hne; idx3 r Hr; assumption|].
  assert (n01 : e 0%nat + nuyx * e 1%nat <> 0) by (rewrite z1; lra).
  pose proof (Rmult_lt_0_compat _ _ H1 (sq_pos _ n01)) as P.
  assert (0 < (Exx * (e 0%nat + nuyx * e 1%nat) ^ 2 + (Eyy - nuyx * nuyx * Exx) * (e 1%nat) ^ 2) / d) by (apply Rdiv_lt_0_compat; lra). lra.
Qed.

(* ---- density ---- *)
Lemma density_total l rho : length l = length rho -> density_into l (Some rho) = Ok (fold_right Rplus 0 (map (fun pr => thick (fst pr) * snd pr) (combine l rho))).
Proof.
  intro H. cbn. f_equal. revert rho H. induction l as [|p l IH]; intros [|r rho] H; cbn in *; try reflexivity; try discriminate.
  rewrite IH by lia. reflexivity.
Qed.

(* ---- shell coordinates ---- *)
Lemma det3_Gcov0 g : regular g -> det3 (Gcov g 0) <> 0.
Proof.
  intro H. rewrite (det_Gcov_curvature g 0 H). pose proof (det2_Acov_pos g H).
  replace ((1 - 0 * (mixedB g 0%nat 0%nat + mixedB g 1%nat 1%nat) + 0 * 0 * det2 (mixedB g)) ^ 2) with 1 by ring. lra.
Qed.
Lemma gcov0 g i a : (i < 2)%nat -> gcov g 0 i a = tang g i a.
Proof. intro H. idx2 i H; cbn; ring. Qed.
Lemma Gcov0 g i j : (i < 2)%nat -> (j < 2)%nat -> Gcov g 0 i j = Acov g i j.
Proof. intros Hi Hj. idx2 i Hi; idx2 j Hj; cbn; ring. Qed.

Lemma dot3_ext u u' v v' : (forall a, (a < 3)%nat -> u a = u' a) -> (forall a, (a < 3)%nat -> v a = v' a) -> dot3 u v = dot3 u' v'.
Proof. intros H1 H2. unfold dot3, sum3. rewrite !H1, !H2 by lia. reflexivity. Qed.
Lemma dot3_scal k u v : dot3 (fun a => k * u a) v = k * dot3 u v.
Proof. unfold dot3, sum3. ring. Qed.

Section Ortho.
  Variable g : geo.
  Hypothesis Hg : regular g.
  Hypothesis Ho : Acov g 0%nat 1%nat = 0.
  Let A := Acov g 0%nat 0%nat.
  Let B := Acov g 1%nat 1%nat.
  Lemma AB_pos : 0 < A /\ 0 < B.
  Proof.
    pose proof (det2_Acov_pos g Hg) as D. unfold det2 in D. fold A B in D. rewrite Ho in D.
    assert (0 <= A) by apply dot3_self_nonneg. assert (0 <= B) by apply dot3_self_nonneg. split; nra.
  Qed.
  Lemma ortho_gcon0 a : gcon g 0 0 a = / A * tang g 0%nat a.
  Proof.
    destruct AB_pos. unfold gcon, Gcon, inv3, det3. unfold Gcov at 1 2 3 4 5 6 7 8 9.
    assert (S : Acov g 1%nat 0%nat = 0) by (rewrite <- Ho; unfold Acov; apply dot3_comm).
    cbn [Gcov]. rewrite !S, !Ho. fold A B. rewrite !gcov0 by lia. field. split; lra.
  Qed.
  Lemma ortho_gcon1 a : gcon g 0 1 a = / B * tang g 1%nat a.
  Proof.
    destruct AB_pos. unfold gcon, Gcon, inv3, det3.
    assert (S : Acov g 1%nat 0%nat = 0) by (rewrite <- Ho; unfold Acov; apply dot3_comm).
    cbn [Gcov]. rewrite !S, !Ho. fold A B. rewrite !gcov0 by lia. field. split; lra.
  Qed.
  Lemma sqrtA_pos : 0 < sqrt A. Proof. apply sqrt_lt_R0. apply AB_pos. Qed.
  Lemma sqrtB_pos : 0 < sqrt B. Proof. apply sqrt_lt_R0. apply AB_pos. Qed.
  Lemma ortho_e1 a : e1_of g a = / sqrt A * tang g 0%nat a.
  Proof.
    destruct AB_pos as [PA PB].
    assert (D : dot3 (gcov g 0 0) (gcov g 0 0) = A).
    { unfold A, Acov. apply dot3_ext; intros; apply gcov0; lia. }
    unfold e1_of, normalize, norm3. rewrite D. destruct (Rlt_dec 0 A); [|lra]. rewrite gcov0 by lia. unfold Rdiv. ring.
  Qed.
  Lemma ortho_e2 a : e2_of g a = / sqrt B * tang g 1%nat a.
  Proof.
    destruct AB_pos as [PA PB]. pose proof sqrtB_pos as PS.
    assert (D : dot3 (gcon g 0 1) (gcon g 0 1) = / B).
    { rewrite (dot3_ext _ (fun a => / B * tang g 1%nat a) _ (fun a => / B * tang g 1%nat a)) by (intros; apply ortho_gcon1).
      rewrite dot3_scal, dot3_comm, dot3_scal. fold (Acov g 1%nat 1%nat). fold B. field. lra. }
    unfold e2_of, normalize, norm3. rewrite D. destruct (Rlt_dec 0 (/ B)) as [h|h]; [|exfalso; apply h, Rinv_0_lt_compat; assumption].
    rewrite ortho_gcon1, sqrt_inv. set (s := sqrt B) in *. assert (E : B = s * s) by (symmetry; apply sqrt_sqrt; lra).
    rewrite E. field. lra.
  Qed.
  Definition kfac (r : nat) : R := match r with 0%nat => / A | 1%nat => / B | _ => / (sqrt A * sqrt B) end.
  Lemma ortho_dots :
    (dot3 (e1_of g) (gcov g 0 0) = sqrt A /\ dot3 (e1_of g) (gcov g 0 1) = 0 /\ dot3 (e2_of g) (gcov g 0 0) = 0 /\ dot3 (e2_of g) (gcov g 0 1) = sqrt B) /\
    (dot3 (e1_of g) (gcon g 0 0) = / sqrt A /\ dot3 (e1_of g) (gcon g 0 1) = 0 /\ dot3 (e2_of g) (gcon g 0 0) = 0 /\ dot3 (e2_of g) (gcon g 0 1) = / sqrt B).
  Proof.
    destruct AB_pos as [PA PB]. pose proof sqrtA_pos as SA. pose proof sqrtB_pos as SB.
    assert (EA : A = sqrt A * sqrt A) by (symmetry; apply sqrt_sqrt; lra).
    assert (EB : B = sqrt B * sqrt B) by (symmetry; apply sqrt_sqrt; lra).
    assert (S : dot3 (tang g 1) (tang g 0) = 0) by (rewrite dot3_comm; exact Ho).
    assert (X1 : forall v, dot3 (e1_of g) v = / sqrt A * dot3 (tang g 0%nat) v).
    { intro v. rewrite <- dot3_scal. apply dot3_ext; [intros; apply ortho_e1|reflexivity]. }
    assert (X2 : forall v, dot3 (e2_of g) v = / sqrt B * dot3 (tang g 1%nat) v).
    { intro v. rewrite <- dot3_scal. apply dot3_ext; [intros; apply ortho_e2|reflexivity]. }
    assert (G0 : forall u, dot3 u (gcov g 0 0) = dot3 u (tang g 0)) by (intro u; apply dot3_ext; [reflexivity|intros; apply gcov0; lia]).
    assert (G1 : forall u, dot3 u (gcov g 0 1) = dot3 u (tang g 1)) by (intro u; apply dot3_ext; [reflexivity|intros; apply gcov0; lia]).
    assert (C0 : forall u, dot3 u (gcon g 0 0) = / A * dot3 u (tang g 0)).
    { intro u. rewrite (dot3_comm u (tang g 0)), <- dot3_scal, dot3_comm. apply dot3_ext; [intros; apply ortho_gcon0|reflexivity]. }
    assert (C1 : forall u, dot3 u (gcon g 0 1) = / B * dot3 u (tang g 1)).
    { intro u. rewrite (dot3_comm u (tang g 1)), <- dot3_scal, dot3_comm. apply dot3_ext; [intros; apply ortho_gcon1|reflexivity]. }
    rewrite !X1, !X2, !G0, !G1, !C0, !C1.
    change (dot3 (tang g 0) (tang g 0)) with A. change (dot3 (tang g 1) (tang g 1)) with B.
    change (dot3 (tang g 0) (tang g 1)) with (Acov g 0%nat 1%nat). rewrite Ho, S.
    set (a := sqrt A) in *. set (b := sqrt B) in *. rewrite EA, EB. repeat split; field; lra.
  Qed.
  Lemma ortho_matrix out l r s : (r < 3)%nat -> (s < 3)%nat -> eval3D_matrix out l g r s = kfac r * laminate out l r s * kfac s.
  Proof.
    intros Hr Hs. destruct AB_pos as [PA PB]. pose proof sqrtA_pos as SA. pose proof sqrtB_pos as SB.
    destruct ortho_dots as ((D1 & D2 & D3 & D4) & (D5 & D6 & D7 & D8)).
    assert (EA : A = sqrt A * sqrt A) by (symmetry; apply sqrt_sqrt; lra).
    assert (EB : B = sqrt B * sqrt B) by (symmetry; apply sqrt_sqrt; lra).
    assert (M : eq_on 3 (cart2cov_pre (gcov g 0 0) (gcov g 0 1) (e1_of g) (e2_of g))
       (fun i j => match i, j with 0%nat, 0%nat => A | 1%nat, 1%nat => B | 2%nat, 2%nat => sqrt A * sqrt B | _, _ => 0 end)).
    { intros i j Hi Hj. idx3 i Hi; idx3 j Hj; cbn [cart2cov_pre];
      rewrite ?(dot3_comm (gcov g 0 0)), ?(dot3_comm (gcov g 0 1)), ?D1, ?D2, ?D3, ?D4; try (symmetry; assumption); ring. }
    assert (N : forall i j, (i < 3)%nat -> (j < 3)%nat -> con2cart (gcon g 0 0) (gcon g 0 1) (e1_of g) (e2_of g) i j =
       match i, j with 0%nat, 0%nat => / A | 1%nat, 1%nat => / B | 2%nat, 2%nat => / (sqrt A * sqrt B) | _, _ => 0 end).
    { intros i j Hi Hj. unfold con2cart. idx3 i Hi; idx3 j Hj; cbn [cart2cov_pre];
      rewrite ?(dot3_comm (gcon g 0 0)), ?(dot3_comm (gcon g 0 1)), ?D5, ?D6, ?D7, ?D8; try ring.
      - rewrite EA at 3. rewrite Rinv_mult. reflexivity.
      - rewrite EB at 3. rewrite Rinv_mult. reflexivity.
      - rewrite Rinv_mult. ring. }
    unfold eval3D_matrix, cart2cov. unfold mmul3 at 1 2. unfold sum3. rewrite !N by lia.
    rewrite !(inv3_ext _ _ M).
    idx3 r Hr; idx3 s Hs; cbv [inv3 det3 kfac]; field; repeat split; lra.
  Qed.
  (* the shell-coordinate matrix has the energy of the laminate under the physical strain *)
  Lemma ortho_energy out l E : symmetric 2 E ->
    quad (eval3D_matrix out l g) (eng E) =
    quad (laminate out l) (eng (tensor_on E (gcon g 0) (fun i => match i with 0%nat => e1_of g | _ => e2_of g end))).
  Proof.
    intro HE. destruct AB_pos as [PA PB]. pose proof sqrtA_pos as SA. pose proof sqrtB_pos as SB.
    destruct ortho_dots as (_ & (D5 & D6 & D7 & D8)).
    assert (EA : A = sqrt A * sqrt A) by (symmetry; apply sqrt_sqrt; lra).
    assert (EB : B = sqrt B * sqrt B) by (symmetry; apply sqrt_sqrt; lra).
    assert (KA : / A = / sqrt A * / sqrt A) by (rewrite <- Rinv_mult, <- EA; reflexivity).
    assert (KB : / B = / sqrt B * / sqrt B) by (rewrite <- Rinv_mult, <- EB; reflexivity).
    assert (W : forall r, (r < 3)%nat -> eng (tensor_on E (gcon g 0) (fun i => match i with 0%nat => e1_of g | _ => e2_of g end)) r = kfac r * eng E r).
    { intros r Hr. idx3 r Hr; unfold eng, tensor_on, sum2, kfac;
      rewrite ?(dot3_comm (gcon g 0 0)), ?(dot3_comm (gcon g 0 1)), ?D5, ?D6, ?D7, ?D8.
      - rewrite KA. ring.
      - rewrite KB. ring.
      - rewrite Rinv_mult. rewrite (HE 1%nat 0%nat) by lia. ring. }
    unfold quad, bilin, sum3. rewrite !W, !ortho_matrix by lia. ring.
  Qed.
End Ortho.

Lemma flat_ortho_matrix out l r s : (r < 3)%nat -> (s < 3)%nat -> eval3D_matrix out l flat r s = laminate out l r s.
Proof.
  intros Hr Hs. assert (O : Acov flat 0%nat 1%nat = 0) by (cbv; ring).
  rewrite (ortho_matrix flat flat_regular O) by assumption.
  assert (A1 : Acov flat 0%nat 0%nat = 1) by (cbv; ring). assert (B1 : Acov flat 1%nat 1%nat = 1) by (cbv; ring).
  unfold kfac. rewrite A1, B1, sqrt_1. idx3 r Hr; idx3 s Hs; field.
Qed.

(* resultants: exact error, symmetric lay-ups *)
Lemma mmul3_zero_mid M N L i j : (i < 3)%nat -> (j < 3)%nat -> (forall a b, N a b = 0) -> mmul3 (mmul3 M N) L i j = 0.
Proof. intros _ _ H. unfold mmul3, sum3. rewrite !H. ring. Qed.
Lemma resultants_symmetric l go gd r : rev l = l -> (r < 3)%nat ->
  exists N M, eval3D_vector VN l go gd = Ok N /\ eval3D_vector VM l go gd = Ok M /\
   N r = mvec3 (eval3D_matrix MA l go) (eng (membrane_strain go gd)) r + mvec3 (eval3D_matrix MB l go) (eng (fun i j => Bcov go i j - Bcov gd i j)) r /\
   M r = mvec3 (eval3D_matrix MC l go) (eng (membrane_strain go gd)) r + mvec3 (eval3D_matrix MD l go) (eng (fun i j => Bcov go i j - Bcov gd i j)) r.
Proof.
  intros Hl Hr. eexists. eexists. split; [reflexivity|]. split; [reflexivity|].
  assert (Z : forall o, o = MB \/ o = MC -> forall v, mvec3 (eval3D_matrix o l go) v r = 0).
  { intros o Ho v. unfold mvec3, sum3, eval3D_matrix. rewrite !mmul3_zero_mid; try lia; [ring|..];
    intros a b; destruct Ho as [-> | ->]; apply (symmetric_no_coupling l a b Hl). }
  rewrite (Z MB (or_introl eq_refl)), (Z MC (or_intror eq_refl)).
  assert (V1 : forall a, (a < 3)%nat -> voigtE (fun i j => / 2 * (Acov gd i j - Acov go i j)) a = eng (membrane_strain go gd) a).
  { intros a Ha. assert (S : forall g, Acov g 1%nat 0%nat = Acov g 0%nat 1%nat) by (intro g; apply dot3_comm).
    idx3 a Ha; unfold voigtE, eng, membrane_strain, form1; rewrite ?S; unfold Acov; field. }
  assert (V2 : forall a, (a < 3)%nat -> voigtE (fun i j => Bcov go i j - Bcov gd i j) a = eng (fun i j => Bcov go i j - Bcov gd i j) a).
  { intros a Ha. idx3 a Ha; unfold voigtE, eng; cbn [Bcov]; ring. }
  unfold mvec3, sum3. rewrite !V1, !V2 by lia. split; ring.
Qed.

Lemma resultants_omit l go gd : 
  exists N M, eval3D_vector VN l go gd = Ok N /\ eval3D_vector VM l go gd = Ok M /\ forall r, (r < 3)%nat ->
   N r = mvec3 (eval3D_matrix MA l go) (eng (membrane_strain go gd)) r /\
   M r = mvec3 (eval3D_matrix MD l go) (eng (fun i j => Bcov go i j - Bcov gd i j)) r.
Proof.
  eexists. eexists. split; [reflexivity|]. split; [reflexivity|]. intros r Hr.
  assert (V1 : forall a, (a < 3)%nat -> voigtE (fun i j => / 2 * (Acov gd i j - Acov go i j)) a = eng (membrane_strain go gd) a).
  { intros a Ha. assert (S : forall g, Acov g 1%nat 0%nat = Acov g 0%nat 1%nat) by (intro g; apply dot3_comm).
    idx3 a Ha; unfold voigtE, eng, membrane_strain, form1; rewrite ?S; unfold Acov; field. }
  assert (V2 : forall a, (a < 3)%nat -> voigtE (fun i j => Bcov go i j - Bcov gd i j) a = eng (fun i j => Bcov go i j - Bcov gd i j) a).
  { intros a Ha. idx3 a Ha; unfold voigtE, eng; cbn [Bcov]; ring. }
  unfold mvec3, sum3. rewrite !V1, !V2 by lia. split; ring.
Qed.

Definition ex_bent : geo := mkGeo (fun i c => delta i c) (fun k c => match k, c with 0%nat, 2%nat => 1 | _, _ => 0 end).
Lemma bent_regular : regular ex_bent.
Proof. exists 2%nat. split; [lia|]. cbv. lra. Qed.
Lemma bent_B00 : Bcov ex_bent 0%nat 0%nat = 1 /\ Bcov ex_bent 1%nat 1%nat = 0 /\ Bcov ex_bent 0%nat 1%nat = 0.
Proof.
  assert (N : forall c, normal ex_bent c = cross3 (tang ex_bent 0) (tang ex_bent 1) c).
  { intro c. rewrite (normal_eq _ bent_regular).
    replace (norm3 (cross3 (tang ex_bent 0) (tang ex_bent 1))) with 1; [field|].
    unfold norm3. replace (dot3 _ _) with 1 by (cbv; ring). symmetry; apply sqrt_1. }
  unfold Bcov, dot3, sum3. rewrite !N. cbv. repeat split; ring.
Qed.
Definition ex_plies : list ply := [mkPly 1 delta 0; mkPly 1 (mscal 2 delta) 0].
Lemma ex_B : laminate MB ex_plies 0%nat 0%nat = - (1 / 2).
Proof.
  rewrite laminate_wsum. cbn [wsum ex_plies weight thick t_tot plyD Gply angle]. unfold plyD; cbn [Gply angle].
  rewrite !(rotatedG_zero _ 0%nat 0%nat) by lia. cbv [mscal delta Nat.eqb]. field.
Qed.
Lemma resultants_refuted : exists l go gd N, regular go /\ regular gd /\ eval3D_vector VN l go gd = Ok N /\
   N 0%nat <> mvec3 (eval3D_matrix MA l go) (eng (membrane_strain go gd)) 0%nat + mvec3 (eval3D_matrix MB l go) (eng (fun i j => Bcov go i j - Bcov gd i j)) 0%nat.
Proof.
  exists ex_plies, flat, ex_bent. eexists. split; [exact flat_regular|]. split; [exact bent_regular|]. split; [reflexivity|].
  intro H.
  destruct (resultants_omit ex_plies flat ex_bent) as (N & M & E & _ & HN).
  injection E as <-. destruct (HN 0%nat ltac:(lia)) as (HN0 & _). rewrite H in HN0. clear HN.
  assert (Z : mvec3 (eval3D_matrix MB ex_plies flat) (eng (fun i j => Bcov flat i j - Bcov ex_bent i j)) 0%nat = 0) by lra.
  clear H HN0. revert Z. unfold mvec3, sum3. rewrite !flat_ortho_matrix by lia. unfold eng.
  destruct bent_B00 as (-> & -> & ->).
  assert (F : forall i j, Bcov flat i j = 0).
  { intros i j. destruct i as [|[|i]], j as [|[|j]]; cbn [Bcov]; unfold dot3, sum3, flat; cbn [der2]; ring. }
  rewrite !F, ex_B. lra.
Qed.

(* the pre-matrix of _cart2cov against the correct Voigt map *)
Lemma cart2cov_iff a1 a2 e1 e2 :
  (forall X r, symmetric 2 X -> (r < 3)%nat -> mvec3 (cart2cov_pre a1 a2 e1 e2) (voigt3 X) r =
      voigt3 (tensor_on X (fun i => match i with 0%nat => a1 | _ => a2 end) (fun i => match i with 0%nat => e1 | _ => e2 end)) r) <->
  (dot3 e1 a2 = 0 \/ dot3 e1 a2 = dot3 e2 a2).
Proof.
  split.
  - intro H. specialize (H (fun i j => match i, j with 1%nat, 1%nat => 1 | _, _ => 0 end) 0%nat).
    assert (S : symmetric 2 (fun i j => match i, j with 1%nat, 1%nat => 1 | _, _ => 0 end)).
    { intros i j Hi Hj. idx2 i Hi; idx2 j Hj; reflexivity. }
    specialize (H S ltac:(lia)). unfold mvec3, sum3, voigt3, tensor_on, sum2 in H. cbn [cart2cov_pre] in H.
    rewrite (dot3_comm a2 e2), (dot3_comm a2 e1) in H.
    assert (P : dot3 e1 a2 * (dot3 e2 a2 - dot3 e1 a2) = 0) by lra.
    apply Rmult_integral in P. destruct P; [left|right]; lra.
  - intros H X r HX Hr. pose proof (HX 1%nat 0%nat ltac:(lia) ltac:(lia)) as E.
    rewrite <- (transformation_correct _ _ _ _ HX Hr).
    idx3 r Hr; unfold mvec3, sum3; cbn [cart2cov_pre PrincipalModel.transformation]; rewrite (dot3_comm a2 e2), ?(dot3_comm a2 e1), ?(dot3_comm a1 e1), ?(dot3_comm a1 e2); try ring.
    destruct H as [-> | ->]; ring.
Qed.

Definition skew : geo := mkGeo (fun i c => match i, c with 0%nat, 0%nat | 1%nat, 0%nat | 1%nat, 1%nat => 1 | _, _ => 0 end) (fun _ _ => 0).
Lemma skew_regular : regular skew.
Proof. exists 2%nat. split; [lia|]. cbv. lra. Qed.
Lemma skew_A : Acov skew 0%nat 0%nat = 1 /\ Acov skew 0%nat 1%nat = 1 /\ Acov skew 1%nat 0%nat = 1 /\ Acov skew 1%nat 1%nat = 2.
Proof. cbv. repeat split; ring. Qed.
Lemma skew_gcon0 a : (a < 3)%nat -> gcon skew 0 0 a = delta 0 a - delta 1 a.
Proof.
  intro Ha. destruct skew_A as (A1 & A2 & A3 & A4). unfold gcon, Gcon, inv3, det3. cbn [Gcov].
  rewrite A1, A2, A3, A4, !gcov0 by lia.
  generalize (normal skew) as n. cbn [gcov]. generalize (Bcov skew 0%nat 0%nat) (Bcov skew 0%nat 1%nat) (Bcov skew 1%nat 0%nat) (Bcov skew 1%nat 1%nat).
  intros. idx3 a Ha; unfold skew; cbn [tang]; cbv [delta Nat.eqb]; field; lra.
Qed.
Lemma skew_gcon1 a : (a < 3)%nat -> gcon skew 0 1 a = delta 1 a.
Proof.
  intro Ha. destruct skew_A as (A1 & A2 & A3 & A4). unfold gcon, Gcon, inv3, det3. cbn [Gcov].
  rewrite A1, A2, A3, A4, !gcov0 by lia.
  generalize (normal skew) as n. cbn [gcov]. generalize (Bcov skew 0%nat 0%nat) (Bcov skew 0%nat 1%nat) (Bcov skew 1%nat 0%nat) (Bcov skew 1%nat 1%nat).
  intros. idx3 a Ha; unfold skew; cbn [tang]; cbv [delta Nat.eqb]; field; lra.
Qed.
Lemma skew_e1 a : (a < 3)%nat -> e1_of skew a = delta 0 a.
Proof.
  intro Ha. assert (D : dot3 (gcov skew 0 0) (gcov skew 0 0) = 1).
  { rewrite (dot3_ext _ (tang skew 0) _ (tang skew 0)) by (intros; apply gcov0; lia). cbv. ring. }
  unfold e1_of, normalize, norm3. rewrite D, sqrt_1. destruct (Rlt_dec 0 1); [|lra]. rewrite gcov0 by lia.
  idx3 a Ha; cbv [skew tang delta Nat.eqb]; field.
Qed.
Lemma skew_e2 a : (a < 3)%nat -> e2_of skew a = delta 1 a.
Proof.
  intro Ha. assert (D : dot3 (gcon skew 0 1) (gcon skew 0 1) = 1).
  { rewrite (dot3_ext _ (fun a => delta 1 a) _ (fun a => delta 1 a)) by (intros; apply skew_gcon1; assumption). cbv. ring. }
  unfold e2_of, normalize, norm3. rewrite D, sqrt_1. destruct (Rlt_dec 0 1); [|lra]. rewrite skew_gcon1 by lia. field.
Qed.
Lemma skew_refuted : exists l E, (forall p, In p l -> 0 < thick p /\ posdef3 (Gply p)) /\ symmetric 2 E /\
  quad (eval3D_matrix MA l skew) (eng E) <>
  quad (laminate MA l) (eng (tensor_on E (gcon skew 0) (fun i => match i with 0%nat => e1_of skew | _ => e2_of skew end))).
Proof.
  set (Gm := fun i j : nat => match i, j with 0%nat, 0%nat | 1%nat, 1%nat => 1 | 2%nat, 2%nat => / 2 | _, _ => 0 end).
  set (Em := fun i j : nat => match i, j with 0%nat, 1%nat | 1%nat, 0%nat => / 2 | _, _ => 0 end).
  exists [mkPly 1 Gm 0], Em.
  split; [|split].
  - intros p [<-|[]]. cbn [thick Gply]. split; [lra|]. intros e (r & Hr & He). unfold quad, bilin, sum3, Gm.
    assert (S : forall x, 0 <= x * x) by (intro; apply Rle_0_sqr).
    assert (P : forall x, x <> 0 -> 0 < x * x) by (intros x Hx; apply Rsqr_pos_lt; assumption).
    pose proof (S (e 0%nat)). pose proof (S (e 1%nat)). pose proof (S (e 2%nat)).
    idx3 r Hr; pose proof (P _ He); lra.
  - intros i j Hi Hj. idx2 i Hi; idx2 j Hj; reflexivity.
  - assert (L : forall i j, (i < 3)%nat -> (j < 3)%nat -> laminate MA [mkPly 1 Gm 0] i j = Gm i j).
    { intros i j Hi Hj. rewrite laminate_wsum. cbn [wsum weight thick]. unfold plyD. cbn [Gply angle]. rewrite (rotatedG_zero _ i j Hi Hj). ring. }
    assert (T : forall r, (r < 3)%nat -> eng (tensor_on Em (gcon skew 0) (fun i => match i with 0%nat => e1_of skew | _ => e2_of skew end)) r =
        match r with 0%nat => 0 | 1%nat => -1 | _ => 1 end).
    { intros r Hr. idx3 r Hr; unfold eng, tensor_on, sum2, dot3, sum3; rewrite !skew_gcon0, !skew_gcon1, ?skew_e1, ?skew_e2 by lia; cbv [Em delta Nat.eqb]; field. }
    assert (RH : quad (laminate MA [mkPly 1 Gm 0]) (eng (tensor_on Em (gcon skew 0) (fun i => match i with 0%nat => e1_of skew | _ => e2_of skew end))) = 3 / 2).
    { unfold quad, bilin, sum3. rewrite !T, !L by lia. cbv [Gm]. field. }
    rewrite RH.
    assert (K : forall i j, (i < 3)%nat -> (j < 3)%nat -> con2cart (gcon skew 0 0) (gcon skew 0 1) (e1_of skew) (e2_of skew) i j =
      match i, j with 0%nat, 0%nat => 1 | 1%nat, 0%nat => 1 | 1%nat, 1%nat => 1 | 1%nat, 2%nat => -2 | 2%nat, 0%nat => -1 | 2%nat, 2%nat => 1 | _, _ => 0 end).
    { intros i j Hi Hj. unfold con2cart. idx3 i Hi; idx3 j Hj; cbn [cart2cov_pre]; unfold dot3, sum3;
      rewrite ?skew_gcon0, ?skew_gcon1, ?skew_e1, ?skew_e2 by lia; cbv [delta Nat.eqb]; ring. }
    assert (M : eq_on 3 (cart2cov_pre (gcov skew 0 0) (gcov skew 0 1) (e1_of skew) (e2_of skew))
       (fun i j => match i, j with 0%nat, 0%nat => 1 | 0%nat, 1%nat => 1 | 0%nat, 2%nat => 2 | 1%nat, 1%nat => 1 | 2%nat, 1%nat => 1 | 2%nat, 2%nat => 1 | _, _ => 0 end)).
    { intros i j Hi Hj. idx3 i Hi; idx3 j Hj; cbn [cart2cov_pre]; unfold dot3, sum3;
      rewrite ?gcov0, ?skew_e1, ?skew_e2 by lia; cbv [skew tang delta Nat.eqb]; ring. }
    unfold quad, bilin, sum3, eval3D_matrix, cart2cov. unfold mmul3, sum3. rewrite !K, !L by lia. rewrite !(inv3_ext _ _ M).
    cbv [inv3 det3 Gm Em eng]. lra.
Qed.

Lemma laminate_moments l i j : (forall p, In p l -> 0 <= thick p) ->
  let stack := map (fun p => (thick p, rotatedG (Gply p) (angle p) i j)) l in
  stack_moment stack 0 (laminate MA l i j) /\ stack_moment stack 1 (laminate MB l i j) /\
  stack_moment stack 1 (laminate MC l i j) /\ stack_moment stack 2 (laminate MD l i j).
Proof.
  intros H stack. rewrite laminate_CB.
  split; [exact (laminate_integral 0 l i j ltac:(lia) H)|]. split; [exact (laminate_integral 1 l i j ltac:(lia) H)|].
  split; [exact (laminate_integral 1 l i j ltac:(lia) H)|exact (laminate_integral 2 l i j ltac:(lia) H)].
Qed.
Lemma laminate_reversal l i j :
  laminate MA (rev l) i j = laminate MA l i j /\ laminate MB (rev l) i j = - laminate MB l i j /\
  laminate MC (rev l) i j = - laminate MC l i j /\ laminate MD (rev l) i j = laminate MD l i j.
Proof. rewrite !laminate_rev. cbn. repeat split; ring. Qed.
Lemma raw_positions G11 G22 G33 G12 G13 G23 G21 G31 G32 :
  let named := fun i j : nat => match i, j with
    | 0%nat, 0%nat => G11 | 0%nat, 1%nat => G12 | 0%nat, 2%nat => G13
    | 1%nat, 0%nat => G21 | 1%nat, 1%nat => G22 | 1%nat, 2%nat => G23
    | 2%nat, 0%nat => G31 | 2%nat, 1%nat => G32 | _, _ => G33 end in
  (eq3 (gsCompositeMatrixRaw9 G11 G22 G33 G12 G13 G23 G21 G31 G32) named <-> G12 = G21) /\
  symmetric 3 (gsCompositeMatrixRaw6 G11 G22 G33 G12 G13 G23) /\
  (G12 = G21 -> G13 = G31 -> G23 = G32 -> eq3 (gsCompositeMatrixRaw6 G11 G22 G33 G12 G13 G23) named).
Proof.
  intro named. split; [split|split].
  - intro H. pose proof (H 1%nat 0%nat ltac:(lia) ltac:(lia)) as E. exact E.
  - intros H i j Hi Hj. idx3 i Hi; idx3 j Hj; cbn; congruence.
  - intros i j Hi Hj. idx3 i Hi; idx3 j Hj; reflexivity.
  - intros H1 H2 H3 i j Hi Hj. idx3 i Hi; idx3 j Hj; cbn; congruence.
Qed.
Lemma density_null l : l <> [] -> density_into l None = UB.
Proof. destruct l; [congruence|reflexivity]. Qed.
Lemma skew_witness : exists g l E, regular g /\ (forall p, In p l -> 0 < thick p /\ posdef3 (Gply p)) /\ symmetric 2 E /\
  quad (eval3D_matrix MA l g) (eng E) <>
  quad (laminate MA l) (eng (tensor_on E (gcon g 0) (fun i => match i with 0%nat => e1_of g | _ => e2_of g end))).
Proof. destruct skew_refuted as (l & E & H). exists skew, l, E. split; [exact skew_regular|exact H]. Qed.
