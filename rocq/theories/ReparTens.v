(* Tensoriality of the hyperelastic laws: closure lemmas and the laws of NonlinearModel / SpectralModel. *)
From Coq Require Import Reals Lra Lia Arith FunctionalExtensionality.
From Verif Require Import Tensor MetricModel LinearModel LinearSpec NonlinearModel NonlinearSpec NonlinearProofs PrincipalModel SpectralModel.
Open Scope R_scope.

Definition T1 (Q : mat) (u u' : vec) : Prop := forall i, (i < 3)%nat -> u' i = sum3 (fun a => Q i a * u a).
Definition T2 (Q A A' : mat) : Prop := forall i j, (i < 3)%nat -> (j < 3)%nat -> A' i j = sum3 (fun a => sum3 (fun b => Q i a * Q j b * A a b)).
Definition T4 (Q : mat) (C C' : ten4) : Prop := forall i j k l, (i < 3)%nat -> (j < 3)%nat -> (k < 3)%nat -> (l < 3)%nat ->
  C' i j k l = sum3 (fun a => sum3 (fun b => sum3 (fun c => sum3 (fun d => Q i a * Q j b * Q k c * Q l d * C a b c d)))).

Section Closure.
Variable Q : mat.
Lemma T2_add A A' B B' : T2 Q A A' -> T2 Q B B' -> T2 Q (fun i j => A i j + B i j) (fun i j => A' i j + B' i j).
Proof. intros HA HB i j Hi Hj. rewrite (HA i j Hi Hj), (HB i j Hi Hj). unfold sum3. ring. Qed.
Lemma T2_sub A A' B B' : T2 Q A A' -> T2 Q B B' -> T2 Q (fun i j => A i j - B i j) (fun i j => A' i j - B' i j).
Proof. intros HA HB i j Hi Hj. rewrite (HA i j Hi Hj), (HB i j Hi Hj). unfold sum3. ring. Qed.
Lemma T2_scal r A A' : T2 Q A A' -> T2 Q (fun i j => r * A i j) (fun i j => r * A' i j).
Proof. intros HA i j Hi Hj. rewrite (HA i j Hi Hj). unfold sum3. ring. Qed.
Lemma T2_opp A A' : T2 Q A A' -> T2 Q (fun i j => - A i j) (fun i j => - A' i j).
Proof. intros HA i j Hi Hj. rewrite (HA i j Hi Hj). unfold sum3. ring. Qed.
Lemma T4_opp A A' : T4 Q A A' -> T4 Q (fun i j k l => - A i j k l) (fun i j k l => - A' i j k l).
Proof. intros HA i j k l Hi Hj Hk Hl. rewrite (HA i j k l) by assumption. unfold sum3. ring. Qed.
Lemma T2_zero : T2 Q (fun _ _ => 0) (fun _ _ => 0).
Proof. intros i j _ _. unfold sum3. ring. Qed.
Lemma T2_prod u u' v v' : T1 Q u u' -> T1 Q v v' -> T2 Q (fun i j => u i * v j) (fun i j => u' i * v' j).
Proof. intros HA HB i j Hi Hj. rewrite (HA i Hi), (HB j Hj). unfold sum3. ring. Qed.
Lemma T2_ext A A' B B' : (forall i j, (i < 3)%nat -> (j < 3)%nat -> A i j = B i j) -> (forall i j, (i < 3)%nat -> (j < 3)%nat -> A' i j = B' i j) -> T2 Q B B' -> T2 Q A A'.
Proof. intros E E' H i j Hi Hj. rewrite (E' i j Hi Hj), (H i j Hi Hj). unfold sum3. rewrite !E by lia. reflexivity. Qed.

Lemma T4_add A A' B B' : T4 Q A A' -> T4 Q B B' -> T4 Q (fun i j k l => A i j k l + B i j k l) (fun i j k l => A' i j k l + B' i j k l).
Proof. intros HA HB i j k l Hi Hj Hk Hl. rewrite (HA i j k l), (HB i j k l) by assumption. unfold sum3. ring. Qed.
Lemma T4_sub A A' B B' : T4 Q A A' -> T4 Q B B' -> T4 Q (fun i j k l => A i j k l - B i j k l) (fun i j k l => A' i j k l - B' i j k l).
Proof. intros HA HB i j k l Hi Hj Hk Hl. rewrite (HA i j k l), (HB i j k l) by assumption. unfold sum3. ring. Qed.
Lemma T4_scal r A A' : T4 Q A A' -> T4 Q (fun i j k l => r * A i j k l) (fun i j k l => r * A' i j k l).
Proof. intros HA i j k l Hi Hj Hk Hl. rewrite (HA i j k l) by assumption. unfold sum3. ring. Qed.
Lemma T4_zero : T4 Q (fun _ _ _ _ => 0) (fun _ _ _ _ => 0).
Proof. intros i j k l _ _ _ _. unfold sum3. ring. Qed.
Lemma T4_p12 A A' B B' : T2 Q A A' -> T2 Q B B' -> T4 Q (fun i j k l => A i j * B k l) (fun i j k l => A' i j * B' k l).
Proof. intros HA HB i j k l Hi Hj Hk Hl. rewrite (HA i j), (HB k l) by assumption. unfold sum3. ring. Qed.
Lemma T4_p13 A A' B B' : T2 Q A A' -> T2 Q B B' -> T4 Q (fun i j k l => A i k * B j l) (fun i j k l => A' i k * B' j l).
Proof. intros HA HB i j k l Hi Hj Hk Hl. rewrite (HA i k), (HB j l) by assumption. unfold sum3. ring. Qed.
Lemma T4_p14 A A' B B' : T2 Q A A' -> T2 Q B B' -> T4 Q (fun i j k l => A i l * B j k) (fun i j k l => A' i l * B' j k).
Proof. intros HA HB i j k l Hi Hj Hk Hl. rewrite (HA i l), (HB j k) by assumption. unfold sum3. ring. Qed.
Lemma T4_ext A A' B B' : (forall i j k l, (i < 3)%nat -> (j < 3)%nat -> (k < 3)%nat -> (l < 3)%nat -> A i j k l = B i j k l) ->
  (forall i j k l, (i < 3)%nat -> (j < 3)%nat -> (k < 3)%nat -> (l < 3)%nat -> A' i j k l = B' i j k l) -> T4 Q B B' -> T4 Q A A'.
Proof. intros E E' H i j k l Hi Hj Hk Hl. rewrite (E' i j k l), (H i j k l) by assumption. unfold sum3. rewrite !E by lia. reflexivity. Qed.
Lemma T4_X4 X X' : T2 Q X X' -> T4 Q (X4 X) (X4 X').
Proof.
  intro H. unfold X4. apply T4_add; [apply T4_add|]; [apply T4_p12; [apply T2_scal|]|apply T4_p13|apply T4_p14]; exact H.
Qed.
Lemma T4_dX4 X X' : T2 Q X X' -> T4 Q (dX4 X) (dX4 X').
Proof. intro H. unfold dX4. apply T4_scal, T4_add; [apply T4_p13|apply T4_p14]; exact H. Qed.
Lemma T4_sandwich A A' B B' : T2 Q A A' -> T2 Q B B' -> forall r, T4 Q (fun i j k l => A i j * B k l / r) (fun i j k l => A' i j * B' k l / r).
Proof. intros HA HB r. apply (T4_ext _ _ (fun i j k l => / r * (A i j * B k l)) (fun i j k l => / r * (A' i j * B' k l))); try (intros; unfold Rdiv; ring). apply T4_scal, T4_p12; assumption. Qed.
End Closure.

(* in-plane block R and a sign *)
Definition blk (R0 : mat) (s : R) : mat := fun i j =>
  match i, j with
  | 0%nat, 0%nat | 0%nat, 1%nat | 1%nat, 0%nat | 1%nat, 1%nat => R0 i j
  | 2%nat, 2%nat => s
  | _, _ => 0
  end.
Definition sh (A : mat) : Prop := A 0%nat 2%nat = 0 /\ A 1%nat 2%nat = 0 /\ A 2%nat 0%nat = 0 /\ A 2%nat 1%nat = 0.

(* two sets of members of the same material point *)
Record related (R0 : mat) (s : R) (P : mat) (m m' : metric) : Prop := mkrel {
  r_s : s * s = 1;
  r_inv : forall i j, (i < 2)%nat -> (j < 2)%nat -> sum2 (fun a => R0 i a * P a j) = delta i j;
  r_inv' : forall i j, (i < 2)%nat -> (j < 2)%nat -> sum2 (fun a => P i a * R0 a j) = delta i j;
  r_go : T2 (blk R0 s) (Gori m) (Gori m');
  r_gi : T2 (blk R0 s) (Gdefi m) (Gdefi m');
  r_gd : forall i j, (i < 2)%nat -> (j < 2)%nat -> Gdef m' i j = sum2 (fun a => sum2 (fun b => P a i * P b j * Gdef m a b));
  r_J : J0 m' = J0 m;
  r_so : sh (Gori m); r_si : sh (Gdefi m) }.

Ltac tens := repeat first [assumption | apply T2_zero | apply T4_zero | apply T4_opp | apply T2_opp | apply T4_sub | apply T4_add | apply T4_scal | apply T4_dX4 | apply T4_X4
  | apply T4_p12 | apply T4_p13 | apply T4_p14 | apply T2_sub | apply T2_add | apply T2_scal].

Section Laws.
Variables (R0 : mat) (s : R) (P : mat) (m m' : metric).
Hypothesis H : related R0 s P m m'.
Notation Q := (blk R0 s).

Lemma rel_trace : traceCt m' = traceCt m.
Proof.
  destruct H as [_ _ I GO _ GD _ SO _]. unfold traceCt. rewrite !GD, !(GO _ _) by lia. unfold sum3, sum2, blk. destruct SO as (a & b & c & d). rewrite ?a, ?b, ?c, ?d.
  pose proof (I 0%nat 0%nat ltac:(lia) ltac:(lia)) as I00. pose proof (I 0%nat 1%nat ltac:(lia) ltac:(lia)) as I01.
  pose proof (I 1%nat 0%nat ltac:(lia) ltac:(lia)) as I10. pose proof (I 1%nat 1%nat ltac:(lia) ltac:(lia)) as I11.
  unfold sum2, delta in *. cbn [Nat.eqb] in *.
  generalize dependent (P 0%nat 0%nat). intros p00. generalize dependent (P 0%nat 1%nat). intros p01. generalize dependent (P 1%nat 0%nat). intros p10. generalize dependent (P 1%nat 1%nat). intros p11.
  generalize (R0 0%nat 0%nat) (R0 0%nat 1%nat) (R0 1%nat 0%nat) (R0 1%nat 1%nat). intros r00 r01 r10 r11. intros.
  generalize (Gdef m 0%nat 0%nat) (Gdef m 0%nat 1%nat) (Gdef m 1%nat 0%nat) (Gdef m 1%nat 1%nat) (Gori m 0%nat 0%nat) (Gori m 0%nat 1%nat) (Gori m 1%nat 0%nat) (Gori m 1%nat 1%nat).
  intros x00 x01 x10 x11 y00 y01 y10 y11.
  transitivity (x00 * ((p00 * r00 + p01 * r10) * (p00 * r00 + p01 * r10) * y00 + (p00 * r00 + p01 * r10) * (p00 * r01 + p01 * r11) * (y01 + y10) + (p00 * r01 + p01 * r11) * (p00 * r01 + p01 * r11) * y11)
    + x01 * ((p00 * r00 + p01 * r10) * (p10 * r00 + p11 * r10) * y00 + (p00 * r00 + p01 * r10) * (p10 * r01 + p11 * r11) * y01 + (p00 * r01 + p01 * r11) * (p10 * r00 + p11 * r10) * y10 + (p00 * r01 + p01 * r11) * (p10 * r01 + p11 * r11) * y11)
    + x10 * ((p10 * r00 + p11 * r10) * (p00 * r00 + p01 * r10) * y00 + (p10 * r00 + p11 * r10) * (p00 * r01 + p01 * r11) * y01 + (p10 * r01 + p11 * r11) * (p00 * r00 + p01 * r10) * y10 + (p10 * r01 + p11 * r11) * (p00 * r01 + p01 * r11) * y11)
    + x11 * ((p10 * r00 + p11 * r10) * (p10 * r00 + p11 * r10) * y00 + (p10 * r00 + p11 * r10) * (p10 * r01 + p11 * r11) * (y01 + y10) + (p10 * r01 + p11 * r11) * (p10 * r01 + p11 * r11) * y11)); [ring|].
  rewrite I00, I01, I10, I11. ring.
Qed.

Lemma T2_blk (A A' : mat) : (forall i j, (i < 2)%nat -> (j < 2)%nat -> A' i j = sum2 (fun a => sum2 (fun b => R0 i a * R0 j b * A a b))) ->
  sh A -> sh A' -> A' 2%nat 2%nat = A 2%nat 2%nat -> T2 Q A A'.
Proof.
  destruct H as [S _ _ _ _ _ _ _ _]. intros E (a & b & c & d) (a' & b' & c' & d') Z i j Hi Hj.
  destruct i as [|[|[|i]]]; try lia; destruct j as [|[|[|j]]]; try lia; rewrite ?E by lia; unfold sum3, sum2, blk; rewrite ?a, ?b, ?c, ?d, ?a', ?b', ?c', ?d', ?Z; try ring.
  replace (s * s * A 2%nat 2%nat) with (1 * A 2%nat 2%nat) by (rewrite <- S; ring). ring.
Qed.
Lemma blk_T2 (A A' : mat) : T2 Q A A' -> sh A -> (forall i j, (i < 2)%nat -> (j < 2)%nat -> A' i j = sum2 (fun a => sum2 (fun b => R0 i a * R0 j b * A a b))) /\ sh A' /\ A' 2%nat 2%nat = A 2%nat 2%nat.
Proof.
  destruct H as [S _ _ _ _ _ _ _ _]. intros T (a & b & c & d). split; [|split].
  - intros i j Hi Hj. rewrite T by lia. destruct i as [|[|i]]; try lia; destruct j as [|[|j]]; try lia; unfold sum3, sum2, blk; rewrite ?a, ?b, ?c, ?d; ring.
  - unfold sh. rewrite !T by lia. unfold sum3, blk. rewrite a, b, c, d. repeat split; ring.
  - rewrite T by lia. unfold sum3, blk. rewrite a, b, c, d. replace (s * s * A 2%nat 2%nat) with (1 * A 2%nat 2%nat) by (rewrite <- S; ring). ring.
Qed.
Lemma T2_cinv c : T2 Q (cinvmat m c) (cinvmat m' c).
Proof.
  apply T2_blk; [|repeat split; reflexivity|repeat split; reflexivity|reflexivity]. destruct (blk_T2 _ _ (r_gi _ _ _ _ _ H) (r_si _ _ _ _ _ H)) as (E & _).
  intros i j Hi Hj. destruct i as [|[|i]]; try lia; destruct j as [|[|j]]; try lia; cbn [cinvmat]; rewrite E by lia; reflexivity.
Qed.
Definition inp (A : mat) : mat := fun i j => idelta i 2 * idelta j 2 * A i j.
Definition e33 : mat := fun i j => delta i 2 * delta j 2.
Lemma T2_inp A A' : T2 Q A A' -> sh A -> T2 Q (inp A) (inp A').
Proof.
  intros T S. destruct (blk_T2 _ _ T S) as (E & S' & Z). apply T2_blk; unfold inp, idelta, delta, sh; cbn [Nat.eqb].
  - intros i j Hi Hj. rewrite E by assumption. destruct i as [|[|i]]; try lia; destruct j as [|[|j]]; try lia; cbn [Nat.eqb]; unfold sum2; cbn [Nat.eqb]; ring.
  - repeat split; ring.
  - repeat split; ring.
  - ring.
Qed.
Lemma T2_e33 : T2 Q e33 e33.
Proof.
  apply T2_blk; unfold e33, delta, sh; cbn [Nat.eqb]; [|repeat split; ring|repeat split; ring|reflexivity].
  intros i j Hi Hj. destruct i as [|[|i]]; try lia; destruct j as [|[|j]]; try lia; unfold sum2; cbn [Nat.eqb]; ring.
Qed.
Lemma sh_cinv c x : sh (cinvmat x c). Proof. repeat split; reflexivity. Qed.
Lemma T2_dI2 c : T2 Q (dI_2 m c) (dI_2 m' c).
Proof.
  apply (T2_ext Q _ _ (fun i j => c * inp (Gori m) i j + J0 m * inp (cinvmat m c) i j + traceCt m * e33 i j)
                      (fun i j => c * inp (Gori m') i j + J0 m * inp (cinvmat m' c) i j + traceCt m * e33 i j)).
  - intros. unfold dI_2, dI_1, inp, e33. ring.
  - intros. unfold dI_2, dI_1, inp, e33. rewrite (r_J _ _ _ _ _ H), rel_trace. ring.
  - apply T2_add; [apply T2_add|]; apply T2_scal; [apply T2_inp|apply T2_inp|apply T2_e33];
      [exact (r_go _ _ _ _ _ H)|exact (r_so _ _ _ _ _ H)|apply T2_cinv|apply sh_cinv].
Qed.
Lemma T4_d2I2 c : T4 Q (d2I_2 m c) (d2I_2 m' c).
Proof.
  pose proof (T2_inp _ _ (T2_cinv c) (sh_cinv c m)) as A. pose proof (T2_inp _ _ (r_go _ _ _ _ _ H) (r_so _ _ _ _ _ H)) as B. pose proof T2_e33 as E.
  apply (T4_ext Q _ _ (fun i j k l => J0 m * (inp (cinvmat m c) i j * inp (cinvmat m c) k l + dX4 (inp (cinvmat m c)) i j k l) + e33 i j * inp (Gori m) k l + inp (Gori m) i j * e33 k l)
                      (fun i j k l => J0 m * (inp (cinvmat m' c) i j * inp (cinvmat m' c) k l + dX4 (inp (cinvmat m' c)) i j k l) + e33 i j * inp (Gori m') k l + inp (Gori m') i j * e33 k l)).
  - intros. unfold d2I_2, dI_1, inp, e33, dX4. cbv zeta. ring.
  - intros. unfold d2I_2, dI_1, inp, e33, dX4. cbv zeta. rewrite (r_J _ _ _ _ _ H). ring.
  - tens.
Qed.

Lemma T2_S_inc w p : T2 Q (S_inc w p m) (S_inc w p m').
Proof.
  pose proof (r_go _ _ _ _ _ H) as A. pose proof (r_gi _ _ _ _ _ H) as B.
  unfold S_inc. rewrite (r_J _ _ _ _ _ H), rel_trace. destruct w; tens.
Qed.
Lemma T4_C_inc w p : T4 Q (C_inc w p m) (C_inc w p m').
Proof.
  pose proof (r_go _ _ _ _ _ H) as A. pose proof (r_gi _ _ _ _ _ H) as B.
  unfold C_inc. rewrite (r_J _ _ _ _ _ H), rel_trace. destruct w; tens.
Qed.
Lemma T2_S_comp w p c : T2 Q (S_comp w p m c) (S_comp w p m' c).
Proof.
  pose proof (r_go _ _ _ _ _ H) as A. pose proof (T2_cinv c) as B. pose proof (T2_dI2 c) as D.
  unfold S_comp. cbv zeta. unfold I_1, I_2, J_sq. rewrite (r_J _ _ _ _ _ H), rel_trace. destruct w; tens.
Qed.
Lemma T4_C3D w p c : T4 Q (C3D w p m c) (C3D w p m' c).
Proof.
  pose proof (r_go _ _ _ _ _ H) as A. pose proof (T2_cinv c) as B. pose proof (T2_dI2 c) as D. pose proof (T4_d2I2 c) as F.
  unfold C3D. cbv zeta. unfold I_1, I_2, J_sq, dI_1. rewrite (r_J _ _ _ _ _ H), rel_trace. destruct w; tens.
Qed.

Lemma ss x : s * s * x = x.
Proof. rewrite (r_s _ _ _ _ _ H). ring. Qed.
Lemma T4_33 C C' : T4 Q C C' -> T2 Q (fun i j => C i j 2%nat 2%nat) (fun i j => C' i j 2%nat 2%nat) /\ T2 Q (fun k l => C 2%nat 2%nat k l) (fun k l => C' 2%nat 2%nat k l)
  /\ C' 2%nat 2%nat 2%nat 2%nat = C 2%nat 2%nat 2%nat 2%nat.
Proof.
  intro T. split; [|split].
  - intros i j Hi Hj. rewrite (T i j 2%nat 2%nat) by lia. transitivity (sum3 (fun a => sum3 (fun b => Q i a * Q j b * (s * s * C a b 2%nat 2%nat)))).
    + unfold sum3. cbn [blk]. ring.
    + unfold sum3. rewrite !ss. reflexivity.
  - intros i j Hi Hj. rewrite (T 2%nat 2%nat i j) by lia. transitivity (sum3 (fun a => sum3 (fun b => Q i a * Q j b * (s * s * C 2%nat 2%nat a b)))).
    + unfold sum3. cbn [blk]. ring.
    + unfold sum3. rewrite !ss. reflexivity.
  - rewrite (T 2%nat 2%nat 2%nat 2%nat) by lia. transitivity (s * s * (s * s * C 2%nat 2%nat 2%nat 2%nat)); [|rewrite !ss; reflexivity].
    unfold sum3. cbn [blk]. ring.
Qed.
Lemma T4_condense C C' : T4 Q C C' -> T4 Q (condense C) (condense C').
Proof.
  intro T. destruct (T4_33 _ _ T) as (A & B & E). unfold condense. rewrite E. apply T4_sub; [exact T|]. apply T4_sandwich; assumption.
Qed.
Lemma T2_33 A A' : T2 Q A A' -> A' 2%nat 2%nat = A 2%nat 2%nat.
Proof. intro T. rewrite (T 2%nat 2%nat) by lia. transitivity (s * s * A 2%nat 2%nat); [|apply ss]. unfold sum3. cbn [blk]. ring. Qed.
Lemma T2_S_comp_gen w p c : T2 Q (S_comp_gen w p m c) (S_comp_gen w p m' c).
Proof. apply (T2_ext Q _ _ (S_comp w p m c) (S_comp w p m' c)); [intros; apply gen_S_comp..|apply T2_S_comp]. Qed.
Lemma T4_C3D_gen w p c : T4 Q (C3D_gen w p m c) (C3D_gen w p m' c).
Proof. apply (T4_ext Q _ _ (C3D w p m c) (C3D w p m' c)); [intros; apply gen_C3D..|apply T4_C3D]. Qed.

(* in-plane components *)
Definition I2 (A A' : mat) : Prop := forall i j, (i < 2)%nat -> (j < 2)%nat -> A' i j = sum2 (fun a => sum2 (fun b => R0 i a * R0 j b * A a b)).
Definition I4 (C C' : ten4) : Prop := forall i j k l, (i < 2)%nat -> (j < 2)%nat -> (k < 2)%nat -> (l < 2)%nat ->
  C' i j k l = sum2 (fun a => sum2 (fun b => sum2 (fun c => sum2 (fun d => R0 i a * R0 j b * R0 k c * R0 l d * C a b c d)))).
Lemma T2_I2 A A' : T2 Q A A' -> I2 A A'.
Proof. intros T i j Hi Hj. rewrite T by lia. destruct i as [|[|i]]; try lia; destruct j as [|[|j]]; try lia; unfold sum3, sum2; cbn [blk]; ring. Qed.
Lemma T4_I4 C C' : T4 Q C C' -> I4 C C'.
Proof.
  intros T i j k l Hi Hj Hk Hl. rewrite T by lia. unfold sum3, sum2.
  assert (Z : forall x, (x < 2)%nat -> Q x 2%nat = 0 /\ Q x 0%nat = R0 x 0%nat /\ Q x 1%nat = R0 x 1%nat) by (intros [|[|x]] Hx; try lia; cbn [blk]; auto).
  destruct (Z i Hi) as (-> & -> & ->), (Z j Hj) as (-> & -> & ->), (Z k Hk) as (-> & -> & ->), (Z l Hl) as (-> & -> & ->). ring.
Qed.
Lemma I2_work A A' e : I2 A A' -> 
  sum2 (fun i => sum2 (fun j => A' i j * pullback2 P e i j)) = sum2 (fun i => sum2 (fun j => A i j * e i j)).
Proof.
  destruct H as [_ _ I _ _ _ _ _ _]. intros T. unfold sum2 at 1 2 3. rewrite !T by lia. unfold pullback2, sum2.
  pose proof (I 0%nat 0%nat ltac:(lia) ltac:(lia)) as I00. pose proof (I 0%nat 1%nat ltac:(lia) ltac:(lia)) as I01.
  pose proof (I 1%nat 0%nat ltac:(lia) ltac:(lia)) as I10. pose proof (I 1%nat 1%nat ltac:(lia) ltac:(lia)) as I11.
  unfold sum2, delta in *. cbn [Nat.eqb] in *.
  clear T I. revert I00 I01 I10 I11.
  generalize (P 0%nat 0%nat) (P 0%nat 1%nat) (P 1%nat 0%nat) (P 1%nat 1%nat) (R0 0%nat 0%nat) (R0 0%nat 1%nat) (R0 1%nat 0%nat) (R0 1%nat 1%nat).
  intros p00 p01 p10 p11 r00 r01 r10 r11 I00 I01 I10 I11.
  generalize (A 0%nat 0%nat) (A 0%nat 1%nat) (A 1%nat 0%nat) (A 1%nat 1%nat) (e 0%nat 0%nat) (e 0%nat 1%nat) (e 1%nat 0%nat) (e 1%nat 1%nat).
  intros y00 y01 y10 y11 x00 x01 x10 x11.
  transitivity (x00 * ((p00 * r00 + p01 * r10) * (p00 * r00 + p01 * r10) * y00 + (p00 * r00 + p01 * r10) * (p00 * r01 + p01 * r11) * (y01 + y10) + (p00 * r01 + p01 * r11) * (p00 * r01 + p01 * r11) * y11)
    + x01 * ((p00 * r00 + p01 * r10) * (p10 * r00 + p11 * r10) * y00 + (p00 * r00 + p01 * r10) * (p10 * r01 + p11 * r11) * y01 + (p00 * r01 + p01 * r11) * (p10 * r00 + p11 * r10) * y10 + (p00 * r01 + p01 * r11) * (p10 * r01 + p11 * r11) * y11)
    + x10 * ((p10 * r00 + p11 * r10) * (p00 * r00 + p01 * r10) * y00 + (p10 * r00 + p11 * r10) * (p00 * r01 + p01 * r11) * y01 + (p10 * r01 + p11 * r11) * (p00 * r00 + p01 * r10) * y10 + (p10 * r01 + p11 * r11) * (p00 * r01 + p01 * r11) * y11)
    + x11 * ((p10 * r00 + p11 * r10) * (p10 * r00 + p11 * r10) * y00 + (p10 * r00 + p11 * r10) * (p10 * r01 + p11 * r11) * (y01 + y10) + (p10 * r01 + p11 * r11) * (p10 * r01 + p11 * r11) * y11)); [ring|].
  rewrite I00, I01, I10, I11. ring.
Qed.
Lemma I4_work C C' e f : I4 C C' ->
  sum2 (fun i => sum2 (fun j => sum2 (fun k => sum2 (fun l => C' i j k l * pullback2 P f k l)) * pullback2 P e i j))
  = sum2 (fun i => sum2 (fun j => sum2 (fun k => sum2 (fun l => C i j k l * f k l)) * e i j)).
Proof.
  intro T. apply (I2_work (fun i j => sum2 (fun k => sum2 (fun l => C i j k l * f k l))) (fun i j => sum2 (fun k => sum2 (fun l => C' i j k l * pullback2 P f k l)))).
  intros i j Hi Hj.
  transitivity (sum2 (fun a => sum2 (fun b => R0 i a * R0 j b * sum2 (fun k => sum2 (fun l => sum2 (fun c => sum2 (fun d => R0 k c * R0 l d * C a b c d)) * pullback2 P f k l))))).
  - unfold sum2. rewrite !T by assumption || lia. unfold sum2. generalize (pullback2 P f 0%nat 0%nat) (pullback2 P f 0%nat 1%nat) (pullback2 P f 1%nat 0%nat) (pullback2 P f 1%nat 1%nat). intros. ring.
  -    assert (X : forall a b, sum2 (fun k => sum2 (fun l => sum2 (fun c => sum2 (fun d => R0 k c * R0 l d * C a b c d)) * pullback2 P f k l)) = sum2 (fun k => sum2 (fun l => C a b k l * f k l)))
      by (intros a b; apply (I2_work (C a b) (fun k l => sum2 (fun c => sum2 (fun d => R0 k c * R0 l d * C a b c d)))); intros k l _ _; reflexivity).
    apply f_equal2; apply f_equal2; apply f_equal2; try reflexivity; apply X.
Qed.
End Laws.
