From Coq Require Import Reals Lra Lia List.
From Coquelicot Require Import Coquelicot.
From Verif Require Import Tensor MetricModel MetricSpec MetricProofs LinearModel LinearSpec LinearProofs IntegrateModel IntegrateSpec.
Import ListNotations.
Open Scope R_scope.

Lemma is_RInt_pow n a b : is_RInt (fun x => x ^ n) a b ((b ^ (n + 1) - a ^ (n + 1)) / (INR n + 1)).
Proof.
  assert (Hn : INR n + 1 <> 0) by (pose proof (pos_INR n); lra).
  replace ((b ^ (n + 1) - a ^ (n + 1)) / (INR n + 1)) with
    (minus (b ^ (n + 1) / (INR n + 1)) (a ^ (n + 1) / (INR n + 1))).
  2:{ unfold minus, plus, opp; cbn. field. assumption. }
  apply (is_RInt_derive (fun x => x ^ (n + 1) / (INR n + 1)) (fun x => x ^ n)).
  - intros x _. auto_derive; [exact I|]. replace (pred (n + 1)) with n by lia. rewrite plus_INR. cbn [INR]. field. assumption.
  - intros x _. apply (ex_derive_continuous (fun x => x ^ n)). auto_derive. exact I.
Qed.

Lemma RI_scal (f : R -> R) a b c l : is_RInt f a b l -> is_RInt (fun x => c * f x) a b (c * l).
Proof. intro H. exact (is_RInt_scal (V:=R_NormedModule) f a b c l H). Qed.

Lemma RI_plus (f g : R -> R) a b k l : is_RInt f a b k -> is_RInt g a b l -> is_RInt (fun x => f x + g x) a b (k + l).
Proof. intros H1 H2. exact (is_RInt_plus (V:=R_NormedModule) f g a b k l H1 H2). Qed.

Lemma RI_ext (f g : R -> R) a b l : (forall x, f x = g x) -> is_RInt f a b l -> is_RInt g a b l.
Proof. intros H. apply is_RInt_ext. intros; apply H. Qed.

Lemma RI_unique (f : R -> R) a b k l : is_RInt f a b k -> is_RInt f a b l -> k = l.
Proof.
  intros H1 H2. rewrite <- (is_RInt_unique (V:=R_CompleteNormedModule) f a b k H1).
  exact (is_RInt_unique (V:=R_CompleteNormedModule) f a b l H2).
Qed.

Lemma pow_half_sym t m : (- (t / 2)) ^ m = (if Nat.even m then 1 else -1) * (t / 2) ^ m.
Proof.
  induction m as [|m IH]; [cbn; ring|]. rewrite Nat.even_succ, <- Nat.negb_even. cbn [pow]. rewrite IH.
  destruct (Nat.even m); cbn [negb]; ring.
Qed.

(* closed form of the moments of a monomial *)
Definition mono (t : R) (n : nat) : R := if Nat.odd n then 0 else 2 / (INR n + 1) * (t / 2) ^ (n + 1).

Lemma is_RInt_mono t n : is_RInt (fun x => x ^ n) (- (t / 2)) (t / 2) (mono t n).
Proof.
  assert (Hn : INR n + 1 <> 0) by (pose proof (pos_INR n); lra).
  replace (mono t n) with (((t / 2) ^ (n + 1) - (- (t / 2)) ^ (n + 1)) / (INR n + 1)); [apply is_RInt_pow|].
  rewrite pow_half_sym. unfold mono. rewrite Nat.add_1_r, Nat.even_succ.
  destruct (Nat.odd n); cbn [negb]; field; assumption.
Qed.

Lemma moment_const c t m : is_moment (fun _ => c) t m (multiplyZ t m (fun _ => c)).
Proof.
  unfold is_moment. apply (RI_ext (fun z => c * z ^ m)); [intro; ring|].
  replace (multiplyZ t m (fun _ => c)) with (c * mono t m).
  - apply RI_scal, is_RInt_mono.
  - unfold mono, multiplyZ. destruct (Nat.odd m); ring.
Qed.

Lemma multiplyLinZ_affine t m g h : multiplyLinZ t m (fun z => g + z * t * h) = g * mono t m + h * mono t (m + 1).
Proof.
  unfold multiplyLinZ, mono. replace (- (1 / 2) * t) with (- (t / 2)) by field. replace (1 / 2 * t) with (t / 2) by field.
  rewrite pow_half_sym. rewrite !Nat.add_1_r, Nat.even_succ, Nat.odd_succ, <- Nat.negb_odd.
  assert (Hn : INR m + 1 <> 0) by (pose proof (pos_INR m); lra).
  assert (Hn2 : INR m + 1 + 1 <> 0) by (pose proof (pos_INR m); lra).
  rewrite S_INR. destruct (Nat.odd m); cbn [negb pow]; field; assumption.
Qed.

Lemma moment_affine g h t m : is_moment (fun z => g + z * h) t m (multiplyLinZ t m (fun z => g + z * t * h)).
Proof.
  rewrite multiplyLinZ_affine. unfold is_moment.
  apply (RI_ext (fun z => g * z ^ m + h * z ^ (m + 1))); [intro; rewrite Nat.add_1_r; cbn; ring|].
  apply RI_plus; apply RI_scal, is_RInt_mono.
Qed.

(* ---- Gauss ---- *)
Definition qsum (q : rule) (n : nat) : R := fold_right Rplus 0 (map (fun wz => fst wz * snd wz ^ n) q).

Lemma exact_mono d q n t : exact_to d q -> (n <= d)%nat -> qsum q n * t ^ (n + 1) = mono t n.
Proof.
  intros H Hn.
  assert (E : qsum q n = mono 1 n).
  { exact (RI_unique _ _ _ _ _ (H n Hn) (is_RInt_mono 1 n)). }
  rewrite E. unfold mono. destruct (Nat.odd n); [ring|].
  replace (t / 2) with (1 / 2 * t) by field. rewrite (Rpow_mult_distr (1/2) t). ring.
Qed.

Lemma integrateZ_sum q t m f : integrateZ q t m f = fold_right Rplus 0 (map (fun wz => fst wz * (snd wz * t) ^ m * f (snd wz) * t) q).
Proof. induction q as [|[w z] q IH]; cbn; [reflexivity|]. now rewrite IH. Qed.

Lemma seq_shift_sum (F : nat -> R) : forall (c : list R) k m,
  fold_right Rplus 0 (map (fun ic => snd ic * F (m + fst ic)%nat) (combine (seq (S k) (length c)) c))
  = fold_right Rplus 0 (map (fun ic => snd ic * F (S m + fst ic)%nat) (combine (seq k (length c)) c)).
Proof.
  induction c as [|a c IH]; intros k m'; cbn [length seq combine map fold_right]; [reflexivity|].
  rewrite IH. cbn [fst snd]. replace (m' + S k)%nat with (S m' + k)%nat by lia. reflexivity.
Qed.

Lemma integrateZ_poly_shift q t c : forall m, integrateZ q t m (fun z => poly c (z * t)) =
  fold_right Rplus 0 (map (fun ic => snd ic * (fun n => qsum q n * t ^ (n + 1)) (m + fst ic)%nat)
     (combine (seq 0 (length c)) c)).
Proof.
  induction c as [|a c IH]; intro m; cbn [length seq combine map fold_right poly].
  - rewrite integrateZ_sum. induction q as [|wz q IHq]; cbn; [reflexivity|]. rewrite IHq. ring.
  - rewrite (seq_shift_sum (fun n => qsum q n * t ^ (n + 1))), <- (IH (S m)). cbn [fst snd]. rewrite !integrateZ_sum, Nat.add_0_r. unfold qsum. clear.
    induction q as [|[w z] q IHq]; cbn [map fold_right fst snd]; [ring|].
    rewrite IHq. rewrite !Nat.add_1_r, Rpow_mult_distr. cbn [pow]. rewrite Rpow_mult_distr. ring.
Qed.

Lemma moment_poly_gen t c : forall m, is_moment (poly c) t m
  (fold_right Rplus 0 (map (fun ic => snd ic * mono t (m + fst ic)) (combine (seq 0 (length c)) c))).
Proof.
  induction c as [|a c IH]; intro m; cbn [length seq combine map fold_right poly].
  - unfold is_moment. apply (RI_ext (fun z => 0 * z ^ m)); [intro; ring|].
    pose proof (RI_scal _ _ _ 0 _ (is_RInt_mono t m)) as H0. rewrite (Rmult_0_l (mono t m)) in H0. exact H0.
  - rewrite (seq_shift_sum (mono t)). unfold is_moment. apply (RI_ext (fun z => a * z ^ m + z ^ (S m) * poly c z)); [intro; cbn; ring|].
    apply RI_plus.
    + cbn [fst snd]. rewrite Nat.add_0_r. apply RI_scal, is_RInt_mono.
    + apply (IH (S m)).
Qed.

Lemma gauss_exact d q t m c : exact_to d q -> (m + length c <= d + 1)%nat ->
  is_moment (poly c) t m (integrateZ q t m (fun z => poly c (z * t))).
Proof.
  intros Hq Hd. rewrite integrateZ_poly_shift.
  replace (fold_right _ _ _) with (fold_right Rplus 0 (map (fun ic => snd ic * mono t (m + fst ic)) (combine (seq 0 (length c)) c)));
    [apply moment_poly_gen|].
  f_equal. apply map_ext_in. intros [i a] Hin. cbn [fst snd]. f_equal. symmetry.
  apply (exact_mono d); [assumption|].
  apply in_combine_l in Hin. apply in_seq in Hin. lia.
Qed.

(* ---- resultants of the linear material ---- *)
Definition e_mid (go gd : geo) : mat := fun i j => / 2 * (Acov gd i j - Acov go i j).
Definition e_curv (go gd : geo) : mat := fun i j => Bcov go i j - Bcov gd i j.

Lemma Svoigt_affine E nu A e k z r : Svoigt E nu A (fun i j => e i j + z * k i j) r = Svoigt E nu A e r + z * Svoigt E nu A k r.
Proof. destruct r as [|[|r]]; unfold Svoigt, Sij; ring. Qed.

Lemma linear_N E nu go gd q t r : exists I, linear_resultant E nu go gd VectorN q t r = Ok I /\
  is_moment (fun z => Svoigt E nu (Acon go) (fun i j => e_mid go gd i j + z * e_curv go gd i j) r) t 0 I.
Proof.
  eexists. split; [reflexivity|].
  change (linear_vector E nu go gd t VectorN r) with (fun _ : R => Svoigt E nu (Acon go) (e_mid go gd) r).
  unfold is_moment. apply (RI_ext (fun z => z ^ 0 * (Svoigt E nu (Acon go) (e_mid go gd) r + z * Svoigt E nu (Acon go) (e_curv go gd) r))).
  { intro z. now rewrite Svoigt_affine. }
  replace (multiplyZ t 0 (fun _ => Svoigt E nu (Acon go) (e_mid go gd) r)) with
    (multiplyLinZ t 0 (fun z => Svoigt E nu (Acon go) (e_mid go gd) r + z * t * Svoigt E nu (Acon go) (e_curv go gd) r)).
  - apply moment_affine.
  - rewrite multiplyLinZ_affine. unfold multiplyZ, mono; cbn. ring.
Qed.

Lemma linear_M E nu go gd q t r : exists I, linear_resultant E nu go gd VectorM q t r = Ok I /\
  is_moment (fun z => Svoigt E nu (Acon go) (fun i j => e_mid go gd i j + z * e_curv go gd i j) r) t 1 I.
Proof.
  eexists. split; [reflexivity|].
  change (linear_vector E nu go gd t VectorM r) with (fun _ : R => Svoigt E nu (Acon go) (e_curv go gd) r).
  unfold is_moment. apply (RI_ext (fun z => z ^ 1 * (Svoigt E nu (Acon go) (e_mid go gd) r + z * Svoigt E nu (Acon go) (e_curv go gd) r))).
  { intro z. now rewrite Svoigt_affine. }
  replace (multiplyZ t 2 (fun _ => Svoigt E nu (Acon go) (e_curv go gd) r)) with
    (multiplyLinZ t 1 (fun z => Svoigt E nu (Acon go) (e_mid go gd) r + z * t * Svoigt E nu (Acon go) (e_curv go gd) r)).
  - apply moment_affine.
  - rewrite multiplyLinZ_affine. unfold multiplyZ, mono; cbn. ring.
Qed.


Lemma e_mid_spec go gd i j : e_mid go gd i j = membrane_strain go gd i j.
Proof. unfold e_mid, membrane_strain, form1, Acov. field. Qed.

Lemma Bcov_form2 g i j : regular g -> Bcov g i j = form2 g i j.
Proof.
  intro H. unfold Bcov, form2, second_derivative.
  assert (N : normal g = unit_normal g).
  { rewrite (normal_eq g H). reflexivity. }
  rewrite N. destruct i as [|[|i]], j as [|[|j]]; reflexivity.
Qed.

Lemma e_curv_spec go gd i j : regular go -> regular gd -> e_curv go gd i j = curvature_change go gd i j.
Proof. intros. unfold e_curv, curvature_change. now rewrite !Bcov_form2. Qed.

Lemma membrane_sym go gd : symmetric 2 (membrane_strain go gd).
Proof. intros i j _ _. unfold membrane_strain, form1. now rewrite (dot3_comm (tang gd i)), (dot3_comm (tang go i)). Qed.
Lemma curvature_sym go gd : symmetric 2 (curvature_change go gd).
Proof. intros i j Hi Hj. idx2 i Hi; idx2 j Hj; reflexivity. Qed.
Lemma kl_sym go gd z : symmetric 2 (kl_strain go gd z).
Proof. intros i j Hi Hj. unfold kl_strain. now rewrite (membrane_sym go gd i j), (curvature_sym go gd i j). Qed.

Lemma Svoigt_law E nu A e r : E <> 0 -> nu <> -1 -> nu <> 1 -> nu <> / 2 -> symmetric 2 e ->
  Svoigt E nu A e r = plane_stress_law E nu A e (fst (row_of r)) (snd (row_of r)).
Proof.
  intros. destruct r as [|[|r]]; unfold Svoigt, row_of; cbn [fst snd]; apply Sij_law; assumption.
Qed.

Lemma Svoigt_ext E nu A e e' r : eq_on 2 e e' -> Svoigt E nu A e r = Svoigt E nu A e' r.
Proof. intro H. destruct r as [|[|r]]; unfold Svoigt, Sij; now rewrite !H by lia. Qed.

Lemma kl_law E nu go gd r z : regular go -> regular gd -> E <> 0 -> nu <> -1 -> nu <> 1 -> nu <> / 2 ->
  Svoigt E nu (Acon go) (fun i j => e_mid go gd i j + z * e_curv go gd i j) r =
  plane_stress_law E nu (Acon go) (kl_strain go gd z) (fst (row_of r)) (snd (row_of r)).
Proof.
  intros. rewrite <- Svoigt_law by (try assumption; apply kl_sym).
  apply Svoigt_ext. intros i j _ _. unfold kl_strain. now rewrite e_mid_spec, e_curv_spec.
Qed.

Lemma linear_N_spec : forall E nu go gd q t r, regular go -> regular gd -> E <> 0 -> nu <> -1 -> nu <> 1 -> nu <> / 2 ->
  exists I, linear_resultant E nu go gd VectorN q t r = Ok I /\
  is_moment (fun z => plane_stress_law E nu (inv2 (form1 go)) (kl_strain go gd z) (fst (row_of r)) (snd (row_of r))) t 0 I.
Proof.
  intros. destruct (linear_N E nu go gd q t r) as (v & E1 & HI). exists v. split; [exact E1|].
  unfold is_moment in *. refine (RI_ext _ _ _ _ _ _ HI). intro z. cbn beta. rewrite kl_law by assumption. reflexivity.
Qed.

Lemma linear_M_spec : forall E nu go gd q t r, regular go -> regular gd -> E <> 0 -> nu <> -1 -> nu <> 1 -> nu <> / 2 ->
  exists I, linear_resultant E nu go gd VectorM q t r = Ok I /\
  is_moment (fun z => plane_stress_law E nu (inv2 (form1 go)) (kl_strain go gd z) (fst (row_of r)) (snd (row_of r))) t 1 I.
Proof.
  intros. destruct (linear_M E nu go gd q t r) as (v & E1 & HI). exists v. split; [exact E1|].
  unfold is_moment in *. refine (RI_ext _ _ _ _ _ _ HI). intro z. cbn beta. rewrite kl_law by assumption. reflexivity.
Qed.

Definition moment_degree (o : mout) : nat := match o with MatrixA => 0 | MatrixD => 2 | _ => 1 end.

Lemma linear_ABCD E nu go q t r c o : o = MatrixA \/ o = MatrixB \/ o = MatrixC \/ o = MatrixD ->
  exists I, linear_resultant_matrix E nu go o q t r c = Ok I /\
  is_moment (fun _ => voigt (Cijkl_surface E nu go) r c) t (moment_degree o) I.
Proof.
  intros [->|[->|[->| ->]]]; (eexists; split; [reflexivity|]);
  change (linear_matrix E nu go r c) with (fun _ : R => voigt (Cijkl_surface E nu go) r c); apply moment_const.
Qed.

Lemma linear_constitutive E nu go gd q t r :
  (r < 3)%nat -> regular go -> regular gd -> forall A B C D N M,
  (forall c, (c < 3)%nat -> linear_resultant_matrix E nu go MatrixA q t r c = Ok (A c)) ->
  (forall c, (c < 3)%nat -> linear_resultant_matrix E nu go MatrixB q t r c = Ok (B c)) ->
  (forall c, (c < 3)%nat -> linear_resultant_matrix E nu go MatrixC q t r c = Ok (C c)) ->
  (forall c, (c < 3)%nat -> linear_resultant_matrix E nu go MatrixD q t r c = Ok (D c)) ->
  linear_resultant E nu go gd VectorN q t r = Ok N ->
  linear_resultant E nu go gd VectorM q t r = Ok M ->
  N = sum3 (fun c => A c * voigt_strain (membrane_strain go gd) c + B c * voigt_strain (curvature_change go gd) c) /\
  M = sum3 (fun c => C c * voigt_strain (membrane_strain go gd) c + D c * voigt_strain (curvature_change go gd) c).
Proof.
  intros Hr Hgo Hgd A B C D N M HA HB HC HD HN HM.
  unfold linear_resultant, linear_resultant_matrix, eval_into in *; cbn in HA, HB, HC, HD, HN, HM.
  unfold multiplyZ, linear_matrix, linear_vector in *. cbn in HA, HB, HC, HD, HN, HM.
  injection HN as HN. injection HM as HM.
  assert (vA : forall c, (c < 3)%nat -> A c = voigt (Cijkl_surface E nu go) r c * t).
  { intros c Hc. specialize (HA c Hc). injection HA as HA. rewrite <- HA. field. }
  assert (vB : forall c, (c < 3)%nat -> B c = 0) by (intros c Hc; specialize (HB c Hc); now injection HB).
  assert (vC : forall c, (c < 3)%nat -> C c = 0) by (intros c Hc; specialize (HC c Hc); now injection HC).
  assert (vD : forall c, (c < 3)%nat -> D c = voigt (Cijkl_surface E nu go) r c * (t ^ 3 / 12)).
  { intros c Hc. specialize (HD c Hc). injection HD as HD. rewrite <- HD. field. }
  pose proof (linear_stress_matrix E nu go gd (0 * t) KMembrane r Hr) as S1.
  pose proof (linear_stress_matrix E nu go gd (0 * t) KBending r Hr) as S2.
  assert (E1 : eq_on 2 (E_tensor go gd (0 * t) KMembrane) (membrane_strain go gd)).
  { intros i j _ _. apply e_mid_spec. }
  assert (E2 : eq_on 2 (E_tensor go gd (0 * t) KBending) (curvature_change go gd)).
  { intros i j _ _. now apply e_curv_spec. }
  cbv zeta in S1, S2. rewrite S1 in HN. rewrite S2 in HM. clear S1 S2.
  unfold mvec3, sum3 in *. cbn beta iota in HN, HM. rewrite !E1 in HN by lia. rewrite !E2 in HM by lia.
  rewrite (membrane_sym go gd 1%nat 0%nat) in HN by lia. rewrite (curvature_sym go gd 1%nat 0%nat) in HM by lia.
  unfold voigt_strain. rewrite !vA, !vB, !vC, !vD by lia.
  split; [rewrite <- HN|rewrite <- HM]; field.
Qed.

Lemma strategies_agree d q t m g h : exact_to d q -> (m + 1 <= d)%nat ->
  integrateZ q t m (fun z => g + z * t * h) = multiplyLinZ t m (fun z => g + z * t * h) /\
  multiplyLinZ t m (fun _ => g) = multiplyZ t m (fun _ => g).
Proof.
  intros Hq Hd. split.
  - pose proof (gauss_exact d q t m [g; h] Hq ltac:(cbn; lia)) as H1.
    pose proof (moment_affine g h t m) as H2.
    replace (integrateZ q t m (fun z => g + z * t * h)) with (integrateZ q t m (fun z => poly [g; h] (z * t))).
    + eapply RI_unique; [exact H1|]. unfold is_moment in H2. refine (RI_ext _ _ _ _ _ _ H2). intro x; cbn; ring.
    + rewrite !integrateZ_sum. f_equal. apply map_ext. intros [w z]; cbn. ring.
  - pose proof (multiplyLinZ_affine t m g 0) as H. 
    replace (multiplyLinZ t m (fun _ => g)) with (multiplyLinZ t m (fun z => g + z * t * 0)).
    + rewrite H. unfold multiplyZ, mono. destruct (Nat.odd m), (Nat.odd (m+1)); ring.
    + unfold multiplyLinZ. rewrite !Rmult_0_r, !Rplus_0_r. reflexivity.
Qed.

(* ---- TFT over a linear material ---- *)
Lemma tft_moment_zero E nu go gd mult q t r :
  tft_resultant E nu go gd mult VectorM q t r = Ok 0.
Proof.
  unfold tft_resultant, eval_into; cbn. f_equal. unfold multiplyLinZ, linear_vector; cbn. 
  replace (E_tensor go gd (- (1 / 2) * t) KMembrane) with (E_tensor go gd (1 / 2 * t) KMembrane) by reflexivity. field.
Qed.
Lemma tft_D E nu go mult q t r c :
  tft_resultant_matrix E nu go mult MatrixD q t r c = Ok (mult * (t ^ 3 / 12 * voigt (Cijkl_surface E nu go) r c)).
Proof. unfold tft_resultant_matrix, eval_into; cbn. f_equal. unfold multiplyLinZ, linear_matrix; cbn. field. Qed.

Lemma pstressM_zero q t f : eval_into Constant Constant PStressM q t f = Ok 0.
Proof. reflexivity. Qed.

(* ---- concrete Gauss rules ---- *)
Definition gauss2 : rule := [(1/2, - (1 / (2 * sqrt 3))); (1/2, 1 / (2 * sqrt 3))].
Definition s65 : R := sqrt (6/5).
Definition x4a : R := sqrt (3/7 - 2/7 * s65) / 2.
Definition x4b : R := sqrt (3/7 + 2/7 * s65) / 2.
Definition w4a : R := (18 + 5 * s65) / 72.
Definition w4b : R := (18 - 5 * s65) / 72.
Definition gauss4 : rule := [(w4b, - x4b); (w4a, - x4a); (w4a, x4a); (w4b, x4b)].

Lemma s65_sq : s65 * s65 = 6/5.
Proof. apply sqrt_sqrt. lra. Qed.
Lemma s65_bound : 1 <= s65 <= 3/2.
Proof.
  split.
  - unfold s65. rewrite <- sqrt_1 at 1. apply sqrt_le_1; lra.
  - unfold s65. replace (3/2) with (sqrt (3/2 * (3/2))) by (apply sqrt_square; lra). apply sqrt_le_1; lra.
Qed.
Lemma x4a_sq : x4a * x4a = (3/7 - 2/7 * s65) / 4.
Proof.
  pose proof s65_bound. unfold x4a. replace (sqrt (3 / 7 - 2 / 7 * s65) / 2 * (sqrt (3 / 7 - 2 / 7 * s65) / 2)) with
   ((sqrt (3 / 7 - 2 / 7 * s65) * sqrt (3 / 7 - 2 / 7 * s65)) / 4) by field. rewrite sqrt_sqrt by lra. reflexivity.
Qed.
Lemma x4b_sq : x4b * x4b = (3/7 + 2/7 * s65) / 4.
Proof.
  pose proof s65_bound. unfold x4b. replace (sqrt (3 / 7 + 2 / 7 * s65) / 2 * (sqrt (3 / 7 + 2 / 7 * s65) / 2)) with
   ((sqrt (3 / 7 + 2 / 7 * s65) * sqrt (3 / 7 + 2 / 7 * s65)) / 4) by field. rewrite sqrt_sqrt by lra. reflexivity.
Qed.

Lemma exact_of_mono d q : (forall n, (n <= d)%nat -> qsum q n = mono 1 n) -> exact_to d q.
Proof. intros H n Hn. unfold qsum in H. rewrite (H n Hn). apply is_RInt_mono. Qed.

Lemma gauss4_exact : exact_to 7 gauss4.
Proof.
  apply exact_of_mono. intros n Hn. unfold qsum, gauss4. cbn [map fold_right fst snd].
  pose proof x4a_sq as Ea. pose proof x4b_sq as Eb. pose proof s65_sq as Es.
  set (a := x4a) in *. set (b := x4b) in *. set (s := s65) in *. unfold w4a, w4b. fold s.
  assert (K : forall k, (18 - 5 * s) / 72 * (b * b) ^ k + (18 + 5 * s) / 72 * (a * a) ^ k =
    (18 - 5 * s) / 72 * ((3/7 + 2/7 * s) / 4) ^ k + (18 + 5 * s) / 72 * ((3/7 - 2/7 * s) / 4) ^ k) by (intro k; rewrite Ea, Eb; reflexivity).
  assert (E2 : s ^ 2 = 6/5) by (rewrite <- Es; ring).
  assert (E3 : s ^ 3 = 6/5 * s) by (rewrite <- Es; ring).
  assert (E4 : s ^ 4 = 36/25) by (replace (36/25) with (6/5*(6/5)) by field; rewrite <- Es; ring).
  unfold mono. destruct n as [|[|[|[|[|[|[|[|n]]]]]]]]; [..|lia]; cbn [Nat.odd Nat.even negb INR Nat.add].
  all: try (cbn [pow]; field).
  - transitivity (2 * ((18 - 5 * s) / 72 * (b * b) ^ 1 + (18 + 5 * s) / 72 * (a * a) ^ 1)); [ring|].
    rewrite K. field_simplify. rewrite ?E4, ?E3, ?E2. field.
  - transitivity (2 * ((18 - 5 * s) / 72 * (b * b) ^ 2 + (18 + 5 * s) / 72 * (a * a) ^ 2)); [ring|].
    rewrite K. field_simplify. rewrite ?E4, ?E3, ?E2. field.
  - transitivity (2 * ((18 - 5 * s) / 72 * (b * b) ^ 3 + (18 + 5 * s) / 72 * (a * a) ^ 3)); [ring|].
    rewrite K. field_simplify. rewrite ?E4, ?E3, ?E2. field.
Qed.

Lemma strain_expansion_spec : forall go gd z i j, (i < 2)%nat -> (j < 2)%nat -> regular go -> regular gd ->
  E_tensor go gd z KGeneric i j = kl_strain go gd z i j
    + z * z * (/ 2 * (dot3 (ncov gd i) (ncov gd j) - dot3 (ncov go i) (ncov go j))).
Proof.
  intros. rewrite strain_expansion by assumption. unfold kl_strain. rewrite <- e_mid_spec, <- e_curv_spec by assumption. reflexivity.
Qed.

Lemma pstressM_vs_vectorM : forall q t f, t <> 0 -> f 0 <> 0 ->
  exists v, eval_into Constant Constant VectorM q t f = Ok v /\ v = t ^ 3 / 12 * f 0 /\
  eval_into Constant Constant PStressM q t f <> Ok v.
Proof.
  intros q t f Ht Hf. exists (t ^ 3 / 12 * f 0). repeat split.
  - unfold eval_into; cbn. unfold multiplyZ; cbn. f_equal. field.
  - rewrite pstressM_zero. intro H. injection H as H. symmetry in H. revert H.
    apply Rmult_integral_contrapositive_currified; [|assumption].
    unfold Rdiv. apply Rmult_integral_contrapositive_currified; [exact (pow_nonzero t 3 Ht)|lra].
Qed.

(* flat plate bent in one direction *)
Definition flat_geo : geo := mkGeo (fun i c => delta i c) (fun _ _ => 0).
Definition bent_geo : geo := mkGeo (fun i c => delta i c) (fun k c => if (Nat.eqb k 0 && Nat.eqb c 2)%bool then 1 else 0).

Lemma tft_inconsistent : exists E nu go gd q t r M D,
  (forall c, tft_resultant_matrix E nu go 1 MatrixD q t r c = Ok (D c)) /\
  (forall c, tft_resultant_matrix E nu go 1 MatrixC q t r c = Ok 0) /\
  tft_resultant E nu go gd 1 VectorM q t r = Ok M /\
  M <> sum3 (fun c => D c * voigt_strain (curvature_change go gd) c).
Proof.
  exists 12, 0, flat_geo, bent_geo, [], 1, 0%nat, 0, (fun c => 1 * (1 ^ 3 / 12 * voigt (Cijkl_surface 12 0 flat_geo) 0%nat c)).
  repeat split.
  - intro c. apply tft_D.
  - intro c. unfold tft_resultant_matrix, eval_into; cbn. f_equal. unfold multiplyLinZ, linear_matrix; cbn. field.
  - apply tft_moment_zero.
  - assert (N : forall d, sqrt (dot3 (cross3 (tang flat_geo 0) (tang flat_geo 1)) (cross3 (tang flat_geo 0) (tang flat_geo 1))) = d -> d = 1).
    { intros d <-. replace (dot3 _ _) with 1; [apply sqrt_1|]. cbv [dot3 sum3 cross3 tang flat_geo delta Nat.eqb]. ring. }
    assert (K : forall i j, curvature_change flat_geo bent_geo i j = if (Nat.eqb i 0 && Nat.eqb j 0)%bool then -1 else 0).
    { intros i j. unfold curvature_change, form2, unit_normal.
      change (tang bent_geo) with (tang flat_geo). rewrite (N _ eq_refl).
      destruct i as [|[|i]], j as [|[|j]]; cbv [second_derivative dot3 sum3 cross3 tang der2 flat_geo bent_geo delta Nat.eqb andb]; field. }
    unfold sum3, voigt_strain. rewrite !K. cbn [Nat.eqb andb].
    unfold voigt, Cijkl_surface, Cijkl, Acon, inv2.
    assert (A : forall i j, Acov flat_geo i j = dot3 (delta i) (delta j)) by reflexivity.
    unfold det2. rewrite !A. cbv [dot3 sum3 delta Nat.eqb Cconstant lambda_of mu_of]. intro H. field_simplify in H. lra.
Qed.
