From Coq Require Import Reals Lra Lia.
From Verif Require Import Tensor MetricModel MetricSpec.
Open Scope R_scope.

Lemma dot3_self_nonneg u : 0 <= dot3 u u.
Proof. unf. nra. Qed.

Lemma dot3_self_pos u c : (c < 3)%nat -> u c <> 0 -> 0 < dot3 u u.
Proof.
  intros Hc Hu. assert (H : 0 < Rsqr (u c)) by (apply Rsqr_pos_lt; exact Hu). unfold Rsqr in H.
  idx3 c Hc; unf; nra.
Qed.

Lemma regular_pos g : regular g -> 0 < dot3 (cross3 (tang g 0) (tang g 1)) (cross3 (tang g 0) (tang g 1)).
Proof. intros (c & Hc & H). eapply dot3_self_pos; eauto. Qed.

Lemma lagrange u v : dot3 (cross3 u v) (cross3 u v) = dot3 u u * dot3 v v - dot3 u v * dot3 v u.
Proof. unf. ring. Qed.

Lemma det2_Acov g : det2 (Acov g) = dot3 (cross3 (tang g 0) (tang g 1)) (cross3 (tang g 0) (tang g 1)).
Proof. rewrite lagrange. reflexivity. Qed.

Lemma det2_Acov_pos g : regular g -> 0 < det2 (Acov g).
Proof. intro H. rewrite det2_Acov. now apply regular_pos. Qed.

Lemma dot3_scal_l u v k : dot3 (fun i => u i / k) v = dot3 u v / k.
Proof. unf. unfold Rdiv. ring. Qed.

Lemma normal_eq g : regular g ->
  normal g = fun i => cross3 (tang g 0) (tang g 1) i / norm3 (cross3 (tang g 0) (tang g 1)).
Proof.
  intro H. unfold normal, normalize. destruct Rlt_dec as [h|h]; [reflexivity|].
  exfalso. apply h. now apply regular_pos.
Qed.

Lemma norm_cross_pos g : regular g -> 0 < norm3 (cross3 (tang g 0) (tang g 1)).
Proof. intro H. apply sqrt_lt_R0. now apply regular_pos. Qed.

Lemma norm3_sq u : norm3 u * norm3 u = dot3 u u.
Proof. apply sqrt_sqrt. apply dot3_self_nonneg. Qed.

Lemma normal_unit g : regular g -> dot3 (normal g) (normal g) = 1.
Proof.
  intro H. rewrite (normal_eq _ H). pose proof (norm_cross_pos _ H) as Hp.
  pose proof (norm3_sq (cross3 (tang g 0) (tang g 1))) as E.
  set (c := cross3 (tang g 0) (tang g 1)) in *. set (n := norm3 c) in *.
  replace (dot3 (fun i => c i / n) (fun i => c i / n)) with (dot3 c c / (n * n)) by (unf; field; lra).
  rewrite <- E. field. lra.
Qed.

Lemma normal_orth g i : regular g -> (i < 2)%nat -> dot3 (tang g i) (normal g) = 0.
Proof.
  intros H Hi. rewrite (normal_eq _ H). pose proof (norm_cross_pos _ H) as Hp.
  set (n := norm3 _) in *. idx2 i Hi; unf; field; lra.
Qed.

(* algebraic core, over an abstract invertible symmetric 2x2 metric *)
Lemma mixed_contract (A B : mat) (i j : nat) :
  det2 A <> 0 -> (i < 2)%nat -> (j < 2)%nat ->
  A i 0%nat * (inv2 A 0%nat 0%nat * B 0%nat j + inv2 A 0%nat 1%nat * B 1%nat j)
  + A i 1%nat * (inv2 A 1%nat 0%nat * B 0%nat j + inv2 A 1%nat 1%nat * B 1%nat j) = B i j.
Proof.
  intros Hd Hi Hj. cbv [inv2]. set (d := det2 A) in *.
  assert (E : A 0%nat 0%nat * A 1%nat 1%nat = d + A 0%nat 1%nat * A 1%nat 0%nat) by (unfold d, det2; ring).
  idx2 i Hi; idx2 j Hj; field_simplify_eq; try assumption; nra.
Qed.

Lemma tang_ncov g i j : regular g -> (i < 2)%nat -> (j < 2)%nat -> dot3 (tang g i) (ncov g j) = - Bcov g i j.
Proof.
  intros H Hi Hj.
  rewrite <- (mixed_contract (Acov g) (Bcov g) i j) by (auto; apply Rgt_not_eq; now apply det2_Acov_pos).
  change (inv2 (Acov g)) with (Acon g). unfold ncov, mixedB. generalize (Acon g) as N. intro N.
  unfold Acov. unf. ring.
Qed.

Lemma ncov_normal g i : regular g -> (i < 2)%nat -> dot3 (ncov g i) (normal g) = 0.
Proof.
  intros H Hi. pose proof (normal_orth g 0 H ltac:(lia)) as H0. pose proof (normal_orth g 1 H ltac:(lia)) as H1.
  unfold ncov.
  replace (dot3 _ (normal g)) with (- mixedB g 0%nat i * dot3 (tang g 0) (normal g) - mixedB g 1%nat i * dot3 (tang g 1) (normal g))
    by (unf; ring).
  rewrite H0, H1. ring.
Qed.

Lemma dot3_comm u v : dot3 u v = dot3 v u.
Proof. unf. ring. Qed.

Lemma Bcov_sym g i j : (i < 2)%nat -> (j < 2)%nat -> Bcov g i j = Bcov g j i.
Proof. intros Hi Hj. idx2 i Hi; idx2 j Hj; reflexivity. Qed.

Lemma Gcov_gram g z : regular g -> is_gram (Gcov g z) (gcov g z).
Proof.
  intros H i j Hi Hj.
  assert (HH : forall i j, (i < 2)%nat -> (j < 2)%nat ->
     Acov g i j - 2 * z * Bcov g i j + z * z * dot3 (ncov g i) (ncov g j) =
     dot3 (fun c => tang g i c + z * ncov g i c) (fun c => tang g j c + z * ncov g j c)).
  { clear i j Hi Hj. intros i j Hi Hj.
    replace (dot3 _ (fun c => tang g j c + z * ncov g j c)) with
      (dot3 (tang g i) (tang g j) + z * (dot3 (tang g i) (ncov g j) + dot3 (tang g j) (ncov g i))
       + z * z * dot3 (ncov g i) (ncov g j)) by (unf; ring).
    rewrite (tang_ncov g i j H Hi Hj), (tang_ncov g j i H Hj Hi), (Bcov_sym g j i Hj Hi). unfold Acov. ring. }
  assert (HN : forall i, (i < 2)%nat -> dot3 (fun c => tang g i c + z * ncov g i c) (normal g) = 0).
  { clear i j Hi Hj. intros i Hi.
    replace (dot3 _ (normal g)) with (dot3 (tang g i) (normal g) + z * dot3 (ncov g i) (normal g)) by (unf; ring).
    rewrite (normal_orth g i H Hi), (ncov_normal g i H Hi). ring. }
  idx3 i Hi; idx3 j Hj; unfold Gcov, gcov; try (apply HH; lia).
  - now rewrite HN by lia.
  - now rewrite HN by lia.
  - now rewrite dot3_comm, HN by lia.
  - now rewrite dot3_comm, HN by lia.
  - now rewrite normal_unit.
Qed.

Lemma inv3_right M i j : det3 M <> 0 -> (i < 3)%nat -> (j < 3)%nat -> mmul3 M (inv3 M) i j = delta i j.
Proof.
  intros Hd Hi Hj. unfold mmul3, sum3, inv3. set (d := det3 M) in *.
  assert (E : d = det3 M) by reflexivity. unfold det3 in E.
  idx3 i Hi; idx3 j Hj; unfold delta; simpl Nat.eqb; cbv iota;
    (field_simplify_eq; [ try rewrite E; ring | assumption ]).
Qed.

Lemma inv3_left M i j : det3 M <> 0 -> (i < 3)%nat -> (j < 3)%nat -> mmul3 (inv3 M) M i j = delta i j.
Proof.
  intros Hd Hi Hj. unfold mmul3, sum3, inv3. set (d := det3 M) in *.
  assert (E : d = det3 M) by reflexivity. unfold det3 in E.
  idx3 i Hi; idx3 j Hj; unfold delta; simpl Nat.eqb; cbv iota;
    (field_simplify_eq; [ try rewrite E; ring | assumption ]).
Qed.

Lemma inv3_sym M : (forall i j, (i < 3)%nat -> (j < 3)%nat -> M i j = M j i) ->
  forall i j, (i < 3)%nat -> (j < 3)%nat -> inv3 M i j = inv3 M j i.
Proof.
  intros Hs i j Hi Hj.
  pose proof (Hs 0%nat 1%nat ltac:(lia) ltac:(lia)) as H1.
  pose proof (Hs 0%nat 2%nat ltac:(lia) ltac:(lia)) as H2.
  pose proof (Hs 1%nat 2%nat ltac:(lia) ltac:(lia)) as H3.
  unfold inv3. idx3 i Hi; idx3 j Hj; try reflexivity; rewrite ?H1, ?H2, ?H3; f_equal; ring.
Qed.

Lemma gram_sym M b : is_gram M b -> forall i j, (i < 3)%nat -> (j < 3)%nat -> M i j = M j i.
Proof. intros H i j Hi Hj. rewrite (H i j Hi Hj), (H j i Hj Hi). apply dot3_comm. Qed.

(* duality of a basis b and its contravariant basis built from the inverse Gram matrix *)
Lemma delta_sym i j : delta i j = delta j i.
Proof. unfold delta. now rewrite Nat.eqb_sym. Qed.

Definition conbasis (M : mat) (b : nat -> vec) (j : nat) : vec := fun k =>
  inv3 M j 0%nat * b 0%nat k + inv3 M j 1%nat * b 1%nat k + inv3 M j 2%nat * b 2%nat k.

Lemma dual_of_gram M b : is_gram M b -> det3 M <> 0 -> dual_bases b (conbasis M b).
Proof.
  intros Hg Hd i j Hi Hj. rewrite delta_sym.
  rewrite <- (inv3_left M j i Hd Hj Hi).
  replace (dot3 (b i) _) with (inv3 M j 0%nat * dot3 (b 0%nat) (b i) + inv3 M j 1%nat * dot3 (b 1%nat) (b i)
     + inv3 M j 2%nat * dot3 (b 2%nat) (b i)) by (unfold conbasis; unf; ring).
  rewrite <- !Hg by (assumption || lia). reflexivity.
Qed.

Lemma gram_of_con M b : is_gram M b -> det3 M <> 0 -> is_gram (inv3 M) (conbasis M b).
Proof.
  intros Hg Hd i j Hi Hj.
  replace (dot3 (conbasis M b i) (conbasis M b j)) with
    (inv3 M i 0%nat * dot3 (b 0%nat) (conbasis M b j) + inv3 M i 1%nat * dot3 (b 1%nat) (conbasis M b j)
     + inv3 M i 2%nat * dot3 (b 2%nat) (conbasis M b j)) by (unfold conbasis at 4; unf; ring).
  rewrite !(dual_of_gram M b Hg Hd) by (assumption || lia).
  idx3 j Hj; unfold delta; simpl Nat.eqb; cbv iota; ring.
Qed.

Lemma det3_Gcov g z : det3 (Gcov g z) = det2 (Gcov g z).
Proof. unfold det3, det2, Gcov. ring. Qed.

Lemma det2_gram_cross M b : is_gram M b -> det2 M = dot3 (cross3 (b 0%nat) (b 1%nat)) (cross3 (b 0%nat) (b 1%nat)).
Proof. intro H. rewrite lagrange. unfold det2. now rewrite !H by lia. Qed.

Lemma det3_Gcov_area g z : regular g ->
  det3 (Gcov g z) = area (gcov g z 0) (gcov g z 1) * area (gcov g z 0) (gcov g z 1).
Proof.
  intro H. rewrite det3_Gcov, (det2_gram_cross _ _ (Gcov_gram g z H)). unfold area. now rewrite norm3_sq.
Qed.

Lemma shell_dual g z : regular g -> det3 (Gcov g z) <> 0 ->
  dual_bases (gcov g z) (gcon g z) /\ is_gram (Gcon g z) (gcon g z) /\ inverse3 (Gcov g z) (Gcon g z).
Proof.
  intros H Hd. pose proof (Gcov_gram g z H) as Hg. repeat split.
  - exact (dual_of_gram _ _ Hg Hd).
  - exact (gram_of_con _ _ Hg Hd).
  - intros i j Hi Hj. now apply inv3_right.
Qed.

(* ---- rotations ---- *)
Lemma rot_dot Q u v : rotation Q -> dot3 (mvec3 Q u) (mvec3 Q v) = dot3 u v.
Proof.
  intros [H _].
  pose proof (H 0 0 ltac:(lia) ltac:(lia))%nat as H00. pose proof (H 0 1 ltac:(lia) ltac:(lia))%nat as H01.
  pose proof (H 0 2 ltac:(lia) ltac:(lia))%nat as H02. pose proof (H 1 1 ltac:(lia) ltac:(lia))%nat as H11.
  pose proof (H 1 2 ltac:(lia) ltac:(lia))%nat as H12. pose proof (H 2 2 ltac:(lia) ltac:(lia))%nat as H22.
  clear H. cbv [mmul3 mtr sum3 delta Nat.eqb] in *.
  transitivity (u 0%nat * v 0%nat * 1 + u 1%nat * v 1%nat * 1 + u 2%nat * v 2%nat * 1
    + (u 0%nat * v 1%nat + u 1%nat * v 0%nat) * 0 + (u 0%nat * v 2%nat + u 2%nat * v 0%nat) * 0
    + (u 1%nat * v 2%nat + u 2%nat * v 1%nat) * 0).
  - rewrite <- H00 at 1. rewrite <- H11 at 1. rewrite <- H22 at 1. rewrite <- H01 at 1. rewrite <- H02 at 1.
    rewrite <- H12 at 1. unf. ring.
  - unf. ring.
Qed.

Lemma rot_triple Q u v w : det3 Q = 1 ->
  dot3 (mvec3 Q w) (cross3 (mvec3 Q u) (mvec3 Q v)) = dot3 w (cross3 u v).
Proof.
  intro H. transitivity (det3 Q * dot3 w (cross3 u v)); [unf; ring | rewrite H; ring].
Qed.

Lemma rot_cross_sq Q u v : rotation Q ->
  dot3 (cross3 (mvec3 Q u) (mvec3 Q v)) (cross3 (mvec3 Q u) (mvec3 Q v)) = dot3 (cross3 u v) (cross3 u v).
Proof. intro H. now rewrite !lagrange, !(rot_dot Q) by assumption. Qed.

Lemma rot_regular Q g : rotation Q -> regular g -> regular (rotate Q g).
Proof.
  intros HQ H. pose proof (regular_pos g H) as Hp.
  rewrite <- (rot_cross_sq Q _ _ HQ) in Hp.
  change (0 < dot3 (cross3 (tang (rotate Q g) 0) (tang (rotate Q g) 1)) (cross3 (tang (rotate Q g) 0) (tang (rotate Q g) 1))) in Hp.
  unfold regular. set (c := cross3 _ _) in *.
  destruct (Req_dec (c 0%nat) 0) as [e0|n0]; [|exists 0%nat; split; [lia|assumption]].
  destruct (Req_dec (c 1%nat) 0) as [e1|n1]; [|exists 1%nat; split; [lia|assumption]].
  destruct (Req_dec (c 2%nat) 0) as [e2|n2]; [|exists 2%nat; split; [lia|assumption]].
  exfalso. unfold dot3, sum3 in Hp. rewrite e0, e1, e2 in Hp. lra.
Qed.

Lemma rot_Acov Q g : rotation Q -> forall i j, Acov (rotate Q g) i j = Acov g i j.
Proof. intros H i j. unfold Acov, rotate; simpl. now apply rot_dot. Qed.

Lemma rot_Bcov Q g : rotation Q -> regular g -> forall i j, Bcov (rotate Q g) i j = Bcov g i j.
Proof.
  intros HQ H. pose proof (rot_regular Q g HQ H) as H'.
  assert (D : forall k, dot3 (der2 (rotate Q g) k) (normal (rotate Q g)) = dot3 (der2 g k) (normal g)).
  { intro k. rewrite (normal_eq _ H), (normal_eq _ H').
    rewrite (dot3_comm (der2 (rotate Q g) k)), (dot3_comm (der2 g k)), !dot3_scal_l.
    unfold norm3. unfold rotate; cbn [tang der2].
    rewrite (rot_cross_sq Q _ _ HQ). f_equal.
    rewrite dot3_comm, (dot3_comm (cross3 (tang g 0%nat) _)). apply rot_triple. exact (proj2 HQ). }
  intros i j. unfold Bcov. destruct i as [|[|i]]; destruct j as [|[|j]]; apply D.
Qed.

Lemma det2_ext M N : eq_on 2 M N -> det2 M = det2 N.
Proof. intro H. unfold det2. now rewrite !H by lia. Qed.

Lemma det3_ext M N : eq_on 3 M N -> det3 M = det3 N.
Proof. intro H. unfold det3. now rewrite !H by lia. Qed.

Lemma inv2_ext M N : eq_on 2 M N -> forall i j, inv2 M i j = inv2 N i j.
Proof.
  intros H i j. unfold inv2. rewrite (det2_ext M N H), !H by lia. reflexivity.
Qed.

Lemma inv3_ext M N : eq_on 3 M N -> forall i j, inv3 M i j = inv3 N i j.
Proof.
  intros H i j. unfold inv3. rewrite (det3_ext M N H), !H by lia. reflexivity.
Qed.

Lemma ncov_dot g i j : dot3 (ncov g i) (ncov g j) =
  mixedB g 0%nat i * mixedB g 0%nat j * Acov g 0%nat 0%nat + mixedB g 0%nat i * mixedB g 1%nat j * Acov g 0%nat 1%nat
  + mixedB g 1%nat i * mixedB g 0%nat j * Acov g 1%nat 0%nat + mixedB g 1%nat i * mixedB g 1%nat j * Acov g 1%nat 1%nat.
Proof. unfold ncov, Acov. unf. ring. Qed.

Lemma mixedB_ext g h : (forall i j, Acov g i j = Acov h i j) -> (forall i j, Bcov g i j = Bcov h i j) ->
  forall i j, mixedB g i j = mixedB h i j.
Proof.
  intros HA HB i j. unfold mixedB, Acon. rewrite !HB, !(inv2_ext (Acov g) (Acov h)) by (intros ? ? _ _; apply HA). reflexivity.
Qed.

(* the metric at every height is a function of the two fundamental forms *)
Lemma Gcov_ext g h z : (forall i j, Acov g i j = Acov h i j) -> (forall i j, Bcov g i j = Bcov h i j) ->
  forall i j, Gcov g z i j = Gcov h z i j.
Proof.
  intros HA HB i j. pose proof (mixedB_ext g h HA HB) as HM.
  unfold Gcov. destruct i as [|[|[|i]]]; destruct j as [|[|[|j]]]; try reflexivity;
    rewrite !ncov_dot, !HA, !HB, !HM; reflexivity.
Qed.

Lemma rot_Gcov Q g z : rotation Q -> regular g -> forall i j, Gcov (rotate Q g) z i j = Gcov g z i j.
Proof. intros HQ H. apply Gcov_ext; [now apply rot_Acov | now apply rot_Bcov]. Qed.

Lemma rot_Gcon Q g z : rotation Q -> regular g -> forall i j, Gcon (rotate Q g) z i j = Gcon g z i j.
Proof. intros HQ H i j. unfold Gcon. apply inv3_ext. intros a b _ _. now apply rot_Gcov. Qed.

Lemma J0_ext go gd hd z : (forall i j, Gcov gd z i j = Gcov hd z i j) -> J0_sq go gd z = J0_sq go hd z.
Proof.
  intro H. unfold J0_sq. rewrite (det3_ext (Gcov gd z) (Gcov hd z)) by (intros ? ? _ _; apply H). reflexivity.
Qed.

Lemma rigid_strain Q g z : rotation Q -> regular g -> forall i, strainV g (rotate Q g) z i = 0.
Proof.
  intros HQ H i. unfold strainV. rewrite !(rot_Gcov Q g z HQ H).
  destruct i as [|[|i]]; lra.
Qed.

Lemma J0_id g z : J0_sq g g z = Ok 1.
Proof.
  unfold J0_sq. destruct (Req_EM_T (det3 (Gcov g z)) 0) as [e|n]; [reflexivity|].
  replace (det3 (Gcov g z) / det3 (Gcov g z)) with 1 by (field; assumption).
  destruct (Rle_dec 0 1); [reflexivity | lra].
Qed.

Lemma J0_area go gd z : regular go -> regular gd -> area (gcov go z 0) (gcov go z 1) <> 0 ->
  J0_sq go gd z = Ok ((area (gcov gd z 0) (gcov gd z 1) / area (gcov go z 0) (gcov go z 1)) ^ 2).
Proof.
  intros Ho Hd Ha. unfold J0_sq.
  rewrite (det3_Gcov_area go z Ho), (det3_Gcov_area gd z Hd).
  set (A := area (gcov go z 0) (gcov go z 1)) in *. set (B := area (gcov gd z 0) (gcov gd z 1)) in *.
  destruct (Req_EM_T (A * A) 0) as [e|n]; [exfalso; apply Ha; nra|].
  assert (E : B * B / (A * A) = (B / A) ^ 2) by (field; assumption).
  destruct (Rle_dec 0 (B * B / (A * A))) as [h|h]; [now rewrite E|].
  exfalso. apply h. rewrite E. apply pow2_ge_0.
Qed.

(* determinant of the metric at height z in terms of mean and Gaussian curvature *)
Lemma det_Gcov_curvature g z : regular g ->
  det3 (Gcov g z) = det2 (Acov g) * (1 - z * (mixedB g 0%nat 0%nat + mixedB g 1%nat 1%nat) + z * z * det2 (mixedB g)) ^ 2.
Proof.
  intro H. rewrite det3_Gcov. pose proof (det2_Acov_pos g H) as Hd.
  assert (S : Acov g 1%nat 0%nat = Acov g 0%nat 1%nat) by (unfold Acov; apply dot3_comm).
  assert (HB : forall i j, (i < 2)%nat -> (j < 2)%nat ->
     Acov g i 0%nat * mixedB g 0%nat j + Acov g i 1%nat * mixedB g 1%nat j = Bcov g i j).
  { intros i j Hi Hj. apply mixed_contract; auto; lra. }
  unfold det2 at 1. unfold Gcov.
  rewrite !ncov_dot.
  pose proof (HB 0%nat 0%nat ltac:(lia) ltac:(lia)) as B00. pose proof (HB 0%nat 1%nat ltac:(lia) ltac:(lia)) as B01.
  pose proof (HB 1%nat 0%nat ltac:(lia) ltac:(lia)) as B10. pose proof (HB 1%nat 1%nat ltac:(lia) ltac:(lia)) as B11.
  pose proof (Bcov_sym g 1 0 ltac:(lia) ltac:(lia)) as Bs.
  rewrite <- B10, <- B01 in Bs. rewrite <- B00, <- B01, <- B10, <- B11. rewrite !S in *. unfold det2.
  generalize dependent (mixedB g). intros W _ _ _ _ _ Bs.
  set (a := Acov g 0%nat 0%nat) in *. set (b := Acov g 0%nat 1%nat) in *. set (c := Acov g 1%nat 1%nat) in *.
  set (p := W 0%nat 0%nat) in *. set (q := W 0%nat 1%nat) in *. set (r := W 1%nat 0%nat) in *. set (s := W 1%nat 1%nat) in *.
  replace (2 * z * (a * q + b * s)) with (z * ((a * q + b * s) + (b * p + c * r))) by (rewrite Bs; ring).
  replace (2 * z * (b * p + c * r)) with (z * ((a * q + b * s) + (b * p + c * r))) by (rewrite Bs; ring).
  rewrite S. ring.
Qed.
