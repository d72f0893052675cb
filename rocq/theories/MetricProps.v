(* Property theorems C01-C04 (metric and kinematics of gsMaterialMatrixBaseDim, dim = 3). *)
From Coq Require Import Reals Lra Lia.
From Verif Require Import Tensor MetricModel MetricSpec MetricProofs.
Open Scope R_scope.

(* C01: the metric used at height z is the Gram matrix of the shell basis used at height z. *)
Theorem C01_metric_is_gram : forall g z, regular g -> is_gram (Gcov g z) (gcov g z).
Proof. exact Gcov_gram. Qed.
Print Assumptions C01_metric_is_gram.

(* C01: closed form of its determinant by mean and Gaussian curvature of the mid-surface. *)
Theorem C01_metric_det_curvature : forall g z, regular g ->
  det3 (Gcov g z) = det2 (Acov g) * (1 - z * (mixedB g 0%nat 0%nat + mixedB g 1%nat 1%nat) + z * z * det2 (mixedB g)) ^ 2.
Proof. exact det_Gcov_curvature. Qed.
Print Assumptions C01_metric_det_curvature.

(* C02: covariant / contravariant bases are dual, Gcon is their Gram matrix and the inverse metric. *)
Theorem C02_bases_dual : forall g z, regular g -> det3 (Gcov g z) <> 0 ->
  dual_bases (gcov g z) (gcon g z) /\ is_gram (Gcon g z) (gcon g z) /\ inverse3 (Gcov g z) (Gcon g z).
Proof. exact shell_dual. Qed.
Print Assumptions C02_bases_dual.

(* C02: the same on the mid-surface: acon is tangential, dual to the tangents, and Acon is its Gram matrix. *)
Theorem C02_midsurface_dual : forall g i j, regular g -> (i < 2)%nat -> (j < 2)%nat ->
  dot3 (acon g i) (tang g j) = delta i j /\ dot3 (acon g i) (acon g j) = Acon g i j /\
  dot3 (acon g i) (cross3 (tang g 0) (tang g 1)) = 0.
Proof.
  intros g i j H Hi Hj. pose proof (det2_Acov_pos g H) as D.
  assert (E : forall u, dot3 (acon g i) u = Acon g i 0%nat * dot3 (tang g 0) u + Acon g i 1%nat * dot3 (tang g 1) u)
    by (intro; unfold acon, dot3, sum3; ring).
  assert (S : Acov g 1%nat 0%nat = Acov g 0%nat 1%nat) by (unfold Acov, dot3, sum3; ring).
  assert (T : forall k, (k < 2)%nat -> dot3 (acon g i) (tang g k) = delta i k).
  { intros k Hk. rewrite E. change (dot3 (tang g 0) (tang g k)) with (Acov g 0%nat k). change (dot3 (tang g 1) (tang g k)) with (Acov g 1%nat k).
    unfold Acon, inv2, delta, det2 in *. destruct i as [|[|i]]; try lia; destruct k as [|[|k]]; try lia; cbn; field; lra. }
  split; [apply T; exact Hj|split].
  - assert (L : forall u, dot3 u (acon g j) = Acon g j 0%nat * dot3 u (tang g 0) + Acon g j 1%nat * dot3 u (tang g 1))
      by (intro; unfold acon, dot3, sum3; ring). rewrite L.
    rewrite !T by lia. unfold Acon, inv2, delta, det2 in *. destruct i as [|[|i]]; try lia; destruct j as [|[|j]]; try lia; cbn; rewrite ?S; ring.
  - rewrite E. unfold dot3, cross3, sum3. cbn. ring.
Qed.
Print Assumptions C02_midsurface_dual.

(* C03: rotations leave both fundamental forms, metric, inverse metric unchanged ... *)
Theorem C03_objectivity : forall Q go gd z, rotation Q -> regular gd ->
  (forall i j, Acov (rotate Q gd) i j = Acov gd i j) /\
  (forall i j, Bcov (rotate Q gd) i j = Bcov gd i j) /\
  (forall i j, Gcov (rotate Q gd) z i j = Gcov gd z i j) /\
  (forall i j, Gcon (rotate Q gd) z i j = Gcon gd z i j) /\
  J0_sq go (rotate Q gd) z = J0_sq go gd z.
Proof.
  exact (fun Q go gd z HQ H => conj (rot_Acov Q gd HQ) (conj (rot_Bcov Q gd HQ H) (conj (rot_Gcov Q gd z HQ H)
    (conj (rot_Gcon Q gd z HQ H) (J0_ext go (rotate Q gd) gd z (rot_Gcov Q gd z HQ H)))))).
Qed.
Print Assumptions C03_objectivity.

(* C03: ... so a rigid motion gives zero strain at every height and area ratio one. *)
Theorem C03_rigid_motion_strain_free : forall Q g z, rotation Q -> regular g ->
  (forall i, strainV g (rotate Q g) z i = 0) /\ J0_sq g (rotate Q g) z = Ok 1.
Proof.
  exact (fun Q g z HQ H => conj (rigid_strain Q g z HQ H)
    (eq_trans (J0_ext g (rotate Q g) g z (rot_Gcov Q g z HQ H)) (J0_id g z))).
Qed.
Print Assumptions C03_rigid_motion_strain_free.

(* C04: J0^2 is the squared area ratio; the guard never fires and no division by zero happens. *)
Theorem C04_J0_is_area_ratio : forall go gd z, regular go -> regular gd ->
  area (gcov go z 0) (gcov go z 1) <> 0 ->
  J0_sq go gd z = Ok ((area (gcov gd z 0) (gcov gd z 1) / area (gcov go z 0) (gcov go z 1)) ^ 2).
Proof. exact J0_area. Qed.
Print Assumptions C04_J0_is_area_ratio.
(* At a height where the undeformed area vanishes the ratio is 1 if the deformed area vanishes too, otherwise the code divides by zero. *)
Theorem C04_caustic : forall go gd z, regular go -> regular gd -> area (gcov go z 0) (gcov go z 1) = 0 ->
  (area (gcov gd z 0) (gcov gd z 1) = 0 -> J0_sq go gd z = Ok 1) /\ (area (gcov gd z 0) (gcov gd z 1) <> 0 -> J0_sq go gd z = UB).
Proof.
  intros go gd z Ho Hd Z. unfold J0_sq. rewrite (det3_Gcov_area go z Ho), (det3_Gcov_area gd z Hd), Z.
  destruct (Req_EM_T (0 * 0) 0) as [_|N]; [|exfalso; apply N; ring]. split; intro B.
  - rewrite B. destruct (Req_EM_T (0 * 0) 0) as [_|N]; [reflexivity|exfalso; apply N; ring].
  - destruct (Req_EM_T _ 0) as [E|_]; [|reflexivity]. exfalso. apply B. apply Rmult_integral in E. tauto.
Qed.
Print Assumptions C04_caustic.

(* ---- the hypotheses are satisfiable: a skew, curved surface point and a quarter turn ---- *)
Definition v3 (x y z : R) : vec := fun i => match i with 0%nat => x | 1%nat => y | _ => z end.
Definition ex_geo : geo := mkGeo
  (fun i => match i with 0%nat => v3 1 0 0 | _ => v3 1 2 0 end)
  (fun i => match i with 0%nat => v3 0 0 1 | 1%nat => v3 0 0 3 | _ => v3 0 0 1 end).
Definition ex_rot : mat := fun i j => match i, j with
  | 0%nat, 1%nat => -1 | 1%nat, 0%nat => 1 | 2%nat, 2%nat => 1 | _, _ => 0 end.

Example ex_geo_regular : regular ex_geo.
Proof. exists 2%nat. split; [lia|]. cbv [ex_geo tang v3 cross3]. lra. Qed.

Example ex_rot_rotation : rotation ex_rot.
Proof.
  split; [|cbv [det3 ex_rot]; lra]. intros i j Hi Hj.
  idx3 i Hi; idx3 j Hj; cbv [mmul3 mtr sum3 ex_rot delta Nat.eqb]; lra.
Qed.

Example ex_geo_det : det3 (Gcov ex_geo (1/2)) <> 0.
Proof.
  rewrite (det_Gcov_curvature _ _ ex_geo_regular).
  assert (N : norm3 (cross3 (tang ex_geo 0) (tang ex_geo 1)) = 2).
  { unfold norm3. replace (dot3 _ _) with (2 * 2) by (cbv [dot3 sum3 ex_geo tang v3 cross3]; ring).
    apply sqrt_square. lra. }
  assert (D : forall k, dot3 (der2 ex_geo k) (normal ex_geo) = der2 ex_geo k 2%nat).
  { intro k. rewrite (normal_eq _ ex_geo_regular), N.
    destruct k as [|[|k]]; cbv [dot3 sum3 ex_geo tang der2 v3 cross3]; field. }
  unfold mixedB, Acon, det2, mixedB, Acon, inv2, Bcov. rewrite !D.
  assert (A : det2 (Acov ex_geo) = 4) by (cbv [det2 Acov dot3 sum3 ex_geo tang v3]; ring).
  rewrite !A. cbv [Acov dot3 sum3 ex_geo tang der2 v3]. lra.
Qed.
