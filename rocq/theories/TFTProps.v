(* Property theorems C32-C38 and C82-C86 (tension-field material). *)
From Coq Require Import Reals Lra Lia List Bool Arith Psatz.
From Coquelicot Require Import Coquelicot.
From Verif Require Import Tensor MetricModel LinearModel BatchModel TFTModel TFTSpec TFTProofs TFTRoot.
Import ListNotations.
Open Scope R_scope.

(* C32: no stress in the wrinkling direction, for every angle ... *)
Theorem C32_no_normal_stress : forall th C S, quad (n1v th) C (n1v th) <> 0 ->
  along (stress_tensor (compute_S th C S)) (wdir th) (wdir th) = 0.
Proof. exact no_normal_stress. Qed.
Print Assumptions C32_no_normal_stress.
(* ... uniaxial exactly at the roots of the wrinkling equation ... *)
Theorem C32_uniaxial_iff_root : forall th C S, quad (n1v th) C (n1v th) <> 0 ->
  ((exists s, uniaxial (compute_S th C S) th s) <-> objf C S th = 0).
Proof. exact uniaxial_iff. Qed.
Print Assumptions C32_uniaxial_iff_root.
(* ... the strain changes by gamma n (x) n, the stress by C applied to that change, and gamma is the only possible value. *)
Theorem C32_wrinkling_strain : forall th C S E,
  (forall a b, (a < 2)%nat -> (b < 2)%nat ->
     strain_tensor (compute_E th C S E) a b = strain_tensor E a b + gamma th C S * wdir th a * wdir th b) /\
  (forall i, compute_S th C S i - S i = sum3 (fun j => C i j * (compute_E th C S E j - E j))).
Proof. intros; split; intros; [apply strain_change; assumption|apply stress_of_strain]. Qed.
Print Assumptions C32_wrinkling_strain.
Theorem C32_gamma_unique : forall th C S g, quad (n1v th) C (n1v th) <> 0 ->
  along (stress_tensor (fun i => S i + g * mvec3 C (n1v th) i)) (wdir th) (wdir th) = 0 -> g = gamma th C S.
Proof. exact gamma_unique. Qed.
Print Assumptions C32_gamma_unique.

(* C33 *)
Theorem C33_theta_derivative : forall th C S, sym3 C -> quad (n1v th) C (n1v th) <> 0 ->
  is_derive (objf C S) th (dfdT th C S - 2 * quad (n2v th) C (n1v th) / quad (n1v th) C (n1v th) * objf C S th).
Proof. exact dfdT_derivative. Qed.
Print Assumptions C33_theta_derivative.
Theorem C33_exact_at_root : forall th C S, sym3 C -> quad (n1v th) C (n1v th) <> 0 -> objf C S th = 0 ->
  is_derive (objf C S) th (dfdT th C S) /\ objf_deriv C S th = dfdT th C S.
Proof.
  intros th C S HS HD F. split; [|apply deriv_into2_eq; exact HD].
  evar_last; [apply C33_theta_derivative; assumption|]. rewrite F. ring.
Qed.
Print Assumptions C33_exact_at_root.
(* away from a root objective::deriv_into2 is not the derivative *)
Theorem C33_off_root_refuted : exists th C S, sym3 C /\ posdef3 C /\ ~ is_derive (objf C S) th (objf_deriv C S th).
Proof.
  exists 0. exists (fun i j => match i, j with 0%nat, 0%nat => 2 | 1%nat, 1%nat => 2 | 2%nat, 2%nat => 1
     | 0%nat, 2%nat => 1 | 2%nat, 0%nat => 1 | _, _ => 0 end). exists (v3 0 0 1).
  set (C := fun i j => _).
  assert (HS : sym3 C). { intros i j Hi Hj. three i Hi; three j Hj; reflexivity. }
  assert (HP : posdef3 C).
  { intros v Hv. unfold C, sum3.
    match goal with |- 0 < ?e => replace e with (v 0%nat * v 0%nat + 2 * (v 1%nat * v 1%nat) + (v 0%nat + v 2%nat) * (v 0%nat + v 2%nat)) by ring end.
    generalize (Rle_0_sqr (v 0%nat)) (Rle_0_sqr (v 1%nat)) (Rle_0_sqr (v 0%nat + v 2%nat)). unfold Rsqr. intros.
    destruct (Req_dec (v 0%nat) 0) as [A|A].
    - destruct (Req_dec (v 1%nat) 0) as [B|B].
      + destruct Hv as [Hv|[Hv|Hv]]; try contradiction. rewrite A, B. generalize (Rsqr_pos_lt _ Hv). unfold Rsqr. lra.
      + generalize (Rsqr_pos_lt _ B). unfold Rsqr. lra.
    - generalize (Rsqr_pos_lt _ A). unfold Rsqr. lra. }
  split; [exact HS|]. split; [exact HP|]. intro K.
  assert (D : quad (n1v 0) C (n1v 0) <> 0) by (generalize (posdef_D C 0 HP); lra).
  assert (K2 := dfdT_derivative 0 C (v3 0 0 1) HS D).
  rewrite deriv_into2_eq in K by exact D.
  assert (E := is_derive_unique _ _ _ K). rewrite (is_derive_unique _ _ _ K2) in E.
  assert (Q2 : quad (n2v 0) C (n1v 0) = 1) by (unfold n1v, n2v, C; t3; rewrite sin_0, cos_0; ring).
  assert (Q1 : quad (n1v 0) C (n1v 0) = 2) by (unfold n1v, C; t3; rewrite sin_0, cos_0; ring).
  assert (F : objf C (v3 0 0 1) 0 = 1).
  { unfold objf, gamma. rewrite Q1, Q2. unfold n1v, n2v. t3. rewrite sin_0, cos_0. field. }
  rewrite Q1, Q2, F in E. lra.
Qed.
Print Assumptions C33_off_root_refuted.

(* C34: along every path of wrinkled states of a linear inner material, the derivative of the returned stress is the
   returned tangent minus an explicit coupling term ... *)
Theorem C34_tangent_up_to_coupling : forall C S0 H th, sym3 C -> ex_derive th 0 ->
  locally 0 (fun t => objf C (lin_stress C S0 H t) (th t) = 0) ->
  quad (n1v (th 0)) C (n1v (th 0)) <> 0 -> dfdT (th 0) C S0 <> 0 ->
  forall i, (i < 3)%nat -> is_derive (fun t => compute_S (th t) C (lin_stress C S0 H t) i) 0
    (sum3 (fun j => (compute_C_lin (th 0) C S0 i j - coupling_term (th 0) C S0 i j) * H j)).
Proof. exact lin_tangent. Qed.
Print Assumptions C34_tangent_up_to_coupling.
(* ... which vanishes exactly when n2.C.n1 = 0 or gamma = 0 ... *)
Theorem C34_exact_iff_no_coupling : forall T C S, posdef3 C -> dfdT T C S <> 0 ->
  ((forall i j, (i < 3)%nat -> (j < 3)%nat -> coupling_term T C S i j = 0) <->
   (quad (n2v T) C (n1v T) = 0 \/ gamma T C S = 0)).
Proof.
  intros T C S HP HF. apply coupling_iff; [apply posdef_injective; exact HP| |exact HF].
  generalize (posdef_D C T HP). lra.
Qed.
Print Assumptions C34_exact_iff_no_coupling.
(* ... as it does, for every angle, for an isotropic material in an orthonormal parametrisation ... *)
Theorem C34_orthonormal_isotropic : forall T E nu, quad (n2v T) (voigt (Cijkl E nu delta)) (n1v T) = 0.
Proof.
  intros. unfold n1v, n2v, voigt, Cijkl, delta. t3. cbn. ring.
Qed.
Print Assumptions C34_orthonormal_isotropic.
(* ... but not in a skewed one: an accepted wrinkled state of the St.Venant-Kirchhoff material where the tangent is wrong. *)
Theorem C34_tangent_refuted : exists E nu (A : mat) (S0 H : vec) (i : nat) d,
  0 < det2 A /\ 0 < A 0%nat 0%nat /\ A 0%nat 1%nat = A 1%nat 0%nat /\ (i < 3)%nat /\
  let C := voigt (Cijkl E nu A) in
  (forall k, (k < 3)%nat -> S0 k = sum3 (fun j => C k j * H j)) /\
  (forall t, objf C (lin_stress C S0 H t) 0 = 0) /\ check_full 0 S0 H = true /\
  is_derive (fun t => compute_S 0 C (lin_stress C S0 H t) i) 0 d /\
  d <> sum3 (fun j => compute_C_lin 0 C S0 i j * H j).
Proof.
  exists 1, 0. exists (fun i j => match i, j with 0%nat, 0%nat => 1 | 1%nat, 1%nat => 2 | _, _ => 1 end).
  set (A := fun i j => _).
  exists (v3 (-1/100) (5/100) (-1/100)), (v3 (5/100) (6/100) (-12/100)), 1%nat, (6/100).
  split; [unfold det2, A; lra|]. split; [unfold A; lra|]. split; [reflexivity|]. split; [lia|].
  cbv zeta. set (C := voigt (Cijkl 1 0 A)).
  assert (C00 : C 0%nat 0%nat = 1) by (unfold C, voigt, Cijkl, A, mu_of, Cconstant, lambda_of, mu_of; field; lra).
  assert (C01 : C 0%nat 1%nat = 1) by (unfold C, voigt, Cijkl, A, mu_of, Cconstant, lambda_of, mu_of; field; lra).
  assert (C02 : C 0%nat 2%nat = 1) by (unfold C, voigt, Cijkl, A, mu_of, Cconstant, lambda_of, mu_of; field; lra).
  assert (C11 : C 1%nat 1%nat = 4) by (unfold C, voigt, Cijkl, A, mu_of, Cconstant, lambda_of, mu_of; field; lra).
  assert (C12 : C 1%nat 2%nat = 2) by (unfold C, voigt, Cijkl, A, mu_of, Cconstant, lambda_of, mu_of; field; lra).
  assert (C22 : C 2%nat 2%nat = 3/2) by (unfold C, voigt, Cijkl, A, mu_of, Cconstant, lambda_of, mu_of; field; lra).
  assert (C10 : C 1%nat 0%nat = 1) by (rewrite <- C01; reflexivity).
  assert (C20 : C 2%nat 0%nat = 1) by (rewrite <- C02; reflexivity).
  assert (C21 : C 2%nat 1%nat = 2) by (rewrite <- C12; reflexivity).
  clearbody C. clear A.
  assert (D : quad (n1v 0) C (n1v 0) = 1) by (unfold n1v; t3; rewrite sin_0, cos_0, C00, C01, C02, C10, C11, C12, C20, C21, C22; ring).
  assert (K : quad (n2v 0) C (n1v 0) = 1) by (unfold n1v, n2v; t3; rewrite sin_0, cos_0, C00, C01, C02, C10, C11, C12, C20, C21, C22; ring).
  assert (K4 : quad (n4v 0) C (n1v 0) = 1) by (unfold n1v, n4v; t3; rewrite sin_0, cos_0, C00, C01, C02, C10, C11, C12, C20, C21, C22; ring).
  assert (K2 : quad (n2v 0) C (n2v 0) = 3/2) by (unfold n2v; t3; rewrite sin_0, cos_0, C00, C01, C02, C10, C11, C12, C20, C21, C22; ring).
  split.
  { intros k Hk. three k Hk; unfold v3, sum3; rewrite ?C00, ?C01, ?C02, ?C10, ?C11, ?C12, ?C20, ?C21, ?C22; lra. }
  split.
  { intro t. unfold objf, gamma. rewrite D, K. unfold lin_stress, n1v, n2v. t3.
    rewrite sin_0, cos_0, C00, C01, C02, C10, C11, C12, C20, C21, C22. field. }
  split.
  { unfold check_full, n1v, n4v. t3. rewrite sin_0, cos_0.
    destruct (Rlt_dec _ 0) as [_|L]; [|exfalso; apply L; lra]. destruct (Rlt_dec 0 _) as [_|L]; [reflexivity|exfalso; apply L; lra]. }
  split.
  { unfold compute_S, gamma. rewrite D. unfold lin_stress, n1v. t3. rewrite sin_0, cos_0, C00, C01, C02, C10, C11, C12, C20, C21, C22.
    auto_derive; [exact I|field]. }
  assert (G : gamma 0 C (v3 (-1/100) (5/100) (-1/100)) = 1/100).
  { unfold gamma. rewrite D. unfold n1v. t3. rewrite sin_0, cos_0. field. }
  assert (GT : dgammadT 0 C (v3 (-1/100) (5/100) (-1/100)) = -2/100).
  { unfold dgammadT, tmpc. rewrite G, D, K. field. }
  assert (FT : dfdT 0 C (v3 (-1/100) (5/100) (-1/100)) = 7/100).
  { unfold dfdT. rewrite GT, G, K, K2, K4. unfold n4v. t3. rewrite sin_0, cos_0. field. }
  unfold compute_C_lin, dn1_lin, dTdE_lin, dfdE_lin, dgammadE_lin. rewrite G, GT, FT, D, K. unfold n1v, n2v. t3.
  rewrite sin_0, cos_0, C00, C01, C02, C10, C11, C12, C20, C21, C22. lra.
Qed.
Print Assumptions C34_tangent_refuted.

(* C83: any other inner material: the returned tangent is the transpose of the derivative of the returned stress ... *)
Theorem C83_tangent_is_transposed : forall C0 dC H th Ct St,
  sym3 C0 -> (forall i j d, (i < 3)%nat -> (j < 3)%nat -> (d < 3)%nat -> dC i j d = dC d j i) ->
  path objroot C0 dC H th Ct St ->
  quad (n1v (th 0)) C0 (n1v (th 0)) <> 0 -> dfdT (th 0) C0 (St 0) <> 0 ->
  forall i, (i < 3)%nat -> is_derive (fun x => compute_S (th x) (Ct x) (St x) i) 0
    (sum3 (fun j => compute_C_gen (th 0) C0 (St 0) dC j i * H j)).
Proof. exact gen_tangent_transposed. Qed.
Print Assumptions C83_tangent_is_transposed.

(* ... an energy-consistent material (C11 depends on E22, C12 on E11) where the two differ. *)
Definition wC0 : mat := fun i j => if Nat.eqb i j then 1 else 0.
Definition wdC : ten3 := fun i j d => match i, j, d with
  | 0%nat, 0%nat, 1%nat => 1 | 0%nat, 1%nat, 0%nat => 1 | 1%nat, 0%nat, 0%nat => 1 | _, _, _ => 0 end.
Definition wH : vec := v3 1 0 0.
Definition wCt (t : R) : mat := fun i j => wC0 i j + t * sum3 (fun d => wdC i j d * wH d).
Definition wSt (t : R) : vec := v3 (-1 + t) (1 + t * t / 2) 0.
Lemma w_path : path objroot wC0 wdC wH (fun _ => 0) wCt wSt.
Proof.
  constructor.
  - intros. unfold wCt. ring.
  - intros. unfold wCt. generalize (sum3 (fun d => wdC i j d * wH d)) (wC0 i j). intros u w. auto_derive; [exact I|ring].
  - intros i Hi. three i Hi; unfold wSt, wC0, wH, v3, sum3; cbn; (auto_derive; [exact I|field]).
  - apply ex_derive_const.
  - exists (mkposreal 1 Rlt_0_1). intros t _. unfold objroot, objf, gamma, n1v, n2v, wCt, wC0, wdC, wH, wSt. t3.
    rewrite sin_0, cos_0. cbn. field.
Qed.
Lemma w_values : quad (n1v 0) wC0 (n1v 0) = 1 /\ gamma 0 wC0 (wSt 0) = 1 /\ dfdT 0 wC0 (wSt 0) = 3.
Proof.
  assert (D : quad (n1v 0) wC0 (n1v 0) = 1) by (unfold n1v, wC0; t3; rewrite sin_0, cos_0; cbn; ring).
  assert (G : gamma 0 wC0 (wSt 0) = 1). { unfold gamma. rewrite D. unfold n1v, wSt. t3. rewrite sin_0, cos_0. field. }
  split; [exact D|]. split; [exact G|].
  unfold dfdT, dgammadT, tmpc. rewrite G, D. unfold n1v, n2v, n4v, wC0, wSt. t3. rewrite sin_0, cos_0. cbn. field.
Qed.
Theorem C83_tangent_refuted : exists C0 dC H th Ct St i d,
  sym3 C0 /\ (forall i j d, (i < 3)%nat -> (j < 3)%nat -> (d < 3)%nat -> dC i j d = dC d j i /\ dC i j d = dC j i d) /\
  path objroot C0 dC H th Ct St /\ 0 < quad (n1v (th 0)) C0 (n1v (th 0)) /\ 0 < dfdT (th 0) C0 (St 0) /\
  is_derive (fun x => compute_S (th x) (Ct x) (St x) i) 0 d /\
  d <> sum3 (fun j => compute_C_gen (th 0) C0 (St 0) dC i j * H j).
Proof.
  exists wC0, wdC, wH, (fun _ => 0), wCt, wSt, 1%nat, 1.
  destruct w_values as (D & G & F).
  assert (SY : sym3 wC0). { intros i j Hi Hj. three i Hi; three j Hj; reflexivity. }
  assert (SD : forall i j d, (i < 3)%nat -> (j < 3)%nat -> (d < 3)%nat -> wdC i j d = wdC d j i /\ wdC i j d = wdC j i d).
  { intros i j d Hi Hj Hd. three i Hi; three j Hj; three d Hd; split; reflexivity. }
  split; [exact SY|]. split; [exact SD|]. split; [exact w_path|]. split; [rewrite D; lra|]. split; [rewrite F; lra|].
  split.
  - evar_last.
    + apply (C83_tangent_is_transposed wC0 wdC wH (fun _ => 0) wCt wSt SY (fun i j d a b c => proj1 (SD i j d a b c)) w_path);
      [rewrite D; lra|rewrite F; lra|lia].
    + unfold compute_C_gen, dn1_gen, dTdE_gen, dfdE_gen, dgammadE_gen, dgammadT, tmpc. rewrite D, G, F.
      unfold dCN1, n1v, n2v, wC0, wdC, wH. t3. rewrite sin_0, cos_0. cbn. field.
  - unfold compute_C_gen, dn1_gen, dTdE_gen, dfdE_gen, dgammadE_gen, dgammadT, tmpc. rewrite D, G, F.
    unfold dCN1, n1v, n2v, wC0, wdC, wH. t3. rewrite sin_0, cos_0. cbn. lra.
Qed.
Print Assumptions C83_tangent_refuted.

(* C35: each column of the result is the classification's value of that column alone ... *)
Definition classified {A} (tf : R) (value scaled : A) (wr : A -> Prop) (r : A) : Prop :=
  (tf = 1 /\ r = value) \/ (tf = -1 /\ r = scaled) \/ (tf = 0 /\ wr r).

Theorem C35_stress_columns : forall TF mult n m C1 E1 theta s r,
  tft_loop n m (stress_at TF mult n C1 E1 theta) s = Ok r ->
  forall k j, (k < n)%nat -> (j < m)%nat -> let c := colIdx n k j in
    classified (TF c) (s c) (fun i => s c i * mult)
      (fun v => exists th, theta (C1 k j) (s c) (E1 k j) = Ok th /\ v = compute_S th (C1 k j) (s c)) (r c).
Proof.
  intros TF mult n m C1 E1 theta s r E k j Hk Hj c.
  destruct (dispatch_cases _ _ _ _ _ _ (tft_loop_pointwise n m _ s r E k j Hk Hj)) as [H|[H|(Z & H)]];
    [left; exact H|right; left; exact H|right; right; split; [exact Z|]].
  fold c in H. destruct (theta (C1 k j) (s c) (E1 k j)) as [th| |]; cbn in H; try discriminate.
  exists th. split; [reflexivity|]. injection H as H. symmetry. exact H.
Qed.
Print Assumptions C35_stress_columns.
Theorem C35_strain_columns : forall TF mult n m C1 N1 E1 theta s r,
  tft_loop n m (strain_at TF mult n C1 N1 E1 theta) s = Ok r ->
  forall k j, (k < n)%nat -> (j < m)%nat -> let c := colIdx n k j in
    classified (TF c) (s c) (fun i => s c i * mult)
      (fun v => exists th, theta (C1 k j) (N1 k j) (E1 k j) = Ok th /\ v = compute_E th (C1 k j) (N1 k j) (E1 k j)) (r c).
Proof.
  intros TF mult n m C1 N1 E1 theta s r E k j Hk Hj c.
  destruct (dispatch_cases _ _ _ _ _ _ (tft_loop_pointwise n m _ s r E k j Hk Hj)) as [H|[H|(Z & H)]];
    [left; exact H|right; left; exact H|right; right; split; [exact Z|]].
  destruct (theta (C1 k j) (N1 k j) (E1 k j)) as [th| |]; cbn in H; try discriminate.
  exists th. split; [reflexivity|]. injection H as H. symmetry. exact H.
Qed.
Print Assumptions C35_strain_columns.
Theorem C35_matrix_columns : forall TF mult n m N1 E1 theta s r,
  tft_loop n m (matrix_lin_at TF mult n N1 E1 theta) s = Ok r ->
  forall k j, (k < n)%nat -> (j < m)%nat -> let c := colIdx n k j in
    classified (TF c) (s c) (fun i j => s c i j * mult)
      (fun v => exists th, theta (s c) (N1 k j) (E1 k j) = Ok th /\ v = compute_C_lin th (s c) (N1 k j)) (r c).
Proof.
  intros TF mult n m N1 E1 theta s r E k j Hk Hj c.
  destruct (dispatch_cases _ _ _ _ _ _ (tft_loop_pointwise n m _ s r E k j Hk Hj)) as [H|[H|(Z & H)]];
    [left; exact H|right; left; exact H|right; right; split; [exact Z|]].
  fold c in H. destruct (theta (s c) (N1 k j) (E1 k j)) as [th| |]; cbn in H; try discriminate.
  exists th. split; [reflexivity|]. injection H as H. symmetry. exact H.
Qed.
Print Assumptions C35_matrix_columns.
(* ... the other inner materials and the principal values *)
Theorem C35_general_matrix_columns : forall TF mult n m N1 E1 dC1 theta s r,
  tft_loop n m (matrix_gen_at TF mult n N1 E1 dC1 theta) s = Ok r ->
  forall k j, (k < n)%nat -> (j < m)%nat -> let c := colIdx n k j in
    classified (TF c) (s c) (fun i j => s c i j * mult)
      (fun v => exists th dCE, theta (s c) (N1 k j) (E1 k j) = Ok th /\ (forall a b d, dCE a b d = 2 * dC1 k j a b d) /\ v = compute_C_gen th (s c) (N1 k j) dCE) (r c).
Proof.
  intros TF mult n m N1 E1 dC1 theta s r E k j Hk Hj c.
  destruct (dispatch_cases _ _ _ _ _ _ (tft_loop_pointwise n m _ s r E k j Hk Hj)) as [H|[H|(Z & H)]];
    [left; exact H|right; left; exact H|right; right; split; [exact Z|]].
  fold c in H. destruct (theta (s c) (N1 k j) (E1 k j)) as [th| |]; cbn in H; try discriminate.
  exists th, (fun a b d => dC1 k j a b d * 2). split; [reflexivity|]. split. intros; ring. injection H as H. symmetry. exact H.
Qed.
Print Assumptions C35_general_matrix_columns.
(* the wrinkled columns of the principal stresses and strains are those of the inner material *)
Theorem C35_principal_columns : forall TF mult n m s r, tft_loop n m (principal_at TF mult n) s = Ok r ->
  forall k j, (k < n)%nat -> (j < m)%nat -> let c := colIdx n k j in classified (TF c) (s c) (fun i => s c i * mult) (fun v => v = s c) (r c).
Proof.
  intros TF mult n m s r E k j Hk Hj c.
  destruct (dispatch_cases _ _ _ _ _ _ (tft_loop_pointwise n m _ s r E k j Hk Hj)) as [H|[H|(Z & H)]];
    [left; exact H|right; left; exact H|right; right; split; [exact Z|]].
  injection H as H. symmetry. exact H.
Qed.
Print Assumptions C35_principal_columns.
(* a wrinkled column of the general matrix: eval3D_dmatrix is the derivative with respect to the deformation metric, whose change is twice the
   change H of the strain; the returned matrix is the transpose of the derivative of the returned stress *)
Theorem C83_column_tangent : forall TF mult n N1 E1 dC1 theta k j M r H th Ct St,
  matrix_gen_at TF mult n N1 E1 dC1 theta k j M = Ok r -> TF (colIdx n k j) = 0 -> theta M (N1 k j) (E1 k j) = Ok (th 0) -> St 0 = N1 k j -> Ct 0 = M ->
  sym3 M -> (forall a b d, (a < 3)%nat -> (b < 3)%nat -> (d < 3)%nat -> dC1 k j a b d = dC1 k j d b a) ->
  (forall a b, (a < 3)%nat -> (b < 3)%nat -> is_derive (fun t => Ct t a b) 0 (sum3 (fun d => dC1 k j a b d * (2 * H d)))) ->
  (forall a, (a < 3)%nat -> is_derive (fun t => St t a) 0 (sum3 (fun d => M a d * H d))) -> ex_derive th 0 ->
  locally 0 (fun t => objroot (Ct t) (St t) (th t)) -> quad (n1v (th 0)) M (n1v (th 0)) <> 0 -> dfdT (th 0) M (N1 k j) <> 0 ->
  forall i, (i < 3)%nat -> is_derive (fun x => compute_S (th x) (Ct x) (St x) i) 0 (sum3 (fun d => r d i * H d)).
Proof.
  intros TF mult n N1 E1 dC1 theta k j M r H th Ct St E T0 Th S0 C0 SY SD DC DS Dth Rt Q F i Hi.
  unfold matrix_gen_at in E. rewrite T0, dispatch_wrinkled, Th in E. cbn in E. injection E as <-. rewrite <- S0.
  apply (C83_tangent_is_transposed M (fun a b d => dC1 k j a b d * 2) H th Ct St SY); try assumption.
  - intros a b d Ha Hb Hd. rewrite (SD a b d Ha Hb Hd). reflexivity.
  - constructor; try assumption. intros; rewrite C0; reflexivity. intros a b Ha Hb. evar_last. apply (DC a b Ha Hb). unfold sum3. ring.
  - rewrite S0. exact F.
Qed.
Print Assumptions C83_column_tangent.
(* ... slack points carry nothing with the default multiplier 0 ... *)
Theorem C35_slack_is_zero : forall tf (v : vec) w r, tf = -1 -> dispatch tf v (smul 0 v) w = Ok r -> forall i, r i = 0.
Proof.
  intros tf v w r -> E i. rewrite dispatch_slack in E. injection E as <-. unfold smul. ring.
Qed.
Print Assumptions C35_slack_is_zero.
(* ... the loops succeed when every column is classified and its angle found, and never when a classification is not understood. *)
Theorem C35_total : forall TF mult n m C1 E1 theta s,
  (forall k j, (k < n)%nat -> (j < m)%nat -> let c := colIdx n k j in
     TF c = 1 \/ TF c = -1 \/ (TF c = 0 /\ exists th, theta (C1 k j) (s c) (E1 k j) = Ok th)) ->
  exists r, tft_loop n m (stress_at TF mult n C1 E1 theta) s = Ok r.
Proof.
  intros TF mult n m C1 E1 theta s H. apply tft_loop_total. intros k j Hk Hj. unfold stress_at.
  destruct (H k j Hk Hj) as [Q|[Q|(Q & th & HT)]]; rewrite Q.
  - rewrite dispatch_taut. eexists; reflexivity.
  - rewrite dispatch_slack. eexists; reflexivity.
  - rewrite dispatch_wrinkled, HT. cbn. eexists; reflexivity.
Qed.
Print Assumptions C35_total.
Theorem C35_unknown_rejected : forall TF mult n m C1 E1 theta s k j, (k < n)%nat -> (j < m)%nat ->
  let c := colIdx n k j in TF c <> 1 -> TF c <> -1 -> TF c <> 0 ->
  forall r, tft_loop n m (stress_at TF mult n C1 E1 theta) s <> Ok r.
Proof.
  intros TF mult n m C1 E1 theta s k j Hk Hj c T1 T2 T3 r E.
  generalize (tft_loop_pointwise n m _ s r E k j Hk Hj). unfold stress_at. rewrite dispatch_other by assumption. discriminate.
Qed.
Print Assumptions C35_unknown_rejected.
(* the first column, in the order of the loops, without a value decides the outcome of the call: a rejected classification and a
   throwing angle search throw, an undefined angle search is undefined behaviour *)
Theorem C35_first_failure : forall TF mult n m C1 E1 theta s k j, (k < n)%nat -> (j < m)%nat ->
  let good := fun k j => let c := colIdx n k j in TF c = 1 \/ TF c = -1 \/ (TF c = 0 /\ exists th, theta (C1 k j) (s c) (E1 k j) = Ok th) in
  (forall k' j', (k' < k)%nat -> (j' < m)%nat -> good k' j') -> (forall j', (j' < j)%nat -> good k j') ->
  let c := colIdx n k j in
  (TF c = 0 -> theta (C1 k j) (s c) (E1 k j) = UB -> tft_loop n m (stress_at TF mult n C1 E1 theta) s = UB) /\
  (TF c = 0 -> theta (C1 k j) (s c) (E1 k j) = Throw -> tft_loop n m (stress_at TF mult n C1 E1 theta) s = Throw) /\
  (TF c <> 1 -> TF c <> -1 -> TF c <> 0 -> tft_loop n m (stress_at TF mult n C1 E1 theta) s = Throw).
Proof.
  intros TF mult n m C1 E1 theta s k j Hk Hj good H1 H2 c.
  assert (GD : forall k j, good k j -> exists v, stress_at TF mult n C1 E1 theta k j (s (colIdx n k j)) = Ok v).
  { intros k' j' [Q|[Q|(Q & th & HT)]]; unfold stress_at; rewrite Q.
    - rewrite dispatch_taut. eexists; reflexivity.
    - rewrite dispatch_slack. eexists; reflexivity.
    - rewrite dispatch_wrinkled, HT. cbn. eexists; reflexivity. }
  assert (L := tft_loop_fail n m (stress_at TF mult n C1 E1 theta) s k j Hk Hj (fun k' j' A B => GD k' j' (H1 k' j' A B)) (fun j' A => GD k j' (H2 j' A))).
  fold c in L.
  assert (K : forall o, stress_at TF mult n C1 E1 theta k j (s c) = o -> (forall v, o <> Ok v) -> same_failure o (tft_loop n m (stress_at TF mult n C1 E1 theta) s)).
  { intros o <- N. apply L, N. }
  split; [|split].
  - intros Z T. assert (R := K UB). unfold stress_at in R at 1. fold c in R. rewrite Z, dispatch_wrinkled, T in R. specialize (R eq_refl ltac:(discriminate)).
    destruct (tft_loop n m _ s); cbn in R; tauto.
  - intros Z T. assert (R := K Throw). unfold stress_at in R at 1. fold c in R. rewrite Z, dispatch_wrinkled, T in R. specialize (R eq_refl ltac:(discriminate)).
    destruct (tft_loop n m _ s); cbn in R; tauto.
  - intros T1 T2 T3. assert (R := K Throw). unfold stress_at in R at 1. fold c in R. rewrite dispatch_other in R by assumption. specialize (R eq_refl ltac:(discriminate)).
    destruct (tft_loop n m _ s); cbn in R; tauto.
Qed.
Print Assumptions C35_first_failure.

(* C36 *)
Theorem C36_increasing_bracket : forall f eps a b t n x, 0 <= eps -> 0 <= t -> continuity f -> f a < 0 -> 0 < f b ->
  brent f eps a b t n = Root x -> near_root f x (2 * (2 * eps * Rabs x + t)).
Proof. exact brent_sound. Qed.
Print Assumptions C36_increasing_bracket.
(* a decreasing function: the reported root is an end of the interval, up to the tolerance (or hit exactly by accident) *)
Theorem C36_decreasing_bracket : forall f a b r eps t,
  a < r < b -> (forall x, a <= x < r -> 0 < f x) -> (forall x, r < x <= b -> f x < 0) -> f r = 0 ->
  0 <= eps -> 0 < t -> forall n x, brent f eps a b t n = Root x ->
  let d := 2 * (2 * eps * Rabs x + t) in x = r \/ Rabs (x - a) <= d \/ Rabs (x - b) <= d.
Proof. exact brent_decreasing_end. Qed.
Print Assumptions C36_decreasing_bracket.
Theorem C36_any_bracket : forall f eps a b t n x, 0 <= eps -> 0 <= t -> continuity f ->
  brent f eps a b t n = Root x ->
  let d := 2 * (2 * eps * Rabs x + t) in
  near_root f x d \/ Rabs (x - a) <= d \/ Rabs (x - b) <= d.
Proof. exact brent_weak. Qed.
Print Assumptions C36_any_bracket.
(* the wrinkling equation of a positive definite tensor is continuous, so the guarantee applies to it *)
Lemma objf_continuous : forall C S, sym3 C -> posdef3 C -> continuity (objf C S).
Proof.
  intros C S HS HP x. apply derivable_continuous_pt, ex_derive_Reals_0. eexists.
  apply dfdT_derivative; [exact HS|]. generalize (posdef_D C x HP). lra.
Qed.
Theorem C36_wrinkling_angle : forall C S eps a b t n x, sym3 C -> posdef3 C -> 0 <= eps -> 0 <= t ->
  objf C S a < 0 -> 0 < objf C S b -> brent (objf C S) eps a b t n = Root x ->
  exists r, objf C S r = 0 /\ Rabs (x - r) <= 2 * (2 * eps * Rabs x + t) /\
    exists s, uniaxial (compute_S r C S) r s.
Proof.
  intros C S eps a b t n x HS HP He Ht HA HB E.
  destruct (C36_increasing_bracket _ _ _ _ _ _ _ He Ht (objf_continuous C S HS HP) HA HB E) as (r & Z & W).
  exists r. split; [exact Z|]. split; [exact W|]. apply uniaxial_iff; [|exact Z]. generalize (posdef_D C r HP). lra.
Qed.
Print Assumptions C36_wrinkling_angle.

(* f(x) = 1/2 - x on [-1,1]: the end -1 is reported; the root is 1/2 *)
Lemma brent_dec_run : forall eps, 0 <= eps <= 1/100 -> brent (fun x => 1/2 - x) eps (-1) 1 (1/4) 2 = Root (-1).
Proof.
  intros eps He. unfold brent. destruct (Rle_dec 0 _) as [K|_]; [exfalso; revert K; lra|].
  unfold brent_init. cbv zeta. destruct (Rlt_dec (1/2 - 1) (1/2 - -1)) as [_|K]; [|exfalso; lra].
  set (s0 := BS (-1) 1 (-1) (1/2 - 1) (1/2 - -1) (1/2 - 1) (1 - -1) (1 - -1)).
  assert (W1 : brent_swap s0 = BS 1 (-1) 1 (1/2 - -1) (1/2 - 1) (1/2 - -1) (1 - -1) (1 - -1)).
  { unfold brent_swap, s0. cbn [fb fc sb sc be bd]. rewrite (Rabs_left (1/2 - 1)), (Rabs_pos_eq (1/2 - -1)) by lra.
    destruct (Rlt_dec _ _) as [_|K]; [reflexivity|exfalso; lra]. }
  cbn [brent_loop]. rewrite W1. set (s1 := BS 1 (-1) 1 (1/2 - -1) (1/2 - 1) (1/2 - -1) (1 - -1) (1 - -1)).
  assert (T1 : brent_tol eps (1/4) s1 = 2 * eps + 1/4). { unfold brent_tol, s1. cbn [sb]. rewrite Rabs_left by lra. ring. }
  assert (M1 : brent_m s1 = 1). { unfold brent_m, s1. cbn [sb sc]. field. }
  rewrite T1, M1. rewrite (Rabs_pos_eq 1) by lra.
  destruct (Rle_dec 1 (2 * eps + 1/4)) as [K|_]; [exfalso; lra|].
  destruct (Req_EM_T (fb s1) 0) as [K|_]; [exfalso; unfold s1 in K; cbn in K; lra|]. cbn [orb].
  assert (ED : brent_ed (2 * eps + 1/4) 1 s1 = (2, 1/2)).
  { unfold brent_ed, s1. cbn [sa sb sc fa fb fc be bd]. rewrite (Rabs_pos_eq (1 - -1)), (Rabs_pos_eq (1/2 - -1)), (Rabs_left (1/2 - 1)) by lra.
    destruct (Rlt_dec (1 - -1) (2 * eps + 1/4)) as [K|_]; [exfalso; lra|].
    destruct (Rle_dec (1/2 - -1) (- (1/2 - 1))) as [K|_]; [exfalso; lra|]. cbn [orb]. cbv zeta.
    destruct (Req_EM_T 1 1) as [_|K]; [|exfalso; lra].
    replace ((1/2 - 1) / (1/2 - -1)) with (- (1/3)) by field.
    destruct (Rlt_dec 0 (2 * 1 * - (1/3))) as [K|_]; [exfalso; lra|].
    rewrite (Rabs_pos_eq ((2 * eps + 1/4) * (1 - - (1/3)))) by nra.
    rewrite (Rabs_pos_eq (/ 2 * (1 - -1) * (1 - - (1/3)))) by lra.
    destruct (Rlt_dec _ _) as [_|K]; [|exfalso; nra].
    destruct (Rlt_dec _ _) as [_|K]; [|exfalso; lra]. cbn [andb]. f_equal; field. }
  rewrite ED.
  assert (MV : brent_move (fun x => 1/2 - x) (2 * eps + 1/4) 1 (2, 1/2) s1 = BS (-1) (-1 + 1/2) (-1) (1/2 - 1) (1/2 - (-1 + 1/2)) (1/2 - 1) (1/2) (1/2)).
  { unfold brent_move, s1. cbn [fst snd sa sb sc fa fb fc be bd]. rewrite (Rabs_pos_eq (1/2)) by lra.
    destruct (Rlt_dec (2 * eps + 1/4) (1/2)) as [_|K]; [|exfalso; lra].
    destruct (Rlt_dec 0 (1/2 - (-1 + 1/2))) as [_|K]; [|exfalso; lra].
    destruct (Rlt_dec 0 (1/2 - -1)) as [_|K]; [|exfalso; lra]. cbn [andb orb]. f_equal; field. }
  rewrite MV. clear s0 s1 W1 T1 M1 ED MV.
  set (s2 := BS (-1) (-1 + 1/2) (-1) (1/2 - 1) (1/2 - (-1 + 1/2)) (1/2 - 1) (1/2) (1/2)).
  assert (W2 : brent_swap s2 = BS (-1 + 1/2) (-1) (-1 + 1/2) (1/2 - (-1 + 1/2)) (1/2 - 1) (1/2 - (-1 + 1/2)) (1/2) (1/2)).
  { unfold brent_swap, s2. cbn [fb fc sb sc be bd]. rewrite (Rabs_left (1/2 - 1)), (Rabs_pos_eq (1/2 - (-1 + 1/2))) by lra.
    destruct (Rlt_dec _ _) as [_|K]; [reflexivity|exfalso; lra]. }
  rewrite W2. unfold brent_m, brent_tol. cbn [sb sc fb].
  destruct (Rle_dec _ _) as [_|K]; [reflexivity|]. exfalso. apply K.
  replace (/ 2 * (-1 + 1/2 - -1)) with (1/4) by field. rewrite (Rabs_pos_eq (1/4)) by lra.
  rewrite (Rabs_left (-1)) by lra. lra.
Qed.
Theorem C36_decreasing_refuted : exists f a b t, continuity f /\ 0 < f a /\ f b < 0 /\ 0 < t /\
  forall eps, 0 <= eps <= 1/100 -> exists x, brent f eps a b t 2 = Root x /\ ~ near_root f x (2 * (2 * eps * Rabs x + t)).
Proof.
  exists (fun x => 1/2 - x), (-1), 1, (1/4). repeat split; try lra.
  - intro x. apply derivable_continuous_pt, ex_derive_Reals_0. auto_derive. exact I.
  - intros eps He. exists (-1). split; [apply brent_dec_run; exact He|].
    intros (r & Z & W). assert (r = 1/2) by lra. subst r. rewrite (Rabs_left (-1 - 1/2)), (Rabs_left (-1)) in W by lra. lra.
Qed.
Print Assumptions C36_decreasing_refuted.

(* C37: the reported angle ignores the function altogether ... *)
Theorem C37_fixed_point : forall f A B t n, snd (bisect f A B t n) = (B - A) / 2.
Proof. exact bisect_x. Qed.
Print Assumptions C37_fixed_point.
(* ... iterating does nothing after the first step ... *)
Theorem C37_budget_irrelevant : forall f A B t n m, t < Rabs (B - A) -> bisect f A B t (S n) = bisect f A B t (S m).
Proof. exact bisect_budget. Qed.
Print Assumptions C37_budget_irrelevant.
(* ... and success is reported exactly in these cases ... *)
Theorem C37_success_iff : forall f A B t n, t < Rabs (B - A) ->
  let c := (B - A) / 2 in
  fst (bisect f A B t (S n)) = true <->
    (f c <> 0 /\ f c * f A < 0 /\ Rabs (c - A) < t) \/ (f c <> 0 /\ 0 <= f c * f A /\ Rabs (B - c) < t).
Proof. exact bisect_flag. Qed.
Print Assumptions C37_success_iff.
(* ... so on an interval starting at 0 and wider than twice the tolerance it always fails ... *)
Theorem C37_never_converges : forall f B t n, 2 * t < B -> 0 < t -> fst (bisect f 0 B t n) = false.
Proof.
  intros f B t n HB Ht. assert (W : t < Rabs (B - 0)) by (rewrite Rabs_pos_eq; lra).
  destruct n as [|n]; [apply bisect_flag0; exact W|].
  destruct (fst (bisect f 0 B t (S n))) eqn:E; [|reflexivity]. exfalso.
  destruct (proj1 (bisect_flag f 0 B t n W) E) as [(_ & _ & K)|(_ & _ & K)]; rewrite Rabs_pos_eq in K; lra.
Qed.
Print Assumptions C37_never_converges.
(* ... and on a symmetric interval it reports success for a function without any root, in every budget. *)
Theorem C37_success_refuted : exists f A B t, (forall x, f x <> 0) /\ 0 < t < Rabs (B - A) /\
  forall n, fst (bisect f A B t (S n)) = true.
Proof.
  exists (fun _ => 1), (-1), 1, (1/2). split; [intro; lra|]. split; [rewrite Rabs_pos_eq; lra|].
  intro n. apply bisect_flag; [rewrite Rabs_pos_eq; lra|]. right. repeat split; try lra.
  replace (1 - (1 - -1) / 2) with 0 by field. rewrite Rabs_R0. lra.
Qed.
Print Assumptions C37_success_refuted.

(* C38: any sequence of calls whose evaluations complete leaves the inner material with the geometry set last, and every
   evaluation used the right geometry ... *)
Theorem C38_restores : forall P V (tf : option P -> outcome V) cs s, own_def s = inner_def s ->
  List.Forall completed (intended tf (own_def s) (frozen_def s) (explicit_on s) cs) ->
  own_def (fst (tft_run tf s cs)) = inner_def (fst (tft_run tf s cs)) /\
  snd (tft_run tf s cs) = intended tf (own_def s) (frozen_def s) (explicit_on s) cs.
Proof. exact @run_synced. Qed.
Print Assumptions C38_restores.
(* ... every evaluation, also one that does not complete, reports what the inner material reports for that geometry ... *)
Theorem C38_outcome : forall P V (tf : option P -> outcome V) s,
  snd (tft_step tf s EvalTF) = Some (tf (if explicit_on s then frozen_def s else inner_def s)).
Proof.
  intros P V tf s. unfold tft_step, compute_TF. destruct (explicit_on s); [|reflexivity]. destruct (tf (frozen_def s)); reflexivity.
Qed.
Print Assumptions C38_outcome.
(* ... an evaluation that throws leaves the frozen geometry in the inner material ... *)
Theorem C38_throw_keeps_frozen : forall P V (tf : option P -> outcome V) s,
  explicit_on s = true -> tf (frozen_def s) = Throw ->
  let s' := fst (tft_step tf s EvalTF) in inner_def s' = frozen_def s /\ own_def s' = own_def s.
Proof. exact @throw_leaves_frozen. Qed.
Print Assumptions C38_throw_keeps_frozen.
(* ... so that, after switching the explicit mode off, evaluations for the current geometry return the frozen one's answer. *)
Theorem C38_after_throw_refuted : exists (tf : option nat -> outcome nat) s cs,
  own_def s = inner_def s /\ snd (tft_run tf s cs) <> intended tf (own_def s) (frozen_def s) (explicit_on s) cs.
Proof.
  exists (fun p => match p with Some (S _) => Ok 7%nat | _ => Throw end).
  exists (TS (Some 1%nat) (Some 1%nat) (Some 0%nat) true), [EvalTF; SetExplicit false; EvalTF].
  split; [reflexivity|]. cbn. discriminate.
Qed.
Print Assumptions C38_after_throw_refuted.

(* C82: the acceptance test of an angle, in tensor terms: the shear strain is counted twice ... *)
Theorem C82_accepted_iff : forall th N E, check_full th N E = true <->
  along (stress_tensor N) (wdir th) (wdir th) < 0 /\
  0 < along (strain_tensor E) (tdir th) (tdir th) + tdir th 0%nat * tdir th 1%nat * E 2%nat.
Proof.
  intros th N E. rewrite along_nn, along_strain. unfold check_full.
  assert (Q : dot3 (n4v th) E = tdir th 0%nat * tdir th 0%nat * E 0%nat + tdir th 1%nat * tdir th 1%nat * E 1%nat
     + tdir th 0%nat * tdir th 1%nat * E 2%nat + tdir th 0%nat * tdir th 1%nat * E 2%nat).
  { unfold n4v, tdir. t3. ring. }
  rewrite Q. destruct (Rlt_dec _ 0) as [A|A]; destruct (Rlt_dec 0 _) as [B|B]; cbn; split; try tauto; intro X; discriminate.
Qed.
Print Assumptions C82_accepted_iff.
(* ... so the test is right for unsheared states (or axis-aligned angles) ... *)
Theorem C82_unsheared : forall th N E, tdir th 0%nat * tdir th 1%nat * E 2%nat = 0 ->
  (check_full th N E = true <->
   along (stress_tensor N) (wdir th) (wdir th) < 0 /\ 0 < along (strain_tensor E) (tdir th) (tdir th)).
Proof. intros th N E Z. rewrite C82_accepted_iff, Z, Rplus_0_r. tauto. Qed.
Print Assumptions C82_unsheared.
(* ... and wrong both ways in general. *)
Theorem C82_refuted : exists th N E1 E2,
  along (stress_tensor N) (wdir th) (wdir th) < 0 /\
  (0 < along (strain_tensor E1) (tdir th) (tdir th) /\ check_full th N E1 = false) /\
  (along (strain_tensor E2) (tdir th) (tdir th) < 0 /\ check_full th N E2 = true).
Proof.
  exists (PI/4), (v3 (-1) (-1) 0), (v3 1 1 (3/2)), (v3 (-1) (-1) (-3/2)).
  assert (H : sin (PI/4) = cos (PI/4)) by (rewrite sin_PI4, cos_PI4; reflexivity).
  generalize (cs2 (PI/4)). rewrite H. set (c := cos (PI/4)) in *. intro Q. assert (CC : c * c = 1/2) by lra.
  assert (T0 : tdir (PI/4) 0%nat * tdir (PI/4) 0%nat = 1/2) by (unfold tdir; rewrite H; fold c; lra).
  assert (T1 : tdir (PI/4) 1%nat * tdir (PI/4) 1%nat = 1/2) by (unfold tdir; fold c; lra).
  assert (T2 : tdir (PI/4) 0%nat * tdir (PI/4) 1%nat = -1/2) by (unfold tdir; rewrite H; fold c; lra).
  assert (W : along (stress_tensor (v3 (-1) (-1) 0)) (wdir (PI/4)) (wdir (PI/4)) < 0).
  { rewrite along_nn. unfold n1v. t3. rewrite H. fold c. lra. }
  split; [exact W|]. split; split.
  - rewrite along_strain, T0, T1, T2. unfold v3. lra.
  - apply not_true_is_false. rewrite C82_accepted_iff, along_strain, T0, T1, T2. unfold v3. lra.
  - rewrite along_strain, T0, T1, T2. unfold v3. lra.
  - rewrite C82_accepted_iff. split; [exact W|]. rewrite along_strain, T0, T1, T2. unfold v3. lra.
Qed.
Print Assumptions C82_refuted.

(* C84: Cauchy stress of wrinkled points: divided by the square root of the volume ratio J instead of J ... *)
Theorem C84_wrinkled_cauchy : forall TF mult n C1 N1 E1 theta J k j v th r i, 0 < J ->
  TF (colIdx n k j) = 0 -> theta (C1 k j) (N1 k j) (E1 k j) = Ok th ->
  cauchy_at TF mult n C1 N1 E1 theta (fun _ _ => J * J) k j v = Ok r ->
  r i = compute_S th (C1 k j) (N1 k j) i / sqrt J /\
  (r i = compute_S th (C1 k j) (N1 k j) i / J <-> J = 1 \/ compute_S th (C1 k j) (N1 k j) i = 0).
Proof.
  intros TF mult n C1 N1 E1 theta J k j v th r i HJ HT Hth. unfold cauchy_at. rewrite HT, dispatch_wrinkled, Hth.
  cbn [bindo]. intro E. injection E as <-. rewrite sqrt_square by lra. rewrite Rmult_1_r.
  set (s := compute_S th (C1 k j) (N1 k j) i). split; [reflexivity|].
  assert (SJ : 0 < sqrt J) by (apply sqrt_lt_R0; exact HJ).
  assert (E : J = sqrt J * sqrt J) by (symmetry; apply sqrt_sqrt; lra).
  set (q := sqrt J) in *. clearbody q. subst J. split.
  - intro Q. destruct (Req_dec s 0) as [Z|Z]; [right; exact Z|left].
    assert (s * q = s). { apply (Rmult_eq_reg_r (/ (q * q))); [|apply Rinv_neq_0_compat; nra]. 
      replace (s * q * / (q * q)) with (s / q) by (field; lra). exact Q. }
    assert (q = 1) by nra. subst q. ring.
  - intros [Q|Q].
    + assert (q = 1) by nra. subst q. field.
    + rewrite Q. unfold Rdiv. ring.
Qed.
Print Assumptions C84_wrinkled_cauchy.
Theorem C84_refuted : exists TF mult n C1 N1 E1 theta J v r th, 0 < J /\ TF (colIdx n 0 0) = 0 /\
  theta (C1 0%nat 0%nat) (N1 0%nat 0%nat) (E1 0%nat 0%nat) = Ok th /\
  cauchy_at TF mult n C1 N1 E1 theta (fun _ _ => J * J) 0 0 v = Ok r /\
  r 1%nat <> compute_S th (C1 0%nat 0%nat) (N1 0%nat 0%nat) 1%nat / J.
Proof.
  exists (fun _ => 0), 0, 1%nat, (fun _ _ => wC0), (fun _ _ => wSt 0), (fun _ _ => wSt 0), (fun _ _ _ => Ok 0), 4, (wSt 0).
  eexists. exists 0. split; [lra|]. split; [reflexivity|]. split; [reflexivity|]. split.
  - unfold cauchy_at. rewrite dispatch_wrinkled. cbn [bindo]. reflexivity.
  - cbv beta. rewrite sqrt_square, Rmult_1_r by lra. replace 4 with (2 * 2) by ring. rewrite sqrt_square by lra.
    destruct w_values as (_ & G & _). unfold compute_S. rewrite G. unfold wC0, wSt, n1v. t3. rewrite sin_0, cos_0. cbn. lra.
Qed.
Print Assumptions C84_refuted.

(* C85: at a root with compression across and extension along the tension direction, a positive definite linear material
   is in uniaxial tension, the wrinkling strain is positive and the divisor of the tangent is positive. *)
Theorem C85_physical_wrinkled_state : forall th C S E, sym3 C -> posdef3 C ->
  (forall i, (i < 3)%nat -> S i = sum3 (fun j => C i j * E j)) ->
  objf C S th = 0 -> along (stress_tensor S) (wdir th) (wdir th) < 0 ->
  0 < along (strain_tensor E) (tdir th) (tdir th) ->
  0 < gamma th C S /\ (exists s, 0 < s /\ uniaxial (compute_S th C S) th s) /\ 0 < dfdT th C S.
Proof. exact physical_state. Qed.
Print Assumptions C85_physical_wrinkled_state.

(* C86: the angle returned passes the acceptance test, or is 0 after every candidate failed it ... *)
Theorem C86_accepted_or_zero : forall f check eps itmax newton lo hi th0 th,
  eval_theta f check eps itmax newton lo hi th0 = Ok th ->
  check th = true \/
  (th = 0 /\ exists roots, search_all f eps itmax newton (sign_changes f) = Ok roots /\
     forall x, In x (candidates f roots) -> check x = false).
Proof. exact eval_theta_accepts. Qed.
Print Assumptions C86_accepted_or_zero.
(* ... the search has no undefined behaviour, and throws only when the root finder has used up its iterations ... *)
Theorem C86_throws_only_on_budget : forall f check eps itmax newton lo hi th0,
  eval_theta f check eps itmax newton lo hi th0 <> UB /\
  (eval_theta f check eps itmax newton lo hi th0 = Throw -> exists a b, brent f eps a b (/ 10 ^ 18) itmax = Gives_up).
Proof.
  intros f check eps itmax newton lo hi th0.
  assert (S1 : forall a b, search f eps itmax newton a b <> UB /\ (search f eps itmax newton a b = Throw -> brent f eps a b (/ 10 ^ 18) itmax = Gives_up)).
  { intros a b. unfold search. destruct (brent f eps a b (/ 10 ^ 18) itmax); [|destruct (bisect _ _ _ _ _) as [[|] x]|]; split; congruence || discriminate. }
  assert (S2 : forall l, search_all f eps itmax newton l <> UB /\ (search_all f eps itmax newton l = Throw -> exists a b, brent f eps a b (/ 10 ^ 18) itmax = Gives_up)).
  { induction l as [|(a, b) l (U & T)]; [split; discriminate|]. cbn. destruct (S1 a b) as (U1 & T1).
    destruct (search f eps itmax newton a b); [|split; [discriminate|intros _; exists a, b; apply T1; reflexivity]|congruence].
    destruct (search_all f eps itmax newton l); [split; discriminate|split; [discriminate|intros _; apply T; reflexivity]|congruence]. }
  assert (F : exists r, eval_theta f check eps itmax newton lo hi th0 = match r with
     | Ok th => if negb (check th) || ((if Req_EM_T lo 0 then true else false) && (if Req_EM_T hi 0 then true else false))
                then match search_all f eps itmax newton (sign_changes f) with
                     | Ok roots => match find check (candidates f roots) with Some x => Ok x | None => Ok 0 end | Throw => Throw | UB => UB end
                else Ok th | Throw => Throw | UB => UB end /\ (r = Ok th0 \/ r = search f eps itmax newton lo hi)).
  { unfold eval_theta. destruct (Req_EM_T lo 0); [exists (Ok th0); split; [reflexivity|left; reflexivity]|].
    destruct (Req_EM_T hi 0); [exists (Ok th0); split; [reflexivity|left; reflexivity]|]. eexists; split; [reflexivity|right; reflexivity]. }
  destruct F as (r & -> & H).
  destruct (S1 lo hi) as (U1 & T1). destruct (S2 (sign_changes f)) as (U2 & T2).
  assert (G : r <> UB /\ (r = Throw -> exists a b, brent f eps a b (/ 10 ^ 18) itmax = Gives_up)).
  { destruct H as [->| ->]; [split; discriminate|]. split; [exact U1|]. intro K. exists lo, hi. apply T1, K. }
  destruct G as (GU & GT). destruct r as [th| |]; [|split; [discriminate|exact GT]|congruence].
  destruct (_ || _)%bool; [|split; discriminate].
  destruct (search_all f eps itmax newton (sign_changes f)); [|split; [discriminate|intros _; apply T2; reflexivity]|congruence].
  destruct (find _ _); split; discriminate.
Qed.
Print Assumptions C86_throws_only_on_budget.
(* ... in the grid search bisection and Newton are unreachable, and an upward sign change yields a root ... *)
Theorem C86_grid_candidates : forall C S eps itmax newton i x, sym3 C -> posdef3 C -> 0 <= eps ->
  objf C S (grid i) < 0 -> 0 < objf C S (grid (Datatypes.S i)) ->
  search (objf C S) eps itmax newton (grid i) (grid (Datatypes.S i)) = Ok x ->
  near_root (objf C S) x (2 * (2 * eps * Rabs x + / 10 ^ 18)).
Proof.
  intros C S eps itmax newton i x HS HP He HA HB E.
  apply (C36_increasing_bracket _ _ (grid i) (grid (Datatypes.S i)) _ itmax); try assumption.
  - apply Rlt_le, Rinv_0_lt_compat, pow_lt. lra.
  - apply objf_continuous; assumption.
  - apply (search_second _ _ _ newton); [nra|exact E].
Qed.
Print Assumptions C86_grid_candidates.
(* ... every upward sign change between neighbouring grid points is searched ... *)
Theorem C86_grid_complete : forall C S eps itmax newton i roots, sym3 C -> posdef3 C -> 0 <= eps -> (i < 50)%nat ->
  objf C S (INR i * PI / 50) < 0 -> 0 < objf C S (INR (Datatypes.S i) * PI / 50) ->
  search_all (objf C S) eps itmax newton (sign_changes (objf C S)) = Ok roots ->
  exists x, In x roots /\ near_root (objf C S) x (2 * (2 * eps * Rabs x + / 10 ^ 18)).
Proof.
  intros C S eps itmax newton i roots HS HP He Hi HA HB E. fold (grid i) in HA. fold (grid (Datatypes.S i)) in HB.
  assert (L : In (grid i, grid (Datatypes.S i)) (sign_changes (objf C S))).
  { unfold sign_changes. apply (in_map (fun i => (grid i, grid (Datatypes.S i)))). apply filter_In. split; [apply in_seq; lia|].
    destruct Rlt_dec as [_|N]; [reflexivity|]. exfalso. apply N. nra. }
  revert roots E. induction (sign_changes (objf C S)) as [|(a, b) l IH]; [destruct L|]. intros roots E. cbn [search_all] in E.
  destruct (search (objf C S) eps itmax newton a b) as [x| |] eqn:E1; try discriminate.
  destruct (search_all (objf C S) eps itmax newton l) as [xs| |] eqn:E2; try discriminate. injection E as <-.
  destruct L as [L|L].
  - injection L as -> ->. exists x. split; [left; reflexivity|]. exact (C86_grid_candidates C S eps itmax newton i x HS HP He HA HB E1).
  - destruct (IH L xs eq_refl) as (y & Iy & Ny). exists y. split; [right; exact Iy|exact Ny].
Qed.
Print Assumptions C86_grid_complete.
(* ... and the extra candidate 0 is offered exactly when 0 solves the wrinkling equation, which has period pi. *)
Theorem C86_period : forall C S th, objf C S (th + PI) = objf C S th.
Proof.
  intros C S th. unfold objf, gamma, n1v, n2v. rewrite neg_cos, neg_sin. t3.
  repeat match goal with |- context [- ?a * - ?a] => replace (- a * - a) with (a * a) by ring end.
  f_equal; [ring|]. f_equal; [|ring]. f_equal; [ring|f_equal; ring].
Qed.
Print Assumptions C86_period.
Theorem C86_zero_candidate : forall C S, candidates (objf C S) [] = [0] <-> objf C S 0 = 0.
Proof.
  intros C S. unfold candidates, grid.
  replace (INR 0 * PI / 50) with 0 by (cbn; field).
  replace (INR 50 * PI / 50) with (0 + PI) by (change (INR 50) with (IZR 50) || (replace (INR 50) with 50 by (simpl; ring)); field).
  rewrite C86_period. cbn [app]. generalize (Rle_0_sqr (objf C S 0)). unfold Rsqr. intro Q.
  destruct (Rle_dec (objf C S 0 * objf C S 0) 0) as [L|L]; split; intro X; try reflexivity; try discriminate.
  - assert (Z : objf C S 0 * objf C S 0 = 0) by lra. destruct (Rmult_integral _ _ Z); assumption.
  - exfalso. apply L. rewrite X. lra.
Qed.
Print Assumptions C86_zero_candidate.

(* Examples: the hypotheses are met by concrete states. *)
Example C32_case : quad (n1v 0) wC0 (n1v 0) <> 0 /\ objf wC0 (wSt 0) 0 = 0 /\ (exists s, 0 < s /\ uniaxial (compute_S 0 wC0 (wSt 0)) 0 s).
Proof.
  destruct w_values as (D & G & _). split; [rewrite D; lra|]. split.
  - unfold objf. rewrite G. unfold n1v, n2v, wC0, wSt. t3. rewrite sin_0, cos_0. cbn. lra.
  - exists 1. split; [lra|]. intros a b Ha Hb. unfold stress_tensor, compute_S, tdir. rewrite G.
    unfold n1v, wC0, wSt. t3. rewrite sin_0, cos_0.
    destruct a as [|[|a]]; [| |lia]; (destruct b as [|[|b]]; [| |lia]); cbn; lra.
Qed.
Lemma wC0_posdef : posdef3 wC0.
Proof.
  intros v Hv. unfold wC0, sum3. cbn.
  match goal with |- 0 < ?e => replace e with (v 0%nat * v 0%nat + v 1%nat * v 1%nat + v 2%nat * v 2%nat) by ring end.
  generalize (Rle_0_sqr (v 0%nat)) (Rle_0_sqr (v 1%nat)) (Rle_0_sqr (v 2%nat)). unfold Rsqr. intros.
  destruct Hv as [Hv|[Hv|Hv]]; generalize (Rsqr_pos_lt _ Hv); unfold Rsqr; lra.
Qed.
Example C85_case : let E := wSt 0 in sym3 wC0 /\ posdef3 wC0 /\ (forall i, (i < 3)%nat -> wSt 0 i = sum3 (fun j => wC0 i j * E j)) /\
  objf wC0 (wSt 0) 0 = 0 /\ along (stress_tensor (wSt 0)) (wdir 0) (wdir 0) < 0 /\ 0 < along (strain_tensor E) (tdir 0) (tdir 0).
Proof.
  cbv zeta. split; [intros i j Hi Hj; three i Hi; three j Hj; reflexivity|]. split; [exact wC0_posdef|].
  split; [intros i Hi; three i Hi; unfold wSt, wC0, v3, sum3; cbn; lra|]. split; [apply C32_case|].
  rewrite along_nn, along_strain. unfold n1v, tdir, wSt. t3. rewrite sin_0, cos_0. split; lra.
Qed.
(* a path of wrinkled states of a linear material: proportional loading of the state above *)
Example C34_case : ex_derive (fun _ : R => 0) 0 /\ locally 0 (fun t => objf wC0 (lin_stress wC0 (wSt 0) (v3 1 2 0) t) 0 = 0) /\
  dfdT 0 wC0 (wSt 0) <> 0.
Proof.
  destruct w_values as (D & _ & F). split; [apply ex_derive_const|]. split; [|rewrite F; lra].
  exists (mkposreal 1 Rlt_0_1). intros t _. unfold objf, gamma. rewrite D. unfold lin_stress, n1v, n2v, wC0, wSt. t3.
  rewrite sin_0, cos_0. cbn. field.
Qed.
(* a batch of one taut, one slack and one wrinkled point *)
Example C35_case : exists r, tft_loop 3 1 (stress_at (fun c => match c with 0%nat => 1 | 1%nat => -1 | _ => 0 end) 0 3
     (fun _ _ => wC0) (fun _ _ => wSt 0) (fun _ _ _ => Ok 0)) (fun _ => wSt 0) = Ok r
  /\ r 0%nat 0%nat = -1 /\ r 1%nat 0%nat = 0 /\ r 2%nat 0%nat = 0 /\ r 2%nat 1%nat = 1.
Proof.
  set (TF := fun c => match c with 0%nat => 1 | 1%nat => -1 | _ => 0 end).
  destruct (C35_total TF 0 3 1 (fun _ _ => wC0) (fun _ _ => wSt 0) (fun _ _ _ => Ok 0) (fun _ => wSt 0)) as [r Hr].
  { intros k j Hk Hj. destruct j; [|lia]. destruct k as [|[|[|k]]]; [left|right;left|right;right|lia]; cbn; [reflexivity|reflexivity|].
    split; [reflexivity|]. exists 0. reflexivity. }
  exists r. split; [exact Hr|].
  assert (P := tft_loop_pointwise 3 1 _ _ _ Hr).
  assert (P0 := P 0%nat 0%nat ltac:(lia) ltac:(lia)). assert (P1 := P 1%nat 0%nat ltac:(lia) ltac:(lia)).
  assert (P2 := P 2%nat 0%nat ltac:(lia) ltac:(lia)). unfold stress_at, colIdx in P0, P1, P2. cbn in P0, P1, P2.
  rewrite dispatch_taut in P0. rewrite dispatch_slack in P1. rewrite dispatch_wrinkled in P2.
  injection P0 as P0. injection P1 as P1. injection P2 as P2.
  destruct w_values as (_ & G & _).
  rewrite <- P0, <- P1, <- P2. unfold smul, compute_S. rewrite G. unfold wC0, wSt, n1v. t3. rewrite sin_0, cos_0. cbn. repeat split; lra.
Qed.
(* an increasing bracket in which the search succeeds *)
Example C36_case : forall eps, 0 <= eps <= 1/100 -> brent (fun x => x) eps (-1) 1 (1/4) 2 = Root 0.
Proof.
  intros eps He. unfold brent. destruct (Rle_dec 0 _) as [K|_]; [exfalso; revert K; lra|].
  unfold brent_init. cbv zeta. destruct (Rlt_dec 1 (-1)) as [K|_]; [exfalso; lra|].
  cbn [brent_loop]. set (s0 := BS (-1) 1 (-1) (-1) 1 (-1) (1 - -1) (1 - -1)).
  assert (W : brent_swap s0 = s0).
  { unfold brent_swap, s0. cbn [fb fc]. rewrite (Rabs_left (-1)), (Rabs_pos_eq 1) by lra. destruct (Rlt_dec _ _); [exfalso; lra|reflexivity]. }
  rewrite W. assert (T : brent_tol eps (1/4) s0 = 2 * eps + 1/4). { unfold brent_tol, s0. cbn [sb]. rewrite Rabs_pos_eq by lra. ring. }
  assert (M : brent_m s0 = -1) by (unfold brent_m, s0; cbn [sb sc]; field). rewrite T, M. rewrite (Rabs_left (-1)) by lra.
  destruct (Rle_dec (- -1) (2 * eps + 1/4)) as [K|_]; [exfalso; lra|]. destruct (Req_EM_T (fb s0) 0) as [K|_]; [exfalso; cbn in K; lra|]. cbn [orb].
  assert (ED : brent_ed (2 * eps + 1/4) (-1) s0 = (-1, -1)).
  { unfold brent_ed, s0. cbn [fa fb be]. rewrite (Rabs_left (-1)), (Rabs_pos_eq 1) by lra.
    destruct (Rle_dec (- -1) 1) as [_|K]; [|exfalso; lra]. rewrite orb_true_r. reflexivity. }
  rewrite ED. assert (MV : brent_move (fun x => x) (2 * eps + 1/4) (-1) (-1, -1) s0 = BS 1 0 1 1 0 1 (-1) (-1)).
  { unfold brent_move, s0. cbn [fst snd sb sc fb fc]. rewrite (Rabs_left (-1)) by lra.
    destruct (Rlt_dec (2 * eps + 1/4) (- -1)) as [_|K]; [|exfalso; lra]. replace (1 + -1) with 0 by ring.
    destruct (Rlt_dec 0 0) as [K|_]; [exfalso; lra|]. destruct (Rle_dec 0 0) as [_|K]; [|exfalso; lra].
    destruct (Rle_dec (-1) 0) as [_|K]; [|exfalso; lra]. cbn [andb orb]. f_equal; ring. }
  rewrite MV. unfold brent_swap. cbn [fb fc sb sc be bd]. rewrite (Rabs_pos_eq 1), Rabs_R0 by lra.
  destruct (Rlt_dec 1 0) as [K|_]; [exfalso; lra|]. cbn [fb sb].
  destruct (Req_EM_T 0 0) as [_|K]; [|exfalso; lra]. rewrite orb_true_r. reflexivity.
Qed.
Example C86_case : eval_theta (fun _ => 1) (fun _ => false) 0 5 (fun x => x) 0 0 0 = Ok 0.
Proof.
  unfold eval_theta. destruct (Req_EM_T 0 0) as [_|K]; [|exfalso; lra]. cbn [negb orb].
  assert (Z : sign_changes (fun _ => 1) = []).
  { unfold sign_changes. replace (filter _ (seq 0 50)) with (@nil nat); [reflexivity|].
    symmetry. induction (seq 0 50) as [|a l IH]; [reflexivity|]. cbn [filter]. rewrite IH.
    destruct (Rlt_dec (1 * 1) 0); [exfalso; lra|reflexivity]. }
  rewrite Z. cbn. unfold candidates. destruct (Rle_dec (1 * 1) 0); [exfalso; lra|reflexivity].
Qed.

(* C83_column_tangent: the energy-consistent material above, its metric derivative being half of the strain derivative *)
Example C83_column_ex : exists r, let TF := fun _ : nat => 0 in let dC1 := fun (_ _ : nat) a b d => wdC a b d / 2 in
  matrix_gen_at TF 0 1 (fun _ _ => wSt 0) (fun _ _ => wH) dC1 (fun _ _ _ => Ok 0) 0 0 (wCt 0) = Ok r /\
  (forall a b, (a < 3)%nat -> (b < 3)%nat -> is_derive (fun t => wCt t a b) 0 (sum3 (fun d => dC1 0%nat 0%nat a b d * (2 * wH d)))) /\
  (forall a, (a < 3)%nat -> is_derive (fun t => wSt t a) 0 (sum3 (fun d => wCt 0 a d * wH d))) /\ locally 0 (fun t => objroot (wCt t) (wSt t) 0).
Proof.
  eexists. cbv zeta. split. unfold matrix_gen_at. rewrite dispatch_wrinkled. reflexivity.
  destruct w_path as [A B C D E]. split; [|split].
  - intros a b Ha Hb. evar_last. apply (B a b Ha Hb). unfold sum3. field.
  - intros a Ha. evar_last. apply (C a Ha). unfold sum3. rewrite !A by lia. reflexivity.
  - exact E.
Qed.
