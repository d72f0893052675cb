(* Property theorems C116 (planar elements), C117 (prescribed deformation tensors), C118 (derivative of the tangent). *)
From Coq Require Import Reals List Lra Lia Arith Bool FunctionalExtensionality.
From Coquelicot Require Import Coquelicot.
From Verif Require Import Tensor MetricModel MetricSpec MetricProofs LinearModel NonlinearModel NonlinearSpec NonlinearProofs SpectralModel
  Newton33Model PrincipalModel BatchModel BatchSpec BatchProofs SizeModel StretchModel PtModel PtSpec PtProofs.
Import ListNotations.
Open Scope R_scope.

(* C116: planar elements of hyperelastic materials respond as the shell obtained by putting both configurations into the
   plane z = 0: stress and material matrix, every law and implementation, every height, either orientation ... *)
Theorem C116_planar_is_flat_shell : forall close eps epsm eig comp imp w (go gd : geo2) (d d' : nat -> nat -> R) t p z, jac2 go <> 0 ->
  same vec3eq (eval_stress close eps epsm eig comp imp w (planar_pt go gd t p) z)
              (eval_stress close eps epsm eig comp imp w (shell_pt (flat go d) (flat gd d') t p) z) /\
  same mat3eq (eval_matrix eps epsm eig comp imp w (planar_pt go gd t p) z)
              (eval_matrix eps epsm eig comp imp w (shell_pt (flat go d) (flat gd d') t p) z).
Proof.
  intros close eps epsm eig comp imp w go gd d d' t p z J. unfold eval_stress, eval_matrix, planar_pt, shell_pt. cbn [po pd pT pp].
  pose proof (flat_alike go d (z * t) J) as A.
  assert (G : hGcov (half2 gd (z * t)) = hGcov (half3 (flat gd d') (z * t))) by (cbn; rewrite flat_Gcov; reflexivity).
  assert (H : hGcon (half2 gd (z * t)) = hGcon (half3 (flat gd d') (z * t))) by (cbn; rewrite flat_Gcon; reflexivity).
  split; [apply stress_alike|apply matrix_alike]; assumption.
Qed.
Print Assumptions C116_planar_is_flat_shell.

(* ... the linear material does not: a square parametrised with edge length 2. *)
Definition square2 : geo2 := mkGeo2 (fun i c => if Nat.eqb i c then 2 else 0).
Theorem C116_linear_refuted : exists E nu go d t z A B, 0 < E /\ jac2 go <> 0 /\
  lin_matrix E nu (planar_pt go go t (mkPar E nu 0)) z = Ok A /\
  lin_matrix E nu (shell_pt (flat go d) (flat go d) t (mkPar E nu 0)) z = Ok B /\ A 0%nat 0%nat <> B 0%nat 0%nat.
Proof.
  set (d := fun _ _ : nat => 0).
  assert (EM : exists m, getM (half2 square2 (0 * 1)) (half2 square2 (0 * 1)) = Ok m).
  { apply getM_some; cbn [half2 hGcov]; rewrite det_Gcov2; unfold jac2, square2; cbn; lra. }
  assert (EM' : exists m, getM (half3 (flat square2 d) (0 * 1)) (half3 (flat square2 d) (0 * 1)) = Ok m).
  { destruct EM as (m & EM). exists m. rewrite <- EM. unfold getM. cbn [half2 half3 hGcov hGcon]. rewrite flat_Gcov, flat_Gcon. reflexivity. }
  exists 1, 0, square2, d, 1, 0. unfold lin_matrix. cbn [planar_pt shell_pt po pd pT pp].
  destruct EM as (m & ->), EM' as (m' & ->). cbn [obind]. eexists. eexists.
  split; [lra|]. split; [unfold jac2, square2; cbn; lra|]. split; [reflexivity|]. split; [reflexivity|].
  cbn [half2 half3 hAcon voigt]. unfold Acon, Acon2_member, inv2, det2. rewrite !flat_Acov.
  unfold Cijkl, Cconstant, lambda_of, mu_of, Acov2, square2, sum2. cbn. intro H. 
  match type of H with ?l = ?r => assert (L : l = 16) by field; assert (R' : r = / 16) by field; lra end.
Qed.
Print Assumptions C116_linear_refuted.

(* a mirrored (negatively oriented) planar patch meets the hypothesis *)
Example C116_mirrored : jac2 (mkGeo2 (fun i c => match i, c with 0%nat, 1%nat => 1 | 1%nat, 0%nat => 1 | _, _ => 0 end)) <> 0.
Proof. unfold jac2. cbn. lra. Qed.

(* C117: evaluation with a prescribed deformation tensor gives what the configuration with that metric gives, whatever the
   deformed configuration stored in the material is. *)
Theorem C117_shell : forall close eps epsm eig comp imp w go gd gd' t p z, let C := components (Gcov gd' (z * t)) in
  det2 (Gcov gd' (z * t)) <> 0 ->
  same vec3eq (eval_stress_C close eps epsm eig comp imp w (shell_pt go gd t p) C z)
              (eval_stress close eps epsm eig comp imp w (shell_pt go gd' t p) z) /\
  same mat3eq (eval_matrix_C eps epsm eig comp imp w (shell_pt go gd t p) C z)
              (eval_matrix eps epsm eig comp imp w (shell_pt go gd' t p) z).
Proof.
  intros. apply (prescribed close eps epsm eig comp imp w (shell_pt go gd' t p) z); [apply Gcov_plane|assumption|reflexivity].
Qed.
Print Assumptions C117_shell.
Theorem C117_planar : forall close eps epsm eig comp imp w go gd gd' t p z, let C := components (Acov2 gd') in jac2 gd' <> 0 ->
  same vec3eq (eval_stress_C close eps epsm eig comp imp w (planar_pt go gd t p) C z)
              (eval_stress close eps epsm eig comp imp w (planar_pt go gd' t p) z) /\
  same mat3eq (eval_matrix_C eps epsm eig comp imp w (planar_pt go gd t p) C z)
              (eval_matrix eps epsm eig comp imp w (planar_pt go gd' t p) z).
Proof.
  intros close eps epsm eig comp imp w go gd gd' t p z C J.
  assert (N : det2 (Gcov2 gd') <> 0).
  { replace (det2 (Gcov2 gd')) with (jac2 gd' * jac2 gd') by (unfold det2, Gcov2, Acov2, sum2, jac2; ring).
    apply Rmult_integral_contrapositive. split; exact J. }
  assert (E : C = components (Gcov2 gd')). { extensionality i. unfold C, components, Gcov2. destruct i as [|[|?]]; reflexivity. }
  rewrite E. apply (prescribed close eps epsm eig comp imp w (planar_pt go gd' t p) z); [apply Gcov2_plane|exact N|reflexivity].
Qed.
Print Assumptions C117_planar.

(* The linear material: the matrix ignores the prescribed tensor; the stress agrees at any height for the generic output and at
   the mid-surface for the membrane output; debug builds throw off the mid-surface ... *)
Theorem C117_linear_matrix : forall E nu go gd t p C z m, getM (half3 go (z * t)) (half3 gd (z * t)) = Ok m ->
  lin_matrix_C E nu (shell_pt go gd t p) C z = lin_matrix E nu (shell_pt go gd t p) z.
Proof. intros. unfold lin_matrix_C, lin_matrix. cbn [shell_pt po pd pT pp]. rewrite H. reflexivity. Qed.
Print Assumptions C117_linear_matrix.
Theorem C117_linear_stress : forall debug E nu go gd gd' t p z m, let C := components (Gcov gd' (z * t)) in
  getM (half3 go (z * t)) (half3 gd' (z * t)) = Ok m ->
  same vec3eq (lin_vector_C false E nu KGeneric (shell_pt go gd t p) C z) (lin_vector E nu KGeneric (shell_pt go gd' t p) z) /\
  (z = 0 -> same vec3eq (lin_vector_C debug E nu KMembrane (shell_pt go gd t p) C z) (lin_vector E nu KMembrane (shell_pt go gd' t p) z)) /\
  (z <> 0 -> forall k C', lin_vector_C true E nu k (shell_pt go gd t p) C' z = Throw).
Proof.
  intros debug E nu go gd gd' t p z m C EM. split; [|split].
  - apply (lin_C_generic E nu (shell_pt go gd' t p) z); [apply Gcov_plane|exists m; exact EM].
  - intro Z. unfold C. rewrite Z in *. apply (lin_C_membrane debug E nu (shell_pt go gd' t p)); [apply Gcov_plane| |exists m; exact EM].
    intros i j Hi Hj. cbn. unfold Gcov. destruct i as [|[|?]], j as [|[|?]]; try lia; ring.
  - intros Z k C'. unfold lin_vector_C. destruct (Req_EM_T z 0); [congruence|reflexivity].
Qed.
Print Assumptions C117_linear_stress.

(* ... and the bending output is not that of the configuration: a plate bent to a cylinder. *)
Definition unit2 : geo2 := mkGeo2 (fun i c => if Nat.eqb i c then 1 else 0).
Definition plate : geo := flat unit2 (fun _ _ => 0).
Definition bent : geo := mkGeo (tang plate) (fun k c => match k, c with 0%nat, 2%nat => 1 | _, _ => 0 end).
Lemma unit_jac : jac2 unit2 = 1.
Proof. unfold jac2, unit2. cbn. ring. Qed.
Lemma bent_normal : normal bent 0%nat = 0 /\ normal bent 1%nat = 0 /\ normal bent 2%nat = 1.
Proof.
  change (normal bent) with (normal plate). unfold plate. rewrite !flat_normal01 by lia.
  repeat split. apply flat_normal2; rewrite unit_jac; lra.
Qed.
Lemma bent_B : Bcov bent 0%nat 0%nat = 1 /\ Bcov bent 0%nat 1%nat = 0 /\ Bcov bent 1%nat 0%nat = 0 /\ Bcov bent 1%nat 1%nat = 0.
Proof.
  destruct bent_normal as (A & B & C). unfold Bcov, dot3, sum3. rewrite A, B, C. unfold bent; cbn. repeat split; ring.
Qed.
Lemma bent_Gcov0 : Gcov bent (0 * 1) = Gcov2 unit2.
Proof.
  rewrite <- (flat_Gcov unit2 (fun _ _ => 0) (0 * 1)). extensionality i; extensionality j. unfold Gcov.
  change (Acov bent) with (Acov plate). fold plate.
  destruct i as [|[|[|?]]], j as [|[|[|?]]]; try reflexivity; ring.
Qed.
Theorem C117_linear_bending_refuted : exists E nu go gd t p A B, let C := components (Gcov gd (0 * t)) in
  lin_vector_C true E nu KBending (shell_pt go gd t p) C 0 = Ok A /\ lin_vector E nu KBending (shell_pt go gd t p) 0 = Ok B /\
  A 0%nat <> B 0%nat.
Proof.
  exists 1, 0, plate, bent, 1, (mkPar 1 0 0). 
  assert (EM : exists m, getM (half3 plate (0 * 1)) (half3 bent (0 * 1)) = Ok m).
  { apply getM_some; cbn [half3 hGcov]; [unfold plate; rewrite flat_Gcov|rewrite bent_Gcov0]; rewrite det_Gcov2, unit_jac; lra. }
  destruct EM as (m & EM). unfold lin_vector_C, lin_vector. cbn [shell_pt po pd pT pp]. rewrite EM. cbn [obind].
  destruct (Req_EM_T 0 0) as [_|N]; [|congruence]. cbn [andb negb]. eexists. eexists. split; [reflexivity|]. split; [reflexivity|].
  destruct bent_B as (B0 & B1 & B2 & B3).
  unfold Svoigt, Sij, E_members, halfC_lin, halfC, mzero. cbn [half3 hBcov hAcon]. unfold plate. rewrite !flat_Bcov. rewrite B0, B1, B2, B3.
  unfold Acon, inv2, det2. rewrite !flat_Acov. unfold Acov2, unit2, sum2, Cijkl, Cconstant, lambda_of, mu_of. cbn. intro H.
  match type of H with ?l = ?r => assert (L : l = 0) by field; assert (R' : r = -1) by field; lra end.
Qed.
Print Assumptions C117_linear_bending_refuted.
(* planar elements have no bending stress, neither at their own configuration nor for a prescribed tensor *)
Theorem C117_planar_no_bending : forall E nu (go gd : geo2) t p C z, jac2 go <> 0 -> jac2 gd <> 0 ->
  (exists S, lin_vector E nu KBending (planar_pt go gd t p) z = Ok S /\ vec3eq S (fun _ => 0)) /\
  (exists S, lin_vector_C false E nu KBending (planar_pt go gd t p) C z = Ok S /\ vec3eq S (fun _ => 0)).
Proof.
  intros E nu go gd t p C z Jo Jd. split.
  - unfold lin_vector. cbn [planar_pt po pd pT pp].
    destruct (getM_some (half2 go (z * t)) (half2 gd (z * t))) as (m & ->); [cbn [half2 hGcov]; rewrite det_Gcov2; nra|cbn [half2 hGcov]; rewrite det_Gcov2; nra|].
    cbn [obind]. eexists. split; [reflexivity|]. intros i Hi. unfold Svoigt, Sij, E_members, sum2. cbn [half2 hBcov]. destruct i as [|[|[|?]]]; try lia; cbn; ring.
  - unfold lin_vector_C. cbn [andb planar_pt po pd pT pp]. eexists. split; [reflexivity|]. intros i Hi.
    unfold Svoigt, Sij, E_members, halfC_lin, halfC, sum2, mzero. cbn [half2 hBcov]. destruct i as [|[|[|?]]]; try lia; cbn; ring.
Qed.
Print Assumptions C117_planar_no_bending.

(* C118: derivative of the material matrix with respect to the deformation tensor (27 entries per point: entry r + 3 (a + 3 b)
   belongs to entry (a,b) of the matrix and direction r = 11, 22, 12 (engineering)).
   Incompressible neo-Hookean: the derivatives at the state itself ... *)
Theorem C118_neo_hookean : forall D close eps epsm eig imp go gd t p z,
  let Go := Gcov go (z * t) in let G := Gcov gd (z * t) in 0 < det2 Go -> 0 < det2 G ->
  exists v, dC_pt D close eps epsm eig false imp (L NH) (shell_pt go gd t p) z = Ok v /\
    forall r a b, (r < 3)%nat -> (a < 3)%nat -> (b < 3)%nat ->
      is_derive (fun s => matrix_out (C_inc NH p (metric_of Go (line G (dirC r) s))) a b) 0 (v (r + 3 * (a + 3 * b))%nat) /\
      (* the tension-field material reads the 27 entries as a 9x3 matrix: still the derivative with respect to the strain *)
      is_derive (fun s => matrix_out (C_inc NH p (metric_of Go (line G (mscal 2 (dirC r)) s))) a b) 0 (tft_dC v a b r).
Proof.
  intros D close eps epsm eig imp go gd t p z Go G Po Pd.
  assert (AD : adm Go G). { split; [apply Gcov_plane|]. split; [apply Gcov_plane|]. split; assumption. }
  unfold dC_pt. cbn [shell_pt po pd pT pp]. rewrite (getM_adm (half3 go (z * t)) (half3 gd (z * t)) AD eq_refl eq_refl).
  cbn [obind closed_form half3 hGcov]. fold Go G. eexists. split; [reflexivity|]. intros r a b Hr Ha Hb. split.
  - pose proof (dmatrix_layout p Go G (dirC r) b a AD (dirC_in_plane r) Hb Ha) as E. cbv zeta in E. evar_last; [exact E|].
    replace (r + 3 * (a + 3 * b))%nat with (3 * (3 * b + a) + r)%nat by lia.
    destruct r as [|[|[|?]]]; try lia; unfold dirC; field.
  - pose proof (dmatrix_layout p Go G (mscal 2 (dirC r)) b a AD (mscal_in_plane 2 _ (dirC_in_plane r)) Hb Ha) as E. cbv zeta in E.
    evar_last; [exact E|]. unfold tft_dC. rewrite dC_total_sym; [|apply (metric_of_sym Go G); [apply AD|apply AD|lia|lia]|assumption..].
    destruct r as [|[|[|?]]]; try lia; unfold dirC, mscal; field.
Qed.
Print Assumptions C118_neo_hookean.

(* ... everything else: differences of the matrix with prescribed tensors.  With exact differences the result is the
   derivative at the state with HALF the shear component, and the third direction is correct ... *)
Theorem C118_differences : forall D close eps epsm eig comp imp w go gd t p z m (M : vec -> mat),
  let G := Gcov gd (z * t) in let x := components (half_shear G) in
  exact D -> closed_form comp w = false -> getM (half3 go (z * t)) (half3 gd (z * t)) = Ok m ->
  (exists e, 0 < e /\ forall y, near e x y -> eval_matrix_C eps epsm eig comp imp w (shell_pt go gd t p) y z = Ok (M y)) ->
  exists v, dC_pt D close eps epsm eig comp imp w (shell_pt go gd t p) z = Ok v /\
    forall r a b d, (r < 3)%nat -> (a < 3)%nat -> (b < 3)%nat -> is_derive (fun s => M (shift x r s) a b) 0 d ->
      v (r + 3 * (a + 3 * b))%nat = match r with 2%nat => d / 2 | _ => d end.
Proof. intros D close eps epsm eig comp imp w go gd t p z m M G x. apply (differences close eps epsm eig D comp imp w (shell_pt go gd t p) z m M). Qed.
Print Assumptions C118_differences.
(* ... which is the state itself where the deformed metric has no shear ... *)
Theorem C118_no_shear : forall D close eps epsm eig comp imp w go gd t p z m (M : vec -> mat),
  let G := Gcov gd (z * t) in let x := components G in
  exact D -> closed_form comp w = false -> getM (half3 go (z * t)) (half3 gd (z * t)) = Ok m -> G 0%nat 1%nat = 0 ->
  (exists e, 0 < e /\ forall y, near e x y -> eval_matrix_C eps epsm eig comp imp w (shell_pt go gd t p) y z = Ok (M y)) ->
  exists v, dC_pt D close eps epsm eig comp imp w (shell_pt go gd t p) z = Ok v /\
    forall r a b d, (r < 3)%nat -> (a < 3)%nat -> (b < 3)%nat -> is_derive (fun s => M (shift x r s) a b) 0 d ->
      v (r + 3 * (a + 3 * b))%nat = match r with 2%nat => d / 2 | _ => d end.
Proof.
  intros D close eps epsm eig comp imp w go gd t p z m M G x ED CF EM Z EE.
  assert (E : x = components (half_shear G)).
  { extensionality i. unfold x, components, half_shear. destruct i as [|[|?]]; try reflexivity. rewrite Z. field. }
  rewrite E in *. apply (C118_differences D close eps epsm eig comp imp w go gd t p z m M); assumption.
Qed.
Print Assumptions C118_no_shear.

(* ... and not otherwise: incompressible Mooney-Rivlin in simple shear. *)
Definition sheared2 : geo2 := mkGeo2 (fun i c => match i, c with 0%nat, 0%nat => 1 | 1%nat, 0%nat => / 2 | 1%nat, 1%nat => 1 | _, _ => 0 end).
Definition sheared : geo := flat sheared2 (fun _ _ => 0).
Definition mr : par := mkPar 2 0 0.
(* the 1111 component for an orthonormal reference metric *)
Definition c1111 (x y s : R) : R :=
  let J := x * y - s * s in (x + y) * 4 * y * y / (J * J * J) - 4 * y / (J * J).
Definition Mmr (y : vec) : mat := fun a b => matrix_out (C_inc MR mr (mkMetric (Gcon2 unit2) (G_of y) (Gi_of y) (det3 (G_of y) / det3 (Gcov2 unit2)))) a b.
Lemma unit_G i j : Gcov2 unit2 i j = match i, j with 0%nat, 0%nat | 1%nat, 1%nat | 2%nat, 2%nat => 1 | _, _ => 0 end.
Proof. unfold Gcov2, Acov2, unit2, sum2. destruct i as [|[|[|?]]], j as [|[|[|?]]]; cbn; ring. Qed.
Lemma unit_Gi : Gcon2 unit2 0%nat 0%nat = 1 /\ Gcon2 unit2 0%nat 1%nat = 0 /\ Gcon2 unit2 1%nat 0%nat = 0 /\ Gcon2 unit2 1%nat 1%nat = 1.
Proof. unfold Gcon2, inv3. rewrite det_Gcov2, unit_jac, !unit_G. repeat split; field. Qed.
Lemma Mmr_1111 y : y 0%nat * y 1%nat - y 2%nat * y 2%nat <> 0 -> Mmr y 0%nat 0%nat = c1111 (y 0%nat) (y 1%nat) (y 2%nat).
Proof.
  intro N. unfold Mmr, matrix_out, C_inc, traceCt, X4, dX4. cbn [Gori Gdef Gdefi J0]. destruct unit_Gi as (-> & -> & -> & ->).
  rewrite det_Gcov2, unit_jac. unfold Gi_of, inv2, det3, det2, G_of. unfold c1111, c1, c2, mu, mu_of, mr. cbn [pE pnu pratio].
  field. exact N.
Qed.
Definition dc1111 (x y s : R) : R := let J := x * y - s * s in 12 * y * y / (J * J * J) - 12 * (x + y) * y * y * y / (J * J * J * J).
Lemma c1111_derive x y s : 0 < x * y - s * s -> is_derive (fun t => c1111 (x + t) y s) 0 (dc1111 x y s).
Proof.
  intro P. unfold c1111, dc1111. cbv zeta. auto_derive.
  - rewrite !Rplus_0_r. repeat split; repeat apply Rmult_integral_contrapositive_currified; lra.
  - rewrite !Rplus_0_r. field. lra.
Qed.
Lemma near_shift (f : vec -> R) (g : R -> R -> R -> R) (x : vec) : (forall y, 0 < y 0%nat * y 1%nat - y 2%nat * y 2%nat -> f y = g (y 0%nat) (y 1%nat) (y 2%nat)) ->
  0 < x 0%nat * x 1%nat - x 2%nat * x 2%nat -> forall d, is_derive (fun t => g (x 0%nat + t) (x 1%nat) (x 2%nat)) 0 d ->
  is_derive (fun t => f (shift x 0 t)) 0 d.
Proof.
  intros E P d H. eapply is_derive_ext_loc; [|exact H].
  assert (C : continuous (fun t => (x 0%nat + t) * x 1%nat - x 2%nat * x 2%nat) 0).
  { apply (ex_derive_continuous (fun t => (x 0%nat + t) * x 1%nat - x 2%nat * x 2%nat)). auto_derive. exact I. }
  assert (L : locally 0 (fun t => 0 < (x 0%nat + t) * x 1%nat - x 2%nat * x 2%nat)).
  { apply C. apply (locally_open (fun u => 0 < u) (fun u => 0 < u)); [apply open_gt|intros; assumption|]. rewrite Rplus_0_r. exact P. }
  eapply filter_imp; [|exact L]. intros t Ht. cbv beta in Ht. rewrite E; unfold shift; cbn; [reflexivity|exact Ht].
Qed.

Theorem C118_differences_refuted : exists comp imp w go gd t p z, forall D close eps epsm eig, exact D ->
  exists v d, dC_pt D close eps epsm eig comp imp w (shell_pt go gd t p) z = Ok v /\
    is_derive (fun s => matrix_out (C_inc MR p (metric_of (Gcov go (z * t)) (line (Gcov gd (z * t)) (dirC 0) s))) 0 0) 0 d /\
    w = L MR /\ comp = false /\ imp = Analytical /\ v 0%nat <> d.
Proof.
  exists false, Analytical, (L MR), plate, sheared, 1, mr, 0. intros D close eps epsm eig ED.
  assert (GP : Gcov plate (0 * 1) = Gcov2 unit2) by apply flat_Gcov.
  assert (GS : Gcov sheared (0 * 1) = Gcov2 sheared2) by apply flat_Gcov.
  assert (K : Gcov2 sheared2 0%nat 0%nat = 1 /\ Gcov2 sheared2 1%nat 1%nat = 5 / 4 /\ Gcov2 sheared2 0%nat 1%nat = / 2 /\ Gcov2 sheared2 1%nat 0%nat = / 2).
  { unfold Gcov2, Acov2, sheared2, sum2. cbn. repeat split; field. }
  destruct K as (K0 & K1 & K2 & K3).
  assert (JS : jac2 sheared2 = 1) by (unfold jac2, sheared2; cbn; ring).
  destruct (getM_some (half3 plate (0 * 1)) (half3 sheared (0 * 1))) as (m & EM);
    [cbn [half3 hGcov]; rewrite ?GP, ?GS, det_Gcov2, ?unit_jac, ?JS; lra..|].
  destruct (C118_differences D close eps epsm eig false Analytical (L MR) plate sheared 1 mr 0 m Mmr ED eq_refl EM) as (v & V1 & V2).
  { exists (/ 16). split; [lra|]. intros y NY. rewrite GS in NY.
    pose proof (NY 0%nat ltac:(lia)) as N0. pose proof (NY 1%nat ltac:(lia)) as N1. pose proof (NY 2%nat ltac:(lia)) as N2.
    unfold components, half_shear in N0, N1, N2. rewrite K0 in N0. rewrite K1 in N1. rewrite K2 in N2.
    apply Rabs_def2 in N0, N1, N2.
    assert (PD : 0 < y 0%nat * y 1%nat - y 2%nat * y 2%nat) by nra.
    unfold eval_matrix_C, matrix_pt, matrix_inc. cbn [shell_pt po pd pT pp].
    assert (EG : getM (half3 plate (0 * 1)) (halfC y) = Ok (mkMetric (Gcon2 unit2) (G_of y) (Gi_of y) (det3 (G_of y) / det3 (Gcov2 unit2)))).
    { unfold getM. cbn [half3 halfC hGcov hGcon]. unfold Gcon. rewrite GP. unfold ratio.
      assert (D3 : 0 < det3 (G_of y)). { unfold det3, G_of. lra. }
      rewrite det_Gcov2, unit_jac. destruct (Req_EM_T (1 * 1) 0) as [Z|_]; [lra|].
      destruct (Rle_dec 0 _) as [_|N]; [reflexivity|]. exfalso. apply N. unfold Rdiv. rewrite Rmult_1_l, Rinv_1, Rmult_1_r. lra. }
    rewrite EG. cbn [obind C_i]. reflexivity. }
  rewrite GS in V2. set (xh := components (half_shear (Gcov2 sheared2))) in *.
  assert (XH : xh 0%nat = 1 /\ xh 1%nat = 5 / 4 /\ xh 2%nat = / 4).
  { unfold xh, components, half_shear. rewrite K0, K1, K2. repeat split; field. }
  destruct XH as (H0 & H1 & H2).
  assert (DV : is_derive (fun s => Mmr (shift xh 0 s) 0%nat 0%nat) 0 (dc1111 1 (5 / 4) (/ 4))).
  { apply (near_shift (fun y => Mmr y 0%nat 0%nat) c1111); rewrite ?H0, ?H1, ?H2; [|lra|apply c1111_derive; lra].
    intros y P. apply Mmr_1111. lra. }
  pose proof (V2 0%nat 0%nat 0%nat _ ltac:(lia) ltac:(lia) ltac:(lia) DV) as EV. cbn in EV.
  exists v, (dc1111 1 (5 / 4) (/ 2)). split; [exact V1|]. split; [|split; [reflexivity|split; [reflexivity|split; [reflexivity|]]]].
  - rewrite GP, GS. set (x := components (Gcov2 sheared2)).
    assert (X0 : x 0%nat = 1 /\ x 1%nat = 5 / 4 /\ x 2%nat = / 2) by (unfold x, components; rewrite K0, K1, K2; repeat split).
    destruct X0 as (X0 & X1 & X2).
    apply (is_derive_ext_loc (fun s => Mmr (shift x 0 s) 0%nat 0%nat)).
    + exists (mkposreal (/ 4) ltac:(lra)). intros s Hs. unfold ball in Hs; cbn in Hs; unfold AbsRing_ball, abs, minus, plus, opp in Hs; cbn in Hs.
      rewrite Ropp_0, Rplus_0_r in Hs. apply Rabs_def2 in Hs.
      assert (PM : plane_metric (line (Gcov2 sheared2) (dirC 0) s)).
      { destruct (Gcov2_plane sheared2) as (((S & A & B & C & F) & I) & Z). unfold line, dirC. split.
        - split; [|cbn -[Gcov2]; rewrite I; ring]. repeat split; cbn -[Gcov2]; rewrite ?A, ?B, ?C, ?F, ?S; ring.
        - intros i j H. rewrite Z by exact H. destruct i as [|[|?]], j as [|[|?]]; try ring; lia. }
      assert (CL : shift x 0 s = components (line (Gcov2 sheared2) (dirC 0) s)).
      { extensionality i. unfold shift, x, components, line, dirC. destruct i as [|[|?]]; cbn; ring. }
      unfold Mmr. rewrite CL, (G_of_components _ PM). f_equal. f_equal. unfold metric_of. f_equal.
      apply Gi_of_components; [apply PM|]. unfold det2, line, dirC. rewrite K0, K1, K2, K3. lra.
    + apply (near_shift (fun y => Mmr y 0%nat 0%nat) c1111); rewrite ?X0, ?X1, ?X2; [|lra|apply c1111_derive; lra].
      intros y P. apply Mmr_1111. lra.
  - rewrite EV. unfold dc1111. cbv zeta. lra.
Qed.
Print Assumptions C118_differences_refuted.
(* the contract of the differences can be met *)
Example C118_exact_exists : exists D, exact D.
Proof. exists derive_op. exact derive_op_exact. Qed.

(* Batches: without differences, and for a single point, each column is the value of its point and height; with differences
   and two or more points the evaluation leaves the stored data of the batch behind: undefined. *)
Theorem C118_batch : forall (D : pdata -> R -> outcome (nat -> R)) v P z n m, (forall q t, D q t = Ok (v q t)) ->
  (exists r, dmatrix_batch false D P z n m = Ok r /\ pointwise n m (fun k j => v (P k) (z j k)) r) /\
  (forall fd, exists r, dmatrix_batch fd D P z 1 m = Ok r /\ pointwise 1 m (fun k j => v (P k) (z j k)) r) /\
  ((2 <= n)%nat -> (1 <= m)%nat -> dmatrix_batch true D P z n m = UB).
Proof.
  intros D v P z n m DV. split; [|split].
  - rewrite (batch_plain D v P z DV). apply batch_pointwise.
  - intro fd. rewrite (batch_single D v P z DV). apply batch_pointwise.
  - apply (batch_ub D v P z DV).
Qed.
Print Assumptions C118_batch.
