(* Properties C08, C09, C10, C68, C69: through-thickness integration. *)
From Coq Require Import Reals Lra Lia List.
From Coquelicot Require Import Coquelicot.
From Verif Require Import Tensor MetricModel MetricSpec MetricProps LinearModel LinearSpec LinearProofs
  IntegrateModel IntegrateSpec IntegrateProofs.
Import ListNotations.
Open Scope R_scope.

(* C08: membrane force and moment of the linear material are the exact integrals of the plane-stress
   law applied to the Kirchhoff-Love strain. *)
Theorem C08_membrane_force : forall E nu go gd q t r,
  regular go -> regular gd -> E <> 0 -> nu <> -1 -> nu <> 1 -> nu <> / 2 ->
  exists I, linear_resultant E nu go gd VectorN q t r = Ok I /\
  is_moment (fun z => plane_stress_law E nu (inv2 (form1 go)) (kl_strain go gd z) (fst (row_of r)) (snd (row_of r))) t 0 I.
Proof. exact linear_N_spec. Qed.
Print Assumptions C08_membrane_force.

Theorem C08_moment : forall E nu go gd q t r,
  regular go -> regular gd -> E <> 0 -> nu <> -1 -> nu <> 1 -> nu <> / 2 ->
  exists I, linear_resultant E nu go gd VectorM q t r = Ok I /\
  is_moment (fun z => plane_stress_law E nu (inv2 (form1 go)) (kl_strain go gd z) (fst (row_of r)) (snd (row_of r))) t 1 I.
Proof. exact linear_M_spec. Qed.
Print Assumptions C08_moment.

(* the four stiffness outputs are the moments 0,1,1,2 of the material tensor *)
Theorem C08_stiffness : forall E nu go q t r c o, o = MatrixA \/ o = MatrixB \/ o = MatrixC \/ o = MatrixD ->
  exists I, linear_resultant_matrix E nu go o q t r c = Ok I /\
  is_moment (fun _ => voigt (Cijkl_surface E nu go) r c) t (match o with MatrixA => 0 | MatrixD => 2 | _ => 1 end) I.
Proof. exact linear_ABCD. Qed.
Print Assumptions C08_stiffness.

(* resultants and stiffness outputs are consistent: N = A eps + B kappa, M = C eps + D kappa *)
Theorem C08_resultants_from_stiffness : forall E nu go gd q t r,
  (r < 3)%nat -> regular go -> regular gd -> forall A B C D N M,
  (forall c, (c < 3)%nat -> linear_resultant_matrix E nu go MatrixA q t r c = Ok (A c)) ->
  (forall c, (c < 3)%nat -> linear_resultant_matrix E nu go MatrixB q t r c = Ok (B c)) ->
  (forall c, (c < 3)%nat -> linear_resultant_matrix E nu go MatrixC q t r c = Ok (C c)) ->
  (forall c, (c < 3)%nat -> linear_resultant_matrix E nu go MatrixD q t r c = Ok (D c)) ->
  linear_resultant E nu go gd VectorN q t r = Ok N ->
  linear_resultant E nu go gd VectorM q t r = Ok M ->
  N = sum3 (fun c => A c * voigt_strain (membrane_strain go gd) c + B c * voigt_strain (curvature_change go gd) c) /\
  M = sum3 (fun c => C c * voigt_strain (membrane_strain go gd) c + D c * voigt_strain (curvature_change go gd) c).
Proof. exact linear_constitutive. Qed.
Print Assumptions C08_resultants_from_stiffness.

(* the strain at height z used by the full 3D output differs from the linearised one only at order z^2 *)
Theorem C08_strain_expansion : forall go gd z i j, (i < 2)%nat -> (j < 2)%nat -> regular go -> regular gd ->
  E_tensor go gd z KGeneric i j = kl_strain go gd z i j
    + z * z * (/ 2 * (dot3 (ncov gd i) (ncov gd j) - dot3 (ncov go i) (ncov go j))).
Proof. exact strain_expansion_spec. Qed.
Print Assumptions C08_strain_expansion.

Example ex_C08 : linear_resultant 12 0 ex_geo (mkGeo (fun i c => 2 * tang ex_geo i c) (der2 ex_geo)) VectorN [] 1 0 <> Ok 0.
Proof.
  unfold linear_resultant, eval_into; cbn. unfold multiplyZ; cbn. intro H. injection H as H.
  unfold linear_vector, Svoigt, Sij, Cijkl, E_tensor, Cconstant, lambda_of, mu_of, Acon, inv2 in H; cbn in H.
  assert (A : det2 (Acov ex_geo) = 4) by (cbv [det2 Acov dot3 sum3 ex_geo tang v3]; ring).
  rewrite A in H. cbv [Acov dot3 sum3 ex_geo tang v3] in H. field_simplify in H. lra.
Qed.

(* C09: the closed formulas are exact for every moment and thickness *)
Theorem C09_constant_integrand : forall c t m, is_moment (fun _ => c) t m (multiplyZ t m (fun _ => c)).
Proof. exact moment_const. Qed.
Print Assumptions C09_constant_integrand.

Theorem C09_affine_integrand : forall g h t m,
  is_moment (fun z => g + z * h) t m (multiplyLinZ t m (fun z => g + z * t * h)).
Proof. exact moment_affine. Qed.
Print Assumptions C09_affine_integrand.

Example ex_C09 : multiplyLinZ 2 1 (fun z => 5 + z * 2 * 3) = 2.
Proof. unfold multiplyLinZ; cbn. field. Qed.

(* C10: quadrature of a polynomial response is exact as soon as the rule is, and all strategies agree *)
Theorem C10_quadrature_exact : forall d q t m c, exact_to d q -> (m + length c <= d + 1)%nat ->
  is_moment (poly c) t m (integrateZ q t m (fun z => poly c (z * t))).
Proof. exact gauss_exact. Qed.
Print Assumptions C10_quadrature_exact.

Theorem C10_strategies_agree : forall d q t m g h, exact_to d q -> (m + 1 <= d)%nat ->
  integrateZ q t m (fun z => g + z * t * h) = multiplyLinZ t m (fun z => g + z * t * h) /\
  multiplyLinZ t m (fun _ => g) = multiplyZ t m (fun _ => g).
Proof. exact strategies_agree. Qed.
Print Assumptions C10_strategies_agree.

(* the hypothesis holds for the default number of Gauss points (4): exact to degree 7 *)
Theorem C10_default_rule : exact_to 7 gauss4.
Proof. exact gauss4_exact. Qed.
Print Assumptions C10_default_rule.

Example ex_C10 : is_moment (poly [1; 2; 3]) 5 2 (integrateZ gauss4 5 2 (fun z => poly [1; 2; 3] (z * 5))).
Proof. apply (C10_quadrature_exact 7); [apply C10_default_rule|cbn; lia]. Qed.

(* C10 at the level of the outputs: each output of a material that is not integrated is the moment that belongs to it ... *)
Theorem C10_output_moments : forall d q t c o mo, exact_to d q ->
  In (o, mo) [(VectorN, 0); (CauchyVectorN, 0); (PStressN, 0); (MatrixA, 0); (VectorM, 1); (CauchyVectorM, 1); (PStressM, 1); (MatrixB, 1); (MatrixC, 1); (MatrixD, 2)]%nat ->
  (mo + length c <= d + 1)%nat ->
  exists I, eval_into NotIntegrated NotIntegrated o q t (fun z => poly c (z * t)) = Ok I /\ is_moment (poly c) t mo I.
Proof.
  intros d q t c o mo Hq Ho Hd. exists (integrateZ q t mo (fun z => poly c (z * t))). split; [|exact (gauss_exact d q t mo c Hq Hd)].
  cbn [In] in Ho. repeat (destruct Ho as [Ho|Ho]; [injection Ho as <- <-; reflexivity|]). destruct Ho.
Qed.
Print Assumptions C10_output_moments.
(* ... likewise for a material that varies linearly over the thickness ... *)
Theorem C10_output_moments_linear : forall q t g h o mo,
  In (o, mo) [(VectorN, 0); (CauchyVectorN, 0); (PStressN, 0); (MatrixA, 0); (VectorM, 1); (CauchyVectorM, 1); (PStressM, 1); (MatrixB, 1); (MatrixC, 1); (MatrixD, 2)]%nat ->
  exists I, eval_into Linear Linear o q t (fun z => g + z * t * h) = Ok I /\ is_moment (fun z => g + z * h) t mo I.
Proof.
  intros q t g h o mo Ho. exists (multiplyLinZ t mo (fun z => g + z * t * h)). split; [|exact (moment_affine g h t mo)].
  cbn [In] in Ho. repeat (destruct Ho as [Ho|Ho]; [injection Ho as <- <-; reflexivity|]). destruct Ho.
Qed.
Print Assumptions C10_output_moments_linear.
(* ... and the kind declared for vectors decides the resultants, the one declared for matrices everything else. *)
Theorem C10_kind_selected : forall sv sv' sm sm' o q t f,
  (In o [VectorN; VectorM; CauchyVectorN; CauchyVectorM] -> eval_into sv sm o q t f = eval_into sv sm' o q t f) /\
  (~ In o [VectorN; VectorM; CauchyVectorN; CauchyVectorM] -> eval_into sv sm o q t f = eval_into sv' sm o q t f).
Proof. intros sv sv' sm sm' o q t f. destruct o; cbn [In]; split; intro H; try reflexivity; exfalso; intuition congruence. Qed.
Print Assumptions C10_kind_selected.

(* the only outputs that cannot be formed are the principal strain resultants of a material that is not integrated already: these throw *)
Theorem C10_failure : forall sv sm o q t f,
  (eval_into sv sm o q t f = Throw <-> (o = PStrainN \/ o = PStrainM) /\ sm <> Integrated) /\ eval_into sv sm o q t f <> UB.
Proof.
  intros sv sm o q t f. unfold eval_into. destruct o, sv, sm; cbn; split; try discriminate; split; intro H; try discriminate;
    try (destruct H as ([H|H] & H'); try discriminate; congruence); try reflexivity; split; auto; discriminate.
Qed.
Print Assumptions C10_failure.
Example ex_C10_output : exists I, eval_into NotIntegrated NotIntegrated VectorM gauss4 5 (fun z => poly [1; 2; 3] (z * 5)) = Ok I /\ is_moment (poly [1; 2; 3]) 5 1 I.
Proof. apply (C10_output_moments 7); [apply C10_default_rule|cbn; tauto|cbn; lia]. Qed.

(* C68: tension-field material over a linear material, taut (mult = 1) or slack state: no moment, but a bending stiffness *)
Theorem C68_tft_moment_vanishes : forall E nu go gd mult q t r,
  tft_resultant E nu go gd mult VectorM q t r = Ok 0.
Proof. exact tft_moment_zero. Qed.
Print Assumptions C68_tft_moment_vanishes.

(* the membrane force is the multiplier times that of the inner material *)
Theorem C68_tft_membrane_force : forall E nu go gd mult q q' t r, exists N,
  linear_resultant E nu go gd VectorN q' t r = Ok N /\ tft_resultant E nu go gd mult VectorN q t r = Ok (mult * N).
Proof.
  intros. eexists. split; [reflexivity|]. unfold tft_resultant, eval_into; cbn. f_equal. unfold multiplyLinZ, multiplyZ, linear_vector; cbn.
  assert (K : forall z, E_tensor go gd z KMembrane = E_tensor go gd 0 KMembrane) by reflexivity.
  rewrite (K (- (1 / 2) * t)), (K (1 / 2 * t)), (K (0 * t)). field.
Qed.
Print Assumptions C68_tft_membrane_force.

Theorem C68_tft_bending_stiffness : forall E nu go mult q t r c,
  tft_resultant_matrix E nu go mult MatrixD q t r c = Ok (mult * (t ^ 3 / 12 * voigt (Cijkl_surface E nu go) r c)).
Proof. exact tft_D. Qed.
Print Assumptions C68_tft_bending_stiffness.

(* so the consistency that holds without tension field (C08_resultants_from_stiffness) fails in the taut state *)
Theorem C68_tft_consistency_refuted : exists E nu go gd q t r M D,
  (forall c, tft_resultant_matrix E nu go 1 MatrixD q t r c = Ok (D c)) /\
  (forall c, tft_resultant_matrix E nu go 1 MatrixC q t r c = Ok 0) /\
  tft_resultant E nu go gd 1 VectorM q t r = Ok M /\
  M <> sum3 (fun c => D c * voigt_strain (curvature_change go gd) c).
Proof. exact tft_inconsistent. Qed.
Print Assumptions C68_tft_consistency_refuted.

(* C69: integrated principal bending stress of a Constant-integrated material *)
Theorem C69_principal_bending_stress_zero : forall q t f, eval_into Constant Constant PStressM q t f = Ok 0.
Proof. exact pstressM_zero. Qed.
Print Assumptions C69_principal_bending_stress_zero.

Theorem C69_disagrees_with_moment : forall q t f, t <> 0 -> f 0 <> 0 ->
  exists v, eval_into Constant Constant VectorM q t f = Ok v /\ v = t ^ 3 / 12 * f 0 /\
  eval_into Constant Constant PStressM q t f <> Ok v.
Proof. exact pstressM_vs_vectorM. Qed.
Print Assumptions C69_disagrees_with_moment.

Example ex_C69 : exists v, eval_into Constant Constant VectorM [] 2 (fun _ => 3) = Ok v /\ v = 2 ^ 3 / 12 * 3 /\
  eval_into Constant Constant PStressM [] 2 (fun _ => 3) <> Ok v.
Proof. apply (C69_disagrees_with_moment [] 2 (fun _ => 3)); lra. Qed.
