(* Properties C47-C54 and C87-C92: variations of the normal, force / stiffness pairs, couplings, rigid motions. *)
From Coq Require Import Reals Lra Lia List Arith Psatz FunctionalExtensionality.
From Coquelicot Require Import Coquelicot.
From Verif Require Import Tensor MetricModel IntegrateModel LinearModel.
From Verif Require Import KinModel KinSpec KinAsm KinProofs KinStiff KinLoads KinMore.
Import ListNotations.
Open Scope R_scope.

(* the sample configurations used below: tangents e1, e2 (or 2 e1, e2), some curvature, and the variation "first tangent tilts up" *)
Definition e1 := vv 1 0 0. Definition e2 := vv 0 1 0. Definition e3 := vv 0 0 1.
Definition flat_jet : jet := mkjet vzero e1 e2 (vv 1 1 1) vzero e3.
Definition wide_jet : jet := mkjet vzero (vv 2 0 0) e2 vzero vzero vzero.
Definition tilt1 : jet := tjet e3 vzero.
Definition tilt2 : jet := tjet vzero e1.
Ltac jd := cbv [flat_jet wide_jet tilt1 tilt2 tjet e1 e2 e3 vv vzero j0 j1 j2 j11 j22 j12 jsec jcol cross3 dot3 sum3 vscal vadd vsub]; try lra.
Lemma flat_ok : regular flat_jet. Proof. unfold regular. jd. Qed.
Lemma wide_ok : regular wide_jet. Proof. unfold regular. jd. Qed.
Lemma der_unique : forall (f : R -> R) x a b, is_derive f x a -> is_derive f x b -> a = b.
Proof. intros f x a b A B. apply is_derive_unique in A. apply is_derive_unique in B. congruence. Qed.
Lemma jext : forall a b, j0 a = j0 b -> j1 a = j1 b -> j2 a = j2 b -> j11 a = j11 b -> j22 a = j22 b -> j12 a = j12 b -> a = b.
Proof. intros [] []; simpl; intros; subst; reflexivity. Qed.
Lemma jadd_zero : forall c, jadd c jzero = c.
Proof. intro c. apply jext; cbn [jadd jzero j0 j1 j2 j11 j22 j12]; extensionality k; unfold vadd, vzero; ring. Qed.
Lemma jscal_zero : forall c, jscal 0 c = jzero.
Proof. intro c. apply jext; cbn [jscal jzero j0 j1 j2 j11 j22 j12]; extensionality k; unfold vscal, vzero; ring. Qed.
Lemma field_zero : forall n bas, fieldjet n bas (fun _ _ => 0) = jzero.
Proof. induction n; intro bas; cbn [fieldjet]. reflexivity. rewrite IHn, !jscal_zero, !jadd_zero. reflexivity. Qed.
Lemma qdef_zero : forall n q, qdef n q (fun _ _ => 0) = qori q.
Proof. intros. unfold qdef. rewrite field_zero. apply jadd_zero. Qed.
Lemma flat_normal : unormal flat_jet = cross3 (j1 flat_jet) (j2 flat_jet) /\ measure flat_jet = 1.
Proof. apply normal_of. jd. Qed.

(* ================================================================ C01 (continued) *)
(* the covariant basis at height z is the derivative of the offset surface x + z n along the coordinate *)
Theorem C01_basis_of_offset_surface : forall (X : R -> vec) (g : R -> jet) (c : jet) i z, (i < 2)%nat -> g 0 = c -> regular c ->
  is_dvec X 0 (jcol c i) -> is_dvec (fun s => j1 (g s)) 0 (j1 (along c i)) -> is_dvec (fun s => j2 (g s)) 0 (j2 (along c i)) ->
  is_dvec (fun s => vadd (X s) (vscal z (unormal (g s)))) 0 (gcov (geo_of c) z i).
Proof. exact offset_path. Qed.
Print Assumptions C01_basis_of_offset_surface.

(* ================================================================ C47 *)
Theorem C47_unit_normal : forall c, regular c -> is_unit_normal (j1 c) (j2 c) (unormal c).
Proof. exact unormal_is. Qed.
Print Assumptions C47_unit_normal.

Theorem C47_first_variation : forall c v, regular c -> is_dvec (fun t => nrm (moved c v t)) 0 (var1 c v).
Proof.
  intros c v P k Hk. apply (is_derive_ext_loc (fun t => unormal (moved c v t) k)); [|apply (nor_m c v P k Hk)].
  assert (R0 : regular (moved c v 0)) by (rewrite moved0; exact P).
  assert (CP := cross_path (moved c v) 0 v (moved_path c v 0)).
  assert (L := loc_pos _ _ _ (d_dot _ _ 0 _ _ CP CP) R0).
  revert L. apply filter_imp. intros s Ps. rewrite unormal_nrm by exact Ps. reflexivity.
Qed.
Print Assumptions C47_first_variation.

(* along any differentiable family of configurations, not only straight ones *)
Theorem C47_first_variation_path : forall g t v, jpath g t v -> regular (g t) -> is_dvec (fun s => unormal (g s)) t (var1 (g t) v).
Proof. exact normal_path. Qed.
Print Assumptions C47_first_variation_path.

Theorem C47_variation_is_tangential : forall c v, regular c -> dot3 (var1 c v) (unormal c) = 0.
Proof. exact var1_orth. Qed.
Print Assumptions C47_variation_is_tangential.

Example ex_C47 : regular flat_jet /\ var1 flat_jet tilt1 0%nat = -1.
Proof.
  split. exact flat_ok. destruct flat_normal as [E M]. unfold var1, outer_apply, m_var. rewrite E, M. jd.
Qed.

(* ================================================================ C48 *)
Theorem C48_second_variation : forall c u v, regular c -> is_dvec (fun t => var1 (moved c v t) u) 0 (var2 c u v).
Proof. intros. apply var_m. assumption. Qed.
Print Assumptions C48_second_variation.

Theorem C48_symmetric : forall c u v i, regular c -> (i < 3)%nat -> var2 c u v i = var2 c v u i.
Proof. intros c u v i P Hi. apply var2_sym; assumption. Qed.
Print Assumptions C48_symmetric.

(* the contracted outputs of the two expressions are the derivatives of the contracted first variation *)
Theorem C48_contracted : forall c u v f, regular c ->
  is_derive (fun t => dot3 f (var1 (moved c v t) u)) 0 (var2dot c u v f).
Proof. intros. unfold var2dot. apply dotc. apply var_m. assumption. Qed.
Print Assumptions C48_contracted.

Example ex_C48 : regular flat_jet /\ var2 flat_jet tilt1 tilt1 2%nat = -1.
Proof.
  split. exact flat_ok. destruct flat_normal as [E M]. unfold var2, var2_with, outer_apply, m_var, m_uv. rewrite E, M. jd.
Qed.

(* ================================================================ C49 *)
(* error of the field version: the projection of (u_1 x v_2 - v_1 x u_2)/|a_1 x a_2| onto the tangent plane *)
Definition field_defect (c u v : jet) : vec := fun i =>
  let d := fun k => (cross3 (j1 u) (j2 v) k - cross3 (j1 v) (j2 u) k) / norm3 (cross3 (j1 c) (j2 c)) in
  d i - dot3 (nrm c) d * nrm c i.
Theorem C49_field_version : forall c u v i, regular c -> (i < 3)%nat -> var2_field_normal c u v i = var2 c u v i + field_defect c u v i.
Proof.
  intros c u v i P Hi. assert (U := unormal_nrm c P). assert (Mn := measure_ne c P).
  unfold var2_field_normal, var2, var2_with, field_defect. cbv zeta. rewrite <- U.
  fold (measure c). set (n := unormal c). set (mu := m_var c u). set (mv := m_var c v).
  unfold m_uv_field, m_uv. set (q := measure c) in *. clearbody n mu mv q.
  assert (X : forall k, cross3 (j2 v) (j1 u) k = - cross3 (j1 u) (j2 v) k) by (intro k; destruct k as [|[|k]]; unfold cross3; ring).
  unfold outer_apply, dot3, sum3. rewrite !X. field. exact Mn.
Qed.
Print Assumptions C49_field_version.

(* so it is the derivative of the first variation exactly when that projection vanishes (in particular for u = v) *)
Theorem C49_correct_iff : forall c u v, regular c ->
  (is_dvec (fun t => var1 (moved c v t) u) 0 (var2_field_normal c u v) <-> forall i, (i < 3)%nat -> field_defect c u v i = 0).
Proof.
  intros c u v P. split.
  - intros H i Hi. assert (B := der_unique _ _ _ _ (H i Hi) (var_m c v u P i Hi)). rewrite (C49_field_version c u v i P Hi) in B. lra.
  - intros H i Hi. rewrite (C49_field_version c u v i P Hi), (H i Hi), Rplus_0_r. apply (var_m c v u P i Hi).
Qed.
Print Assumptions C49_correct_iff.

Theorem C49_symmetry_refuted : exists c u v, regular c /\ var2_field c u v 0%nat <> var2_field c v u 0%nat.
Proof.
  exists flat_jet, tilt1, tilt2. split. exact flat_ok. destruct flat_normal as [E M].
  unfold var2_field, var2_field_normal, var2_with, curv_of, outer_apply, m_var, m_uv_field. rewrite E, M. jd.
Qed.
Print Assumptions C49_symmetry_refuted.

Theorem C49_derivative_refuted : exists c u v, regular c /\ ~ is_dvec (fun t => var1 (moved c v t) u) 0 (var2_field_normal c u v).
Proof.
  exists flat_jet, tilt1, tilt2. split. exact flat_ok. rewrite C49_correct_iff by exact flat_ok. intro H. specialize (H 1%nat ltac:(lia)).
  revert H. unfold field_defect, nrm. cbv zeta.
  assert (N1 : norm3 (cross3 (j1 flat_jet) (j2 flat_jet)) = 1) by (apply (proj2 flat_normal)).
  assert (N2 : sqrt (dot3 (cross3 (j1 flat_jet) (j2 flat_jet)) (cross3 (j1 flat_jet) (j2 flat_jet))) = 1) by exact N1.
  rewrite N1, N2. jd.
Qed.
Print Assumptions C49_derivative_refuted.

Example ex_C49 : forall c u i, regular c -> (i < 3)%nat -> field_defect c u u i = 0.
Proof. intros. unfold field_defect. cbv zeta. unfold dot3, sum3, Rminus, Rdiv. ring. Qed.

(* ================================================================ C50 *)
Theorem C50_membrane_strain_variation : forall ori c v, is_dvec (fun t => mem_strain ori (moved c v t)) 0 (Em_der c v).
Proof. intros. assert (G := mem_path ori (moved c v) 0 v (moved_path c v 0)). rewrite moved0 in G. exact G. Qed.
Print Assumptions C50_membrane_strain_variation.

Theorem C50_bending_strain_variation : forall ori c v, regular c -> is_dvec (fun t => bend_strain ori (moved c v t)) 0 (Ef_der c v).
Proof. intros ori c v P. assert (G := bend_path ori (moved c v) 0 v (moved_path c v 0)). rewrite moved0 in G. apply G; exact P. Qed.
Print Assumptions C50_bending_strain_variation.

Theorem C50_stiffness_is_jacobian : forall n pts x y i d, (d < 3)%nat ->
  (forall q, In q pts -> regular (qdef n q x) /\ has_tangents (qN q) (qA q) (qC q) /\ has_tangents (qM q) (qB q) (qD q)) ->
  is_derive (fun t => Fvec n pts (cmove x y t) i d) 0 (Kapply n pts x y i d).
Proof. exact assembled. Qed.
Print Assumptions C50_stiffness_is_jacobian.

Theorem C50_force_is_energy_gradient : forall n pts W x y,
  (forall q, In q pts -> regular (qdef n q x) /\ has_gradient (W q) (qN q) (qM q)) ->
  is_derive (fun t => energy n pts W (cmove x y t)) 0 (rsum n (fun i => sum3 (fun d => Fvec n pts x i d * y i d))).
Proof. exact energy_gradient. Qed.
Print Assumptions C50_force_is_energy_gradient.

(* membrane version (bending = false) *)
Theorem C50_membrane_stiffness : forall ori (N : vec -> vec) (A : vec -> mat) c v u,
  (forall (e : R -> vec) de, is_dvec e 0 de -> forall a, (a < 3)%nat -> is_derive (fun t => N (e t) a) 0 (sum3 (fun b => A (e 0) a b * de b))) ->
  is_derive (fun t => Fint_mem (moved c u t) (N (mem_strain ori (moved c u t))) v) 0
    (Kstiff_mem c (A (mem_strain ori c)) (N (mem_strain ori c)) v u).
Proof.
  intros ori N A c v u H. unfold Fint_mem. assert (DE := C50_membrane_strain_variation ori c u).
  assert (T := H _ _ DE). evar_last. apply d_dot. exact T. intros a Ha. apply (Em_der_path (moved c u) 0 u v a Ha (moved_path c u 0)).
  cbv beta. rewrite (Em2_flatdot u v). rewrite moved0. unfold Kstiff_mem.
  set (X := A (mem_strain ori c)). set (q := flatdot v u (N (mem_strain ori c))). unfold rowmat, dot3, sum3. ring.
Qed.
Print Assumptions C50_membrane_stiffness.

(* the hypotheses on the resultants hold when they are computed by the thickness quadrature from a stress law and its tangent:
   moments 0,1 of the stress and moments 0,1,1,2 of the tangent *)
Theorem C50_quadrature_resultants : forall q t S T, law_tangent S T ->
  has_tangents (res_vec q t 0 S) (res_mat q t 0 T) (res_mat q t 1 T) /\ has_tangents (res_vec q t 1 S) (res_mat q t 1 T) (res_mat q t 2 T).
Proof. intros; split; apply res_tangents; assumption. Qed.
Print Assumptions C50_quadrature_resultants.

(* end to end for the linear material: resultants and matrices as returned by the integration of gsMaterialMatrixLinear *)
Theorem C50_linear_material : forall E nu q t ori c u v (N M : R -> vec) (A B C D : mat), regular ori -> regular c ->
  (forall s r, (r < 3)%nat -> regular (moved c u s) -> linear_resultant E nu (geo_of ori) (geo_of (moved c u s)) VectorN q t r = Ok (N s r)) ->
  (forall s r, (r < 3)%nat -> regular (moved c u s) -> linear_resultant E nu (geo_of ori) (geo_of (moved c u s)) VectorM q t r = Ok (M s r)) ->
  (forall r k, (r < 3)%nat -> (k < 3)%nat -> linear_resultant_matrix E nu (geo_of ori) MatrixA q t r k = Ok (A r k)) ->
  (forall r k, (r < 3)%nat -> (k < 3)%nat -> linear_resultant_matrix E nu (geo_of ori) MatrixB q t r k = Ok (B r k)) ->
  (forall r k, (r < 3)%nat -> (k < 3)%nat -> linear_resultant_matrix E nu (geo_of ori) MatrixC q t r k = Ok (C r k)) ->
  (forall r k, (r < 3)%nat -> (k < 3)%nat -> linear_resultant_matrix E nu (geo_of ori) MatrixD q t r k = Ok (D r k)) ->
  is_derive (fun s => Fint (moved c u s) (N s) (M s) v) 0 (Kstiff c A B C D (N 0) (M 0) v u).
Proof. exact linear_density. Qed.
Print Assumptions C50_linear_material.

(* a quadrature point of a linear-elastic law that satisfies the hypotheses *)
Definition lin_law (k : R) : R -> vec -> vec := fun _ e a => k * e a.
Definition lin_tan (k : R) : R -> vec -> mat := fun _ _ a b => if Nat.eqb a b then k else 0.
Lemma lin_law_ok : forall k, law_tangent (lin_law k) (lin_tan k).
Proof.
  intros k z e de H a Ha. unfold lin_law, lin_tan. evar_last. apply d_cmul. apply H; exact Ha.
  destruct a as [|[|[|a]]]; [| | |exfalso; lia]; unfold sum3; simpl; ring.
Qed.
Definition lin_point (ori : jet) (bas : nat -> sjet) (k t : R) (q : rule) : qpoint :=
  mkq 1 bas ori (res_vec q t 0 (lin_law k)) (res_vec q t 1 (lin_law k))
    (res_mat q t 0 (lin_tan k)) (res_mat q t 1 (lin_tan k)) (res_mat q t 1 (lin_tan k)) (res_mat q t 2 (lin_tan k)).
Example ex_C50 : forall y i d, (d < 3)%nat ->
  is_derive (fun t => Fvec 1 [lin_point flat_jet (fun _ => mksjet 1 1 0 0 0 1) 3 2 [(1, 0)]] (cmove (fun _ _ => 0) y t) i d) 0
    (Kapply 1 [lin_point flat_jet (fun _ => mksjet 1 1 0 0 0 1) 3 2 [(1, 0)]] (fun _ _ => 0) y i d).
Proof.
  intros. apply C50_stiffness_is_jacobian. assumption. intros q [<-|[]]. split; [|split].
  - rewrite qdef_zero. exact flat_ok.
  - apply (res_tangents [(1, 0)] 2 0 _ _ (lin_law_ok 3)).
  - apply (res_tangents [(1, 0)] 2 1 _ _ (lin_law_ok 3)).
Qed.

(* ================================================================ C51 *)
Theorem C51_density_symmetric : forall c A B C D N M u v, regular c -> symm3 A -> symm3 D -> transp3 B C ->
  Kstiff c A B C D N M u v = Kstiff c A B C D N M v u.
Proof. exact Kstiff_sym. Qed.
Print Assumptions C51_density_symmetric.

Theorem C51_matrix_symmetric : forall n pts x i d j e, (d < 3)%nat -> (e < 3)%nat ->
  (forall q, In q pts -> regular (qdef n q x) /\ symm3 (qA q (qem n q x) (qef n q x)) /\ symm3 (qD q (qem n q x) (qef n q x)) /\
     transp3 (qB q (qem n q x) (qef n q x)) (qC q (qem n q x) (qef n q x))) ->
  Kmat n pts x i d j e = Kmat n pts x j e i d.
Proof. exact Kmat_sym. Qed.
Print Assumptions C51_matrix_symmetric.

Example ex_C51 : forall d e, (d < 3)%nat -> (e < 3)%nat ->
  let pts := [lin_point flat_jet (fun i => match i with 0%nat => mksjet 1 1 0 0 0 1 | _ => mksjet 0 0 1 2 0 0 end) 3 2 [(1, 1/2)]] in
  Kmat 2 pts (fun _ _ => 0) 0 d 1 e = Kmat 2 pts (fun _ _ => 0) 1 e 0 d.
Proof.
  intros d e Hd He pts. apply C51_matrix_symmetric; try assumption. intros q [<-|[]].
  assert (S : forall m x y, symm3 (res_mat [(1, 1/2)] 2 m (lin_tan 3) x y)).
  { intros m x y. apply res_symm. intros z w a b Ha Hb. unfold lin_tan. rewrite Nat.eqb_sym. reflexivity. }
  split; [|split; [|split]].
  - rewrite qdef_zero. exact flat_ok.
  - apply S.
  - apply S.
  - intros a b Ha Hb. apply (S 1%nat); assumption.
Qed.

(* ================================================================ C52 *)
Theorem C52_pressure : forall p c v u, regular c -> is_derive (fun t => Fpress p (moved c u t) v) 0 (- Kpress p c v u).
Proof. exact press_path. Qed.
Print Assumptions C52_pressure.
Example ex_C52 : regular flat_jet /\ Kpress 1 flat_jet (mkjet e1 vzero vzero vzero vzero vzero) tilt1 = 1.
Proof.
  split. exact flat_ok. destruct flat_normal as [E M]. unfold Kpress, var1, outer_apply, m_var. rewrite E, M. jd.
Qed.

(* ================================================================ C53 *)
Theorem C53_foundation_derivative : forall k ori c v u, is_derive (fun t => Ffound k ori (moved c u t) v) 0 (Kfound k v u).
Proof. exact found_path. Qed.
Print Assumptions C53_foundation_derivative.

(* ... while every other load satisfies "matrix = - derivative of vector"; for a foundation this fails at every configuration *)
Theorem C53_consistency_refuted : forall k i, (i < 3)%nat -> k i <> 0 ->
  exists u, forall ori c, ~ is_derive (fun t => Ffound k ori (moved c u t) u) 0 (- Kfound k u u).
Proof.
  intros k i Hi Hk. exists (bvar i (mksjet 1 0 0 0 0 0)). intros ori c H.
  assert (B := der_unique _ _ _ _ H (found_path k ori c (bvar i (mksjet 1 0 0 0 0 0)) (bvar i (mksjet 1 0 0 0 0 0)))). revert B. unfold Kfound, bvar, vecFun, sum3.
  destruct i as [|[|[|i]]]; [| | |exfalso; lia]; simpl; intro B; apply Hk; lra.
Qed.
Print Assumptions C53_consistency_refuted.

(* the assembled force does non-negative work on the displacement: it pushes the shell away from the foundation *)
Theorem C53_force_is_not_restoring : forall k ori c, (forall i, 0 <= k i) ->
  0 <= Ffound k ori c (jadd c (jscal (-1) ori)).
Proof.
  intros k ori c H. unfold Ffound, jadd, jscal, vadd, vscal; simpl. unfold sum3.
  assert (Q : forall i, 0 <= (j0 c i + -1 * j0 ori i) * k i * (j0 c i - j0 ori i)).
  { intro i. replace ((j0 c i + -1 * j0 ori i) * k i * (j0 c i - j0 ori i)) with (k i * (j0 c i - j0 ori i)²) by (unfold Rsqr; ring).
    apply Rmult_le_pos. apply H. apply Rle_0_sqr. }
  generalize (Q 0%nat) (Q 1%nat) (Q 2%nat). lra.
Qed.
Print Assumptions C53_force_is_not_restoring.
Example ex_C53 : Ffound (fun _ => 2) jzero (mkjet e1 vzero vzero vzero vzero vzero) (mkjet e1 vzero vzero vzero vzero vzero) = 2.
Proof. unfold Ffound, jzero. jd. Qed.

(* ================================================================ C54 *)
(* penalty factors are held fixed (the code re-evaluates them from the material matrices of the deformed configuration) *)
Theorem C54_interface_3d : forall al ori c v u, is_derive (fun t => Fifc3 al ori (moved2 c u t) v) 0 (- Kifc al v u).
Proof. exact ifc3_path. Qed.
Print Assumptions C54_interface_3d.

Theorem C54_interface_psd : forall al v, 0 <= al ->
  0 <= Kifc al v v /\ (0 < al -> (Kifc al v v = 0 <-> forall i, (i < 3)%nat -> j0 (fst v) i = j0 (snd v) i)).
Proof.
  intros al v H. rewrite ifc_square. set (w := vsub _ _). assert (P := dot_nonneg w). split. apply Rmult_le_pos; assumption.
  intro Ha. split.
  - intro E. apply Rmult_integral in E. destruct E as [E|E]; [lra|].
    assert (Z : forall i, (i < 3)%nat -> w i = 0).
    { unfold dot3, sum3 in E. generalize (Rle_0_sqr (w 0%nat)) (Rle_0_sqr (w 1%nat)) (Rle_0_sqr (w 2%nat)). unfold Rsqr. intros Q0 Q1 Q2.
      intros i Hi. destruct i as [|[|[|i]]]; [| | |exfalso; lia]; apply Rsqr_0_uniq; unfold Rsqr; lra. }
    intros i Hi. specialize (Z i Hi). unfold w, vsub in Z. lra.
  - intro E. unfold w, vsub, dot3, sum3. rewrite !E by lia. ring.
Qed.
Print Assumptions C54_interface_psd.

Theorem C54_interface_2d_sign_refuted : forall al, al <> 0 -> exists v u, forall ori c,
  is_derive (fun t => Fifc2 al ori (moved2 c u t) v) 0 (Kifc al v u) /\
  ~ is_derive (fun t => Fifc2 al ori (moved2 c u t) v) 0 (- Kifc al v u).
Proof.
  intros al Ha. set (w := (bvar 0 (mksjet 1 0 0 0 0 0), jzero)). exists w, w. intros ori c. split. apply ifc2_path. intro H.
  assert (B := der_unique _ _ _ _ H (ifc2_path al ori c w w)). revert B.
  unfold Kifc, w, bvar, vecFun, jzero, vzero; simpl. unfold dot3, sum3; simpl. intro B. apply Ha. lra.
Qed.
Print Assumptions C54_interface_2d_sign_refuted.

(* the 2D linear matrix carries the measure twice, so it differs from the nonlinear matrix at the undeformed configuration *)
Theorem C54_interface_2d_linear_refuted : forall al m, al <> 0 -> m <> 1 -> exists v, Kifc2_lin al m v v <> Kifc al v v.
Proof.
  intros al m Ha Hm. exists (bvar 0 (mksjet 1 0 0 0 0 0), jzero). unfold Kifc2_lin, Kifc, bvar, vecFun, jzero, vzero; simpl. unfold dot3, sum3; simpl.
  intro H. apply Hm. apply (Rmult_eq_reg_l al); [|exact Ha]. lra.
Qed.
Print Assumptions C54_interface_2d_linear_refuted.

Theorem C54_weak_dirichlet : forall al g ori c v u, is_derive (fun t => Fweakdir al g ori (moved c u t) v) 0 (- Kweakdir al v u).
Proof. exact weakdir_path. Qed.
Print Assumptions C54_weak_dirichlet.

(* the penalty alone (linear assembly) is solved by the prescribed value in 3D; in 2D by (alpha_raw/alpha) times that value *)
Theorem C54_weak_dirichlet_value_3d : forall al g u, al <> 0 ->
  ((forall v, Kweakdir al v u = Fweakdir_lin3 al g v) <-> forall i, (i < 3)%nat -> j0 u i = g i).
Proof.
  intros al g u Ha. split.
  - intros H i Hi. specialize (H (bvar i (mksjet 1 0 0 0 0 0))). revert H. unfold Kweakdir, Fweakdir_lin3, bvar, vecFun, dot3, sum3.
    destruct i as [|[|[|i]]]; [| | |exfalso; lia]; simpl; intro H; apply (Rmult_eq_reg_l al); [lra|exact Ha|lra|exact Ha|lra|exact Ha].
  - intros H v. unfold Kweakdir, Fweakdir_lin3, dot3, sum3. rewrite !H by lia. ring.
Qed.
Print Assumptions C54_weak_dirichlet_value_3d.
Theorem C54_weak_dirichlet_value_2d : forall al raw g ori u, al <> 0 ->
  ((forall v, Kweakdir al v u = Fweakdir_lin2 raw g ori v) <-> forall i, (i < 3)%nat -> j0 u i = raw / al * g i).
Proof.
  intros al raw g ori u Ha. split.
  - intros H i Hi. specialize (H (bvar i (mksjet 1 0 0 0 0 0))). revert H. unfold Kweakdir, Fweakdir_lin2, bvar, vecFun, vsub, dot3, sum3.
    destruct i as [|[|[|i]]]; [| | |exfalso; lia]; simpl; intro H; apply (Rmult_eq_reg_l al); try exact Ha; unfold Rdiv;
    match goal with |- al * ?a = al * (raw * / al * ?b) => replace (al * (raw * / al * b)) with (raw * b * (al * / al)) by ring end; rewrite Rinv_r by exact Ha; lra.
  - intros H v. unfold Kweakdir, Fweakdir_lin2, vsub, dot3, sum3. rewrite !H by lia. field. exact Ha.
Qed.
Print Assumptions C54_weak_dirichlet_value_2d.

(* but the penalty enters the matrix with a negative sign: adding it to a positive stiffness can make the system singular *)
Theorem C54_weak_dirichlet_indefinite_refuted : forall al, 0 < al ->
  (forall v, Kweakdir al v v <= 0) /\ exists (s : R) v, 0 < s /\ dot3 (j0 v) (j0 v) = 1 /\ s * dot3 (j0 v) (j0 v) + Kweakdir al v v = 0.
Proof.
  intros al Ha. split.
  - intro v. unfold Kweakdir. assert (P := Rmult_le_pos _ _ (Rlt_le _ _ Ha) (dot_nonneg (j0 v))). lra.
  - exists al, (bvar 0 (mksjet 1 0 0 0 0 0)). unfold Kweakdir, bvar, vecFun, dot3, sum3; simpl. lra.
Qed.
Print Assumptions C54_weak_dirichlet_indefinite_refuted.

(* rotational (C1) coupling, out-of-plane part: exactly consistent at every configuration *)
Theorem C54_rotation_out_of_plane : forall al ori c v u, regular (fst c) -> regular (snd c) ->
  is_derive (fun t => FifcC1 al ori (moved2 c u t) v) 0 (- KifcC1 al ori c v u).
Proof. exact ifcC1_path. Qed.
Print Assumptions C54_rotation_out_of_plane.

Example ex_C54 : KifcC1 1 (flat_jet, flat_jet) (flat_jet, wide_jet) (tilt1, jzero) (jzero, jzero) = 0 /\ regular flat_jet /\ regular wide_jet
  /\ Kifc 2 (mkjet e1 vzero vzero vzero vzero vzero, jzero) (mkjet e1 vzero vzero vzero vzero vzero, jzero) = 2.
Proof.
  split; [|split; [exact flat_ok|split; [exact wide_ok|]]].
  - assert (Z : forall c i, var1 c jzero i = 0). { intros. unfold var1, outer_apply, m_var, jzero, vzero, sum3; simpl. destruct i as [|[|i]]; unfold cross3, Rdiv; ring. }
    assert (Z2 : forall c v f, var2dot c v jzero f = 0).
    { intros c v f. unfold var2dot. assert (E : var2 c v jzero = vzero).
      { replace jzero with (jscal 0 jzero) by apply jscal0. rewrite var2_scal. extensionality i. unfold vscal, vzero. ring. }
      rewrite E. unfold vzero, dot3, sum3; ring. }
    unfold KifcC1. cbv zeta. unfold v1l, v1r; simpl. rewrite !Z2. unfold dot3, sum3. rewrite !Z. ring.
  - unfold Kifc, jzero; simpl. jd.
Qed.

(* ================================================================ C87 *)
Theorem C87_tangent_column : forall tol s i c, 0 < tol < 1 -> s = 1 \/ s = -1 -> (i < 2)%nat -> regular c ->
  detect tol c (onormal s i c) = Some i /\ detect_sign c (tangent s i c) i = s.
Proof. exact detect_ok. Qed.
Print Assumptions C87_tangent_column.

Theorem C87_tangent_variation : forall s i g t v, jpath g t v -> 0 < dot3 (tangent s i (g t)) (tangent s i (g t)) ->
  is_dvec (fun r => normalize (tangent s i (g r))) t (tvar1 s i (g t) v).
Proof. exact tvar_path. Qed.
Print Assumptions C87_tangent_variation.

Theorem C87_outer_normal_variation : forall s i g t v, jpath g t v -> regular (g t) -> 0 < dot3 (tangent s i (g t)) (tangent s i (g t)) ->
  is_dvec (fun r => cross3 (normalize (tangent s i (g r))) (unormal (g r))) t (ovar1 s i (g t) v).
Proof. exact onormal_path. Qed.
Print Assumptions C87_outer_normal_variation.

Theorem C87_second_variation_unit_columns : forall s i c u v, s = 1 \/ s = -1 -> regular c -> dot3 (j1 c) (j1 c) = 1 -> dot3 (j2 c) (j2 c) = 1 ->
  is_dvec (fun r => ovar1 s i (moved c v r) u) 0 (ovar2 s i c u v).
Proof.
  intros s i c u v S P U1 U2. unfold ovar2. rewrite (jnorm_unit c U1 U2).
  assert (G := ovar_m (s, i) c v u). simpl in G. apply G. split; [exact P|]. simpl. unfold tangent. rewrite dot_scal, dot_scall.
  destruct i; unfold jcol; [rewrite U1|rewrite U2]; destruct S; subst s; lra.
Qed.
Print Assumptions C87_second_variation_unit_columns.

(* without unit columns the second variation is wrong: the code normalises the jacobian columns used in the normal's variation *)
Theorem C87_second_variation_refuted : exists c u, regular c /\ ~ is_dvec (fun r => ovar1 1 0 (moved c u r) u) 0 (ovar2 1 0 c u u).
Proof.
  exists wide_jet, tilt1. split. exact wide_ok. intro H.
  assert (E : edge_regular (1, 0%nat) wide_jet). { split. exact wide_ok. unfold tangent; simpl. jd. }
  assert (B := der_unique _ _ _ _ (H 1%nat ltac:(lia)) (ovar_m (1, 0%nat) wide_jet tilt1 tilt1 E 1%nat ltac:(lia))). simpl in B. revert B.
  assert (S4 : sqrt 4 = 2) by (replace 4 with (2 * 2) by ring; apply sqrt_square; lra).
  assert (D4 : dot3 (vv 2 0 0) (vv 2 0 0) = 4) by jd.
  assert (X4 : dot3 (cross3 (j1 wide_jet) (j2 wide_jet)) (cross3 (j1 wide_jet) (j2 wide_jet)) = 4) by jd.
  assert (N1 : normalize (vv 2 0 0) = vv 1 0 0).
  { rewrite normalize_pos by (rewrite D4; lra). unfold norm3. rewrite D4, S4. extensionality k. destruct k as [|[|k]]; unfold vv; lra. }
  assert (N2 : normalize e2 = e2) by (apply norm_unit; jd).
  assert (UN : unormal wide_jet = e3).
  { unfold unormal. rewrite normalize_pos by (rewrite X4; lra). unfold norm3. rewrite X4, S4. extensionality k. destruct k as [|[|k]]; jd. }
  assert (MW : measure wide_jet = 2) by (unfold measure, norm3; rewrite X4; exact S4).
  assert (JW : jnorm wide_jet = tjet e1 e2) by (unfold jnorm, wide_jet; simpl; rewrite N1, N2; reflexivity).
  assert (MJ : measure (tjet e1 e2) = 1) by (apply normal_of; jd).
  assert (TW : tangent 1 0 wide_jet = vv 2 0 0) by (unfold tangent, vscal; extensionality k; destruct k as [|[|k]]; jd).
  assert (LT : norm3 (vv 2 0 0) = 2) by (unfold norm3; rewrite D4; exact S4).
  unfold ovar2. rewrite JW. unfold ovar2_with, tvar2, snvar2_with, snvar1_with, tvar1. cbv zeta. rewrite !UN, !TW, !N1, !LT.
  unfold m_var, m_uv. rewrite ?MW, ?MJ. jd.
Qed.
Print Assumptions C87_second_variation_refuted.
Example ex_C87 : regular flat_jet /\ dot3 (j1 flat_jet) (j1 flat_jet) = 1 /\ dot3 (j2 flat_jet) (j2 flat_jet) = 1.
Proof. split. exact flat_ok. split; jd. Qed.

(* ================================================================ C88 *)
Theorem C88_in_plane_coupling_at_reference : forall al sl sr c v u, edge_regular sl (fst c) -> edge_regular sr (snd c) ->
  is_derive (fun t => FifcIn al sl sr c (moved2 c u t) v) 0 (- KifcIn al sl sr c c v u).
Proof. exact ifcIn_at_ori. Qed.
Print Assumptions C88_in_plane_coupling_at_reference.

(* in a deformed configuration the matrix differs from minus the derivative of the vector, although all tangents are unit vectors *)
Theorem C88_in_plane_coupling_refuted : forall al, al <> 0 -> exists sl sr ori c v u,
  edge_regular sl (fst c) /\ edge_regular sr (snd c) /\
  ~ is_derive (fun t => FifcIn al sl sr ori (moved2 c u t) v) 0 (- KifcIn al sl sr ori c v u).
Proof.
  intros al Ha. set (L := tjet e1 e2). set (Rr := tjet (vv 0 0 (-1)) e2).
  exists (1, 1%nat), (1, 1%nat), (L, L), (L, Rr), (tilt1, jzero), (tilt1, jzero).
  assert (EL : edge_regular (1, 1%nat) L). { split. unfold regular, L; jd. unfold tangent, L; simpl; jd. }
  assert (ER : edge_regular (1, 1%nat) Rr). { split. unfold regular, Rr; jd. unfold tangent, Rr; simpl; jd. }
  split; [exact EL|]. split; [exact ER|]. intro H.
  assert (B := der_unique _ _ _ _ H (ifcIn_path al (1, 1%nat) (1, 1%nat) (L, L) (L, Rr) (tilt1, jzero) (tilt1, jzero) EL ER)). revert B.
  assert (NL : unormal L = e3). { rewrite (proj1 (normal_of L ltac:(unfold L; jd))). extensionality k. unfold L. destruct k as [|[|k]]; jd. }
  assert (ML : measure L = 1) by (apply normal_of; unfold L; jd).
  assert (NR : unormal Rr = e1). { rewrite (proj1 (normal_of Rr ltac:(unfold Rr; jd))). extensionality k. unfold Rr. destruct k as [|[|k]]; jd. }
  assert (MR : measure Rr = 1) by (apply normal_of; unfold Rr; jd).
  assert (N1 : normalize e1 = e1) by (apply norm_unit; jd).
  assert (N2 : normalize e2 = e2) by (apply norm_unit; jd).
  assert (N3 : normalize (vv 0 0 (-1)) = vv 0 0 (-1)) by (apply norm_unit; jd).
  assert (JL : jnorm L = L) by (apply jnorm_unit; unfold L; jd).
  assert (JR : jnorm Rr = Rr) by (apply jnorm_unit; unfold Rr; jd).
  assert (TL : tangent 1 1 L = e2) by (unfold tangent, vscal, L; extensionality k; destruct k as [|[|k]]; jd).
  assert (TR : tangent 1 1 Rr = e2) by (unfold tangent, vscal, Rr; extensionality k; destruct k as [|[|k]]; jd).
  assert (L2 : norm3 e2 = 1) by (unfold norm3; replace (dot3 e2 e2) with 1 by jd; apply sqrt_1).
  unfold KifcIn, KifcIn_true, dnN, dnN', o1l, o1r, v1l, v1r, onormal, ovar2. cbv zeta. simpl fst. simpl snd. rewrite JL, JR.
  unfold ovar2_with, var2, var2_with, ovar1, tvar2, snvar2_with, snvar1_with, tvar1, var1, outer_apply, m_var, m_uv. cbv zeta. rewrite !TL, !TR, !NL, !NR, !ML, !MR, !N2, !L2.
  unfold jzero, L, Rr. jd.
Qed.
Print Assumptions C88_in_plane_coupling_refuted.

Theorem C88_weak_clamped_refuted : forall al nvo, al <> 0 -> exists unvo c v, regular c /\
  is_derive (fun t => Fclamp al nvo c (moved c v t) v) 0 0 /\ Kclamp al unvo c c v v <> 0.
Proof.
  intros al nvo Ha. exists e1, flat_jet, tilt1. split. exact flat_ok. split. apply clamp_at_ori. exact flat_ok.
  unfold Kclamp. destruct flat_normal as [E M]. unfold var1, outer_apply, m_var. rewrite E, M. replace (_ - _) with 0 by ring.
  match goal with |- ?x <> 0 => replace x with al end. exact Ha. jd.
Qed.
Print Assumptions C88_weak_clamped_refuted.
(* at the undeformed configuration the vector of the weak clamped condition has zero derivative in every direction *)
Theorem C88_weak_clamped_vector_flat : forall al nvo c v u, regular c -> is_derive (fun t => Fclamp al nvo c (moved c u t) v) 0 0.
Proof. exact clamp_at_ori. Qed.
Print Assumptions C88_weak_clamped_vector_flat.

(* the matrix, against the condition's own energy gradient alpha (n.w - n0.w) (dn.w) with w = unv(ori): it is the derivative up to the
   second variation of the normal, which the code contracts with the second derivatives of the surface instead of with w *)
Theorem C88_weak_clamped_matrix : forall al w ori c v u, regular c ->
  is_derive (fun t => al * (dot3 (unormal (moved c u t)) w - dot3 (unormal ori) w) * dot3 (var1 (moved c u t) v) w) 0
    (Kclamp al w ori c v u
     + al * (dot3 (unormal c) w - dot3 (unormal ori) w) * (dot3 (var2 c v u) w - dot3 w (fun i => match i with
         | 0%nat => dot3 (j11 c) (var2 c v u) | 1%nat => dot3 (j22 c) (var2 c v u) | _ => 2 * dot3 (j12 c) (var2 c v u) end))).
Proof.
  intros al w ori c v u P. assert (N := nor_m c u P). assert (V := var_m c u v P). evar_last.
  apply (d_mult (fun t => al * (dot3 (unormal (moved c u t)) w - dot3 (unormal ori) w)) (fun t => dot3 (var1 (moved c u t) v) w)).
  apply d_cmul. apply (d_minus (fun t => dot3 (unormal (moved c u t)) w) (fun _ => dot3 (unormal ori) w)); [|apply d_const].
  apply dotc'. exact N. apply dotc'. exact V. cbv beta. rewrite !moved0. unfold Kclamp, var2deriv2dot, curv_of, jsec. dsum; ring.
Qed.
Print Assumptions C88_weak_clamped_matrix.

Example ex_C88 : edge_regular (1, 1%nat) flat_jet /\ KifcIn 1 (1, 1%nat) (1, 1%nat) (tjet e1 e2, tjet e1 e2) (tjet e1 e2, tjet e1 e2) (tilt1, jzero) (tilt1, jzero) = 2.
Proof.
  split. split. exact flat_ok. unfold tangent; simpl; jd.
  set (L := tjet e1 e2).
  assert (NL : unormal L = e3). { rewrite (proj1 (normal_of L ltac:(unfold L; jd))). extensionality k. unfold L. destruct k as [|[|k]]; jd. }
  assert (ML : measure L = 1) by (apply normal_of; unfold L; jd).
  assert (N2 : normalize e2 = e2) by (apply norm_unit; jd).
  assert (TL : tangent 1 1 L = e2) by (unfold tangent, vscal, L; extensionality k; destruct k as [|[|k]]; jd).
  assert (L2 : norm3 e2 = 1) by (unfold norm3; replace (dot3 e2 e2) with 1 by jd; apply sqrt_1).
  unfold KifcIn. cbv zeta. destruct (dnN_ori (1, 1%nat) (1, 1%nat) (L, L)) as [D1 D2]. rewrite D1, D2.
  unfold o1l, o1r, v1l, v1r, onormal, ovar1, tvar1, var1, outer_apply, m_var. cbv zeta. simpl fst. simpl snd. rewrite !NL, !TL, !ML, !N2, !L2.
  generalize (ovar2 1 1 L tilt1 tilt1) (ovar2 1 1 L jzero jzero). intros x y. unfold jzero, L. jd.
Qed.

(* ================================================================ C89 *)
Theorem C89_rigid_motion_strain_free : forall w b c a, regular c -> Em_der c (rigid w b c) a = 0 /\ Ef_der c (rigid w b c) a = 0.
Proof. intros; split; [apply Em_rigid|apply Ef_rigid; assumption]. Qed.
Print Assumptions C89_rigid_motion_strain_free.

Theorem C89_normal_rotates : forall w b c i, regular c -> var1 c (rigid w b c) i = cross3 w (unormal c) i.
Proof. exact var1_rigid. Qed.
Print Assumptions C89_normal_rotates.

(* internal forces are self-equilibrated: the assembled vector does no work on infinitesimal rigid motions, whatever the material *)
Theorem C89_internal_force_balance : forall n pts x y w b,
  (forall q, In q pts -> regular (qdef n q x)) ->
  (forall q, In q pts -> fieldjet n (qbas q) y = rigid w b (qdef n q x)) ->
  rsum n (fun i => sum3 (fun d => Fvec n pts x i d * y i d)) = 0.
Proof. exact force_moment_balance. Qed.
Print Assumptions C89_internal_force_balance.

(* the linear stiffness annihilates rigid motions, on both sides *)
Theorem C89_linear_stiffness_null_space : forall c A B C D w b v, regular c ->
  Klin c A B C D v (rigid w b c) = 0 /\ Klin c A B C D (rigid w b c) v = 0.
Proof. exact Klin_rigid. Qed.
Print Assumptions C89_linear_stiffness_null_space.

Example ex_C89 : exists n pts x y w b, w 2%nat <> 0 /\ (forall q, In q pts -> regular (qdef n q x)) /\
  (forall q, In q pts -> fieldjet n (qbas q) y = rigid w b (qdef n q x)) /\ pts <> [].
Proof.
  set (bas := fun i => match i with 0%nat => mksjet 0 1 0 0 0 0 | _ => mksjet 0 0 1 0 0 0 end).
  exists 2%nat, [mkq 1 bas (tjet e1 e2) (fun _ _ => vzero) (fun _ _ => vzero) (fun _ _ _ _ => 0) (fun _ _ _ _ => 0) (fun _ _ _ _ => 0) (fun _ _ _ _ => 0)], (fun _ _ => 0).
  exists (fun i d => match i, d with 0%nat, 1%nat => 1 | 1%nat, 0%nat => -1 | _, _ => 0 end), e3, vzero.
  split. jd. split; [|split; [|discriminate]].
  - intros q [<-|[]]. rewrite qdef_zero. unfold regular. cbn [qori]. jd.
  - intros q [<-|[]]. rewrite qdef_zero. cbn [qori qbas]. apply jext; extensionality k;
    cbn [fieldjet rigid bas tjet jadd jscal jzero bvar j0 j1 j2 j11 j22 j12 s0 s1 s2 s11 s22 s12];
    unfold vadd, vscal, vzero, vecFun, cross3, e1, e2, e3, vv; destruct k as [|[|[|k]]]; cbn [Nat.eqb]; ring.
Qed.

(* ================================================================ C90 *)
Theorem C90_mass_symmetric_psd : forall rho v u, Kmass rho v u = Kmass rho u v /\ (0 <= rho -> 0 <= Kmass rho v v).
Proof.
  intros. unfold Kmass. split. rewrite dot_comm. reflexivity. intro H. apply Rmult_le_pos. exact H. apply dot_nonneg.
Qed.
Print Assumptions C90_mass_symmetric_psd.
(* kinetic energy of a uniform translation at velocity b with a partition of unity: total mass times |b|^2 *)
Theorem C90_total_mass : forall n (pts : list qpoint) (rho : qpoint -> R) b,
  (forall q, In q pts -> rsum n (fun i => s0 (qbas q i)) = 1) ->
  psum pts (fun q => qw q * Kmass (rho q) (fieldjet n (qbas q) (fun _ d => b d)) (fieldjet n (qbas q) (fun _ d => b d)))
  = psum pts (fun q => qw q * rho q) * dot3 b b.
Proof.
  intros n pts rho b H.
  assert (F : forall bas, veq (j0 (fieldjet n bas (fun _ d => b d))) (vscal (rsum n (fun i => s0 (bas i))) b)).
  { intro bas. clear H. induction n; intros k Hk.
    - cbn [fieldjet rsum jzero j0]. unfold vzero, vscal. ring.
    - cbn [fieldjet rsum jadd jscal bvar j0]. unfold vadd at 1. rewrite (IHn k Hk). unfold vadd, vscal, vecFun.
      destruct k as [|[|[|k]]]; [| | |exfalso; lia]; cbn [Nat.eqb]; ring. }
  induction pts as [|q l IH]; simpl. ring.
  rewrite IH by (intros; apply H; right; assumption). assert (Q := H q (or_introl eq_refl)).
  assert (E := F (qbas q)). unfold Kmass. rewrite (dot_ext _ _ _ E). rewrite (dot_comm (j0 _) (vscal _ b)). rewrite (dot_ext _ _ _ E).
  rewrite Q. rewrite dot_scal, dot_scall. ring.
Qed.
Print Assumptions C90_total_mass.
Example ex_C90 : rsum 2 (fun i => s0 (match i with 0%nat => mksjet (1/3) 0 0 0 0 0 | _ => mksjet (2/3) 0 0 0 0 0 end)) = 1 /\ Kmass 3 (mkjet e1 vzero vzero vzero vzero vzero) (mkjet e1 vzero vzero vzero vzero vzero) = 3.
Proof. split. simpl. lra. unfold Kmass. jd. Qed.

(* ================================================================ C91 *)
Theorem C91_mip_reduces_to_newton : forall c prev A B C D Ap Bp Cp Dp N M v u,
  Kmip c prev jzero A B C D Ap Bp Cp Dp N M v u = Kstiff c A B C D N M v u.
Proof.
  intros. unfold Kmip, mip_N, mip_M.
  assert (E1 : Em_der prev jzero = vzero) by (extensionality a; destruct a as [|[|a]]; unfold Em_der, jzero, vzero; simpl; unfold dot3, sum3; ring).
  assert (E2 : Ef_der prev jzero = vzero).
  { rewrite <- (jscal0). rewrite Ef_scal. extensionality a. unfold vscal, vzero. ring. }
  rewrite E1, E2.
  assert (Z : forall X Y Q, vadd X (vadd (rowmat vzero Y) (rowmat vzero Q)) = X).
  { intros. extensionality a. unfold vadd, rowmat, vzero, sum3. ring. }
  rewrite !Z. reflexivity.
Qed.
Print Assumptions C91_mip_reduces_to_newton.

(* the predicted resultants are the first-order extrapolation of the resultants of the previous configuration along the update *)
Theorem C91_predicted_resultants : forall ori (N M : vec -> vec -> vec) (A B C D : vec -> vec -> mat) prev du a,
  has_tangents N A C -> has_tangents M B D -> regular prev -> (a < 3)%nat ->
  let e := fun s => mem_strain ori (moved prev du s) in let f := fun s => bend_strain ori (moved prev du s) in
  symm3 (A (e 0) (f 0)) -> symm3 (D (e 0) (f 0)) -> transp3 (B (e 0) (f 0)) (C (e 0) (f 0)) ->
  is_derive (fun s => N (e s) (f s) a) 0 (mip_N prev du (A (e 0) (f 0)) (B (e 0) (f 0)) (N (e 0) (f 0)) a - N (e 0) (f 0) a) /\
  is_derive (fun s => M (e s) (f s) a) 0 (mip_M prev du (C (e 0) (f 0)) (D (e 0) (f 0)) (M (e 0) (f 0)) a - M (e 0) (f 0) a).
Proof.
  intros ori N M A B C D prev du a HN HM P Ha e f SA SD SBC.
  assert (DE : is_dvec e 0 (Em_der prev du)) by (apply (C50_membrane_strain_variation ori prev du)).
  assert (DF : is_dvec f 0 (Ef_der prev du)) by (apply (C50_bending_strain_variation ori prev du P)).
  split; evar_last; [exact (HN e f _ _ DE DF a Ha)| |exact (HM e f _ _ DE DF a Ha)|].
  - unfold mip_N, vadd, rowmat, sum3. rewrite (SA a 0%nat), (SA a 1%nat), (SA a 2%nat) by lia.
    rewrite (SBC a 0%nat), (SBC a 1%nat), (SBC a 2%nat) by lia. ring.
  - unfold mip_M, vadd, rowmat, sum3. rewrite (SD a 0%nat), (SD a 1%nat), (SD a 2%nat) by lia.
    rewrite (SBC 0%nat a), (SBC 1%nat a), (SBC 2%nat a) by lia. ring.
Qed.
Print Assumptions C91_predicted_resultants.
Example ex_C91 : has_tangents (res_vec [(1, 0)] 2 0 (lin_law 3)) (res_mat [(1, 0)] 2 0 (lin_tan 3)) (res_mat [(1, 0)] 2 1 (lin_tan 3))
  /\ regular flat_jet /\ mip_N flat_jet tilt1 (fun _ _ => 1) (fun _ _ => 1) vzero 0%nat = 1.
Proof.
  split. apply (res_tangents [(1, 0)] 2 0 _ _ (lin_law_ok 3)). split. exact flat_ok.
  destruct flat_normal as [E M]. unfold mip_N, rowmat, Em_der, Ef_der, mult2, deriv2_map, var1, outer_apply, m_var. rewrite E, M. jd.
Qed.
