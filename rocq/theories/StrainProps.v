(* Property C108: the strains returned by the pointwise evaluator (eval3D_strain, modelled by strainV) *)
From Coq Require Import Reals Lra Lia FunctionalExtensionality.
From Verif Require Import Tensor MetricModel MetricSpec MetricProofs MetricProps KinModel KinSpec KinAsm KinProofs KinStiff KinMore KinProps.
Open Scope R_scope.

(* the vector with parametric components (a, b) at height z *)
Definition fibre (g : geo) (z a b : R) : vec := fun k => a * gcov g z 0%nat k + b * gcov g z 1%nat k.
(* half the change of the squared length of any tangent vector; the shear entry is the doubled one *)
Theorem C108_squared_lengths : forall go gd z a b, MetricSpec.regular go -> MetricSpec.regular gd ->
  strainV go gd z 0%nat * (a * a) + strainV go gd z 1%nat * (b * b) + strainV go gd z 2%nat * (a * b)
  = / 2 * (dot3 (fibre gd z a b) (fibre gd z a b) - dot3 (fibre go z a b) (fibre go z a b)).
Proof.
  intros go gd z a b Ro Rd. pose proof (C01_metric_is_gram go z Ro) as A. pose proof (C01_metric_is_gram gd z Rd) as B.
  unfold strainV. rewrite !A, !B by lia. unfold fibre, dot3, sum3. field.
Qed.
Print Assumptions C108_squared_lengths.
(* polynomial in the height: membrane strain of the assembler, plus z times its bending strain, plus half the change of the third fundamental form *)
Theorem C108_through_thickness : forall ori def z a, regular ori -> regular def -> (a < 3)%nat ->
  strainV (geo_of ori) (geo_of def) z a = mem_strain ori def a + z * bend_strain ori def a
    + z * z * (/ 2 * (match a with 0%nat => 1 | 1%nat => 1 | _ => 2 end) *
        (dot3 (var1 def (along def (match a with 1%nat => 1%nat | _ => 0%nat end))) (var1 def (along def (match a with 0%nat => 0%nat | _ => 1%nat end)))
       - dot3 (var1 ori (along ori (match a with 1%nat => 1%nat | _ => 0%nat end))) (var1 ori (along ori (match a with 0%nat => 0%nat | _ => 1%nat end))))).
Proof.
  intros ori def z a P Q Ha.
  assert (W : forall c i j, regular c -> (i < 2)%nat -> (j < 2)%nat -> dot3 (var1 c (along c i)) (var1 c (along c j)) = dot3 (ncov (geo_of c) i) (ncov (geo_of c) j)).
  { intros c i j R I J. unfold dot3, sum3. rewrite !weingarten by (assumption || lia). reflexivity. }
  assert (NO : forall c, regular c -> normal (geo_of c) = nrm c).
  { intros c R. unfold normal, nrm. cbn. fold (unormal c). rewrite unormal_nrm by assumption. reflexivity. }
  rewrite !W by (assumption || (destruct a as [|[|a]]; lia)).
  unfold strainV, mem_strain, bend_strain, curvature, Gcov, Acov, Bcov. rewrite (NO ori P), (NO def Q).
  destruct a as [|[|[|a]]]; [| | |lia]; cbn [geo_of tang der2 jcol jsec]; unfold dot3 at 1 2 3 4 5 6 7 8; unfold dot3, sum3; field.
Qed.
Print Assumptions C108_through_thickness.
Example C108_ex : regular flat_jet /\ regular wide_jet /\ mem_strain flat_jet wide_jet 0%nat = 3/2 /\ strainV (geo_of flat_jet) (geo_of wide_jet) 0 0%nat = 3/2.
Proof.
  split. exact flat_ok. split. exact wide_ok. assert (M : mem_strain flat_jet wide_jet 0%nat = 3/2) by (unfold mem_strain; jd).
  split. exact M. rewrite C108_through_thickness by (exact flat_ok || exact wide_ok || lia). rewrite M. ring.
Qed.
