(* Properties C05, C06, C07, C67: the linear (St.Venant-Kirchhoff) material. *)
From Coq Require Import Reals Lra Lia.
From Verif Require Import Tensor MetricModel MetricSpec MetricProofs MetricProps LinearModel LinearSpec LinearProofs.
Open Scope R_scope.

(* C05: symmetries of the material tensor, for surfaces and planar elements, every parameter value. *)
Theorem C05_linear_symmetries : forall E nu,
  (forall g, minor_major_symmetric 2 (Cijkl_surface E nu g) /\ symmetric 3 (voigt (Cijkl_surface E nu g))) /\
  (forall g, minor_major_symmetric 2 (Cijkl_planar E nu g) /\ symmetric 3 (voigt (Cijkl_planar E nu g))).
Proof. exact linear_symmetries. Qed.
Print Assumptions C05_linear_symmetries.

(* the reported stress vector is the reported matrix applied to the Voigt strain (E11,E22,2E12) *)
Theorem C05_stress_is_matrix_times_strain : forall E nu go gd z kind r, (r < 3)%nat ->
  let e := E_tensor go gd z kind in
  Svoigt E nu (Acon go) e r =
  mvec3 (voigt (Cijkl_surface E nu go)) (fun i => match i with 0%nat => e 0%nat 0%nat | 1%nat => e 1%nat 1%nat
                                                 | _ => e 0%nat 1%nat + e 1%nat 0%nat end) r.
Proof. exact linear_stress_matrix. Qed.
Print Assumptions C05_stress_is_matrix_times_strain.

(* a call either throws (index out of range, incompressible limit) or returns the tensor *)
Theorem C05_guard : forall E nu A i j k l,
  (Cijkl_call E nu A i j k l = Throw <-> nu = / 2 \/ ~ (i < 2 /\ j < 2 /\ k < 2 /\ l < 2)%nat) /\
  Cijkl_call E nu A i j k l <> UB.
Proof. exact linear_guard. Qed.
Print Assumptions C05_guard.

Example ex_C05 : voigt (Cijkl 1 0 (fun i j => delta i j)) 0%nat 0%nat = 1
  /\ voigt (Cijkl 1 0 (fun i j => delta i j)) 2%nat 2%nat = / 2.
Proof. unfold voigt, Cijkl, Cconstant, lambda_of, mu_of, delta; cbn. split; field. Qed.

(* C06: the in-plane response is the 3D isotropic (Lame) response with the thickness strain chosen such that
   the normal stress vanishes. *)
Theorem C06_plane_stress : forall E nu g, regular g -> 0 < E -> -1 < nu < 1 -> nu <> / 2 ->
  let lam := E * nu / ((1 + nu) * (1 - 2 * nu)) in
  let mu := E / (2 * (1 + nu)) in
  forall e, (forall i, (i < 2)%nat -> e i 2%nat = 0 /\ e 2%nat i = 0) ->
  (* a thickness strain making the normal stress vanish exists and is unique ... *)
  (exists! e33, stress3D (lame3D lam mu (Acon g)) (fun i j => if (Nat.eqb i 2 && Nat.eqb j 2)%bool then e33 else e i j) 2 2 = 0) /\
  (* ... and with it the 3D stress is the stress of the material class *)
  (stress3D (lame3D lam mu (Acon g)) e 2 2 = 0 ->
   forall i j, (i < 2)%nat -> (j < 2)%nat ->
   stress3D (lame3D lam mu (Acon g)) e i j = Sij E nu (Acon g) e i j).
Proof. exact linear_plane_stress. Qed.
Print Assumptions C06_plane_stress.

Theorem C06_engineering_constant : forall E nu, E <> 0 -> nu <> -1 -> nu <> 1 -> nu <> / 2 ->
  Cconstant E nu = E * nu / (1 - nu * nu).
Proof. exact linear_constant. Qed.
Print Assumptions C06_engineering_constant.

(* uniaxial tension in an orthonormal frame: S11 = E e, S22 = S12 = 0 for strain (e, -nu e) *)
Theorem C06_uniaxial : forall E nu s, E <> 0 -> nu <> -1 -> nu <> 1 -> nu <> / 2 ->
  let e := fun i j => match i, j with 0%nat, 0%nat => s | 1%nat, 1%nat => - nu * s | _, _ => 0 end in
  Sij E nu delta e 0 0 = E * s /\ Sij E nu delta e 1 1 = 0 /\ Sij E nu delta e 0 1 = 0.
Proof. exact linear_uniaxial. Qed.
Print Assumptions C06_uniaxial.

Example ex_C06 : Sij 2 (/4) delta (fun i j => match i, j with 0%nat, 0%nat => 1 | 1%nat, 1%nat => - / 4 * 1 | _, _ => 0 end) 0 0 = 2 * 1.
Proof. apply (C06_uniaxial 2 (/4) 1); lra. Qed.

(* C07: positive definiteness on every regular surface *)
Theorem C07_linear_positive_definite : forall E nu g e, 0 < E -> -1 < nu < 1 -> nu <> / 2 -> regular g ->
  symmetric 2 e -> nonzero2 e -> 0 < energy2 (Cijkl_surface E nu g) e.
Proof. exact linear_posdef_surface. Qed.
Print Assumptions C07_linear_positive_definite.

(* the bounds on nu are sharp: on an orthonormal frame the energy is not positive for nu outside (-1,1) *)
Theorem C07_bounds_sharp : forall E nu, 0 < E -> nu < -1 \/ 1 < nu ->
  exists e, symmetric 2 e /\ nonzero2 e /\ energy2 (Cijkl E nu delta) e < 0.
Proof. exact linear_posdef_sharp. Qed.
Print Assumptions C07_bounds_sharp.

Example ex_C07 : 0 < energy2 (Cijkl_surface 1 (/ 3) ex_geo) (fun i j => delta i j).
Proof.
  apply C07_linear_positive_definite; try lra; [apply ex_geo_regular| |].
  - intros i j Hi Hj. unfold delta. rewrite Nat.eqb_sym. reflexivity.
  - exists 0%nat, 0%nat. repeat split; try lia. unfold delta; cbn. lra.
Qed.

(* C67: the energy density of a strain does not depend on the parametrisation of the surface *)
Theorem C67_surface_parametrisation_independent : forall E nu g P e, regular g -> det2 P <> 0 ->
  let g' := mkGeo (fun i c => sum2 (fun a => P a i * tang g a c)) (der2 g) in
  energy2 (Cijkl_surface E nu g') (pullback2 P e) = energy2 (Cijkl_surface E nu g) e.
Proof. exact surface_reparam. Qed.
Print Assumptions C67_surface_parametrisation_independent.

(* planar elements (m_Acon_ori holds the covariant metric): the same statement fails *)
Theorem C67_planar_refuted : exists E nu g P e,
  0 < E /\ 0 < nu < / 2 /\ det2 (Acov2 g) <> 0 /\ det2 P <> 0 /\
  let g' := mkGeo2 (fun i c => sum2 (fun a => P a i * tang2 g a c)) in
  energy2 (Cijkl_planar E nu g') (pullback2 P e) <> energy2 (Cijkl_planar E nu g) e.
Proof. exact planar_reparam_refuted. Qed.
Print Assumptions C67_planar_refuted.

(* what planar elements compute: for a scaled square parametrisation with edge length h the energy
   is h^8 times the correct one *)
Theorem C67_planar_scaling : forall E nu h e, h <> 0 ->
  let g := mkGeo2 (fun i c => h * delta i c) in
  energy2 (Cijkl_planar E nu g) e = h ^ 8 * energy2 (Cijkl E nu (inv2 (Acov2 g))) e.
Proof. exact planar_scaling. Qed.
Print Assumptions C67_planar_scaling.

Theorem C67_planar_orthonormal_correct : forall E nu g, Acov2 g 0%nat 0%nat = 1 -> Acov2 g 1%nat 1%nat = 1 -> Acov2 g 0%nat 1%nat = 0 ->
  forall e, energy2 (Cijkl_planar E nu g) e = energy2 (Cijkl E nu (inv2 (Acov2 g))) e.
Proof. exact planar_orthonormal. Qed.
Print Assumptions C67_planar_orthonormal_correct.
