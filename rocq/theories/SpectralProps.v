(* Property theorems C24, C79-C81 and the Ogden part of C21 (stretch based implementation). *)
From Coq Require Import Reals Lra Lia List.
From Coquelicot Require Import Coquelicot.
From Verif Require Import Tensor MetricModel MetricSpec LinearModel LinearSpec PrincipalModel PrincipalSpec PrincipalProofs
  NonlinearModel NonlinearSpec SpectralModel SpectralSpec SpectralProofs SpectralTangent SpectralMain SpectralOgden SpectralLink SpectralExamples.
Import ListNotations.
Open Scope R_scope.

(* C24: with the eigen-decomposition of the deformation tensor, and away from the shortcut of _evalStretch, the Spectral
   implementation returns the stress of the Analytical one (incompressible laws) ... *)
Theorem C24_incompressible : forall eps g z G vals vecs w p i j, regular g -> det3 (Gcov g z) <> 0 -> shell_G G -> spd2 G ->
  eigen_decomposition (Bten G (gcon g z)) vals vecs -> shortcut eps (Bten G (gcon g z)) = false ->
  w <> NHe -> (i < 2)%nat -> (j < 2)%nat ->
  stress_code_i eps (L w) p (metric_of (Gcov g z) G) (gcon g z) vals vecs i j = S_inc w p (metric_of (Gcov g z) G) i j.
Proof. intros. now apply code_stress_i. Qed.
Print Assumptions C24_incompressible.
(* ... the same tangent, when the two stretches are equal or not closer than the relative 1e-14 of the code ... *)
Theorem C24_incompressible_tangent : forall eps g z G vals vecs w p i j k l, regular g -> det3 (Gcov g z) <> 0 -> shell_G G -> spd2 G ->
  eigen_decomposition (Bten G (gcon g z)) vals vecs -> shortcut eps (Bten G (gcon g z)) = false ->
  w <> NHe -> (i < 2)%nat -> (j < 2)%nat -> (k < 2)%nat -> (l < 2)%nat ->
  let l1 := sqrt (vals 1%nat) in let l2 := sqrt (vals 2%nat) in
  l1 = l2 \/ near_eq (stretches_i l1 l2) 0 1 = false ->
  tangent_code_i eps (L w) p (metric_of (Gcov g z) G) (gcon g z) vals vecs i j k l = C_inc w p (metric_of (Gcov g z) G) i j k l.
Proof. intros. now apply code_tangent_i. Qed.
Print Assumptions C24_incompressible_tangent.
(* ... and for the compressible laws, at every thickness component c33 > 0, the same stress including the transverse component,
   the same condensed tangent and the same component C3333 of the thickness iteration. *)
Theorem C24_compressible : forall eps g z G vals vecs w p c33 i j, regular g -> det3 (Gcov g z) <> 0 -> shell_G G -> spd2 G ->
  eigen_decomposition (Bten G (gcon g z)) vals vecs -> shortcut eps (Bten G (gcon g z)) = false -> 0 < c33 -> shell_pair i j ->
  stress_code_c eps (L w) p (metric_of (Gcov g z) G) c33 (gcon g z) vals vecs i j = S_comp w p (metric_of (Gcov g z) G) c33 i j.
Proof. intros. now apply code_stress_c. Qed.
Print Assumptions C24_compressible.
Theorem C24_compressible_tangent : forall eps g z G vals vecs w p c33 i j k l, regular g -> det3 (Gcov g z) <> 0 -> shell_G G -> spd2 G ->
  eigen_decomposition (Bten G (gcon g z)) vals vecs -> shortcut eps (Bten G (gcon g z)) = false -> 0 < c33 ->
  (i < 2)%nat -> (j < 2)%nat -> (k < 2)%nat -> (l < 2)%nat ->
  let l1 := sqrt (vals 1%nat) in let l2 := sqrt (vals 2%nat) in
  l1 = l2 \/ near_eq (triple l1 l2 (sqrt c33)) 0 1 = false ->
  tangent_code_c eps (L w) p (metric_of (Gcov g z) G) c33 (gcon g z) vals vecs i j k l = condense (C3D w p (metric_of (Gcov g z) G) c33) i j k l.
Proof. intros. now apply code_tangent_c. Qed.
Print Assumptions C24_compressible_tangent.
Theorem C24_thickness_component : forall eps g z G vals vecs w p c33, regular g -> det3 (Gcov g z) <> 0 -> shell_G G -> spd2 G ->
  eigen_decomposition (Bten G (gcon g z)) vals vecs -> shortcut eps (Bten G (gcon g z)) = false -> 0 < c33 ->
  C3333_spec (L w) p (triple (sqrt (vals 1%nat)) (sqrt (vals 2%nat)) (sqrt c33)) (J_sq (metric_of (Gcov g z) G) c33)
  = C3D w p (metric_of (Gcov g z) G) c33 2%nat 2%nat 2%nat 2%nat.
Proof. intros. now apply (code_C3333 eps g z G vals vecs). Qed.
Print Assumptions C24_thickness_component.
(* C24 refuted in general: when the shortcut fires the stress can even have the wrong sign. *)
Theorem C24_all_states_refuted : exists g z G vals vecs p, regular g /\ det3 (Gcov g z) <> 0 /\ shell_G G /\ spd2 G /\ 0 < mu p /\
  eigen_decomposition (Bten G (gcon g z)) vals vecs /\
  forall eps, 0 < eps ->
    stress_code_i eps (L NH) p (metric_of (Gcov g z) G) (gcon g z) vals vecs 0%nat 0%nat < 0 < S_inc NH p (metric_of (Gcov g z) G) 0%nat 0%nat.
Proof. exact shortcut_stress. Qed.
Print Assumptions C24_all_states_refuted.

(* C21 for the Ogden law: no stress at unit stretches, whatever the frame and the parameters. *)
Theorem C21_ogden : forall (g : nat -> vec) v1 v2 n p pars i j,
  S_spec_i (OG pars) p (stretches_i 1 1) g (frame3 v1 v2 n) i j = 0 /\ S_spec_c (OG pars) p (triple 1 1 1) 1 g (frame3 v1 v2 n) i j = 0.
Proof. intros. apply ogden_stress_free. Qed.
Print Assumptions C21_ogden.

(* C79: the Ogden stress is the gradient of the Ogden energy (incompressible: third stretch 1/(l1 l2)) ... *)
Theorem C79_incompressible : forall g z G H l1 l2 v1 v2 p pars, shell_G G -> in_plane H -> principal_family g z G H l1 l2 v1 v2 -> l1 0 < l2 0 ->
  (forall t, In t (ogden_terms pars) -> snd t <> 0) ->
  is_derive (fun t => ogden_W (ogden_terms pars) (l1 t) (l2 t) (/ (l1 t * l2 t))) 0
    (/ 2 * dotdot (S_spec_i (OG pars) p (stretches_i (l1 0) (l2 0)) (gcon g z) (frame3 (v1 0) (v2 0) (gcon g z 2%nat))) H).
Proof. exact ogden_energy_inc. Qed.
Print Assumptions C79_incompressible.
(* ... compressible: for every motion of the thickness stretch l3, which contributes H33 = d(l3^2) *)
Theorem C79_compressible : forall g z G H l1 l2 v1 v2 p pars, shell_G G -> in_plane H -> principal_family g z G H l1 l2 v1 v2 -> l1 0 < l2 0 ->
  (forall t, In t (ogden_terms pars) -> snd t <> 0) -> forall (l3 : R -> R) (k3 : R), 0 < l3 0 -> is_derive l3 0 k3 ->
  is_derive (fun t => ogden_W_iso (ogden_terms pars) (l1 t) (l2 t) (l3 t) + vol_W (bulk p) (l1 t) (l2 t) (l3 t)) 0
    (/ 2 * dotdot (S_spec_c (OG pars) p (triple (l1 0) (l2 0) (l3 0)) (J_sq (metric_of (Gcov g z) G) (l3 0 ^ 2)) (gcon g z)
                     (frame3 (v1 0) (v2 0) (gcon g z 2%nat))) (with33 H (2 * l3 0 * k3))).
Proof. exact ogden_energy_comp. Qed.
Print Assumptions C79_compressible.

(* C80: for every law incl. Ogden, where the code does not treat the stretches as equal, the spectral tangent is the exact derivative
   of the spectral stress: incompressible ... *)
Theorem C80_incompressible : forall g z G H l1 l2 v1 v2 p w, shell_G G -> in_plane H -> principal_family g z G H l1 l2 v1 v2 ->
  near_eq (stretches_i (l1 0) (l2 0)) 0 1 = false -> forall i j, (i < 2)%nat -> (j < 2)%nat ->
  is_derive (fun t => S_spec_i w p (stretches_i (l1 t) (l2 t)) (gcon g z) (frame3 (v1 t) (v2 t) (gcon g z 2%nat)) i j) 0
    (/ 2 * contract (C_spec_i w p (stretches_i (l1 0) (l2 0)) (gcon g z) (frame3 (v1 0) (v2 0) (gcon g z 2%nat))) H i j).
Proof. exact spectral_tangent_i. Qed.
Print Assumptions C80_incompressible.
(* ... and compressible, along any differentiable thickness path that keeps the transverse stress zero. *)
Theorem C80_compressible : forall g z G H l1 l2 v1 v2 p w, shell_G G -> in_plane H -> principal_family g z G H l1 l2 v1 v2 ->
  forall (l3 : R -> R) (k3 : R), 0 < l3 0 -> is_derive l3 0 k3 -> near_eq (triple (l1 0) (l2 0) (l3 0)) 0 1 = false ->
  forall i j, (i < 2)%nat -> (j < 2)%nat ->
  let J t := J_sq (metric_of (Gcov g z) (line G H t)) (l3 t ^ 2) in let s t := triple (l1 t) (l2 t) (l3 t) in
  locally 0 (fun t => Sa_c w p (s t) (J t) 2 = 0) -> C3333_spec w p (s 0) (J 0) <> 0 ->
  is_derive (fun t => S_spec_c w p (s t) (J t) (gcon g z) (frame3 (v1 t) (v2 t) (gcon g z 2%nat)) i j) 0
    (/ 2 * contract (C_spec_c w p (s 0) (J 0) (gcon g z) (frame3 (v1 0) (v2 0) (gcon g z 2%nat))) H i j).
Proof. exact spectral_tangent_c. Qed.
Print Assumptions C80_compressible.

(* C81: at the undeformed state the Ogden tangent is that of a material with shear modulus sum(mu_i alpha_i)/2 ... *)
Theorem C81_incompressible : forall g z v1 v2 p pars, principal_state g z (Gcov g z) 1 1 v1 v2 ->
  forall i j k l, (i < 2)%nat -> (j < 2)%nat -> (k < 2)%nat -> (l < 2)%nat -> let A := Gcon g z in
  C_spec_i (OG pars) p (stretches_i 1 1) (gcon g z) (frame3 v1 v2 (gcon g z 2%nat)) i j k l
  = ogden_mu pars * (2 * A i j * A k l + A i k * A j l + A i l * A j k).
Proof. exact ogden_ref_i. Qed.
Print Assumptions C81_incompressible.
(* ... and in the compressible case with the bulk modulus from E and nu, condensed to plane stress; E and nu enter nowhere else. *)
Theorem C81_compressible : forall g z v1 v2 p pars, principal_state g z (Gcov g z) 1 1 v1 v2 ->
  forall i j k l, (i < 2)%nat -> (j < 2)%nat -> (k < 2)%nat -> (l < 2)%nat -> bulk p + 4 / 3 * ogden_mu pars <> 0 ->
  let A := Gcon g z in let M := ogden_mu pars in let La := bulk p - 2 / 3 * M in
  C_spec_c (OG pars) p (triple 1 1 1) 1 (gcon g z) (frame3 v1 v2 (gcon g z 2%nat)) i j k l
  = 2 * La * M / (La + 2 * M) * (A i j * A k l) + M * (A i k * A j l + A i l * A j k).
Proof. exact ogden_ref_c. Qed.
Print Assumptions C81_compressible.
(* C81 refuted: the tangent need not be the one of the Young's modulus and Poisson's ratio given to the material. *)
Theorem C81_youngs_modulus_refuted : exists g z v1 v2 p pars, principal_state g z (Gcov g z) 1 1 v1 v2 /\ pars = [pE p; pnu p; 1; 2] /\ 0 < pE p /\ 0 < pnu p < 1/2 /\
  C_spec_c (OG pars) p (triple 1 1 1) 1 (gcon g z) (frame3 v1 v2 (gcon g z 2%nat)) 0%nat 1%nat 0%nat 1%nat <> Cijkl (pE p) (pnu p) (Gcon g z) 0%nat 1%nat 0%nat 1%nat.
Proof. exact ogden_E_refuted. Qed.
Print Assumptions C81_youngs_modulus_refuted.

(* C79: the pressure of the incompressible laws and its derivative with respect to each of the three stretches. *)
Definition with_stretch (s : vec) (a : nat) (x : R) : vec := fun k => if Nat.eqb k a then x else s k.
Theorem C79_pressure_derivative : forall w p s a, (a < 3)%nat -> (forall k, 0 < s k) ->
  is_derive (fun t => pr_p w p (with_stretch s a (s a + t))) 0 (dp_da w p s a).
Proof.
  intros w p s a Ha Hs. unfold pr_p.
  assert (OgP : forall al x, 0 < x -> is_derive (fun t => Rpower (x + t) al) 0 (al * Rpower x (al - 1))).
  { intros al x Px. unfold Rpower. auto_derive; [lra|]. rewrite Rplus_0_r. unfold Rminus. rewrite Rmult_plus_distr_r. replace (- (1) * ln x) with (- ln x) by ring. rewrite exp_plus, exp_Ropp, exp_ln by lra. field. lra. }
  destruct a as [|[|[|a]]]; [| | |lia]; unfold dp_da, with_stretch; cbn [Nat.eqb].
  - destruct w as [[]|pars]; cbn [dPsi_da_i d2Psi_dab_i Nat.eqb]; unfold dI1a, dI2a, d2I1, d2I2, sI1, idelta, delta; cbn [Nat.eqb];
    try (auto_derive; [exact I|]; field; fail).
    match goal with |- is_derive ?f _ ?l => replace l with 0; [apply @is_derive_const|] end.
    rewrite (ogden_ext pars _ (fun _ _ => 0)) by (intros; ring). unfold ogden_sum. induction (ogden_terms pars) as [|x T IH]; cbn [fold_right]; [ring|]. rewrite Rplus_0_l. exact IH.
  - destruct w as [[]|pars]; cbn [dPsi_da_i d2Psi_dab_i Nat.eqb]; unfold dI1a, dI2a, d2I1, d2I2, sI1, idelta, delta; cbn [Nat.eqb];
    try (auto_derive; [exact I|]; field; fail).
    match goal with |- is_derive ?f _ ?l => replace l with 0; [apply @is_derive_const|] end.
    rewrite (ogden_ext pars _ (fun _ _ => 0)) by (intros; ring). unfold ogden_sum. induction (ogden_terms pars) as [|x T IH]; cbn [fold_right]; [ring|]. rewrite Rplus_0_l. exact IH.
  - destruct w as [[]|pars]; cbn [dPsi_da_i d2Psi_dab_i Nat.eqb]; unfold dI1a, dI2a, d2I1, d2I2, sI1, idelta, delta; cbn [Nat.eqb];
    try (auto_derive; [exact I|]; field; fail).
    replace (s 2%nat * ogden_sum pars (fun mi al => mi * Rpower (s 2%nat) (al - 2) * (al - 1) * 1) + ogden_sum pars (fun mi al => mi * Rpower (s 2%nat) (al - 1)))
      with (1 * ogden_sum pars (fun mi al => mi * Rpower (s 2%nat) (al - 1)) + s 2%nat * ogden_sum pars (fun mi al => mi * ((al - 1) * Rpower (s 2%nat) (al - 1 - 1)))).
    2:{ rewrite (ogden_ext pars (fun mi al => mi * ((al - 1) * Rpower (s 2%nat) (al - 1 - 1))) (fun mi al => mi * Rpower (s 2%nat) (al - 2) * (al - 1) * 1)); [ring|]. intros mi al. replace (al - 1 - 1) with (al - 2) by ring. ring. }
    evar_last.
    + apply (is_derive_mult (K := R_AbsRing) (fun t => s 2%nat + t) (fun t => ogden_sum pars (fun mi al => mi * Rpower (s 2%nat + t) (al - 1))) 0 1 (ogden_sum pars (fun mi al => mi * ((al - 1) * Rpower (s 2%nat) (al - 1 - 1))))).
      * auto_derive; [exact I|reflexivity].
      * apply (ogden_der pars (fun t mi al => mi * Rpower (s 2%nat + t) (al - 1))). intros mi al. apply is_derive_scal, OgP, Hs.
      * intros x y. apply Rmult_comm.
    + unfold plus, mult; cbn. rewrite !Rplus_0_r. ring.
Qed.
Print Assumptions C79_pressure_derivative.

(* ---------- examples ---------- *)
Example C79_pressure_case : (2 < 3)%nat /\ (forall k, 0 < triple 2 3 (1/6) k) /\ dp_da (L NH) (mkPar 1 (1/2) 1) (triple 2 3 (1/6)) 2%nat <> 0.
Proof. split; [lia|]. split; [intros [|[|k]]; cbn; lra|]. unfold dp_da; cbn. unfold d2I1, dI1a, delta, mu, mu_of; cbn. lra. Qed.
(* C24: stretches 2 and 3 of the flat point *)
Example C24_case : exists g z G vals vecs, regular g /\ det3 (Gcov g z) <> 0 /\ shell_G G /\ spd2 G /\ eigen_decomposition (Bten G (gcon g z)) vals vecs /\
  shortcut (/ 10 ^ 15) (Bten G (gcon g z)) = false /\ sqrt (vals 1%nat) = 2 /\ sqrt (vals 2%nat) = 3 /\ near_eq (stretches_i 2 3) 0 1 = false.
Proof. exact link_case. Qed.
(* C79, C80: a differentiable family with stretches sqrt(4+t), sqrt(9+t) *)
Example C80_case : exists g z G H l1 l2 v1 v2, shell_G G /\ in_plane H /\ principal_family g z G H l1 l2 v1 v2 /\ l1 0 = 2 /\ l2 0 = 3 /\
  near_eq (stretches_i (l1 0) (l2 0)) 0 1 = false /\ H 0%nat 0%nat = 1.
Proof. exact family_case. Qed.
Example C79_terms : ogden_terms [1; 1/3; 6; 2; -1; -2] = [(6, 2); (-1, -2)]. Proof. reflexivity. Qed.
Example C81_case : exists g v1 v2, principal_state g 0 (Gcov g 0) 1 1 v1 v2 /\ ogden_mu [1; 1/3; 6; 2; -1; -2] = 7.
Proof. exact ref_case. Qed.

(* the principal components couple only normal with normal directions and a shear pair with itself; the shear components have
   both minor symmetries *)
Theorem C80_principal_components : forall w p s J a b c d, (a <> b \/ c <> d) ->
  (~ ((a = c /\ b = d) \/ (a = d /\ b = c)) -> Cabcd_c w p s J a b c d = 0 /\ Cabcd_i w p s a b c d = 0) /\
  (a <> b -> Cabcd_c w p s J a b a b = Cabcd_c w p s J a b b a /\ Cabcd_i w p s a b a b = Cabcd_i w p s a b b a).
Proof.
  intros w p s J a b c d H. split.
  - intro N. unfold Cabcd_c, Cabcd_i.
    assert (E1 : (Nat.eqb a b && Nat.eqb c d)%bool = false). { destruct (Nat.eqb_spec a b), (Nat.eqb_spec c d); try reflexivity; tauto. }
    assert (E2 : shear_pair a b c d = false).
    { unfold shear_pair. destruct (Nat.eqb_spec a d), (Nat.eqb_spec b c), (Nat.eqb_spec a c), (Nat.eqb_spec b d); try reflexivity; tauto. }
    rewrite E1, E2. split; reflexivity.
  - intro N. unfold Cabcd_c, Cabcd_i, shear_pair. rewrite !Nat.eqb_refl. assert (E : Nat.eqb a b = false) by now apply Nat.eqb_neq.
    assert (E' : Nat.eqb b a = false) by (apply Nat.eqb_neq; congruence). rewrite !E, !E'. cbn. split; reflexivity.
Qed.
Print Assumptions C80_principal_components.
