(* Property theorems C21-C23, C25-C28, C31, C75-C77 (hyperelastic laws; the spectral implementation is in SpectralProps.v). *)
From Coq Require Import Reals Lra Lia.
From Coquelicot Require Import Coquelicot.
From Verif Require Import Tensor MetricModel LinearModel LinearSpec NonlinearModel NonlinearSpec NonlinearProofs EnergyProofs.
Open Scope R_scope.

(* C21: no stress in the undeformed state. *)
Theorem C21_incompressible : forall w p Go i j, shell_G Go -> det2 Go <> 0 -> S_inc w p (metric_of Go Go) i j = 0.
Proof. exact stress_free_inc. Qed.
Print Assumptions C21_incompressible.
Theorem C21_incompressible_generalized : forall w p Go i j, w <> NHe -> shell_G Go -> det2 Go <> 0 -> (i < 2)%nat -> (j < 2)%nat ->
  S_inc_gen w p (metric_of Go Go) i j = 0.
Proof. exact stress_free_inc_gen. Qed.
Print Assumptions C21_incompressible_generalized.
(* compressible: the starting value 1/J0^2 of the thickness iteration is 1 there, and with it all five components vanish *)
Theorem C21_compressible : forall w p Go i j, shell_G Go -> det2 Go <> 0 -> shell_pair i j ->
  / J0 (metric_of Go Go) = 1 /\ S_comp w p (metric_of Go Go) 1 i j = 0 /\ S_comp_gen w p (metric_of Go Go) 1 i j = 0.
Proof. exact stress_free_compressible. Qed.
Print Assumptions C21_compressible.
(* the stress vector handed out: the three in-plane components, and in the undeformed state zero with and without the shortcut *)
Theorem C21_output : forall w p Go close r, shell_G Go -> det2 Go <> 0 ->
  stress_out close (S_inc w p (metric_of Go Go)) r = 0 /\ stress_out close (S_comp w p (metric_of Go Go) 1) r = 0.
Proof.
  intros w p Go close r Sh D.
  assert (P : forall i j, (i < 2)%nat -> (j < 2)%nat -> S_inc w p (metric_of Go Go) i j = 0 /\ S_comp w p (metric_of Go Go) 1 i j = 0).
  { intros i j Hi Hj. split; [apply stress_free_inc; assumption|]. apply (stress_free_compressible w p Go i j Sh D). left. split; assumption. }
  unfold stress_out. destruct close; [split; reflexivity|]. destruct r as [|[|r]]; apply P; lia.
Qed.
Print Assumptions C21_output.
Theorem C21_output_components : forall S, stress_out false S 0%nat = S 0%nat 0%nat /\ stress_out false S 1%nat = S 1%nat 1%nat /\ stress_out false S 2%nat = S 0%nat 1%nat.
Proof. intro S. repeat split. Qed.
Print Assumptions C21_output_components.

(* C22, C23: the Generalized implementation equals the Analytical one. *)
Theorem C22_incompressible : forall w p Go G i j, w <> NHe -> adm Go G -> (i < 2)%nat -> (j < 2)%nat ->
  S_inc_gen w p (metric_of Go G) i j = S_inc w p (metric_of Go G) i j.
Proof. exact gen_S_inc_adm. Qed.
Print Assumptions C22_incompressible.
Theorem C22_compressible : forall w p m c33 i j, S_comp_gen w p m c33 i j = S_comp w p m c33 i j.
Proof. exact gen_S_comp. Qed.
Print Assumptions C22_compressible.
Theorem C23_incompressible : forall w p Go G i j k l, w <> NHe -> adm Go G -> (i < 2)%nat -> (j < 2)%nat -> (k < 2)%nat -> (l < 2)%nat ->
  C_inc_gen w p (metric_of Go G) i j k l = C_inc w p (metric_of Go G) i j k l.
Proof. exact gen_C_inc_adm. Qed.
Print Assumptions C23_incompressible.
Theorem C23_compressible : forall w p m c33 i j k l, C3D_gen w p m c33 i j k l = C3D w p m c33 i j k l /\
  condense (C3D_gen w p m c33) i j k l = condense (C3D w p m c33) i j k l.
Proof. exact gen_C_comp. Qed.
Print Assumptions C23_compressible.

(* C25: the incompressible tangent is the exact derivative of the stress (2 dS/dC), for every in-plane direction. *)
Theorem C25_tangent : forall w p Go G H i j, adm Go G -> in_plane H -> (i < 2)%nat -> (j < 2)%nat ->
  tangent_of (fun G => S_inc w p (metric_of Go G)) (fun G => C_inc w p (metric_of Go G)) G H i j.
Proof. exact tangent_inc. Qed.
Print Assumptions C25_tangent.

(* C26: the compressible 3D tensor is the exact derivative of the 3D stress, including the transverse direction. *)
Theorem C26_tangent3D : forall Go C H w p i j, adm3 Go C -> shell_shape H -> shell_pair i j ->
  tangent_of (fun C => S_comp w p (at_C Go C) (C 2%nat 2%nat)) (fun C => C3D w p (at_C Go C) (C 2%nat 2%nat)) C H i j.
Proof. exact tangent_comp. Qed.
Print Assumptions C26_tangent3D.

(* C27: along any differentiable path with S33 = 0 the condensed tensor is the derivative of the in-plane stress ... *)
Theorem C27_condensation : forall Go G H w p (c : R -> R) (h : R) i j, adm Go G -> in_plane H -> 0 < c 0 -> is_derive c 0 h ->
  locally 0 (fun t => S_comp w p (metric_of Go (line G H t)) (c t) 2%nat 2%nat = 0) ->
  C3D w p (metric_of Go G) (c 0) 2%nat 2%nat 2%nat 2%nat <> 0 -> (i < 2)%nat -> (j < 2)%nat ->
  is_derive (fun t => S_comp w p (metric_of Go (line G H t)) (c t) i j) 0
    (/ 2 * contract (condense (C3D w p (metric_of Go G) (c 0))) H i j).
Proof. exact condensed_tangent. Qed.
Print Assumptions C27_condensation.
(* ... for the extended neo-Hookean law without any assumption on the path: the root is explicit. *)
Theorem C27_nhe_root : forall p Go G, adm Go G -> 0 < mu p -> 0 <= lam p ->
  0 < nhe_c33 p (metric_of Go G) /\ S_comp NHe p (metric_of Go G) (nhe_c33 p (metric_of Go G)) 2%nat 2%nat = 0.
Proof. exact nhe_root_adm. Qed.
Print Assumptions C27_nhe_root.
Theorem C27_nhe_tangent : forall p Go G H i j, adm Go G -> in_plane H -> 0 < mu p -> 0 <= lam p -> (i < 2)%nat -> (j < 2)%nat ->
  is_derive (fun t => let m := metric_of Go (line G H t) in S_comp NHe p m (nhe_c33 p m) i j) 0
    (/ 2 * contract (condense (C3D NHe p (metric_of Go G) (nhe_c33 p (metric_of Go G)))) H i j).
Proof. exact nhe_plane_stress. Qed.
Print Assumptions C27_nhe_tangent.

(* C28: minor and major symmetries, and the 3x3 Voigt matrix (filled from six components) therefore represents the tensor. *)
Theorem C28_symmetries : forall w p Go G c33, shell_G Go -> shell_G G ->
  let m := metric_of Go G in
  minor_major_symmetric 3 (C_inc w p m) /\ minor_major_symmetric 3 (C3D w p m c33) /\ minor_major_symmetric 3 (condense (C3D w p m c33)) /\
  minor_major_symmetric 3 (C3D_gen w p m c33) /\ minor_major_symmetric 3 (condense (C3D_gen w p m c33)).
Proof. exact all_symmetric. Qed.
Print Assumptions C28_symmetries.
Theorem C28_voigt_matrix : forall C a b, minor_major_symmetric 3 C -> (a < 3)%nat -> (b < 3)%nat ->
  matrix_out C a b = C (fst (vpair a)) (snd (vpair a)) (fst (vpair b)) (snd (vpair b)).
Proof. exact matrix_out_voigt. Qed.
Print Assumptions C28_voigt_matrix.

(* C31: the 27 outputs of dmatrix are the derivatives of the 9 matrix entries; the third row must be used with 2*H12. *)
Theorem C31_dmatrix : forall p Go G H a b, adm Go G -> in_plane H -> (a < 3)%nat -> (b < 3)%nat ->
  is_derive (fun t => matrix_out (C_inc NH p (metric_of Go (line G H t))) b a) 0
    (let D r := dmatrix_out p (metric_of Go G) (3 * (3 * a + b) + r) in
     D 0%nat * H 0%nat 0%nat + D 1%nat * H 1%nat 1%nat + D 2%nat * (2 * H 0%nat 1%nat)).
Proof. exact dmatrix_layout. Qed.
Print Assumptions C31_dmatrix.

(* C75: the stresses are gradients of strain energies: 3D compressible laws, and incompressible plane-stress laws. *)
Theorem C75_compressible_energy : forall Go C H w p, adm3 Go C -> shell_shape H ->
  gradient_of (W_of w p (inv3 Go)) (S_comp w p (at_C Go C) (C 2%nat 2%nat)) C H.
Proof. exact energy_comp. Qed.
Print Assumptions C75_compressible_energy.
Theorem C75_incompressible_energy : forall Go G H w p, w <> NHe -> adm Go G -> in_plane H ->
  gradient_of (W_inc (c1_of w p) (c2_of w p) (inv3 Go)) (S_inc w p (metric_of Go G)) G H.
Proof. exact energy_inc. Qed.
Print Assumptions C75_incompressible_energy.
(* the volume ratio reported by the incompressible laws is that of the completed (isochoric) deformation tensor of the energy *)
Theorem C75_volume_ratio : forall Go G, adm Go G -> 0 < isochoric (inv3 Go) G 2%nat 2%nat /\ sqrt (J2 (inv3 Go) (isochoric (inv3 Go) G)) = detF_inc.
Proof.
  intros Go G (SO & SG & DO & DG).
  assert (J : 0 < J2 (inv3 Go) (with33 G 1)).
  { rewrite (J2_shell1 Go G SO SG) by lra. cbn [metric_of J0]. rewrite (det3_shell1 Go SO), (det3_shell1 G SG). apply Rdiv_lt_0_compat; assumption. }
  assert (E : J2 (inv3 Go) (isochoric (inv3 Go) G) = 1).
  { unfold isochoric. set (c := / J2 (inv3 Go) (with33 G 1)). replace (J2 (inv3 Go) (with33 G c)) with (c * J2 (inv3 Go) (with33 G 1)).
    - unfold c. apply Rinv_l. lra.
    - unfold J2, det3, with33. ring. }
  split; [cbn; apply Rinv_0_lt_compat; exact J|]. rewrite E. apply sqrt_1.
Qed.
Print Assumptions C75_volume_ratio.

(* C76: the Cauchy stress output of the compressible laws is zero for every state, also for states with stress. *)
Theorem C76_always_zero : forall close S m c33 r, cauchy_comp close S m c33 r = 0.
Proof. exact cauchy_zero. Qed.
Print Assumptions C76_always_zero.
Theorem C76_cauchy_refuted : exists Go G p c33, adm Go G /\ 0 < c33 /\ S_comp NHe p (metric_of Go G) c33 2%nat 2%nat = 0 /\
  let S := S_comp NHe p (metric_of Go G) c33 in
  cauchy_comp false S (metric_of Go G) c33 0%nat <> stress_out false S 0%nat / sqrt (det3 G / det3 Go * c33).
Proof. exact cauchy_refuted. Qed.
Print Assumptions C76_cauchy_refuted.

(* C77: at the undeformed state the condensed tensor of every compressible law is the plane-stress tensor of the linear material
   with the same Young's modulus and Poisson's ratio; the incompressible laws give its nu -> 1/2 form with the same shear modulus. *)
Theorem C77_compressible : forall w p Go i j k l, pE p <> 0 -> pnu p <> -1 -> 1 - 2 * pnu p <> 0 -> 1 - pnu p <> 0 -> pratio p <> -1 ->
  shell_G Go -> det2 Go <> 0 -> (i < 2)%nat -> (j < 2)%nat -> (k < 2)%nat -> (l < 2)%nat ->
  condense (C3D w p (metric_of Go Go) 1) i j k l = Cijkl (pE p) (pnu p) (inv3 Go) i j k l.
Proof. exact ref_tangent_comp. Qed.
Print Assumptions C77_compressible.
Theorem C77_incompressible : forall w p Go i j k l, w <> NHe -> pratio p <> -1 -> shell_G Go -> det2 Go <> 0 ->
  C_inc w p (metric_of Go Go) i j k l = let A := inv3 Go in mu p * (2 * A i j * A k l + A i k * A j l + A i l * A j k).
Proof. exact ref_tangent_inc. Qed.
Print Assumptions C77_incompressible.

(* ---------- examples: the hypotheses are met by non-trivial states ---------- *)
Example adm_ex : adm exI exG. Proof. exact ex_adm. Qed.
Example in_plane_ex : in_plane exH. Proof. exact ex_in_plane. Qed.
Example adm3_ex : adm3 exI (with33 exG 3) /\ shell_shape exH. Proof. exact ex_adm3. Qed.
Example inc_ex : S_inc NH exP (metric_of exI exG) 0%nat 0%nat = 47 / 49. Proof. exact ex_inc. Qed.
Example ref_ex : shell_G exG /\ det2 exG <> 0. Proof. exact ex_ref. Qed.
