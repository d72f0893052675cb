(* Accuracy of the stress for an approximate wrinkling angle. *)
From Coq Require Import Reals Lra Lia List Psatz Classical.
From Coquelicot Require Import Coquelicot.
From Verif Require Import Tensor TFTModel TFTSpec TFTProofs TFTRoot TFTBranch TFTWrinkle TFTImplicit TFTBranchProps KinModel KinSpec TfrModel TfrSpec TfrProofs TfaModel TfaSpec.
Open Scope R_scope.

Lemma frame_dot S P th : psd_strain P -> along (stress_tensor S) (wdir th) (wdir th) = 0 -> 0 < tension_of S th ->
  - (misfit S th * along (strain_tensor P) (wdir th) (wdir th)) <= dot3 S P.
Proof.
  intros HP N0 T. assert (K := psd_all _ HP (strain_sym P)). unfold misfit. set (s := tension_of S th) in *. set (f := shear_of S th).
  specialize (K (f / s * cos th - sin th) (f / s * sin th + cos th)).
  assert (Q : dot3 S P = s * ((f / s * cos th - sin th) * (f / s * cos th - sin th) * strain_tensor P 0%nat 0%nat
     + 2 * ((f / s * cos th - sin th) * (f / s * sin th + cos th)) * strain_tensor P 0%nat 1%nat
     + (f / s * sin th + cos th) * (f / s * sin th + cos th) * strain_tensor P 1%nat 1%nat) - f * f / s * along (strain_tensor P) (wdir th) (wdir th)).
  { assert (U := sin2_cos2 th). unfold Rsqr in U. unfold along, sum2, wdir, stress_tensor in N0.
    assert (F : f = (- sin th * cos th) * S 0%nat + (cos th * sin th) * S 1%nat + (cos th * cos th - sin th * sin th) * S 2%nat)
      by (unfold f, shear_of, along, sum2, wdir, tdir, stress_tensor; ring).
    assert (G : s = sin th * sin th * S 0%nat + cos th * cos th * S 1%nat - 2 * (sin th * cos th) * S 2%nat)
      by (unfold s, tension_of, along, sum2, wdir, tdir, stress_tensor; ring).
    clear K. clearbody f s. unfold dot3, sum3, along, sum2, wdir, strain_tensor. set (c := cos th) in *. set (d := sin th) in *. clearbody c d.
    assert (S0 : S 0%nat = - 2 * (c * d) * f + d * d * s).
    { transitivity (S 0%nat * ((d * d + c * c) * (d * d + c * c))); [rewrite U; ring|].
      transitivity (c * c * (c * S 0%nat * c + c * S 2%nat * d + (d * S 2%nat * c + d * S 1%nat * d)) - 2 * (c * d) * f + d * d * s); [rewrite F, G; ring|rewrite N0; ring]. }
    assert (S1 : S 1%nat = 2 * (c * d) * f + c * c * s).
    { transitivity (S 1%nat * ((d * d + c * c) * (d * d + c * c))); [rewrite U; ring|].
      transitivity (d * d * (c * S 0%nat * c + c * S 2%nat * d + (d * S 2%nat * c + d * S 1%nat * d)) + 2 * (c * d) * f + c * c * s); [rewrite F, G; ring|rewrite N0; ring]. }
    assert (S2 : S 2%nat = (c * c - d * d) * f - c * d * s).
    { transitivity (S 2%nat * ((d * d + c * c) * (d * d + c * c))); [rewrite U; ring|].
      transitivity (c * d * (c * S 0%nat * c + c * S 2%nat * d + (d * S 2%nat * c + d * S 1%nat * d)) + (c * c - d * d) * f - c * d * s); [rewrite F, G; ring|rewrite N0; ring]. }
    rewrite S0, S1, S2. field. lra. }
  rewrite Q. apply (Rmult_le_compat_l s) in K; lra.
Qed.

Lemma frob_nn D th : (along (strain_tensor D) (wdir th) (wdir th)) * (along (strain_tensor D) (wdir th) (wdir th)) <= D 0%nat * D 0%nat + D 1%nat * D 1%nat + D 2%nat * D 2%nat / 2.
Proof.
  assert (U := sin2_cos2 th). unfold Rsqr in U. unfold along, sum2, wdir, strain_tensor. set (c := cos th) in *. set (d := sin th) in *. clearbody c d.
  set (x := D 0%nat). set (y := D 1%nat). set (z := D 2%nat).
  assert (H : forall l, (d * d + c * c) * (d * d + c * c) * l = l) by (intro; rewrite U; ring).
  rewrite <- (H (x * x + y * y + z * z / 2)).
  assert (A := Rle_0_sqr (d * d * x - c * c * y)). assert (B := Rle_0_sqr (c * d * x * 2 - c * c * z)). assert (B' := Rle_0_sqr (c * d * y * 2 - d * d * z)).
  assert (B2 := Rle_0_sqr (d * d * z)). assert (B3 := Rle_0_sqr (c * c * z)). unfold Rsqr in *.
  replace ((d * d + c * c) * (d * d + c * c) * (x * x + y * y + z * z / 2)) with
    ((c * x * c + c * (z / 2) * d + (d * (z / 2) * c + d * y * d)) * (c * x * c + c * (z / 2) * d + (d * (z / 2) * c + d * y * d))
     + (d * d * x - c * c * y) * (d * d * x - c * c * y) + / 2 * ((c * d * x * 2 - c * c * z) * (c * d * x * 2 - c * c * z)) + / 2 * ((c * d * y * 2 - d * d * z) * (c * d * y * 2 - d * d * z))); [lra|].
  field.
Qed.

Section Approx.
  Variables (C : mat) (E Ps : vec) (th lam : R).
  Hypotheses (HS : sym3 C) (HP : posdef3 C) (HL : 0 < lam) (HF : stiff lam C) (HK : kkt C E Ps).
  Let g := gamma th C (inner_stress C E).
  Let P : vec := fun i => g * dyad th i.
  Let S := inner_stress C (plus3 E P).
  Let D := minus3 (plus3 E Ps) (plus3 E P).

  Lemma approx_S i : compute_S th C (inner_stress C E) i = S i.
  Proof. unfold compute_S, S, P, plus3, mvec3. change (gamma th C (inner_stress C E)) with g. generalize g. intro r. unfold inner_stress, sum3. rewrite !dyad_n1. ring. Qed.
  Lemma approx_nn : along (stress_tensor S) (wdir th) (wdir th) = 0.
  Proof.
    transitivity (along (stress_tensor (compute_S th C (inner_stress C E))) (wdir th) (wdir th)).
    - unfold along, sum2, stress_tensor. rewrite !approx_S. reflexivity.
    - apply no_normal_stress. assert (X := posdef_D C th HP). lra.
  Qed.
  Lemma approx_psd : 0 <= g -> psd_strain P.
  Proof.
    intros G a. replace (along (strain_tensor P) (wdir a) (wdir a)) with (g * Rsqr (wdir a 0%nat * wdir th 0%nat + wdir a 1%nat * wdir th 1%nat)).
    - apply Rmult_le_pos; [lra|apply Rle_0_sqr].
    - unfold P, along, sum2, strain_tensor, dyad, Rsqr. field.
  Qed.
  Lemma approx_SP : dot3 S P = 0.
  Proof.
    transitivity (g * dot3 (n1v th) S); [unfold P, dot3, sum3; rewrite !dyad_n1; ring|]. rewrite <- along_nn, approx_nn. ring.
  Qed.
  Lemma approx_bound : 0 <= g -> 0 < tension_of S th ->
    inner_energy C D <= error_bound lam S th g /\
    0 <= inner_energy C (plus3 E P) - inner_energy C (plus3 E Ps) <= 2 * error_bound lam S th g.
  Proof.
    intros G T. assert (FD := frame_dot S Ps th (proj1 HK) approx_nn T).
    assert (T1 := energy_taylor C (plus3 E P) (plus3 E Ps) HS). fold S D in T1.
    assert (Q1 : dot3 S D = dot3 S Ps - dot3 S P) by (unfold D, dot3, minus3, plus3, sum3; ring). rewrite approx_SP in Q1.
    assert (T2 := energy_taylor C (plus3 E Ps) (plus3 E P) HS).
    destruct HK as (A & B & K0). assert (R1 := psd_dot _ _ B (approx_psd G)).
    assert (Q2 : dot3 (inner_stress C (plus3 E Ps)) (minus3 (plus3 E P) (plus3 E Ps)) = dot3 (inner_stress C (plus3 E Ps)) P - dot3 (inner_stress C (plus3 E Ps)) Ps)
      by (unfold dot3, minus3, plus3, sum3; ring).
    assert (Q3 : inner_energy C (minus3 (plus3 E P) (plus3 E Ps)) = inner_energy C D) by (unfold D, inner_energy, minus3, plus3, sum3; field).
    assert (W0 := energy_pos C D HP). set (W := inner_energy C D) in *.
    set (y := along (strain_tensor Ps) (wdir th) (wdir th)) in *. assert (Y0 : 0 <= y) by apply A.
    set (dl := misfit S th) in *.
    assert (D0 : 0 <= dl). { unfold dl, misfit. apply Rmult_le_pos; [apply Rle_0_sqr|]. left. apply Rinv_0_lt_compat, T. }
    assert (W2 : 2 * W <= dl * y) by lra.
    assert (YD : y = g + along (strain_tensor D) (wdir th) (wdir th)).
    { assert (U := sin2_cos2 th). unfold Rsqr in U.
      assert (Y1 : along (strain_tensor P) (wdir th) (wdir th) = g * ((sin th * sin th + cos th * cos th) * (sin th * sin th + cos th * cos th))).
      { unfold P. generalize g. intro r. unfold along, sum2, strain_tensor, dyad, wdir. field. }
      assert (Y2 : along (strain_tensor D) (wdir th) (wdir th) = y - along (strain_tensor P) (wdir th) (wdir th)).
      { unfold y, D. generalize P. intro P'. unfold along, sum2, strain_tensor, minus3, plus3. field. }
      rewrite Y2, Y1, U. ring. }
    set (x := along (strain_tensor D) (wdir th) (wdir th)) in *. assert (FX := frob_nn D th). fold x in FX.
    assert (FL := HF D). assert (EW : 2 * W = sum3 (fun i => sum3 (fun j => D i * C i j * D j))) by (unfold W, inner_energy; field). rewrite <- EW in FL.
    assert (X2 : lam * (x * x) <= dl * y). { apply Rle_trans with (2 * W); [|exact W2]. apply Rle_trans with (2 := FL). apply Rmult_le_compat_l; lra. }
    assert (YB : y <= 2 * g + dl / lam).
    { apply (Rmult_le_reg_l lam); [exact HL|]. replace (lam * (2 * g + dl / lam)) with (2 * lam * g + dl) by (field; lra).
      assert (Z := Rle_0_sqr (lam * y - dl)). assert (Z' := Rle_0_sqr (2 * lam * x - lam * y)). unfold Rsqr in *.
      assert (LX : lam * (lam * (x * x)) <= lam * (dl * y)) by (apply Rmult_le_compat_l; lra).
      assert (SQ : (2 * lam * x) * (2 * lam * x) <= (lam * y + dl) * (lam * y + dl)) by nra.
      assert (LY : 0 <= lam * y) by (apply Rmult_le_pos; lra).
      assert (X3 : 2 * lam * x <= lam * y + dl). { destruct (Rle_dec (2 * lam * x) (lam * y + dl)) as [q|q]; [exact q|exfalso]. nra. }
      assert (lam * y = lam * g + lam * x) by (rewrite YD; ring). lra. }
    assert (DY : dl * y <= dl * (2 * g + dl / lam)) by (apply Rmult_le_compat_l; assumption).
    assert (EB : dl * (2 * g + dl / lam) = 2 * error_bound lam S th g). { unfold error_bound. fold dl. field. lra. }
    split; [lra|split; lra].
  Qed.
End Approx.

(* a positive definite stiffness has such a lower bound: stated for the moduli of the examples only where needed *)
Lemma report_ok {A} tf (w : outcome A) x : report tf w = Ok (Some x) <-> tf = 0 /\ w = Ok x.
Proof.
  unfold report. split.
  - destruct (Req_EM_T tf 1); [discriminate|]. destruct (Req_EM_T tf (-1)); [discriminate|]. destruct (Req_EM_T tf 0); [|discriminate].
    destruct w; cbn; try discriminate. intro Q. injection Q as ->. auto.
  - intros (-> & ->). destruct (Req_EM_T 0 1); [lra|]. destruct (Req_EM_T 0 (-1)); [lra|]. destruct (Req_EM_T 0 0); [reflexivity|lra].
Qed.
