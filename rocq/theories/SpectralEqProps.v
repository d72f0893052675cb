(* Property theorems C131 (stretch based results and the choice of eigenvectors / position in space) and the parts of C79, C80 at
   coincident stretches. *)
From Coq Require Import Reals Lra Lia List FunctionalExtensionality.
From Coquelicot Require Import Coquelicot.
From Verif Require Import Tensor MetricModel MetricSpec MetricProofs LinearModel LinearSpec LinearProofs PrincipalModel PrincipalSpec PrincipalProofs
  NonlinearModel NonlinearSpec NonlinearProofs SpectralModel SpectralSpec SpectralProofs SpectralTangent SpectralMain SpectralOgden SpectralLink SpectralExamples SpectralEqual SpectralCoinc.
Import ListNotations.
Open Scope R_scope.

Section SAME.
Variables (eps : R) (g g' : geo) (z z' : R) (G : mat) (vals vals' : vec) (vecs vecs' : nat -> vec) (w : slaw) (p : par).
Hypotheses (RG : regular g) (RG' : regular g') (DG : det3 (Gcov g z) <> 0) (EG : forall i j, Gcov g' z' i j = Gcov g z i j) (SG : shell_G G) (SP : spd2 G)
  (HE : eigen_decomposition (Bten G (gcon g z)) vals vecs) (HE' : eigen_decomposition (Bten G (gcon g' z')) vals' vecs')
  (SC : shortcut eps (Bten G (gcon g z)) = false) (SC' : shortcut eps (Bten G (gcon g' z')) = false).
Lemma same_G : Gcov g' z' = Gcov g z. Proof. apply functional_extensionality; intro i; apply functional_extensionality; intro j. apply EG. Qed.
Lemma same_D : det3 (Gcov g' z') <> 0. Proof. rewrite same_G. exact DG. Qed.
Lemma same_con i j : (i < 2)%nat -> (j < 2)%nat -> Gcon g z i j = Gcon g' z' i j. Proof. intros _ _. unfold Gcon. rewrite same_G. reflexivity. Qed.
Let P := link_state eps g z G vals vecs RG DG SP HE SC.
Let P' := link_state eps g' z' G vals' vecs' RG' same_D SP HE' SC'.
Lemma same_all : (forall i j, (i < 2)%nat -> (j < 2)%nat ->
    stress_code_i eps w p (metric_of (Gcov g z) G) (gcon g z) vals vecs i j = stress_code_i eps w p (metric_of (Gcov g' z') G) (gcon g' z') vals' vecs' i j /\
    (forall k l, (k < 2)%nat -> (l < 2)%nat ->
      tangent_code_i eps w p (metric_of (Gcov g z) G) (gcon g z) vals vecs i j k l = tangent_code_i eps w p (metric_of (Gcov g' z') G) (gcon g' z') vals' vecs' i j k l)).
Proof.
  intros i j Hi Hj. rewrite (link_stress_i eps g z G vals vecs RG DG SG SP HE SC), (link_stress_i eps g' z' G vals' vecs' RG' same_D SG SP HE' SC').
  rewrite (link_tangent_i eps g z G vals vecs RG DG SG SP HE SC), (link_tangent_i eps g' z' G vals' vecs' RG' same_D SG SP HE' SC'). split.
  - exact (choice_S_i g g' z z' G _ _ _ _ _ _ _ _ same_con P P' w p i j Hi Hj).
  - intros k l Hk Hl. exact (choice_C_i g g' z z' G _ _ _ _ _ _ _ _ same_con P P' w p i j k l Hi Hj Hk Hl).
Qed.
Lemma same_all_c c33 : 0 < c33 -> forall i j, (i < 2)%nat -> (j < 2)%nat ->
    stress_code_c eps w p (metric_of (Gcov g z) G) c33 (gcon g z) vals vecs i j = stress_code_c eps w p (metric_of (Gcov g' z') G) c33 (gcon g' z') vals' vecs' i j /\
    (C3333_spec w p (triple (sqrt (vals 1%nat)) (sqrt (vals 2%nat)) (sqrt c33)) (J_sq (metric_of (Gcov g z) G) c33) <> 0 -> forall k l, (k < 2)%nat -> (l < 2)%nat ->
      tangent_code_c eps w p (metric_of (Gcov g z) G) c33 (gcon g z) vals vecs i j k l = tangent_code_c eps w p (metric_of (Gcov g' z') G) c33 (gcon g' z') vals' vecs' i j k l).
Proof.
  intros C i j Hi Hj. unfold stress_code_c, tangent_code_c.
  rewrite (link_r eps g z G vals vecs SC c33), (link_r eps g' z' G vals' vecs' SC' c33). rewrite same_G. cbn [fst snd]. split.
  - exact (choice_S_c g g' z z' G _ _ _ _ _ _ _ _ same_con P P' w p (sqrt c33) _ i j Hi Hj).
  - intros N k l Hk Hl. exact (choice_C_c g g' z z' G _ _ _ _ _ _ _ _ same_con P P' w p (sqrt c33) _ i j k l Hi Hj Hk Hl (sqrt_lt_R0 _ C) N).
Qed.
End SAME.

(* C131: whichever eigenvectors the solver returns (they are not unique: signs, and any orthonormal pair if the stretches coincide), the
   stress and the tangent of every stretch based law (incl. Ogden) are the same: incompressible ... *)
Theorem C131_eigenvectors_incompressible : forall eps g z G vals vecs vals' vecs' w p, regular g -> det3 (Gcov g z) <> 0 -> shell_G G -> spd2 G ->
  eigen_decomposition (Bten G (gcon g z)) vals vecs -> eigen_decomposition (Bten G (gcon g z)) vals' vecs' -> shortcut eps (Bten G (gcon g z)) = false ->
  let m := metric_of (Gcov g z) G in forall i j, (i < 2)%nat -> (j < 2)%nat ->
  stress_code_i eps w p m (gcon g z) vals vecs i j = stress_code_i eps w p m (gcon g z) vals' vecs' i j /\
  (forall k l, (k < 2)%nat -> (l < 2)%nat -> tangent_code_i eps w p m (gcon g z) vals vecs i j k l = tangent_code_i eps w p m (gcon g z) vals' vecs' i j k l).
Proof. intros. now apply same_all. Qed.
Print Assumptions C131_eigenvectors_incompressible.
(* ... and compressible, at any thickness component; the condensed tangent where the division by the component C3333 is defined. *)
Theorem C131_eigenvectors_compressible : forall eps g z G vals vecs vals' vecs' w p c33, regular g -> det3 (Gcov g z) <> 0 -> shell_G G -> spd2 G ->
  eigen_decomposition (Bten G (gcon g z)) vals vecs -> eigen_decomposition (Bten G (gcon g z)) vals' vecs' -> shortcut eps (Bten G (gcon g z)) = false -> 0 < c33 ->
  let m := metric_of (Gcov g z) G in forall i j, (i < 2)%nat -> (j < 2)%nat ->
  stress_code_c eps w p m c33 (gcon g z) vals vecs i j = stress_code_c eps w p m c33 (gcon g z) vals' vecs' i j /\
  (C3333_spec w p (triple (sqrt (vals 1%nat)) (sqrt (vals 2%nat)) (sqrt c33)) (J_sq m c33) <> 0 ->
   forall k l, (k < 2)%nat -> (l < 2)%nat -> tangent_code_c eps w p m c33 (gcon g z) vals vecs i j k l = tangent_code_c eps w p m c33 (gcon g z) vals' vecs' i j k l).
Proof. intros. now apply same_all_c. Qed.
Print Assumptions C131_eigenvectors_compressible.
(* C131: turning the undeformed surface in space does not change the stress and tangent components, provided the shortcut of _evalStretch
   fires in neither position ... *)
Theorem C131_rotated_reference : forall eps Q g z G vals vecs vals' vecs' w p, rotation Q -> regular g -> det3 (Gcov g z) <> 0 -> shell_G G -> spd2 G ->
  let gr := rotate Q g in
  eigen_decomposition (Bten G (gcon g z)) vals vecs -> eigen_decomposition (Bten G (gcon gr z)) vals' vecs' ->
  shortcut eps (Bten G (gcon g z)) = false -> shortcut eps (Bten G (gcon gr z)) = false ->
  forall i j, (i < 2)%nat -> (j < 2)%nat ->
  stress_code_i eps w p (metric_of (Gcov g z) G) (gcon g z) vals vecs i j = stress_code_i eps w p (metric_of (Gcov gr z) G) (gcon gr z) vals' vecs' i j /\
  (forall k l, (k < 2)%nat -> (l < 2)%nat ->
     tangent_code_i eps w p (metric_of (Gcov g z) G) (gcon g z) vals vecs i j k l = tangent_code_i eps w p (metric_of (Gcov gr z) G) (gcon gr z) vals' vecs' i j k l) /\
  (forall c33, 0 < c33 ->
     stress_code_c eps w p (metric_of (Gcov g z) G) c33 (gcon g z) vals vecs i j = stress_code_c eps w p (metric_of (Gcov gr z) G) c33 (gcon gr z) vals' vecs' i j).
Proof.
  intros eps Q g z G vals vecs vals' vecs' w p RQ RG DG SG SP gr HE HE' SC SC' i j Hi Hj.
  assert (RR : regular gr) by (apply rot_regular; assumption). assert (EG : forall a b, Gcov gr z a b = Gcov g z a b) by (apply rot_Gcov; assumption).
  destruct (same_all eps g gr z z G vals vals' vecs vecs' w p RG RR DG EG SG SP HE HE' SC SC' i j Hi Hj) as (A & B). split; [exact A|]. split; [exact B|].
  intros c33 C. apply (same_all_c eps g gr z z G vals vals' vecs vecs' w p RG RR DG EG SP HE HE' SC SC' c33 C i j Hi Hj).
Qed.
Print Assumptions C131_rotated_reference.

(* the shortcut looks at two Cartesian diagonal entries of the deformation tensor: after a rotation of the whole problem it can fire in a
   state with stretches sqrt 2 and sqrt 3, and the stress along the larger stretch is lost *)
Definition Qx : mat := fun a b => match a, b with 2%nat, 0%nat => 1 | 0%nat, 1%nat => 1 | 1%nat, 2%nat => 1 | _, _ => 0 end.
Lemma Qx_rot : rotation Qx.
Proof. split; [intros i j Hi Hj; idx3 i Hi; idx3 j Hj; cbv [mmul3 mtr Qx sum3 delta Nat.eqb]; ring|cbv [det3 Qx]; ring]. Qed.
Lemma Qx_gcon i a : (i < 2)%nat -> (a < 3)%nat -> gcon (rotate Qx flat) 0 i a = Qx a i.
Proof.
  intros Hi Ha. unfold gcon. rewrite !(rot_Gcon Qx flat 0 Qx_rot flat_regular), !flat_Gcon by lia.
  assert (Z : Gcon flat 0 i 2%nat = 0). { unfold Gcon, inv3. rewrite flat_det, !flat_Gcov by lia. idx2 i Hi; cbv [delta Nat.eqb]; field. }
  rewrite Z. unfold gcov, rotate. cbn [tang]. idx2 i Hi; idx3 a Ha; cbv [delta Nat.eqb mvec3 sum3 Qx flat tang]; ring.
Qed.
Definition vx : nat -> vec := fun k a => match k with 0%nat => delta 1 a | 1%nat => delta 0 a | _ => delta 2 a end.
Lemma Qx_B a b : (a < 3)%nat -> (b < 3)%nat -> Bten (dgs 3 2) (gcon (rotate Qx flat) 0) a b = match a, b with 0%nat, 0%nat => 2 | 2%nat, 2%nat => 3 | _, _ => 0 end.
Proof. intros Ha Hb. unfold Bten, sum2. rewrite !Qx_gcon by lia. idx3 a Ha; idx3 b Hb; cbv [Qx dgs]; ring. Qed.
Theorem C131_rotated_reference_refuted : exists Q g z G vals vecs vals' vecs' p, rotation Q /\ regular g /\ det3 (Gcov g z) <> 0 /\ shell_G G /\ spd2 G /\
  eigen_decomposition (Bten G (gcon g z)) vals vecs /\ eigen_decomposition (Bten G (gcon (rotate Q g) z)) vals' vecs' /\
  forall eps, 0 < eps < 1 / 10 ->
    0 < stress_code_i eps (L NH) p (metric_of (Gcov g z) G) (gcon g z) vals vecs 0%nat 0%nat /\
    stress_code_i eps (L NH) p (metric_of (Gcov (rotate Q g) z) G) (gcon (rotate Q g) z) vals' vecs' 0%nat 0%nat = 0.
Proof.
  exists Qx, flat, 0, (dgs 3 2), (dg_vals 3 2), dg_vecs, (dg_vals 3 2), vx, (mkPar 3 (1/2) 1).
  split; [exact Qx_rot|]. split; [exact flat_regular|]. split; [rewrite flat_det; lra|]. split; [apply dgs_shell|]. split; [apply dgs_spd; lra|].
  assert (E1 : eigen_decomposition (Bten (dgs 3 2) (gcon flat 0)) (dg_vals 3 2) dg_vecs) by (rewrite dgs_B; apply dg_eigen; lra).
  split; [exact E1|].
  assert (MU : mu (mkPar 3 (1 / 2) 1) = 1) by (unfold mu, mu_of; cbn; field). split.
  - split; [|split; [|split]].
    + intros k a Hk Ha. unfold mvec3, sum3. rewrite !Qx_B by lia. idx3 k Hk; idx3 a Ha; cbv [dg_vals vx delta Nat.eqb]; ring.
    + intros k l Hk Hl. idx3 k Hk; idx3 l Hl; cbv [dot3 sum3 vx delta Nat.eqb]; ring.
    + intros k l Hk Hl. idx3 k Hk; idx3 l Hl; cbv [sum3 vx delta Nat.eqb]; ring.
    + cbn. lra.
  - intros eps He. split.
    + rewrite (code_stress_i eps flat 0 (dgs 3 2) (dg_vals 3 2) dg_vecs flat_regular ltac:(rewrite flat_det; lra) (dgs_shell 3 2) ltac:(apply dgs_spd; lra) E1); try lia; try discriminate.
      * cbn [S_inc]. rewrite MU, flat_J0. cbn [metric_of Gori Gdefi].
        assert (F1 : inv3 (Gcov flat 0) 0%nat 0%nat = 1). { unfold inv3. rewrite flat_det. rewrite !flat_Gcov by lia. cbv [delta Nat.eqb]. field. }
        assert (F2 : inv3 (dgs 3 2) 0%nat 0%nat = 1 / 3) by (cbv [inv3 det3 dgs]; field). rewrite F1, F2. lra.
      * unfold shortcut. rewrite dgs_B, dg_trace. replace (3 + 2 - 2) with 3 by ring. rewrite Rabs_right by lra. destruct (Rlt_dec 3 (10 * eps)); [exfalso; lra|reflexivity].
    + unfold stress_code_i, evalStretch. set (c := 1 / J0 _).
      assert (S : shortcut eps (Bten (cmat (metric_of (Gcov (rotate Qx flat) 0) (dgs 3 2)) c) (gcon (rotate Qx flat) 0)) = true).
      { change (Bten (cmat (metric_of (Gcov (rotate Qx flat) 0) (dgs 3 2)) c) (gcon (rotate Qx flat) 0)) with (Bten (dgs 3 2) (gcon (rotate Qx flat) 0)).
        unfold shortcut. rewrite !Qx_B by lia. replace (2 - 1 + (0 - 1)) with 0 by ring. rewrite Rabs_R0. destruct (Rlt_dec 0 (10 * eps)) as [|N]; [reflexivity|]. exfalso. apply N. lra. }
      rewrite S. cbn [fst snd]. unfold S_spec_i, sum2, pr, dot3, sum3. rewrite !Qx_gcon by lia. cbv [delta Nat.eqb Qx]. ring.
Qed.
Print Assumptions C131_rotated_reference_refuted.

(* C80 at coincident stretches: the limit formula of the code makes the tangent the exact derivative also there, for every law and along
   every line of metrics through the state, whatever eigenvectors are used along the line: incompressible ... *)
Theorem C80_coincident_incompressible : forall g z G H l1 l2 v1 v2, shell_G G -> in_plane H -> principal_family g z G H l1 l2 v1 v2 -> l1 0 = l2 0 ->
  forall w p i j, (i < 2)%nat -> (j < 2)%nat ->
  is_derive (fun t => S_spec_i w p (stretches_i (l1 t) (l2 t)) (gcon g z) (frame3 (v1 t) (v2 t) (gcon g z 2%nat)) i j) 0
    (/ 2 * contract (C_spec_i w p (stretches_i (l1 0) (l2 0)) (gcon g z) (frame3 (v1 0) (v2 0) (gcon g z 2%nat))) H i j).
Proof. intros g z G H l1 l2 v1 v2 SG SH PF E w p i j Hi Hj. exact (coincident_i g z G H l1 l2 v1 v2 SH PF E w p i j Hi Hj). Qed.
Print Assumptions C80_coincident_incompressible.
(* ... and compressible along any differentiable thickness path that keeps the transverse stress zero. *)
Theorem C80_coincident_compressible : forall g z G H l1 l2 v1 v2, shell_G G -> in_plane H -> principal_family g z G H l1 l2 v1 v2 -> l1 0 = l2 0 ->
  forall w p (l3 : R -> R) (k3 : R), 0 < l3 0 -> is_derive l3 0 k3 -> forall i j, (i < 2)%nat -> (j < 2)%nat ->
  let J t := J_sq (metric_of (Gcov g z) (line G H t)) (l3 t ^ 2) in let s t := triple (l1 t) (l2 t) (l3 t) in
  locally 0 (fun t => Sa_c w p (s t) (J t) 2 = 0) -> C3333_spec w p (s 0) (J 0) <> 0 ->
  is_derive (fun t => S_spec_c w p (s t) (J t) (gcon g z) (frame3 (v1 t) (v2 t) (gcon g z 2%nat)) i j) 0
    (/ 2 * contract (C_spec_c w p (s 0) (J 0) (gcon g z) (frame3 (v1 0) (v2 0) (gcon g z 2%nat))) H i j).
Proof. intros g z G H l1 l2 v1 v2 SG SH PF E w p l3 k3 P3 D3 i j Hi Hj. exact (coincident_c g z G H l1 l2 v1 v2 SG SH PF E w p l3 k3 P3 D3 i j Hi Hj). Qed.
Print Assumptions C80_coincident_compressible.

(* C79 at coincident stretches *)
Theorem C79_coincident_incompressible : forall g z G H l1 l2 v1 v2, shell_G G -> in_plane H -> principal_family g z G H l1 l2 v1 v2 -> l1 0 = l2 0 ->
  forall p pars, (forall t, In t (ogden_terms pars) -> snd t <> 0) ->
  is_derive (fun t => ogden_W (ogden_terms pars) (l1 t) (l2 t) (/ (l1 t * l2 t))) 0
    (/ 2 * dotdot (S_spec_i (OG pars) p (stretches_i (l1 0) (l2 0)) (gcon g z) (frame3 (v1 0) (v2 0) (gcon g z 2%nat))) H).
Proof. intros g z G H l1 l2 v1 v2 SG SH PF E p pars NZ. exact (coincident_energy_i g z G H l1 l2 v1 v2 SH PF E p pars NZ). Qed.
Print Assumptions C79_coincident_incompressible.
Theorem C79_coincident_compressible : forall g z G H l1 l2 v1 v2, shell_G G -> in_plane H -> principal_family g z G H l1 l2 v1 v2 -> l1 0 = l2 0 ->
  forall p pars, (forall t, In t (ogden_terms pars) -> snd t <> 0) -> forall (l3 : R -> R) (k3 : R), 0 < l3 0 -> is_derive l3 0 k3 ->
  is_derive (fun t => ogden_W_iso (ogden_terms pars) (l1 t) (l2 t) (l3 t) + vol_W (bulk p) (l1 t) (l2 t) (l3 t)) 0
    (/ 2 * dotdot (S_spec_c (OG pars) p (triple (l1 0) (l2 0) (l3 0)) (J_sq (metric_of (Gcov g z) G) (l3 0 ^ 2)) (gcon g z)
                     (frame3 (v1 0) (v2 0) (gcon g z 2%nat))) (with33 H (2 * l3 0 * k3))).
Proof. intros g z G H l1 l2 v1 v2 SG SH PF E p pars NZ l3 k3 P3 D3. exact (coincident_energy_c g z G H l1 l2 v1 v2 SG SH PF E p pars NZ l3 k3 P3 D3). Qed.
Print Assumptions C79_coincident_compressible.

(* ---------- examples ---------- *)
(* the stretches 2, 2 separate along the line: sqrt(4-|t|), sqrt(4+|t|), with the directions swapping at t = 0 *)
Example C80_coincident_case : exists g z G H l1 l2 v1 v2, shell_G G /\ in_plane H /\ principal_family g z G H l1 l2 v1 v2 /\ l1 0 = 2 /\ l2 0 = 2 /\
  l1 1 < l2 1 /\ v1 1 0%nat = 0 /\ v1 (-1) 0%nat = 1.
Proof.
  exists flat, 0, (dgs 4 4), (dg 1 (-1)), (fun t => sqrt (4 - Rabs t)), (fun t => sqrt (4 + Rabs t)),
    (fun t c => if Rle_dec 0 t then delta 1 c else delta 0 c), (fun t c => if Rle_dec 0 t then delta 0 c else delta 1 c).
  split; [apply dgs_shell|]. split; [repeat split; reflexivity|]. split.
  - unfold principal_family. exists (mkposreal 1 Rlt_0_1). intros t Ht.
    unfold ball in Ht; cbn in Ht; unfold AbsRing_ball in Ht; cbn in Ht. unfold minus, plus, opp, abs in Ht; cbn in Ht. apply Rabs_lt_between in Ht.
    destruct (Rle_dec 0 t) as [P|N].
    + rewrite (Rabs_right t) by lra. apply flat_state; [lra|]. intros i j Hi Hj. unfold line. idx2 i Hi; idx2 j Hj; cbn; ring.
    + rewrite (Rabs_left t) by lra. replace (4 - - t) with (4 + t) by ring.
      split; [exact flat_regular|]. split; [rewrite flat_det; lra|].
      assert (EB : forall x y, (x < 3)%nat -> (y < 3)%nat -> Bten (line (dgs 4 4) (dg 1 (-1)) t) (gcon flat 0) x y = if (Nat.ltb x 2 && Nat.ltb y 2)%bool then dg (4 + t) (4 + - t) x y else 0).
      { intros x y Hx Hy. rewrite flat_Bten by assumption. idx3 x Hx; idx3 y Hy; cbv [Nat.ltb Nat.leb andb line dgs dg]; ring. }
      unfold principal_stretches. split; [split; [apply sqrt_lt_R0; lra|apply sqrt_le_1_alt; lra]|].
      split; [intros c Hc; unfold mvec3, sum3; rewrite !EB by lia; rewrite sqrt_sqrt by lra; idx3 c Hc; cbn; ring|].
      split; [intros c Hc; unfold mvec3, sum3; rewrite !EB by lia; rewrite sqrt_sqrt by lra; idx3 c Hc; cbn; ring|].
      unfold dot3, sum3. rewrite !flat_normal by lia. cbv [delta Nat.eqb]. repeat split; ring.
  - rewrite Rabs_R0, Rminus_0_r, Rplus_0_r, Rabs_R1. split; [exact sqrt4|]. split; [exact sqrt4|]. split; [apply sqrt_lt_1_alt; lra|].
    destruct (Rle_dec 0 1); [|lra]. destruct (Rle_dec 0 (-1)); [lra|]. split; reflexivity.
Qed.
(* C131: equal stretches 2, 2 with the coordinate directions and with directions turned by 45 degrees *)
Example C131_case : exists g z G vals vecs vecs', regular g /\ det3 (Gcov g z) <> 0 /\ shell_G G /\ spd2 G /\
  eigen_decomposition (Bten G (gcon g z)) vals vecs /\ eigen_decomposition (Bten G (gcon g z)) vals vecs' /\ vecs 1%nat 0%nat <> vecs' 1%nat 0%nat /\
  shortcut (/ 10 ^ 15) (Bten G (gcon g z)) = false.
Proof.
  set (h := / sqrt 2). assert (H2 : h * h = 1 / 2).
  { unfold h. rewrite <- Rinv_mult. rewrite sqrt_sqrt by lra. field. }
  assert (HN : 0 < h) by (apply Rinv_0_lt_compat, sqrt_lt_R0; lra).
  exists flat, 0, (dgs 4 4), (dg_vals 4 4), dg_vecs,
    (fun k c => match k, c with 0%nat, 2%nat => 1 | 1%nat, 0%nat => h | 1%nat, 1%nat => h | 2%nat, 0%nat => h | 2%nat, 1%nat => - h | _, _ => 0 end).
  split; [exact flat_regular|]. split; [rewrite flat_det; lra|]. split; [apply dgs_shell|]. split; [apply dgs_spd; lra|]. rewrite dgs_B.
  split; [apply dg_eigen; lra|]. split; [|split].
  - split; [|split; [|split]].
    + intros k a Hk Ha. unfold mvec3, sum3. rewrite !flat_Bten by lia. idx3 k Hk; idx3 a Ha; cbv [Nat.ltb Nat.leb andb dg dg_vals]; ring.
    + intros k l Hk Hl. idx3 k Hk; idx3 l Hl; cbv [dot3 sum3 delta Nat.eqb]; lra.
    + intros k l Hk Hl. idx3 k Hk; idx3 l Hl; cbv [sum3 delta Nat.eqb]; lra.
    + cbn. lra.
  - cbv [dg_vecs delta Nat.eqb Nat.sub]. lra.
  - unfold shortcut. rewrite dg_trace. replace (4 + 4 - 2) with 6 by ring. rewrite Rabs_right by lra. destruct (Rlt_dec 6 (10 * / 10 ^ 15)) as [K|]; [exfalso; lra|reflexivity].
Qed.
