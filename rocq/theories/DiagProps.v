(* Properties C95, C109-C111: areas, norms, energies and interface errors reported by the assembler. *)
From Coq Require Import Reals Lra Lia List Psatz FunctionalExtensionality.
From Coquelicot Require Import Coquelicot.
From Verif Require Import Tensor KinModel KinSpec KinAsm KinProofs KinMore KinProps DiagModel DiagSpec DiagProofs.
Import ListNotations.
Open Scope R_scope.

(* ================================================================ C95: areas and norms *)
(* the area does not change under a rigid motion or a reflection *)
Theorem C95_area_rigid : forall Q t (geo : dpt -> jet) pts, isometric Q ->
  get_area (fun p => jmap Q t (geo p)) pts = get_area geo pts.
Proof. intros. unfold get_area. apply psum_ext. intros p _. rewrite iso_measure by assumption. reflexivity. Qed.
Print Assumptions C95_area_rigid.

(* changing the parametrisation multiplies each contribution by |det P|, the factor the parametric weight loses *)
Theorem C95_area_parametrisation : forall (P S : dpt -> mat) (geo : dpt -> jet) pts, (forall p, In p pts -> det2 (P p) <> 0) ->
  get_area geo pts = psum pts (fun p => dw p / Rabs (det2 (P p)) * measure (reparam (P p) (S p) (geo p))).
Proof.
  intros P S geo pts H. unfold get_area. apply psum_ext. intros p Hp. rewrite measure_reparam. field. apply Rabs_no_R0. apply H; exact Hp.
Qed.
Print Assumptions C95_area_parametrisation.

(* the norm vanishes exactly when no quadrature point of the surface has moved *)
Theorem C95_displacement_norm_zero : forall pts, pts <> [] ->
  (forall p, In p pts -> 0 < dw p /\ regular (dori p) /\ regular (ddef p)) ->
  (get_disp_norm pts = 0 <-> forall p, In p pts -> same3 (j0 (ddef p)) (j0 (dori p))).
Proof.
  intros pts N H.
  assert (A : 0 < psum pts (fun p => dw p * measure (dori p))).
  { apply psum_pos. exact N. intros p Hp. destruct (H p Hp) as (W & R & _). apply Rmult_lt_0_compat. exact W. apply measure_pos; exact R. }
  assert (B : forall p, In p pts -> 0 <= dw p * (dot3 (disp p) (disp p) * measure (ddef p))).
  { intros p Hp. destruct (H p Hp) as (W & _ & R). apply Rmult_le_pos. lra. apply Rmult_le_pos. apply dot_self_nonneg. apply measure_nonneg. }
  assert (D : forall p, same3 (j0 (ddef p)) (j0 (dori p)) <-> dot3 (disp p) (disp p) = 0).
  { intro p. rewrite dot_self_zero. unfold same3, disp, vsub, vzero. split; intros E i Hi; specialize (E i Hi); lra. }
  unfold get_disp_norm. split.
  - intros E p Hp. apply D. apply sqrt_eq_0 in E.
    2:{ apply Rmult_le_pos. apply psum_ge0; exact B. apply Rlt_le, Rinv_0_lt_compat; exact A. }
    assert (Z : psum pts (fun p => dw p * (dot3 (disp p) (disp p) * measure (ddef p))) = 0).
    { apply Rmult_integral in E. destruct E as [E|E]. exact E. exfalso. apply Rinv_neq_0_compat in E; [exact E|lra]. }
    pose proof (psum_zero_all _ _ B Z p Hp) as Y. cbv beta in Y. destruct (H p Hp) as (W & _ & R). pose proof (measure_pos _ R) as M.
    apply Rmult_integral in Y. destruct Y as [Y|Y]. lra. apply Rmult_integral in Y. destruct Y as [Y|Y]. exact Y. lra.
  - intro E. rewrite (psum_ext pts _ (fun p => 0 * 0)). 2:{ intros p Hp. rewrite (proj1 (D p) (E p Hp)). ring. }
    rewrite psum_mul. unfold Rdiv. rewrite !Rmult_0_l. apply sqrt_0.
Qed.
Print Assumptions C95_displacement_norm_zero.

(* for motions that keep the surface element, in particular rigid ones, it is the root mean square displacement *)
Theorem C95_displacement_norm_rms : forall pts, pts <> [] ->
  (forall p, In p pts -> 0 < dw p /\ regular (dori p) /\ measure (ddef p) = measure (dori p)) ->
  is_rms (map (fun p => (dw p * measure (dori p), dot3 (disp p) (disp p))) pts) (get_disp_norm pts).
Proof.
  intros pts N H.
  assert (A : 0 < psum pts (fun p => dw p * measure (dori p))).
  { apply psum_pos. exact N. intros p Hp. destruct (H p Hp) as (W & R & _). apply Rmult_lt_0_compat. exact W. apply measure_pos; exact R. }
  assert (M : forall (f : R * R -> R) (g : dpt -> R * R) l, psum (map g l) f = psum l (fun p => f (g p))).
  { intros f g l. induction l as [|a l IH]; cbn. reflexivity. rewrite IH. reflexivity. }
  split. apply sqrt_pos. rewrite !M. cbn [fst snd]. unfold get_disp_norm.
  rewrite sqrt_sqrt.
  2:{ apply Rmult_le_pos. apply psum_ge0. intros p Hp. destruct (H p Hp) as (W & _). apply Rmult_le_pos. lra. apply Rmult_le_pos. apply dot_self_nonneg. apply measure_nonneg. apply Rlt_le, Rinv_0_lt_compat; exact A. }
  field_simplify; [|lra]. apply psum_ext. intros p Hp. destruct (H p Hp) as (_ & _ & E). rewrite E. ring.
Qed.
Print Assumptions C95_displacement_norm_rms.

(* a translation has displacement norm |t| *)
Theorem C95_displacement_norm_translation : forall t pts, pts <> [] ->
  (forall p, In p pts -> 0 < dw p /\ regular (dori p) /\ ddef p = jmap delta t (dori p)) ->
  get_disp_norm pts = norm3 t.
Proof.
  intros t pts N H.
  assert (I : isometric delta) by (intros i j Hi Hj; destruct i as [|[|[|i]]]; try lia; destruct j as [|[|[|j]]]; try lia; unfold sum3, delta; cbn; ring).
  assert (A : 0 < psum pts (fun p => dw p * measure (dori p))).
  { apply psum_pos. exact N. intros p Hp. destruct (H p Hp) as (W & R & _). apply Rmult_lt_0_compat. exact W. apply measure_pos; exact R. }
  unfold get_disp_norm, norm3. f_equal. rewrite (psum_ext pts _ (fun p => dot3 t t * (dw p * measure (dori p)))).
  - rewrite psum_mul. field. lra.
  - intros p Hp. destruct (H p Hp) as (_ & _ & E). assert (X : dot3 (disp p) (disp p) = dot3 t t).
    { apply dot_ext; intros i Hi; unfold disp; rewrite E; unfold jmap; cbn [j0]; unfold vsub, vadd, mvec3, sum3, delta;
      destruct i as [|[|[|i]]]; try lia; cbn; ring. }
    rewrite X, E, iso_measure by exact I. ring.
Qed.
Print Assumptions C95_displacement_norm_translation.

(* the two integrals use different surfaces: a surface that grows inflates the norm *)
Theorem C95_displacement_norm_growth : forall k pts, pts <> [] -> 0 <= k ->
  (forall p, In p pts -> 0 < dw p /\ regular (dori p) /\ measure (ddef p) = k * measure (dori p)) ->
  get_disp_norm pts = sqrt k * get_disp_norm (map (fun p => mkdpt (dw p) (dori p) (mkjet (j0 (ddef p)) (j1 (dori p)) (j2 (dori p)) vzero vzero vzero) (dN p) (dM p)) pts).
Proof.
  intros k pts N K H.
  assert (A : 0 < psum pts (fun p => dw p * measure (dori p))).
  { apply psum_pos. exact N. intros p Hp. destruct (H p Hp) as (W & R & _). apply Rmult_lt_0_compat. exact W. apply measure_pos; exact R. }
  assert (M : forall (f : dpt -> R) (g : dpt -> dpt) l, psum (map g l) f = psum l (fun p => f (g p))).
  { intros f g l. induction l as [|a l IH]; cbn. reflexivity. rewrite IH. reflexivity. }
  unfold get_disp_norm. rewrite !M. cbn [dw dori ddef]. rewrite <- sqrt_mult_alt by exact K. f_equal.
  rewrite (psum_ext pts _ (fun p => k * (dw p * (dot3 (disp p) (disp p) * measure (dori p))))).
  rewrite psum_mul. unfold Rdiv. rewrite Rmult_assoc. reflexivity.
  intros p Hp. destruct (H p Hp) as (_ & _ & E). rewrite E. ring.
Qed.
Print Assumptions C95_displacement_norm_growth.

Definition unit_pt (def : jet) : dpt := mkdpt 1 flat_jet def vzero vzero.
Lemma meas_of : forall c x, 0 <= x -> dot3 (cross3 (j1 c) (j2 c)) (cross3 (j1 c) (j2 c)) = x * x -> measure c = x.
Proof. intros c x X E. unfold measure, norm3. rewrite E. apply sqrt_square. exact X. Qed.

(* so it is not a mean displacement: here every point moves by exactly 1 *)
Theorem C95_displacement_mean_refuted : exists pts, pts <> [] /\
  (forall p, In p pts -> 0 < dw p /\ regular (dori p) /\ regular (ddef p) /\ dot3 (disp p) (disp p) = 1) /\ get_disp_norm pts = 2.
Proof.
  set (c := mkjet (vv 0 0 1) (vv 2 0 0) (vv 0 2 0) vzero vzero vzero).
  assert (Mc : measure c = 4) by (apply meas_of; [lra|]; unfold c; dex; unfold vv; ring).
  assert (Mf : measure flat_jet = 1) by (apply flat_normal).
  assert (U : dot3 (disp (unit_pt c)) (disp (unit_pt c)) = 1) by (unfold disp, unit_pt, flat_jet, c; cbn [ddef dori j0]; dex; unfold vv, vzero; ring).
  exists [unit_pt c]. split; [discriminate|]. split.
  - intros p [<-|[]]. split; [cbn; lra|]. split; [|split; [|exact U]].
    + unfold regular; cbn [dori unit_pt]; unfold flat_jet; dex; unfold e1, e2; cbn; lra.
    + unfold regular; cbn [ddef unit_pt]; unfold c; dex; unfold vv; cbn; lra.
  - unfold get_disp_norm. cbn [psum]. rewrite U. cbn [unit_pt dw ddef dori]. rewrite Mc, Mf.
    replace ((1 * (1 * 4) + 0) / (1 * 1 + 0)) with (2 * 2) by field. apply sqrt_square. lra.
Qed.
Print Assumptions C95_displacement_mean_refuted.

(* deformationNorm integrates positions, not displacements: it is not zero for an undeformed shell and depends on the origin *)
Theorem C95_deformation_norm_refuted : exists p t, dw p = 1 /\ regular (dori p) /\ ddef p = dori p /\ deformation_norm [p] = 1 /\
  deformation_norm [mkdpt (dw p) (jmap delta t (dori p)) (jmap delta t (ddef p)) (dN p) (dM p)] = 4.
Proof.
  set (c := mkjet (vv 1 0 0) (vv 1 0 0) (vv 0 1 0) vzero vzero vzero).
  exists (mkdpt 1 c c vzero vzero), (vv 1 0 0).
  assert (Mc : measure c = 1) by (apply meas_of; [lra|]; unfold c; dex; unfold vv; ring).
  assert (I : isometric delta) by (intros i j Hi Hj; destruct i as [|[|[|i]]]; try lia; destruct j as [|[|[|j]]]; try lia; unfold sum3, delta; cbn; ring).
  repeat split.
  - unfold regular, c; dex; unfold vv; cbn; lra.
  - unfold deformation_norm. cbn [psum dw ddef dori]. rewrite Mc. unfold c; dex; unfold vv; cbn. ring.
  - unfold deformation_norm. cbn [psum dw ddef dori]. rewrite iso_measure by exact I. rewrite Mc. unfold c, jmap, mvec3, delta; dex; unfold vv; cbn. ring.
Qed.
Print Assumptions C95_deformation_norm_refuted.

Example C95_norm_hyps : exists pts t, pts <> [] /\
  (forall p, In p pts -> 0 < dw p /\ regular (dori p) /\ ddef p = jmap delta t (dori p)) /\ norm3 t <> 0.
Proof.
  exists [unit_pt (jmap delta (vv 0 0 1) flat_jet)], (vv 0 0 1). split; [discriminate|]. split.
  - intros p [<-|[]]. cbn [unit_pt dw ddef dori]. repeat split. lra. unfold regular, flat_jet; dex; unfold e1, e2; cbn; lra.
  - unfold norm3. replace (dot3 (vv 0 0 1) (vv 0 0 1)) with 1 by (dex; unfold vv; ring). rewrite sqrt_1. lra.
Qed.
Example C95_iso_ex : exists Q, isometric Q /\ ~ same3 (mvec3 Q (vv 1 0 0)) (vv 1 0 0).
Proof.
  exists (fun i j => match i, j with 0%nat, 1%nat => -1 | 1%nat, 0%nat => 1 | 2%nat, 2%nat => 1 | _, _ => 0 end). split.
  - intros i j Hi Hj; destruct i as [|[|[|i]]]; try lia; destruct j as [|[|[|j]]]; try lia; unfold sum3, delta; cbn; ring.
  - intro H. specialize (H 0%nat ltac:(lia)). unfold mvec3, sum3, vv in H; cbn in H. lra.
Qed.

(* ================================================================ C109: getElasticEnergy *)
(* for a surface in the plane the contraction has mismatching sizes *)
Theorem C109_planar_undefined : forall pts, get_elastic_energy 2 pts = UB.
Proof. reflexivity. Qed.
Print Assumptions C109_planar_undefined.

(* translating the deformed shell, which changes neither strains nor stresses, changes the value by the mean of t.(N+M) *)
Theorem C109_translation_dependent : forall t pts, exists a b,
  get_elastic_energy 3 pts = Ok a /\
  get_elastic_energy 3 (map (fun p => mkdpt (dw p) (dori p) (jmap delta t (ddef p)) (dN p) (dM p)) pts) = Ok b /\
  b = a + / 2 * psum pts (fun p => dw p * measure (ddef p) * dot3 t (vadd (dN p) (dM p))).
Proof.
  intros t pts. eexists; eexists. split; [reflexivity|]. split; [reflexivity|].
  assert (I : isometric delta) by (intros i j Hi Hj; destruct i as [|[|[|i]]]; try lia; destruct j as [|[|[|j]]]; try lia; unfold sum3, delta; cbn; ring).
  induction pts as [|p l IH]. cbn. ring. cbn [map psum]. rewrite IH. clear IH. cbn [dw ddef dori dN dM]. rewrite iso_measure by exact I.
  replace (dot3 (disp (mkdpt (dw p) (dori p) (jmap delta t (ddef p)) (dN p) (dM p))) (vadd (dN p) (dM p)))
    with (dot3 (disp p) (vadd (dN p) (dM p)) + dot3 t (vadd (dN p) (dM p))).
  ring. unfold disp, jmap, mvec3, delta; cbn [ddef dori j0]; dex. ring.
Qed.
Print Assumptions C109_translation_dependent.

(* the documented value, half the work of the internal forces on the displacement *)
Definition half_work (pts : list dpt) : R :=
  / 2 * psum pts (fun p => dw p * measure (dori p) * Fint (ddef p) (dN p) (dM p) (jadd (ddef p) (jscal (-1) (dori p)))).

(* it is neither half the internal work nor the stored energy: here the membrane is stretched about the quadrature point,
   the resultant is that of the linear law with unit membrane stiffness, and the value returned is zero *)
Theorem C109_elastic_energy_refuted : exists pts,
  (forall p, In p pts -> 0 < dw p /\ regular (dori p) /\ regular (ddef p) /\
     dN p = mem_strain (dori p) (ddef p) /\ dM p = vzero) /\
  get_elastic_energy 3 pts = Ok 0 /\ half_work pts = 3 / 2 /\ psum pts (fun p => dw p * measure (dori p) * (/ 2 * dot3 (dN p) (mem_strain (dori p) (ddef p)))) = 9 / 8.
Proof.
  set (c := mkjet vzero (vv 2 0 0) (vv 0 1 0) vzero vzero vzero).
  set (o := mkjet vzero (vv 1 0 0) (vv 0 1 0) vzero vzero vzero).
  set (p0 := mkdpt 1 o c (mem_strain o c) vzero).
  assert (Mo : measure o = 1) by (apply meas_of; [lra|]; unfold o; dex; unfold vv; ring).
  exists [p0]. split; [|split; [|split]].
  - intros p [<-|[]]. cbn [p0 dw ddef dori dN dM]. repeat split; try lra; unfold regular, c, o; dex; unfold vv; cbn; lra.
  - unfold get_elastic_energy. f_equal. cbn [psum]. unfold disp, p0, c, o; cbn [ddef dori j0]. dex. unfold vzero. ring.
  - unfold half_work. cbn [psum]. cbn [p0 dw ddef dori dN dM]. rewrite Mo. unfold Fint, Em_der. unfold mem_strain, c, o, jadd, jscal; cbn. unfold flatdot. dex. unfold vv, vzero; cbn. field.
  - cbn [psum]. cbn [p0 dw ddef dori dN dM]. rewrite Mo. unfold mem_strain, c, o; cbn. dex. unfold vv, vzero; cbn. field.
Qed.
Print Assumptions C109_elastic_energy_refuted.

(* ================================================================ C110: interface errors *)
Theorem C110_C0_error_zero : forall pts, (forall p, In p pts -> 0 < iw p) ->
  (err_C0 pts = 0 <-> forall p, In p pts -> same3 (j0 (ileft p)) (j0 (iright p))).
Proof.
  intros pts W. unfold err_C0.
  assert (B : forall p, In p pts -> 0 <= iw p * dot3 (vsub (j0 (ileft p)) (j0 (iright p))) (vsub (j0 (ileft p)) (j0 (iright p)))).
  { intros p Hp. apply Rmult_le_pos. apply Rlt_le, W, Hp. apply dot_self_nonneg. }
  assert (D : forall p, same3 (j0 (ileft p)) (j0 (iright p)) <-> dot3 (vsub (j0 (ileft p)) (j0 (iright p))) (vsub (j0 (ileft p)) (j0 (iright p))) = 0).
  { intro p. rewrite dot_self_zero. unfold same3, vsub, vzero. split; intros E i Hi; specialize (E i Hi); lra. }
  split.
  - intros E p Hp. apply D. apply sqrt_eq_0 in E. 2: apply psum_ge0; exact B.
    pose proof (psum_zero_all _ _ B E p Hp) as Y. cbv beta in Y. pose proof (W p Hp). apply Rmult_integral in Y. destruct Y as [Y|Y]. lra. exact Y.
  - intro E. rewrite (psum_ext pts _ (fun p => 0 * 0)). 2:{ intros p Hp. rewrite (proj1 (D p) (E p Hp)). ring. }
    rewrite psum_mul, Rmult_0_l. apply sqrt_0.
Qed.
Print Assumptions C110_C0_error_zero.

Theorem C110_G1_error_zero : forall pts, (forall p, In p pts -> 0 < iw p /\ regular (ileft p) /\ regular (iright p)) ->
  (err_G1 pts = 0 <-> forall p, In p pts -> same3 (nrm (ileft p)) (nrm (iright p))).
Proof.
  intros pts W. unfold err_G1.
  set (df := fun p => vsub (normalize (sn (ileft p))) (normalize (sn (iright p)))).
  change (sqrt (psum pts (fun p => iw p * dot3 (df p) (df p))) = 0 <-> forall p, In p pts -> same3 (nrm (ileft p)) (nrm (iright p))).
  assert (B : forall p, In p pts -> 0 <= iw p * dot3 (df p) (df p)).
  { intros p Hp. apply Rmult_le_pos. apply Rlt_le, W, Hp. apply dot_self_nonneg. }
  assert (D : forall p, In p pts -> (same3 (nrm (ileft p)) (nrm (iright p)) <-> dot3 (df p) (df p) = 0)).
  { intros p Hp. destruct (W p Hp) as (_ & Rl & Rr). rewrite dot_self_zero. unfold df.
    change (normalize (sn (ileft p))) with (unormal (ileft p)). change (normalize (sn (iright p))) with (unormal (iright p)).
    rewrite !unormal_nrm by assumption. unfold same3, vsub, vzero. split; intros E i Hi; specialize (E i Hi); lra. }
  split.
  - intros E p Hp. apply D. exact Hp. apply sqrt_eq_0 in E. 2: apply psum_ge0; exact B.
    pose proof (psum_zero_all _ _ B E p Hp) as Y. cbv beta in Y. pose proof (proj1 (W p Hp)). apply Rmult_integral in Y. destruct Y as [Y|Y]. lra. exact Y.
  - intro E. rewrite (psum_ext pts _ (fun p => 0 * 0)). 2:{ intros p Hp. rewrite (proj1 (D p Hp) (E p Hp)). ring. }
    rewrite psum_mul, Rmult_0_l. apply sqrt_0.
Qed.
Print Assumptions C110_G1_error_zero.

(* Both patches are pieces of one surface, parametrised with the same orientation: position, unit normal and both curvatures
   report no error, whatever the parametrisations. *)
Theorem C110_smooth_surface_no_error : forall pts (P S : ipt -> mat),
  (forall p, In p pts -> regular (ileft p) /\ 0 < det2 (P p) /\ iright p = reparam (P p) (S p) (ileft p)) ->
  err_C0 pts = 0 /\ err_G1 pts = 0 /\ err_gauss pts = 0 /\ err_mean pts = 0.
Proof.
  intros pts P S H. repeat split.
  - unfold err_C0. rewrite (psum_ext pts _ (fun p => 0 * 0)). rewrite psum_mul, Rmult_0_l. apply sqrt_0.
    intros p Hp. destruct (H p Hp) as (_ & _ & E). rewrite E. cbn [reparam j0]. unfold dot3, vsub, sum3. ring.
  - unfold err_G1. rewrite (psum_ext pts _ (fun p => 0 * 0)). rewrite psum_mul, Rmult_0_l. apply sqrt_0.
    intros p Hp. destruct (H p Hp) as (R & D & E). rewrite E.
    change (normalize (sn (ileft p))) with (unormal (ileft p)). change (normalize (sn (reparam (P p) (S p) (ileft p)))) with (unormal (reparam (P p) (S p) (ileft p))).
    unfold dot3, vsub, sum3. rewrite !unormal_reparam by (lia || lra || assumption). rewrite sg_pos by exact D. ring.
  - apply lmax_zero. intros; apply Rabs_pos. intros p Hp. destruct (H p Hp) as (R & D & E). rewrite E, gauss_reparam by (lra || assumption). rewrite Rminus_diag_eq by reflexivity. apply Rabs_R0.
  - apply lmax_zero. intros; apply Rabs_pos. intros p Hp. destruct (H p Hp) as (R & D & E). rewrite E, mean_reparam by (lra || assumption). rewrite sg_pos by exact D. rewrite Rmult_1_l, Rminus_diag_eq by reflexivity. apply Rabs_R0.
Qed.
Print Assumptions C110_smooth_surface_no_error.

(* With opposite orientation only position and Gaussian curvature still agree; unit normals differ by 2 and the mean curvature
   error is twice the curvature itself. *)
Theorem C110_opposite_orientation : forall p P S, 0 < iw p -> regular (ileft p) -> det2 P < 0 -> iright p = reparam P S (ileft p) ->
  err_C0 [p] = 0 /\ err_gauss [p] = 0 /\ err_G1 [p] = 2 * sqrt (iw p) /\ err_mean [p] = 2 * Rabs (trace2 (shape_op (ileft p))).
Proof.
  intros p P S W R D E. repeat split.
  - unfold err_C0. cbn [psum]. rewrite E. cbn [reparam j0]. replace (dot3 _ _) with 0 by (unfold dot3, vsub, sum3; ring). rewrite Rmult_0_r, Rplus_0_r. apply sqrt_0.
  - unfold err_gauss. cbn [lmax]. rewrite E, gauss_reparam by (lra || assumption). rewrite Rminus_diag_eq by reflexivity. rewrite Rabs_R0. apply Rmax_left. lra.
  - unfold err_G1. cbn [psum]. rewrite E.
    change (normalize (sn (ileft p))) with (unormal (ileft p)). change (normalize (sn (reparam P S (ileft p)))) with (unormal (reparam P S (ileft p))).
    replace (dot3 _ _) with 4.
    + rewrite Rplus_0_r. replace (iw p * 4) with ((2 * 2) * iw p) by ring. rewrite sqrt_mult_alt by lra. rewrite sqrt_square by lra. reflexivity.
    + unfold dot3, vsub, sum3. rewrite !unormal_reparam by (lia || lra || assumption). rewrite sg_neg by exact D.
      pose proof (unormal_unit (ileft p) R) as U. unfold dot3, sum3 in U. nra.
  - unfold err_mean. cbn [lmax]. rewrite E, mean_reparam by (lra || assumption). rewrite sg_neg by exact D.
    replace (trace2 (shape_op (ileft p)) - -1 * trace2 (shape_op (ileft p))) with (2 * trace2 (shape_op (ileft p))) by ring.
    rewrite Rabs_mult, (Rabs_right 2) by lra. apply Rmax_left. pose proof (Rabs_pos (trace2 (shape_op (ileft p)))). lra.
Qed.
Print Assumptions C110_opposite_orientation.

(* the normal error compares normals that are not normalised: it measures the parametrisation *)
Theorem C110_normal_error_value : forall p P S, iright p = reparam P S (ileft p) ->
  err_normal [p] = Rabs (1 - det2 P) * measure (ileft p).
Proof.
  intros p P S E. unfold err_normal. cbn [lmax]. rewrite E.
  assert (X : norm3 (vsub (sn (ileft p)) (sn (reparam P S (ileft p)))) = Rabs (1 - det2 P) * measure (ileft p)).
  { unfold norm3, measure, norm3. change (cross3 (j1 (ileft p)) (j2 (ileft p))) with (sn (ileft p)).
    replace (dot3 (vsub (sn (ileft p)) (sn (reparam P S (ileft p)))) (vsub (sn (ileft p)) (sn (reparam P S (ileft p)))))
      with ((1 - det2 P) * (1 - det2 P) * dot3 (sn (ileft p)) (sn (ileft p))).
    rewrite sqrt_mult_alt by (apply Rle_0_sqr). f_equal. exact (sqrt_Rsqr_abs (1 - det2 P)).
    unfold dot3, vsub, sum3. rewrite !sn_reparam by lia. ring. }
  rewrite X. apply Rmax_left. apply Rmult_le_pos. apply Rabs_pos. apply measure_nonneg.
Qed.
Print Assumptions C110_normal_error_value.

Theorem C110_normal_error_refuted : exists p, iw p = 1 /\ regular (ileft p) /\ regular (iright p) /\
  same3 (j0 (ileft p)) (j0 (iright p)) /\ same3 (nrm (ileft p)) (nrm (iright p)) /\ err_normal [p] = 1.
Proof.
  set (P := fun i j : nat => match i, j with 0%nat, 0%nat => 2 | 1%nat, 1%nat => 1 | _, _ => 0 end).
  set (c := reparam P (fun _ _ => 0) flat_jet). assert (D : det2 P = 2) by (unfold P, det2; ring).
  assert (R : regular flat_jet) by (unfold regular, flat_jet; dex; unfold e1, e2; cbn; lra).
  assert (Rc : regular c) by (apply reparam_regular; [exact R|lra]).
  exists (mkipt 1 flat_jet c). repeat split.
  - exact R.
  - exact Rc.
  - cbn [ileft iright]. intros i Hi. rewrite <- !unormal_nrm by assumption. unfold c. rewrite unormal_reparam by (assumption || lra). rewrite sg_pos by lra. ring.
  - rewrite (C110_normal_error_value _ P (fun _ _ => 0)) by reflexivity. cbn [ileft]. rewrite D. replace (measure flat_jet) with 1 by (symmetry; apply flat_normal).
    replace (1 - 2) with (-1) by ring. rewrite Rabs_left by lra. ring.
Qed.
Print Assumptions C110_normal_error_refuted.

(* Whether an interface is in plane is decided by the error over all interfaces together: a perfectly smooth interface is
   classified as a kink because of another one. *)
Theorem C110_in_plane_refuted : exists ifcs ifc, In ifc ifcs /\ (forall i p, In i ifcs -> In p i -> 0 < iw p /\ regular (ileft p) /\ regular (iright p)) /\ err_G1 ifc = 0 /\ ~ is_in_plane ifcs (1 / 100) ifc.
Proof.
  set (c := mkjet vzero e2 e1 vzero vzero vzero).
  set (smooth := [mkipt 1 flat_jet flat_jet]). set (kink := [mkipt 1 flat_jet c]).
  assert (Rc : regular c) by (unfold regular, c; jd).
  exists [smooth; kink], smooth. split; [left; reflexivity|]. split; [|split].
  - intros i p [<-|[<-|[]]] [<-|[]]; cbn [iw ileft iright]; (split; [lra|split; try exact flat_ok; exact Rc]).
  - apply C110_G1_error_zero. intros p [<-|[]]; cbn [iw ileft iright]; (split; [lra|split; exact flat_ok]). intros p [<-|[]]. cbn [ileft iright]. intros i _. reflexivity.
  - unfold is_in_plane. assert (E : err_G1 (concat [smooth; kink]) = 2).
    { unfold err_G1, smooth, kink. cbn [concat app psum iw ileft iright].
      change (normalize (sn flat_jet)) with (unormal flat_jet). change (normalize (sn c)) with (unormal c).
      rewrite (proj1 flat_normal). assert (N : unormal c = cross3 (j1 c) (j2 c)) by (apply normal_of; unfold c; jd). rewrite N.
      replace (_ + _) with (2 * 2). apply sqrt_square; lra. unfold c. jd. }
    rewrite E. lra.
Qed.
Print Assumptions C110_in_plane_refuted.

(* a cylinder cut along a line, the second patch running backwards *)
Definition cyl : jet := mkjet vzero (vv 1 0 0) (vv 0 1 0) (vv 0 0 1) vzero vzero.
Example C110_orientation_ex : exists p P, iw p = 1 /\ regular (ileft p) /\ det2 P < 0 /\ iright p = reparam P (fun _ _ => 0) (ileft p) /\ trace2 (shape_op (ileft p)) = 1.
Proof.
  set (P := fun i j : nat => match i, j with 0%nat, 0%nat => -1 | 1%nat, 1%nat => 1 | _, _ => 0 end).
  exists (mkipt 1 cyl (reparam P (fun _ _ => 0) cyl)), P.
  assert (R : regular cyl) by (unfold regular, cyl; dex; unfold vv; cbn; lra).
  repeat split. exact R. unfold P, det2; lra. cbn [ileft]. rewrite mean_formula by exact R.
  assert (M : measure cyl = 1) by (apply meas_of; [lra|]; unfold cyl; dex; unfold vv; ring).
  unfold fform2nd. replace (unormal cyl) with (cross3 (j1 cyl) (j2 cyl)).
  2:{ unfold unormal. rewrite normalize_pos by exact R. extensionality i. change (norm3 (cross3 (j1 cyl) (j2 cyl))) with (measure cyl). rewrite M. field. }
  unfold fform, det2, cyl; dex; unfold vv, vzero; cbn. field.
Qed.

(* the operator whose determinant and half trace are compared across the interface is the shape operator: the derivative of the unit normal
   along coordinate b is minus its column b, expressed in the tangents *)
Theorem C110_shape_operator : forall c b k, regular c -> (b < 2)%nat -> (k < 3)%nat ->
  var1 c (along c b) k = - (shape_op c 0%nat b * j1 c k + shape_op c 1%nat b * j2 c k).
Proof.
  intros c b k P Hb Hk. rewrite weingarten by assumption. unfold MetricModel.ncov, MetricModel.mixedB, shape_op, mul2, sum2, MetricModel.Acon, geo_of. cbn [MetricModel.tang].
  assert (E : forall a, (a < 2)%nat -> MetricModel.Bcov (geo_of c) a b = fform2nd c a b).
  { intros a Ha. unfold MetricModel.Bcov, fform2nd, MetricModel.normal, geo_of. cbn [MetricModel.tang]. fold (unormal c). destruct a as [|[|a]]; try lia; destruct b as [|[|b]]; try lia; reflexivity. }
  fold (geo_of c). rewrite !E by lia.
  assert (I : forall i j, inv2 (MetricModel.Acov (geo_of c)) i j = inv2 (fform c) i j) by (intros; unfold inv2, det2, MetricModel.Acov, fform, geo_of; cbn; reflexivity).
  rewrite (I 0%nat 0%nat), (I 0%nat 1%nat), (I 1%nat 0%nat), (I 1%nat 1%nat). change (jcol c 0%nat) with (j1 c). change (jcol c 1%nat) with (j2 c).
 ring.
Qed.
Print Assumptions C110_shape_operator.

(* ================================================================ C111: projections *)
(* nothing of the projected function is left in the returned coefficients: no reconstruction from them can work, not even for constants *)
Theorem C111_projection_refuted : ~ exists rec : list R -> vec -> vec, forall a x, same3 (rec (projectL2 (fun _ => a)) x) a.
Proof.
  intros [rec H]. pose proof (H (vv 1 0 0) vzero 0%nat ltac:(lia)) as A. pose proof (H (vv 0 0 0) vzero 0%nat ltac:(lia)) as B.
  change (projectL2 (fun _ => vv 1 0 0)) with (projectL2 (fun _ => vv 0 0 0)) in A. rewrite B in A. unfold vv in A. lra.
Qed.
Print Assumptions C111_projection_refuted.
(* the functions return whatever the caller passed, or nothing *)
Theorem C111_projection_is_empty : forall f r, projectL2_into f r = r /\ projectL2 f = [].
Proof. intros. split; reflexivity. Qed.
Print Assumptions C111_projection_is_empty.
