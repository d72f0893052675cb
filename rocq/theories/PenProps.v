(* C119: the penalty factors of the weak conditions, and their dependence on the parametrisation. *)
From Coq Require Import Reals Lra Lia Arith Psatz.
From Verif Require Import Tensor MetricModel LinearModel KinModel KinSpec FuncModel FuncSpec KinMore PenModel PenSpec PenProofs.
Open Scope R_scope.

(* E, nu constant over the thickness: the integrated matrices are k times the Voigt matrix, k = t for A and t^3/12 for D *)
Definition stiffness (E nu k : R) (c : jet) : mat := fun i j => k * voigt (Cijkl E nu (Acon (geo_of c))) i j.

(* C119: on orthogonal parameter lines the factor is alpha * k * E/(1-nu^2) / area, whatever their lengths and the position in space *)
Theorem C119_orthogonal : forall alpha c E nu k area, regular c -> 0 < E -> - 1 < nu < / 2 -> 0 < k -> gram c 0 1 = 0 ->
  penalty alpha c (stiffness E nu k c) area = alpha * (k * plane_modulus E nu) / area.
Proof. intros. now apply penalty_orth. Qed.
Print Assumptions C119_orthogonal.

(* C119: on any regular parametrisation it is positive and at least that value divided by sin^4 of the angle between the parameter lines *)
Theorem C119_lower_bound : forall alpha c E nu k area, regular c -> 0 < E -> - 1 < nu < / 2 -> 0 < alpha -> 0 < k -> 0 < area ->
  0 < sin2 c <= 1 /\
  alpha * (k * plane_modulus E nu) / area / (sin2 c * sin2 c) <= penalty alpha c (stiffness E nu k c) area /\
  alpha * (k * plane_modulus E nu) / area <= penalty alpha c (stiffness E nu k c) area /\
  0 < penalty alpha c (stiffness E nu k c) area.
Proof.
  intros alpha c E nu k area P HE N Ha Hk Hr. pose proof (sin2_range c P) as S. pose proof (mod_pos E nu HE N) as Q.
  pose proof (penalty_lower alpha c E nu k area P HE N Ha Hk Hr) as L. fold (stiffness E nu k c) in L.
  assert (V : 0 < alpha * (k * plane_modulus E nu) / area). { apply Rdiv_lt_0_compat; [|exact Hr]. apply Rmult_lt_0_compat; [|apply Rmult_lt_0_compat]; assumption. }
  assert (SS : 0 < sin2 c * sin2 c <= 1) by nra.
  assert (W : alpha * (k * plane_modulus E nu) / area <= alpha * (k * plane_modulus E nu) / area / (sin2 c * sin2 c)).
  { apply (Rmult_le_reg_r (sin2 c * sin2 c)); [lra|]. unfold Rdiv at 2. rewrite Rmult_assoc, Rinv_l by lra. nra. }
  assert (L2 : alpha * (k * plane_modulus E nu) / area / (sin2 c * sin2 c) <= penalty alpha c (stiffness E nu k c) area).
  { eapply Rle_trans; [|exact L]. right. field. lra. }
  split; [exact S|]. split; [exact L2|]. split; lra.
Qed.
Print Assumptions C119_lower_bound.

(* the plane z = 0 with the second parameter line sheared by y *)
Definition sheared (y : R) : jet := mkjet (fun _ => 0)
  (fun i => match i with 0%nat => 1 | _ => 0 end) (fun i => match i with 0%nat => y | 1%nat => 1 | _ => 0 end)
  (fun _ => 0) (fun _ => 0) (fun _ => 0).
Lemma sheared_regular y : regular (sheared y).
Proof. unfold regular, dot3, cross3, sum3, sheared; cbn; nra. Qed.
Lemma sheared_sin2 y : sin2 (sheared y) = / (1 + y * y).
Proof. unfold sin2, gram, dot3, sum3, sheared; cbn. field. nra. Qed.

(* C119: the factor is not a property of the surface and the material: a shear of the parameter lines of the same plane,
   which leaves the surface, the area element and the material unchanged, raises it above any bound *)
Theorem C119_refuted : forall bound, exists c c' P, regular c /\ regular c' /\ reparametrised c c' P /\ det2 P = 1 /\
  penalty 1 c (stiffness 1 0 1 c) 1 = 1 /\ bound < penalty 1 c' (stiffness 1 0 1 c') 1.
Proof.
  intro b. set (y := Rabs b + 1). assert (B : b < y) by (unfold y; pose proof (Rle_abs b); lra). assert (Y : 1 <= y) by (unfold y; pose proof (Rabs_pos b); lra).
  exists (sheared 0), (sheared y), (fun i j => match i, j with 0%nat, 0%nat | 1%nat, 1%nat => 1 | 0%nat, 1%nat => y | _, _ => 0 end).
  split; [apply sheared_regular|]. split; [apply sheared_regular|].
  assert (D : det2 (fun i j => match i, j with 0%nat, 0%nat | 1%nat, 1%nat => 1 | 0%nat, 1%nat => y | _, _ => 0 end) = 1) by (unfold det2; ring).
  split. { split; [lra|]. intros k Hk. destruct k as [|[|[|?]]]; try lia; cbn; lra. }
  split; [exact D|]. assert (O : gram (sheared 0) 0 1 = 0) by (unfold gram, dot3, sum3, sheared; cbn; ring).
  split.
  - rewrite (C119_orthogonal 1 (sheared 0) 1 0 1 1) by (try lra; try exact O; apply sheared_regular). unfold plane_modulus. field.
  - destruct (C119_lower_bound 1 (sheared y) 1 0 1 1 (sheared_regular y) ltac:(lra) ltac:(lra) ltac:(lra) ltac:(lra) ltac:(lra)) as (_ & L & _).
    rewrite sheared_sin2 in L. eapply Rlt_le_trans; [|exact L]. unfold plane_modulus.
    replace (1 * (1 * (1 / (1 - 0 * 0))) / 1 / (/ (1 + y * y) * / (1 + y * y))) with ((1 + y * y) * (1 + y * y)) by (field; nra). nra.
Qed.
Print Assumptions C119_refuted.

(* the interface factor is the boundary factor for the mean of the two element areas *)
Theorem C119_interface : forall alpha c E nu k al ar, regular c -> 0 < E -> - 1 < nu < / 2 -> 0 < alpha -> 0 < k -> 0 < al -> 0 < ar ->
  penalty_ifc alpha c (stiffness E nu k c) al ar = penalty_ifc alpha c (stiffness E nu k c) ar al /\
  Rmin (penalty alpha c (stiffness E nu k c) al) (penalty alpha c (stiffness E nu k c) ar) <= penalty_ifc alpha c (stiffness E nu k c) al ar
  <= Rmax (penalty alpha c (stiffness E nu k c) al) (penalty alpha c (stiffness E nu k c) ar).
Proof.
  intros alpha c E nu k al ar P HE N Ha Hk Hl Hr. unfold penalty_ifc. split; [now rewrite Rplus_comm|].
  pose proof (C119_lower_bound alpha c E nu k 1 P HE N Ha Hk ltac:(lra)) as (_ & _ & _ & W).
  unfold penalty in *. set (m := alpha * max9 _) in *. assert (M : 0 < m) by (unfold Rdiv in W; rewrite Rinv_1 in W; lra).
  assert (MON : forall a b, 0 < a -> a <= b -> m / b <= m / a).
  { intros a b A B. apply Rmult_le_compat_l; [lra|]. apply Rinv_le_contravar; assumption. }
  destruct (Rle_dec al ar).
  - split; [eapply Rle_trans; [apply Rmin_r|]|eapply Rle_trans; [|apply Rmax_l]]; apply MON; lra.
  - split; [eapply Rle_trans; [apply Rmin_l|]|eapply Rle_trans; [|apply Rmax_r]]; apply MON; lra.
Qed.
Print Assumptions C119_interface.

(* a stretched orthogonal parametrisation: lengths 3 and 5 *)
Example C119_ex_stretched : let c := mkjet (fun _ => 0) (fun i => match i with 0%nat => 3 | _ => 0 end) (fun i => match i with 2%nat => 5 | _ => 0 end)
    (fun _ => 0) (fun _ => 0) (fun _ => 0) in
  regular c /\ penalty 1000 c (stiffness 3 (/ 4) (/ 10) c) (/ 2) = 640.
Proof.
  cbv zeta. set (c := mkjet _ _ _ _ _ _). assert (P : regular c) by (unfold regular, dot3, cross3, sum3; cbn; lra). split; [exact P|].
  rewrite C119_orthogonal; [unfold plane_modulus; field|exact P|lra|lra|lra|unfold gram, dot3, sum3; cbn; ring].
Qed.
(* tangents e1 and e1 + e2: four times the value on e1, e2 at least *)
Example C119_ex_sheared : 4 <= penalty 1 (sheared 1) (stiffness 1 0 1 (sheared 1)) 1.
Proof.
  destruct (C119_lower_bound 1 (sheared 1) 1 0 1 1 (sheared_regular 1) ltac:(lra) ltac:(lra) ltac:(lra) ltac:(lra) ltac:(lra)) as (_ & L & _).
  eapply Rle_trans; [|exact L]. rewrite sheared_sin2. unfold plane_modulus. right. field.
Qed.
