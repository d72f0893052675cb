From Coq Require Import Reals Lra Lia.
From Verif Require Import Tensor MetricModel MetricSpec MetricProofs LinearModel LinearSpec.
Open Scope R_scope.

Lemma Cijkl_sym E nu A : symmetric 2 A -> minor_major_symmetric 2 (Cijkl E nu A).
Proof.
  intros H i j k l Hi Hj Hk Hl. unfold Cijkl.
  rewrite (H j i), (H l k) by assumption. rewrite (H k i), (H l j), (H k j), (H l i) by assumption.
  repeat split; ring.
Qed.

Lemma voigt_sym C : symmetric 3 (voigt C).
Proof. intros i j Hi Hj. idx3 i Hi; idx3 j Hj; reflexivity. Qed.

(* stress in Voigt form is the Voigt matrix applied to (E11,E22,2E12) *)
Lemma Svoigt_matrix E nu A strain : symmetric 2 A -> symmetric 2 strain ->
  forall r, (r < 3)%nat ->
  Svoigt E nu A strain r =
  mvec3 (voigt (Cijkl E nu A))
    (fun i => match i with 0%nat => strain 0%nat 0%nat | 1%nat => strain 1%nat 1%nat
              | _ => strain 0%nat 1%nat + strain 1%nat 0%nat end) r.
Proof.
  intros HA HS r Hr. pose proof (HA 1%nat 0%nat ltac:(lia) ltac:(lia)) as a10.
  pose proof (HS 1%nat 0%nat ltac:(lia) ltac:(lia)) as s10.
  idx3 r Hr; cbv [Svoigt Sij mvec3 voigt sum3 Cijkl]; rewrite ?a10, ?s10; ring.
Qed.

Lemma Cconstant_eq E nu : nu <> -1 -> nu <> 1 -> 1 - 2 * nu <> 0 -> E <> 0 -> Cconstant E nu = E * nu / (1 - nu * nu).
Proof.
  intros H1 H2 H3 H4. unfold Cconstant, lambda_of, mu_of.
  assert (1 + nu <> 0) by lra. assert (1 - nu <> 0) by lra. assert (1 - nu * nu <> 0) by nra.
  field. repeat split; try assumption; try nra.
Qed.

(* plane stress condensation *)
Lemma plane_stress lam mu A Cc : lam + 2 * mu <> 0 -> Cc = 2 * lam * mu / (lam + 2 * mu) ->
  forall e, (forall i, (i < 2)%nat -> e i 2%nat = 0 /\ e 2%nat i = 0) ->
  stress3D (lame3D lam mu A) e 2 2 = 0 ->
  forall i j, (i < 2)%nat -> (j < 2)%nat ->
  stress3D (lame3D lam mu A) e i j =
  sum2 (fun k => sum2 (fun l => (Cc * A i j * A k l + mu * (A i k * A j l + A i l * A j k)) * e k l)).
Proof.
  intros Hn -> e He H33 i j Hi Hj.
  destruct (He 0%nat ltac:(lia)) as [e02 e20]. destruct (He 1%nat ltac:(lia)) as [e12 e21].
  cbv [stress3D lame3D shell_metric sum3] in H33.
  rewrite e02, e20, e12, e21 in H33.
  set (t := A 0%nat 0%nat * e 0%nat 0%nat + A 0%nat 1%nat * e 0%nat 1%nat + A 1%nat 0%nat * e 1%nat 0%nat + A 1%nat 1%nat * e 1%nat 1%nat).
  assert (E33 : e 2%nat 2%nat = - lam * t / (lam + 2 * mu)).
  { apply (Rmult_eq_reg_r (lam + 2 * mu)); [|assumption]. unfold Rdiv. rewrite Rmult_assoc, Rinv_l by assumption.
    unfold t. lra. }
  idx2 i Hi; idx2 j Hj; cbv [stress3D lame3D shell_metric sum3 sum2]; rewrite e02, e20, e12, e21, E33; unfold t; field; assumption.
Qed.

(* quadratic form q = tr((A E)^2) as sum of squares *)
Lemma trAE2 a b c e f g : a <> 0 ->
  let d := a * c - b * b in
  (a*e+b*f)*(a*e+b*f) + 2*(a*f+b*g)*(b*e+c*f) + (b*f+c*g)*(b*f+c*g)
  = (a*e + 2*b*f + b*b*g/a)^2 + 2 * d * (f + b*g/a)^2 + (d*g/a)^2.
Proof. intros Ha d. unfold d. field. assumption. Qed.

Lemma sq_pos x : x <> 0 -> 0 < x ^ 2.
Proof. intro H. replace (x ^ 2) with (Rsqr x) by (unfold Rsqr; ring). now apply Rlt_0_sqr. Qed.

Lemma posdef_core nu t q u v w d : 0 < d -> -1 < nu < 1 ->
  t = u + w -> q = u^2 + 2 * d * v^2 + w^2 -> (u <> 0 \/ v <> 0 \/ w <> 0) ->
  0 < nu * (t * t) + (1 - nu) * q.
Proof.
  intros Hd [Hn1 Hn2] -> -> Hnz.
  assert (Hv : 0 <= 2 * d * v^2) by (pose proof (pow2_ge_0 v); nra).
  pose proof (pow2_ge_0 u) as Hu. pose proof (pow2_ge_0 w) as Hw.
  set (q := u ^ 2 + 2 * d * v ^ 2 + w ^ 2) in *.
  assert (Hq : 0 < q).
  { unfold q. destruct Hnz as [h|[h|h]].
    - pose proof (sq_pos u h). lra.
    - pose proof (sq_pos v h) as hv. assert (0 < 2 * d * v ^ 2) by (apply Rmult_lt_0_compat; lra). lra.
    - pose proof (sq_pos w h). lra. }
  assert (Ht : (u + w) * (u + w) <= 2 * q).
  { unfold q. pose proof (pow2_ge_0 (u - w)) as h. replace ((u - w) ^ 2) with (2 * (u^2 + w^2) - (u + w) * (u + w)) in h by ring. lra. }
  pose proof (Rle_0_sqr (u + w)) as Ht0; unfold Rsqr in Ht0.
  destruct (Rle_dec 0 nu) as [h|h].
  - assert (0 <= nu * ((u + w) * (u + w))) by (apply Rmult_le_pos; assumption).
    assert (0 < (1 - nu) * q) by (apply Rmult_lt_0_compat; lra). lra.
  - assert (0 <= - nu * (2 * q - (u + w) * (u + w))) by (apply Rmult_le_pos; lra).
    assert (0 < (1 + nu) * q) by (apply Rmult_lt_0_compat; lra). lra.
Qed.

Lemma linear_posdef E nu A e : 0 < E -> -1 < nu < 1 -> nu <> / 2 -> spd2 A ->
  symmetric 2 e -> nonzero2 e -> 0 < energy2 (Cijkl E nu A) e.
Proof.
  intros HE Hnu Hh (HA & Ha & Hd) He (i & j & Hi & Hj & Hnz).
  pose proof (HA 1%nat 0%nat ltac:(lia) ltac:(lia)) as a10.
  pose proof (He 1%nat 0%nat ltac:(lia) ltac:(lia)) as e10.
  set (a := A 0%nat 0%nat) in *. set (b := A 0%nat 1%nat) in *. set (c := A 1%nat 1%nat) in *.
  set (x := e 0%nat 0%nat) in *. set (f := e 0%nat 1%nat) in *. set (g := e 1%nat 1%nat) in *.
  assert (Hd' : 0 < a * c - b * b) by (unfold det2 in Hd; rewrite a10 in Hd; exact Hd).
  assert (EE : energy2 (Cijkl E nu A) e = E / (1 - nu * nu) *
     (nu * ((a*x+2*b*f+c*g) * (a*x+2*b*f+c*g)) + (1 - nu) *
      ((a*x+b*f)*(a*x+b*f) + 2*(a*f+b*g)*(b*x+c*f) + (b*f+c*g)*(b*f+c*g)))).
  { cbv [energy2 sum2 Cijkl]. fold a b c x f g. rewrite a10, e10. fold f b.
    rewrite Cconstant_eq by lra. unfold mu_of. field. split; nra. }
  rewrite EE. apply Rmult_lt_0_compat.
  { apply Rdiv_lt_0_compat; nra. }
  apply (posdef_core nu _ _ (a*x + 2*b*f + b*b*g/a) (f + b*g/a) ((a*c-b*b)*g/a) (a*c-b*b)); try assumption.
  - field. lra.
  - apply trAE2. lra.
  - (* some of u v w nonzero *)
    destruct (Req_dec g 0) as [g0|gn].
    + destruct (Req_dec f 0) as [f0|fn].
      * left. rewrite g0, f0. replace (a * x + 2 * b * 0 + b * b * 0 / a) with (a * x) by (field; lra).
        assert (x <> 0).
        { intro x0. apply Hnz. idx2 i Hi; idx2 j Hj; fold x f g; rewrite ?e10; fold f; assumption. }
        apply Rmult_integral_contrapositive_currified; lra.
      * right. left. rewrite g0. replace (f + b * 0 / a) with f by (field; lra). assumption.
    + right. right. apply Rmult_integral_contrapositive_currified.
      * apply Rmult_integral_contrapositive_currified; lra.
      * apply Rinv_neq_0_compat. lra.
Qed.

Lemma inv2_spd A : spd2 A -> spd2 (inv2 A).
Proof.
  intros (HA & Ha & Hd). pose proof (HA 1%nat 0%nat ltac:(lia) ltac:(lia)) as a10.
  assert (Hc : 0 < A 1%nat 1%nat).
  { unfold det2 in Hd. rewrite a10 in Hd. pose proof (Rle_0_sqr (A 0%nat 1%nat)) as Hs. unfold Rsqr in Hs.
    assert (0 < A 0%nat 0%nat * A 1%nat 1%nat) by lra.
    destruct (Rlt_dec 0 (A 1%nat 1%nat)); [assumption|nra]. }
  repeat split.
  - intros i j Hi Hj. idx2 i Hi; idx2 j Hj; unfold inv2; try reflexivity; rewrite a10; reflexivity.
  - unfold inv2. apply Rdiv_lt_0_compat; assumption.
  - assert (E : det2 (inv2 A) = / det2 A).
    { unfold det2 at 1. unfold inv2. unfold det2 in Hd |- *. field. lra. }
    rewrite E. apply Rinv_0_lt_compat; assumption.
Qed.

Lemma Acov_spd g : regular g -> spd2 (Acov g).
Proof.
  intro H. pose proof (det2_Acov_pos g H) as Hd. repeat split.
  - intros i j _ _. apply dot3_comm.
  - unfold det2 in Hd. unfold Acov in *.
    pose proof (dot3_self_nonneg (tang g 0)) as [h|h]; [assumption|].
    exfalso. rewrite <- h in Hd. rewrite (dot3_comm (tang g 1) (tang g 0)) in Hd. nra.
  - assumption.
Qed.

(* invariance under reparametrisation *)
Lemma inv2_pullback A P : det2 A <> 0 -> det2 P <> 0 ->
  forall i j, (i < 2)%nat -> (j < 2)%nat ->
  inv2 A i j = sum2 (fun a => sum2 (fun b => P i a * inv2 (pullback2 P A) a b * P j b)).
Proof.
  intros HA HP i j Hi Hj.
  assert (D : det2 (pullback2 P A) = det2 P * det2 P * det2 A) by (unfold det2, pullback2, sum2; ring).
  assert (D0 : det2 P * det2 P * det2 A <> 0) by (repeat apply Rmult_integral_contrapositive_currified; assumption).
  unfold inv2 at 2. cbv [sum2]. cbv [inv2]. rewrite D.
  unfold pullback2, sum2. unfold det2 in *.
  idx2 i Hi; idx2 j Hj; field; repeat split; assumption.
Qed.

Definition push2 (P N : mat) : mat := fun i j => sum2 (fun a => sum2 (fun b => P i a * N a b * P j b)).

Lemma energy2_push E nu N P e :
  energy2 (Cijkl E nu (push2 P N)) e = energy2 (Cijkl E nu N) (pullback2 P e).
Proof. cbv [energy2 Cijkl push2 pullback2 sum2]. ring. Qed.

Lemma Cijkl_ext E nu A B : eq_on 2 A B -> forall i j k l, (i < 2)%nat -> (j < 2)%nat -> (k < 2)%nat -> (l < 2)%nat ->
  Cijkl E nu A i j k l = Cijkl E nu B i j k l.
Proof. intros H i j k l Hi Hj Hk Hl. unfold Cijkl. now rewrite !H by assumption. Qed.

Lemma energy2_ext C D e : (forall i j k l, (i < 2)%nat -> (j < 2)%nat -> (k < 2)%nat -> (l < 2)%nat -> C i j k l = D i j k l) ->
  energy2 C e = energy2 D e.
Proof. intro H. unfold energy2, sum2. now rewrite !H by lia. Qed.

Lemma reparam_invariant E nu A P e : det2 A <> 0 -> det2 P <> 0 ->
  energy2 (Cijkl E nu (inv2 (pullback2 P A))) (pullback2 P e) = energy2 (Cijkl E nu (inv2 A)) e.
Proof.
  intros HA HP. rewrite <- energy2_push. apply energy2_ext. intros. apply Cijkl_ext; try assumption.
  intros a b Ha Hb. symmetry. now apply inv2_pullback.
Qed.

(* KL strain at height z *)
Lemma strain_expansion go gd z i j : (i < 2)%nat -> (j < 2)%nat ->
  E_tensor go gd z KGeneric i j = E_tensor go gd z KMembrane i j + z * E_tensor go gd z KBending i j
    + z * z * (/ 2 * (dot3 (ncov gd i) (ncov gd j) - dot3 (ncov go i) (ncov go j))).
Proof. intros Hi Hj. idx2 i Hi; idx2 j Hj; unfold E_tensor, Gcov; field. Qed.

Lemma Acon_sym g : symmetric 2 (Acon g).
Proof.
  intros i j Hi Hj. unfold Acon. idx2 i Hi; idx2 j Hj; unfold inv2; try reflexivity;
  unfold Acov; rewrite (dot3_comm (tang g 1) (tang g 0)); reflexivity.
Qed.

Lemma Acov2_sym g : symmetric 2 (Acov2 g).
Proof. intros i j _ _. unfold Acov2, sum2. ring. Qed.

Lemma linear_symmetries : forall E nu,
  (forall g, minor_major_symmetric 2 (Cijkl_surface E nu g) /\ symmetric 3 (voigt (Cijkl_surface E nu g))) /\
  (forall g, minor_major_symmetric 2 (Cijkl_planar E nu g) /\ symmetric 3 (voigt (Cijkl_planar E nu g))).
Proof.
  intros E nu. split; intro g; (split; [|apply voigt_sym]).
  - apply Cijkl_sym, Acon_sym.
  - apply Cijkl_sym, Acov2_sym.
Qed.

Lemma E_tensor_sym go gd z k : symmetric 2 (E_tensor go gd z k).
Proof.
  intros i j Hi Hj. unfold E_tensor, Gcov.
  destruct k; unfold Acov;
  rewrite ?(dot3_comm (tang gd i)), ?(dot3_comm (tang go i)).
  - reflexivity.
  - idx2 i Hi; idx2 j Hj; reflexivity.
  - idx2 i Hi; idx2 j Hj; try reflexivity;
    rewrite ?(dot3_comm (ncov gd 0) (ncov gd 1)), ?(dot3_comm (ncov go 0) (ncov go 1)); reflexivity.
Qed.

Lemma linear_stress_matrix : forall E nu go gd z kind r, (r < 3)%nat ->
  let e := E_tensor go gd z kind in
  Svoigt E nu (Acon go) e r =
  mvec3 (voigt (Cijkl_surface E nu go)) (fun i => match i with 0%nat => e 0%nat 0%nat | 1%nat => e 1%nat 1%nat
                                                 | _ => e 0%nat 1%nat + e 1%nat 0%nat end) r.
Proof. intros. apply Svoigt_matrix; [apply Acon_sym|apply E_tensor_sym|assumption]. Qed.

Lemma linear_guard : forall E nu A i j k l,
  (Cijkl_call E nu A i j k l = Throw <-> nu = / 2 \/ ~ (i < 2 /\ j < 2 /\ k < 2 /\ l < 2)%nat) /\
  Cijkl_call E nu A i j k l <> UB.
Proof.
  intros. unfold Cijkl_call.
  destruct (Nat.ltb_spec i 2), (Nat.ltb_spec j 2), (Nat.ltb_spec k 2), (Nat.ltb_spec l 2); cbn [andb];
  try (split; [split; [intros _; right; lia | reflexivity] | discriminate]).
  destruct (Req_EM_T (1 - 2 * nu) 0) as [h|h]; split; try discriminate.
  - split; [intros _; left; lra|reflexivity].
  - split; [discriminate|]. intros [h'|h']; [exfalso; lra|exfalso; lia].
Qed.

Lemma linear_constant : forall E nu, E <> 0 -> nu <> -1 -> nu <> 1 -> nu <> / 2 ->
  Cconstant E nu = E * nu / (1 - nu * nu).
Proof. intros. apply Cconstant_eq; lra. Qed.

Lemma lam_2mu_pos E nu : 0 < E -> -1 < nu < 1 -> nu <> / 2 -> lambda_of E nu + 2 * mu_of E nu <> 0.
Proof.
  intros HE Hn Hh. unfold lambda_of, mu_of.
  replace (E * nu / ((1 + nu) * (1 - 2 * nu)) + 2 * (E / (2 * (1 + nu)))) with
    (E * (1 - nu) / ((1 + nu) * (1 - 2 * nu))) by (field; lra).
  unfold Rdiv. apply Rmult_integral_contrapositive_currified.
  - apply Rmult_integral_contrapositive_currified; lra.
  - apply Rinv_neq_0_compat. apply Rmult_integral_contrapositive_currified; lra.
Qed.

Lemma linear_plane_stress : forall E nu g, regular g -> 0 < E -> -1 < nu < 1 -> nu <> / 2 ->
  let lam := E * nu / ((1 + nu) * (1 - 2 * nu)) in
  let mu := E / (2 * (1 + nu)) in
  forall e, (forall i, (i < 2)%nat -> e i 2%nat = 0 /\ e 2%nat i = 0) ->
  (exists! e33, stress3D (lame3D lam mu (Acon g)) (fun i j => if (Nat.eqb i 2 && Nat.eqb j 2)%bool then e33 else e i j) 2 2 = 0) /\
  (stress3D (lame3D lam mu (Acon g)) e 2 2 = 0 ->
   forall i j, (i < 2)%nat -> (j < 2)%nat ->
   stress3D (lame3D lam mu (Acon g)) e i j = Sij E nu (Acon g) e i j).
Proof.
  intros E nu g _ HE Hn Hh lam mu e He.
  assert (H0 : lam + 2 * mu <> 0) by (apply lam_2mu_pos; assumption).
  split.
  - set (A := Acon g).
    set (t := A 0%nat 0%nat * e 0%nat 0%nat + A 0%nat 1%nat * e 0%nat 1%nat + A 1%nat 0%nat * e 1%nat 0%nat + A 1%nat 1%nat * e 1%nat 1%nat).
    assert (S33 : forall x, stress3D (lame3D lam mu A) (fun i j => if (Nat.eqb i 2 && Nat.eqb j 2)%bool then x else e i j) 2 2
        = lam * t + (lam + 2 * mu) * x).
    { intro x. destruct (He 0%nat ltac:(lia)) as [e02 e20]. destruct (He 1%nat ltac:(lia)) as [e12 e21].
      cbv [stress3D lame3D shell_metric sum3 Nat.eqb andb]. rewrite e02, e20, e12, e21. unfold t. ring. }
    exists (- lam * t / (lam + 2 * mu)). split.
    + rewrite S33. field. assumption.
    + intros x Hx. rewrite S33 in Hx. apply (Rmult_eq_reg_l (lam + 2 * mu)); [|assumption].
      transitivity (- lam * t); [field; assumption|lra].
  - intros H33 i j Hi Hj.
    rewrite (plane_stress lam mu (Acon g) (Cconstant E nu) H0 eq_refl e He H33 i j Hi Hj).
    unfold Sij, Cijkl, sum2. fold (mu_of E nu) in mu. unfold mu. ring.
Qed.

Lemma linear_uniaxial : forall E nu s, E <> 0 -> nu <> -1 -> nu <> 1 -> nu <> / 2 ->
  let e := fun i j => match i, j with 0%nat, 0%nat => s | 1%nat, 1%nat => - nu * s | _, _ => 0 end in
  Sij E nu delta e 0 0 = E * s /\ Sij E nu delta e 1 1 = 0 /\ Sij E nu delta e 0 1 = 0.
Proof.
  intros E nu s HE H1 H2 H3 e. unfold Sij, Cijkl. rewrite (linear_constant E nu) by assumption.
  unfold mu_of, e. cbv [delta Nat.eqb].
  assert (1 + nu <> 0) by lra. assert (1 - nu <> 0) by lra.
  assert (1 - nu * nu <> 0) by (replace (1 - nu * nu) with ((1 + nu) * (1 - nu)) by ring; apply Rmult_integral_contrapositive_currified; assumption).
  repeat split; field; split; assumption.
Qed.

Lemma linear_posdef_surface : forall E nu g e, 0 < E -> -1 < nu < 1 -> nu <> / 2 -> regular g ->
  symmetric 2 e -> nonzero2 e -> 0 < energy2 (Cijkl_surface E nu g) e.
Proof. intros. apply linear_posdef; try assumption. apply inv2_spd, Acov_spd. assumption. Qed.

Lemma energy_delta E nu e : energy2 (Cijkl E nu delta) e =
  Cconstant E nu * (e 0%nat 0%nat + e 1%nat 1%nat)^2 + mu_of E nu * (2 * (e 0%nat 0%nat)^2 + 2 * (e 1%nat 1%nat)^2 + (e 0%nat 1%nat + e 1%nat 0%nat)^2).
Proof. cbv [energy2 sum2 Cijkl delta Nat.eqb]. ring. Qed.

Lemma linear_posdef_sharp : forall E nu, 0 < E -> nu < -1 \/ 1 < nu ->
  exists e, symmetric 2 e /\ nonzero2 e /\ energy2 (Cijkl E nu delta) e < 0.
Proof.
  intros E nu HE [H|H].
  - exists (fun i j => match i, j with 0%nat, 0%nat => 1 | 1%nat, 1%nat => -1 | _, _ => 0 end). repeat split.
    + intros i j Hi Hj. idx2 i Hi; idx2 j Hj; reflexivity.
    + exists 0%nat, 0%nat. repeat split; try lia; lra.
    + rewrite energy_delta. cbn beta iota.
      replace (_ + _) with (2 * E / (1 + nu)) by (unfold mu_of; field; lra).
      apply (Rmult_lt_reg_r (- (1 + nu))); [lra|]. replace (2 * E / (1 + nu) * - (1 + nu)) with (- 2 * E) by (field; lra). lra.
  - exists (fun i j => match i, j with 0%nat, 0%nat => 1 | 1%nat, 1%nat => 1 | _, _ => 0 end). repeat split.
    + intros i j Hi Hj. idx2 i Hi; idx2 j Hj; reflexivity.
    + exists 0%nat, 0%nat. repeat split; try lia; lra.
    + rewrite energy_delta. cbn beta iota. rewrite linear_constant by lra.
      assert (1 - nu * nu < 0) by nra.
      replace (_ + _) with (2 * E / (1 - nu)) by (unfold mu_of; field; lra).
      apply (Rmult_lt_reg_r (- (1 - nu))); [lra|]. replace (2 * E / (1 - nu) * - (1 - nu)) with (- 2 * E) by (field; lra). lra.
Qed.

Lemma Acov_reparam g P : let g' := mkGeo (fun i c => sum2 (fun a => P a i * tang g a c)) (der2 g) in
  eq_on 2 (Acov g') (pullback2 P (Acov g)).
Proof. intros g' i j _ _. unfold g', Acov, pullback2, sum2, dot3, sum3; cbn. ring. Qed.

Lemma inv2_ext A B : eq_on 2 A B -> eq_on 2 (inv2 A) (inv2 B).
Proof.
  intros H i j Hi Hj.
  assert (D : det2 A = det2 B) by (unfold det2; now rewrite !H by lia).
  idx2 i Hi; idx2 j Hj; unfold inv2; rewrite D, H by lia; reflexivity.
Qed.

Lemma surface_reparam : forall E nu g P e, regular g -> det2 P <> 0 ->
  let g' := mkGeo (fun i c => sum2 (fun a => P a i * tang g a c)) (der2 g) in
  energy2 (Cijkl_surface E nu g') (pullback2 P e) = energy2 (Cijkl_surface E nu g) e.
Proof.
  intros E nu g P e Hg HP g'. unfold Cijkl_surface, Acon.
  rewrite <- (reparam_invariant E nu (Acov g) P e) by (pose proof (det2_Acov_pos g Hg); try lra; assumption).
  apply energy2_ext. intros. apply Cijkl_ext; try assumption. apply inv2_ext. apply (Acov_reparam g P).
Qed.

Lemma planar_scaling : forall E nu h e, h <> 0 ->
  let g := mkGeo2 (fun i c => h * delta i c) in
  energy2 (Cijkl_planar E nu g) e = h ^ 8 * energy2 (Cijkl E nu (inv2 (Acov2 g))) e.
Proof.
  intros E nu h e Hh g. unfold energy2, sum2, Cijkl_planar, Cijkl, Acon2_member, g.
  generalize (Cconstant E nu) (mu_of E nu). intros c m.
  cbv [inv2 det2 Acov2 sum2 tang2 delta Nat.eqb]. field. assumption.
Qed.

Lemma planar_reparam_refuted : exists E nu g P e,
  0 < E /\ 0 < nu < / 2 /\ det2 (Acov2 g) <> 0 /\ det2 P <> 0 /\
  let g' := mkGeo2 (fun i c => sum2 (fun a => P a i * tang2 g a c)) in
  energy2 (Cijkl_planar E nu g') (pullback2 P e) <> energy2 (Cijkl_planar E nu g) e.
Proof.
  exists 1, (/4), (mkGeo2 delta), (fun i j => 2 * delta i j), delta.
  repeat split; try lra.
  - cbv [det2 Acov2 sum2 tang2 delta Nat.eqb]. lra.
  - cbv [det2 delta Nat.eqb]. lra.
  - cbv zeta. unfold Cijkl_planar, energy2, Cijkl. rewrite linear_constant by lra. unfold mu_of.
    cbv [pullback2 Acon2_member Acov2 sum2 tang2 delta Nat.eqb]. intro H. field_simplify in H. lra.
Qed.

Lemma planar_orthonormal : forall E nu g, Acov2 g 0%nat 0%nat = 1 -> Acov2 g 1%nat 1%nat = 1 -> Acov2 g 0%nat 1%nat = 0 ->
  forall e, energy2 (Cijkl_planar E nu g) e = energy2 (Cijkl E nu (inv2 (Acov2 g))) e.
Proof.
  intros E nu g h0 h1 h2 e. apply energy2_ext. intros. apply Cijkl_ext; try assumption.
  intros a b Ha Hb. unfold Acon2_member.
  pose proof (Acov2_sym g 1%nat 0%nat ltac:(lia) ltac:(lia)) as h3.
  idx2 a Ha; idx2 b Hb; unfold inv2, det2; rewrite ?h3, ?h0, ?h1, ?h2; field.
Qed.

Lemma Sij_law E nu A e i j : E <> 0 -> nu <> -1 -> nu <> 1 -> nu <> / 2 -> symmetric 2 e -> 
  Sij E nu A e i j = plane_stress_law E nu A e i j.
Proof.
  intros HE H1 H2 H3 He. pose proof (He 1%nat 0%nat ltac:(lia) ltac:(lia)) as e10.
  unfold Sij, Cijkl, plane_stress_law, sum2. rewrite linear_constant by assumption. unfold mu_of. rewrite e10.
  assert (1 + nu <> 0) by lra. assert (1 - nu <> 0) by lra.
  assert (1 - nu * nu <> 0) by (replace (1 - nu * nu) with ((1 + nu) * (1 - nu)) by ring; apply Rmult_integral_contrapositive_currified; assumption).
  field. split; assumption.
Qed.
