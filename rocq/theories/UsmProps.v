(* Property C142: change of units of the assembled problem.  All lengths times r, all moduli times k (see UsmSpec). *)
From Coq Require Import Reals Lra Lia List Arith FunctionalExtensionality.
From Verif Require Import RaProps ObjProps WifSpec WifProps.
From Verif Require Import Tensor MetricModel LinearModel NonlinearModel SizeModel KinModel KinSpec KinAsm KinStiff KinLoads KinMore KinProps LinModel LinSpec FuncModel PenModel KoSpec KoProofs RaModel ObjModel WifModel UsmSpec UsmProofs.
Import ListNotations.
Open Scope R_scope.

(* internal forces: stress times area *)
Theorem C142_force : forall r k X n pts pts' x i d, 0 < r -> units_pts r k X pts pts' -> (forall q, In q pts -> regular (qdef n q x)) ->
  Fvec n pts' (cscale r x) i d = k * (r * r) * Fvec n pts x i d.
Proof.
  intros r k X n pts pts' x i d Pr U H. unfold Fvec. apply (psum_rel _ _ _ _ _ _ U). intros q q' I (Uq & _). apply (force_pt r k n q q' x Pr Uq i d), H, I.
Qed.
Print Assumptions C142_force.
(* stiffness: force over length *)
Theorem C142_stiffness : forall r k X n pts pts' x i d j e, 0 < r -> units_pts r k X pts pts' -> (forall q, In q pts -> regular (qdef n q x)) ->
  Kmat n pts' (cscale r x) i d j e = k * r * Kmat n pts x i d j e.
Proof.
  intros r k X n pts pts' x i d j e Pr U H. unfold Kmat. apply (psum_rel _ _ _ _ _ _ U). intros q q' I (Uq & _). apply (Kentry_s r k n q q' x Pr Uq), H, I.
Qed.
Print Assumptions C142_stiffness.
Theorem C142_linear_stiffness : forall r k X n pts pts' i d j e, 0 < r -> units_pts r k X pts pts' -> (forall q, In q pts -> regular (qori q)) ->
  Klmat n pts' i d j e = k * r * Klmat n pts i d j e.
Proof.
  intros r k X n pts pts' i d j e Pr U H. unfold Klmat. apply (psum_rel _ _ _ _ _ _ U). intros q q' I (Uq & _). apply (Klentry_s r k q q' Pr Uq), H, I.
Qed.
Print Assumptions C142_linear_stiffness.
(* loads: force per area is a stress *)
Theorem C142_surface_load : forall r k pts pts' g g' i d, units_pts r k (fun q q' => g' q' = vscal k (g q)) pts pts' -> Flin pts' g' i d = k * (r * r) * Flin pts g i d.
Proof.
  intros r k pts pts' g g' i d U. unfold Flin. apply (psum_rel _ _ _ _ _ _ U). intros q q' I ((W & B & _) & G). rewrite W, B, G, dot_vr. ring.
Qed.
Print Assumptions C142_surface_load.
Theorem C142_pressure : forall r k n pts pts' p p' x i d j e, 0 < r -> units_pts r k (fun q q' => p' q' = k * p q) pts pts' -> (forall q, In q pts -> regular (qdef n q x)) ->
  Pvec n pts' p' (cscale r x) i d = k * (r * r) * Pvec n pts p x i d /\ Pmat n pts' p' (cscale r x) i d j e = k * r * Pmat n pts p x i d j e.
Proof.
  intros r k n pts pts' p p' x i d j e Pr U H. unfold Pvec, Pmat. split; apply (psum_rel _ _ _ _ _ _ U); intros q q' I (Uq & G); pose proof (H q I) as Hq;
    rewrite (qdef_s r k n q q' x Uq), G; destruct Uq as (W & B & _); rewrite W, B.
  - unfold Fpress. rewrite unormal_s by assumption. ring.
  - unfold Kpress. rewrite var1_s, dot_vr by assumption. field. lra.
Qed.
Print Assumptions C142_pressure.
(* mass: density times volume *)
Theorem C142_mass : forall r k s pts pts' rho rho' i d j e, units_pts r k (fun q q' => rho' q' = s * r * rho q) pts pts' ->
  Mmat pts' rho' i d j e = s * (r * r * r) * Mmat pts rho i d j e.
Proof.
  intros r k s pts pts' rho rho' i d j e U. unfold Mmat. apply (psum_rel _ _ _ _ _ _ U). intros q q' I ((W & B & _) & G). rewrite W, B, G. unfold Kmass. ring.
Qed.
Print Assumptions C142_mass.

(* hence the solutions: equilibrium states *)
Theorem C142_equilibrium : forall r k X n fr pts pts' x f, 0 < r -> 0 < k -> units_pts r k X pts pts' -> (forall q, In q pts -> regular (qdef n q x)) ->
  (forall i d, (i < n)%nat -> (d < 3)%nat -> fr i d = true -> Fvec n pts x i d = f i d) <->
  (forall i d, (i < n)%nat -> (d < 3)%nat -> fr i d = true -> Fvec n pts' (cscale r x) i d = k * (r * r) * f i d).
Proof.
  intros r k X n fr pts pts' x f Pr Pk U H. assert (Z : k * (r * r) <> 0) by (apply Rgt_not_eq; repeat apply Rmult_lt_0_compat; assumption).
  split; intros A i d Hi Hd F; specialize (A i d Hi Hd F).
  - rewrite (C142_force r k X n pts pts' x i d Pr U H), A. reflexivity.
  - rewrite (C142_force r k X n pts pts' x i d Pr U H) in A. apply Rmult_eq_reg_l in A; assumption.
Qed.
Print Assumptions C142_equilibrium.
(* Newton steps with external loads f and prescribed increments g *)
Theorem C142_newton_step : forall r k X n fr pts pts' x f g y, 0 < r -> 0 < k -> units_pts r k X pts pts' -> (forall q, In q pts -> regular (qdef n q x)) ->
  solves n fr (Kmat n pts x) (csub f (Fvec n pts x)) g y <->
  solves n fr (Kmat n pts' (cscale r x)) (csub (cscale (k * (r * r)) f) (Fvec n pts' (cscale r x))) (cscale r g) (cscale r y).
Proof.
  intros r k X n fr pts pts' x f g y Pr Pk U H.
  assert (E : csub (cscale (k * (r * r)) f) (Fvec n pts' (cscale r x)) = cscale (k * r * r) (csub f (Fvec n pts x))).
  { apply functional_extensionality. intro i. apply functional_extensionality. intro d. unfold csub, cscale at 1 3.
    rewrite (C142_force r k X n pts pts' x i d Pr U H). ring. }
  rewrite E. apply solves_w.
  - apply Rgt_not_eq, Rmult_lt_0_compat; assumption.
  - lra.
  - intros. apply (C142_stiffness r k X); assumption.
Qed.
Print Assumptions C142_newton_step.
(* linear solutions *)
Theorem C142_linear_solution : forall r k n fr pts pts' p p' g x, 0 < r -> 0 < k -> units_pts r k (fun q q' => p' q' = vscal k (p q)) pts pts' -> (forall q, In q pts -> regular (qori q)) ->
  solves n fr (Klmat n pts) (Flin pts p) g x <-> solves n fr (Klmat n pts') (Flin pts' p') (cscale r g) (cscale r x).
Proof.
  intros r k n fr pts pts' p p' g x Pr Pk U H.
  assert (E : Flin pts' p' = cscale (k * r * r) (Flin pts p)).
  { apply functional_extensionality. intro i. apply functional_extensionality. intro d. rewrite (C142_surface_load r k pts pts' p p' i d U). unfold cscale. ring. }
  rewrite E. apply solves_w.
  - apply Rgt_not_eq, Rmult_lt_0_compat; assumption.
  - lra.
  - intros. eapply C142_linear_stiffness; eassumption.
Qed.
Print Assumptions C142_linear_solution.
(* modes of vibration: squared frequencies times k / (s r^2), s the factor of the density *)
Theorem C142_frequencies : forall r k s n fr pts pts' rho rho' lam x, 0 < r -> 0 < k -> 0 < s -> units_pts r k (fun q q' => rho' q' = s * r * rho q) pts pts' ->
  (forall q, In q pts -> regular (qori q)) ->
  mode n fr (Klmat n pts) (Mmat pts rho) lam x <-> mode n fr (Klmat n pts') (Mmat pts' rho') (k / (s * (r * r)) * lam) (cscale r x).
Proof.
  intros r k s n fr pts pts' rho rho' lam x Pr Pk Ps U H.
  assert (EK : forall i d, dapply n (Klmat n pts') (cscale r x) i d = k * r * r * dapply n (Klmat n pts) x i d) by (intros; apply dapply_w; intros; eapply C142_linear_stiffness; eassumption).
  assert (EM : forall i d, dapply n (Mmat pts' rho') (cscale r x) i d = s * (r * r * r) * r * dapply n (Mmat pts rho) x i d) by (intros; apply dapply_w; intros; eapply C142_mass; eassumption).
  assert (Z : k * r * r <> 0) by (apply Rgt_not_eq; repeat apply Rmult_lt_0_compat; assumption).
  unfold mode, prescribed. split; intros (A & B); split; intros i d Hi Hd F; [specialize (A i d Hi Hd F)|specialize (B i d Hi Hd F)|specialize (A i d Hi Hd F)|specialize (B i d Hi Hd F)].
  - unfold cscale. rewrite A. ring.
  - rewrite EK, EM, B. field. lra.
  - unfold cscale in A. apply Rmult_integral in A as [A|A]; [lra|exact A].
  - rewrite EK, EM in B. apply (Rmult_eq_reg_l (k * r * r)); [|exact Z]. rewrite B. field. lra.
Qed.
Print Assumptions C142_frequencies.

(* the shell of linear material, from the thickness and the moduli: the hypothesis of all of the above *)
Theorem C142_linear_material : forall r k (X : qpoint -> qpoint -> Prop) pts, 0 < r -> 0 < k -> (forall q, In q pts -> X (linq q) (linq (units_apoint r k q))) ->
  units_pts r k X (map linq pts) (map linq (map (units_apoint r k) pts)).
Proof.
  intros r k X pts Pr Pk. induction pts as [|q l IH]; intro H; cbn [map]; constructor.
  - split; [apply lin_units; lra|apply H; left; reflexivity].
  - apply IH. intros; apply H; right; assumption.
Qed.
Print Assumptions C142_linear_material.
(* ... and for the vectors and matrices computed from the evaluations of that material *)
Theorem C142_linear_material_computed : forall r k n pts x i d j e, 0 < r -> 0 < k -> (forall q, In q pts -> regular (aori q) /\ regular (adef n q x)) ->
  exists f K, aforce lin_res n pts x i d = Ok f /\ astiff lin_res lin_tan n pts x i d j e = Ok K /\
    aforce lin_res n (map (units_apoint r k) pts) (cscale r x) i d = Ok (k * (r * r) * f) /\
    astiff lin_res lin_tan n (map (units_apoint r k) pts) (cscale r x) i d j e = Ok (k * r * K).
Proof.
  intros r k n pts x i d j e Pr Pk H.
  assert (U : units_pts r k nodata (map linq pts) (map linq (map (units_apoint r k) pts))) by (apply C142_linear_material; auto; intros; exact I).
  assert (H' : forall q, In q (map (units_apoint r k) pts) -> regular (aori q) /\ regular (adef n q (cscale r x))).
  { intros q Hq. apply in_map_iff in Hq as (q0 & <- & I0). destruct (H q0 I0) as (A & B). split.
    - apply (regular_s r Pr _ A).
    - unfold adef, units_apoint. cbn [aori abas]. rewrite field_s, jadd_s. apply (regular_s r Pr _ B). }
  assert (R : forall q, In q (map linq pts) -> regular (qdef n q x)).
  { intros q Hq. apply in_map_iff in Hq as (q0 & <- & I0). exact (proj2 (H q0 I0)). }
  exists (Fvec n (map linq pts) x i d), (Kmat n (map linq pts) x i d j e).
  split; [apply force_eq, H|]. split; [apply stiff_eq, H|]. rewrite force_eq, stiff_eq by exact H'. split; f_equal.
  - eapply C142_force; eassumption.
  - eapply C142_stiffness; eassumption.
Qed.
Print Assumptions C142_linear_material_computed.

(* springs and weakly prescribed displacements *)
Theorem C142_boundary_terms : forall r k w al kf g o c v u, 0 < r ->
  r * r * w * Kfound (vscal (k / r) kf) v u = k * r * (w * Kfound kf v u) /\
  r * r * w * Ffound (vscal (k / r) kf) (jscal r o) (jscal r c) v = k * (r * r) * (w * Ffound kf o c v) /\
  r * r * w * Kweakdir (k / r * al) v u = k * r * (w * Kweakdir al v u) /\
  r * r * w * Fweakdir (k / r * al) (vscal r g) (jscal r o) (jscal r c) v = k * (r * r) * (w * Fweakdir al g o c v) /\
  r * r * w * Fweakdir_lin3 (k / r * al) (vscal r g) v = k * (r * r) * (w * Fweakdir_lin3 al g v).
Proof.
  intros r k w al kf g o c v u Pr. unfold Kfound, Ffound, Kweakdir, Fweakdir, Fweakdir_lin3, dot3, sum3, jscal, vscal, vsub. cbn [j0].
  split; [|split; [|split; [|split]]]; field; lra.
Qed.
Print Assumptions C142_boundary_terms.
(* the penalty factors that are computed from the material matrices and the element areas have the units they must have *)
Theorem C142_penalty : forall r k alpha c A D A' D' area, 0 < r -> 0 < k -> regular c ->
  (forall a b, (a < 3)%nat -> (b < 3)%nat -> A' a b = k / (r * r * r) * A a b) -> (forall a b, (a < 3)%nat -> (b < 3)%nat -> D' a b = k / r * D a b) ->
  penalty alpha (jscal r c) A' (r * r * area) = k / r * penalty alpha c A area /\ penalty alpha (jscal r c) D' (r * r * area) = k * r * penalty alpha c D area.
Proof.
  intros r k alpha c A D A' D' area Pr Pk H HA HD. split.
  - rewrite (penalty_s r Pr (k / (r * r * r)) alpha c A A' area); [field; lra| |exact H|exact HA]. apply Rlt_le, Rdiv_lt_0_compat; [exact Pk|repeat apply Rmult_lt_0_compat; exact Pr].
  - rewrite (penalty_s r Pr (k / r) alpha c D D' area); [field; lra| |exact H|exact HD]. apply Rlt_le, Rdiv_lt_0_compat; assumption.
Qed.
Print Assumptions C142_penalty.

(* coupled patches *)
Definition iready (n m : nat) (x : coefs2) (q : ipoint) : Prop :=
  (regular (iol q) /\ regular (ior q)) /\ (regular (fst (idef n m q x)) /\ regular (snd (idef n m q x))) /\ fst (isl q) <> 0 /\ fst (isr q) <> 0.
Theorem C142_coupling_force : forall r k n m c0 c1 pts pts' x s i d, 0 < r -> Forall2 (units_ipoint r k) pts pts' -> (forall q, In q pts -> iready n m x q) ->
  Ivec n m c0 c1 pts' (cscale2 r x) s i d = k * (r * r) * Ivec n m c0 c1 pts x s i d.
Proof.
  intros r k n m c0 c1 pts pts' x s i d Pr U H. unfold Ivec. apply (psum_rel _ _ _ _ _ _ U). intros q q' I Uq. destruct (H q I) as (Ro & Rd & Sl & Sr).
  rewrite (itest_s r k q q' Uq). unfold Fipt. rewrite (iori_s r k q q' Uq), (idef_s r k n m q q' x Uq), (iad_s r k n m q q' x Pr Uq), (iar_s r k n m q q' x Pr Uq).
  destruct Uq as (W & _ & _ & _ & _ & S1 & S2 & _). rewrite W, S1, S2, Fifc3_s, FifcC1_s, FifcIn_s by assumption.
  destruct c0, c1; ring.
Qed.
Print Assumptions C142_coupling_force.
(* the matrix, except the in-plane terms of the C1 coupling that are weighted with a change of the angle *)
Theorem C142_coupling_stiffness : forall r k n m c0 c1 pts pts' x s i d s' j e, 0 < r -> Forall2 (units_ipoint r k) pts pts' -> (forall q, In q pts -> iready n m x q) ->
  (c1 = true -> forall q, In q pts -> dnN (isl q) (isr q) (iori q) (idef n m q x) + dnN' (isl q) (isr q) (iori q) (idef n m q x) = 0) ->
  Imat n m c0 c1 pts' (cscale2 r x) s i d s' j e = k * r * Imat n m c0 c1 pts x s i d s' j e.
Proof.
  intros r k n m c0 c1 pts pts' x s i d s' j e Pr U H Z. unfold Imat. apply (psum_rel _ _ _ _ _ _ U). intros q q' I Uq. destruct (H q I) as (Ro & Rd & Sl & Sr).
  rewrite !(itest_s r k q q' Uq). unfold Kipt. rewrite (iori_s r k q q' Uq), (idef_s r k n m q q' x Uq), (iad_s r k n m q q' x Pr Uq), (iar_s r k n m q q' x Pr Uq).
  destruct Uq as (W & _ & _ & _ & _ & S1 & S2 & _). rewrite W, S1, S2, KifcC1_s, KifcIn_s by assumption.
  assert (C0 : forall al v u, Kifc (k / r * al) v u = k / r * Kifc al v u) by (intros; unfold Kifc; ring). rewrite C0.
  destruct c0, c1; try (rewrite (Z eq_refl q I)); field; lra.
Qed.
Print Assumptions C142_coupling_stiffness.
(* in particular at the undeformed state, where the linear assembly takes it *)
Theorem C142_coupling_undeformed : forall r k n m c0 c1 pts pts' s i d s' j e, 0 < r -> Forall2 (units_ipoint r k) pts pts' ->
  (forall q, In q pts -> iready n m (fun _ _ => 0, fun _ _ => 0) q) ->
  Imat n m c0 c1 pts' (fun _ _ => 0, fun _ _ => 0) s i d s' j e = k * r * Imat n m c0 c1 pts (fun _ _ => 0, fun _ _ => 0) s i d s' j e.
Proof.
  intros r k n m c0 c1 pts pts' s i d s' j e Pr U H.
  assert (E : (fun _ _ => 0, fun _ _ => 0) = cscale2 r (fun _ _ => 0, fun _ _ => 0)).
  { unfold cscale2, cscale. cbn [fst snd]. assert (Q : (fun _ _ : nat => 0) = (fun _ _ : nat => r * 0)) by (apply functional_extensionality; intro; apply functional_extensionality; intro; ring). rewrite <- Q. reflexivity. }
  rewrite E at 1. apply C142_coupling_stiffness; try assumption. intros _ q I.
  assert (D : idef n m q (fun _ _ => 0, fun _ _ => 0) = iori q).
  { unfold idef, iori. cbn [fst snd].
    assert (F : forall n bas, fieldjet n bas (fun _ _ => 0) = jzero).
    { clear. intros n bas. induction n as [|n IH]; cbn [fieldjet]; [reflexivity|]. rewrite IH. unfold jadd, jscal, jzero, bvar. cbn [j0 j1 j2 j11 j22 j12]. f_equal; vx; unfold vadd, vscal, vzero; ring. }
    rewrite !F. f_equal; [destruct (iol q) as [y0 y1 y2 y11 y22 y12]|destruct (ior q) as [y0 y1 y2 y11 y22 y12]]; unfold jadd, jzero; cbn [j0 j1 j2 j11 j22 j12]; f_equal; vx; unfold vadd, vzero; ring. }
  rewrite D. unfold dnN, dnN'. ring.
Qed.
Print Assumptions C142_coupling_undeformed.

(* ---- terms that do not respect the units ---- *)
(* two patches that meet in a right angle after bending, both flat before *)
Definition uflat : jet := tjet e1 e2.
Definition ufold : jet := tjet e1 e3.
Lemma uflat_ok : regular uflat. Proof. unfold regular, uflat. jd. Qed.
Lemma ufold_ok : regular ufold. Proof. unfold regular, ufold. jd. Qed.
Lemma un_flat : unormal uflat = cross3 e1 e2. Proof. apply normal_of. unfold uflat. jd. Qed.
Lemma un_fold : unormal ufold = cross3 e1 e3. Proof. apply normal_of. unfold ufold. jd. Qed.
Definition utilt : jet := tjet vzero e3.
Lemma ut_flat s c : s * s = 1 -> j1 c = e1 -> normalize (tangent s 0 c) = vscal s e1.
Proof. intros S E. unfold tangent, jcol. rewrite E. apply norm_unit. rewrite dot_vl, dot_vr. replace (dot3 e1 e1) with 1 by jd. lra. Qed.
Lemma jn_flat : jnorm uflat = uflat.
Proof. unfold jnorm, uflat, tjet. cbn [j0 j1 j2 j11 j22 j12]. rewrite !norm_unit by jd. reflexivity. Qed.
Lemma zero_field c w i : jcol w i = vzero -> forall s, tvar1 s i c w = vzero.
Proof. intros Z s. vx. unfold tvar1. rewrite Z. unfold dot3, sum3, vscal, vzero. ring. Qed.
Lemma mv_flat : m_var uflat utilt = vscal (-1) e2.
Proof.
  assert (M : measure uflat = 1) by (apply normal_of; unfold uflat; jd).
  vx. unfold m_var. rewrite M. unfold uflat, utilt, tjet, cross3, e1, e2, e3, vv, vzero, vscal. cbn [j1 j2]. destruct x as [|[|x]]; field.
Qed.
Lemma sv2_flat : forall a, (a < 3)%nat -> snvar2_with uflat uflat utilt utilt a = vscal (-1) e3 a.
Proof.
  intros a Ha. unfold snvar2_with, snvar1_with. cbv zeta. rewrite !mv_flat, !un_flat.
  assert (Q : forall b, m_uv uflat utilt utilt b = 0) by (intro b; unfold m_uv, utilt, tjet; cbn [j1 j2]; unfold cross3, vzero, Rdiv; destruct b as [|[|b]]; ring).
  unfold dot3, sum3. rewrite !Q. destruct a as [|[|[|a]]]; try lia; cbv [vscal cross3 e1 e2 e3 vv]; ring.
Qed.
(* the second variation of the outer normal of the flat patch does not depend on its size *)
Lemma o2_flat r : 0 < r -> dot3 (unormal ufold) (ovar2 1 0 (jscal r uflat) utilt utilt) = -1.
Proof.
  intro Pr. rewrite ovar2_s by (exact Pr || lra || exact uflat_ok). rewrite jn_flat, !zero_field by reflexivity. rewrite un_fold, un_flat.
  assert (T : tvar2 1 0 uflat utilt utilt = vzero).
  { vx. unfold tvar2. rewrite !zero_field by reflexivity. unfold utilt, tjet. cbn [jcol j1]. unfold dot3, sum3, vscal, vzero. ring. }
  rewrite T, (ut_flat 1 uflat) by (lra || reflexivity).
  unfold dot3, sum3. unfold cross3 at 2 3 4 5 6 7 8 9 10 11 12 13. cbv [cross3 vscal vzero e1 e2 e3 vv]. rewrite !sv2_flat by lia. cbv [vscal e3 vv]. ring.
Qed.
Lemma jscal_1 c : jscal 1 c = c.
Proof. destruct c as [y0 y1 y2 y11 y22 y12]. unfold jscal. cbn [j0 j1 j2 j11 j22 j12]. f_equal; vx; unfold vscal; ring. Qed.
Lemma mv_zero c : m_var c jzero = vzero.
Proof. vx. unfold m_var, jzero. cbn [j1 j2]. unfold cross3, vzero, Rdiv. destruct x as [|[|x]]; ring. Qed.
Lemma o2_zero r s c n : 0 < r -> s <> 0 -> regular c -> dot3 n (ovar2 s 0 (jscal r c) jzero jzero) = 0.
Proof.
  intros Pr S H. rewrite ovar2_s by assumption. rewrite !zero_field by reflexivity.
  assert (T : tvar2 s 0 c jzero jzero = vzero).
  { vx. unfold tvar2. rewrite !zero_field by reflexivity. unfold jzero. cbn [jcol j1]. unfold dot3, sum3, vscal, vzero. ring. }
  assert (V : snvar2_with c (jnorm c) jzero jzero = vzero).
  { vx. unfold snvar2_with, snvar1_with. cbv zeta. rewrite !mv_zero. unfold m_uv, jzero. cbn [j1 j2]. unfold dot3, sum3, cross3, vzero, Rdiv. destruct x as [|[|x]]; ring. }
  rewrite T, V. unfold dot3, sum3, cross3, vzero. ring.
Qed.
Definition usl : side := (1, 0%nat).
Definition usr : side := (-1, 0%nat).
Definition uori : jet * jet := (uflat, uflat).
Definition udef : jet * jet := (uflat, ufold).
Lemma u_ab : dnN usl usr uori udef + dnN' usl usr uori udef = 2.
Proof.
  unfold dnN, dnN', onormal, usl, usr, uori, udef. cbn [fst snd]. rewrite !(ut_flat 1), !(ut_flat (-1)) by (lra || reflexivity). rewrite un_flat, un_fold.
  unfold dot3, sum3. cbv [cross3 vscal e1 e2 e3 vv]. ring.
Qed.
Theorem C142_coupling_stiffness_refuted : exists sl sr o d v u, regular (fst o) /\ regular (snd o) /\ regular (fst d) /\ regular (snd d) /\
  forall r k al, 0 < r -> r <> 1 -> k <> 0 -> al <> 0 -> KifcIn (k * r * al) sl sr (jpair r o) (jpair r d) v u <> k / r * KifcIn al sl sr o d v u.
Proof.
  exists usl, usr, uori, udef, (utilt, jzero), (utilt, jzero).
  split; [exact uflat_ok|]. split; [exact uflat_ok|]. split; [exact uflat_ok|]. split; [exact ufold_ok|].
  intros r k al Pr N K A E. rewrite (KifcIn_s r k Pr uori udef (conj uflat_ok uflat_ok) (conj uflat_ok ufold_ok) usl usr ltac:(cbn; lra) ltac:(cbn; lra)) in E.
  rewrite u_ab in E. unfold usl, usr, udef in E. cbn [fst snd] in E.
  pose proof (o2_flat 1 Rlt_0_1) as O1. rewrite jscal_1 in O1. rewrite (o2_flat r Pr), O1 in E.
  pose proof (o2_zero 1 (-1) ufold (unormal uflat) Rlt_0_1 ltac:(lra) ufold_ok) as Z1. rewrite jscal_1 in Z1.
  rewrite Z1, (o2_zero r (-1) ufold (unormal uflat) Pr ltac:(lra) ufold_ok) in E.
  assert (X : k * r * al * 2 * (-1 - / r * / r * -1 + (0 - / r * / r * 0)) = 0) by lra.
  assert (Y : k * al * (2 * (1 - r * r)) = 0) by (replace (k * al * (2 * (1 - r * r))) with (r * (k * r * al * 2 * (-1 - / r * / r * -1 + (0 - / r * / r * 0)))) by (field; lra); rewrite X; ring).
  apply Rmult_integral in Y as [Y|Y]; [apply Rmult_integral in Y as [Y|Y]; contradiction|]. apply N. nra.
Qed.
Print Assumptions C142_coupling_stiffness_refuted.
(* weakly clamped edges: one part of the matrix has the units of a stiffness times a length, the vector is off by a length (nv(ori) is not a unit vector) *)
Theorem C142_clamped : forall r k al nv o c v u, 0 < r -> regular o -> regular c ->
  Kclamp (k * r * al) nv (jscal r o) (jscal r c) v u = k / r * Kclamp al nv o c v u
    + k * (1 - / r) * (al * (dot3 (unormal c) nv - dot3 (unormal o) nv) * var2deriv2dot c v u nv) /\
  Fclamp (k * r * al) (vscal r nv) (jscal r o) (jscal r c) v = k * r * Fclamp al nv o c v.
Proof.
  intros r k al nv o c v u Pr Ho Hc. unfold Kclamp, Fclamp. rewrite !unormal_s, !var1_s, var2d2_s by assumption. rewrite !dot_vl, !dot_vr. split; field; lra.
Qed.
Print Assumptions C142_clamped.
Definition ubent : jet := mkjet vzero e1 e3 vzero e2 vzero.
Definition unv : vec := vscal (-1) e2.
Lemma ubent_ok : regular ubent. Proof. unfold regular, ubent. jd. Qed.
Lemma un_bent : unormal ubent = cross3 e1 e3. Proof. apply normal_of. unfold ubent. jd. Qed.
Definition uv2 : jet := tjet vzero e2.
Lemma mv_bent : m_var ubent uv2 = e3.
Proof.
  assert (M : measure ubent = 1) by (apply normal_of; unfold ubent; jd).
  vx. unfold m_var. rewrite M. unfold ubent, uv2, tjet, cross3, e1, e2, e3, vv, vzero. cbn [j1 j2]. destruct x as [|[|x]]; field.
Qed.
Lemma v1_bent a : (a < 3)%nat -> var1 ubent uv2 a = e3 a.
Proof. intro Ha. unfold var1, outer_apply. rewrite mv_bent, un_bent. unfold sum3. destruct a as [|[|[|a]]]; try lia; cbv [cross3 e1 e3 vv]; ring. Qed.
Lemma v2_bent a : (a < 3)%nat -> var2 ubent uv2 uv2 a = e2 a.
Proof.
  intro Ha. unfold var2, var2_with. cbv zeta. rewrite !mv_bent, !un_bent.
  assert (Q : forall b, m_uv ubent uv2 uv2 b = 0) by (intro b; unfold m_uv, uv2, tjet; cbn [j1 j2]; unfold cross3, vzero, Rdiv; destruct b as [|[|b]]; ring).
  unfold outer_apply, dot3, sum3. rewrite !Q. destruct a as [|[|[|a]]]; try lia; cbv [cross3 e1 e2 e3 vv]; ring.
Qed.
Theorem C142_clamped_refuted : exists nv o c v u, regular o /\ regular c /\ dot3 nv nv = 1 /\ dot3 nv (unormal o) = 0 /\
  forall r k al, 0 < r -> r <> 1 -> k <> 0 -> al <> 0 ->
    Kclamp (k * r * al) nv (jscal r o) (jscal r c) v u <> k / r * Kclamp al nv o c v u /\
    Fclamp (k * r * al) (vscal r nv) (jscal r o) (jscal r c) v <> k * Fclamp al nv o c v.
Proof.
  exists unv, uflat, ubent, uv2, uv2. split; [exact uflat_ok|]. split; [exact ubent_ok|]. split; [unfold unv; jd|]. split; [rewrite un_flat; unfold unv; jd|].
  intros r k al Pr N K A. destruct (C142_clamped r k al unv uflat ubent uv2 uv2 Pr uflat_ok ubent_ok) as (EK & EF).
  assert (D : dot3 (unormal ubent) unv - dot3 (unormal uflat) unv = 1) by (rewrite un_bent, un_flat; unfold unv; jd).
  split; intro E.
  - rewrite EK, D in E.
    assert (V : var2deriv2dot ubent uv2 uv2 unv = -1).
    { unfold var2deriv2dot, curv_of. unfold dot3, sum3. rewrite !v2_bent by lia. cbv [unv ubent jsec j11 j22 j12 vscal vzero e1 e2 e3 vv]. ring. }
    rewrite V in E. assert (Y : k * al * (r - 1) = 0).
    { assert (X : k * (1 - / r) * (al * 1 * -1) = 0) by lra. replace (k * al * (r - 1)) with (- r * (k * (1 - / r) * (al * 1 * -1))) by (field; lra). rewrite X. ring. }
    apply Rmult_integral in Y as [Y|Y]; [apply Rmult_integral in Y as [Y|Y]; contradiction|]. lra.
  - assert (F : Fclamp al unv uflat ubent uv2 = - al).
    { unfold Fclamp. rewrite D, un_flat. unfold dot3, sum3. rewrite !v1_bent by lia. cbv [cross3 e1 e2 e3 vv]. ring. }
    rewrite EF, F in E. assert (Y : k * al * (r - 1) = 0) by lra.
    apply Rmult_integral in Y as [Y|Y]; [apply Rmult_integral in Y as [Y|Y]; contradiction|]. lra.
Qed.
Print Assumptions C142_clamped_refuted.

(* the hypotheses are met: a stretched flat patch of linear material; lengths times 1000, moduli times 2 *)
Example ex_C142 : aforce lin_res 1 [exq] exx 0 0 = Ok 3 /\ aforce lin_res 1 (map (units_apoint 1000 2) [exq]) (cscale 1000 exx) 0 0 = Ok 6000000 /\
  units_pts 1000 2 nodata (map linq [exq]) (map linq (map (units_apoint 1000 2) [exq])).
Proof.
  destruct ex_reg as (Ro & Rd). destruct (ex_C135 0 0 (fun _ => (vzero, fun _ => vzero)) 0) as (_ & _ & V & _).
  split; [exact V|]. split.
  - destruct (C142_linear_material_computed 1000 2 1 [exq] exx 0 0 0 0) as (f & K & F & _ & G & _); [lra|lra|intros q [<-|[]]; split; assumption|].
    rewrite V in F. injection F as <-. rewrite G. f_equal. lra.
  - apply C142_linear_material; try lra. intros; exact I.
Qed.
(* the folded patches of C141 *)
Definition wpt' (r k : R) : ipoint := mki (r * r * iw wpt) (fun _ _ => k / r) (fun _ _ => k * r) (ibl wpt) (ibr wpt) (jscal r (iol wpt)) (jscal r (ior wpt)) (isl wpt) (isr wpt).
Example ex_C142_coupling : units_ipoint 10 3 wpt (wpt' 10 3) /\ iready 3 3 wfold wpt /\ Ivec 3 3 true true [wpt' 10 3] (cscale2 10 wfold) false 1 2 = -600.
Proof.
  assert (U : units_ipoint 10 3 wpt (wpt' 10 3)).
  { unfold units_ipoint, wpt'. cbn [iw ibl ibr iol ior isl isr iad iar]. repeat split; unfold wpt; cbn [iad iar]; ring. }
  destruct ex_C141_fold as (V & _ & H).
  assert (Y : iready 3 3 wfold wpt) by (destruct H as (H1 & H2 & _); unfold iready; cbn [wpt isl isr fst snd]; repeat split; try assumption; try lra; unfold wpt; cbn [iol ior]; unfold regular, oori; jd).
  split; [exact U|]. split; [exact Y|]. rewrite (C142_coupling_force 10 3 3 3 true true [wpt]); [rewrite V; lra|lra|constructor; [exact U|constructor]|intros q [<-|[]]; exact Y].
Qed.
