(* Proofs for UsmProps: how the densities of KinModel change when a geometry is multiplied by a length. *)
From Coq Require Import Reals Lra Lia List Arith FunctionalExtensionality.
From Verif Require Import Tensor MetricModel MetricProofs LinearModel NonlinearModel KinModel KinSpec KinAsm KinStiff LinModel LinSpec FuncModel PenModel FuncSpec FuncProofs KoSpec KoProofs RaModel IntegrateModel ObjModel WifModel UsmSpec.
Import ListNotations.
Open Scope R_scope.

Ltac vx := apply functional_extensionality; intro.
Lemma vscal_vscal s t u : vscal s (vscal t u) = vscal (s * t) u.
Proof. vx. unfold vscal. ring. Qed.
Lemma cross_vv s t u v : cross3 (vscal s u) (vscal t v) = vscal (s * t) (cross3 u v).
Proof. vx. unfold cross3, vscal. destruct x as [|[|x]]; ring. Qed.
Lemma cross_vl s u v : cross3 (vscal s u) v = vscal s (cross3 u v).
Proof. vx. unfold cross3, vscal. destruct x as [|[|x]]; ring. Qed.
Lemma cross_vr s u v : cross3 u (vscal s v) = vscal s (cross3 u v).
Proof. vx. unfold cross3, vscal. destruct x as [|[|x]]; ring. Qed.
Lemma dot_vl s u v : dot3 (vscal s u) v = s * dot3 u v.
Proof. unfold dot3, sum3, vscal. ring. Qed.
Lemma dot_vr s u v : dot3 u (vscal s v) = s * dot3 u v.
Proof. unfold dot3, sum3, vscal. ring. Qed.
Lemma vadd_vv s u v : vadd (vscal s u) (vscal s v) = vscal s (vadd u v).
Proof. vx. unfold vadd, vscal. ring. Qed.
Lemma vsub_vv s u v : vsub (vscal s u) (vscal s v) = vscal s (vsub u v).
Proof. vx. unfold vsub, vscal. ring. Qed.
Lemma norm_v s u : 0 < s -> norm3 (vscal s u) = s * norm3 u.
Proof.
  intro P. unfold norm3. rewrite dot_vl, dot_vr. rewrite <- Rmult_assoc. rewrite sqrt_mult by (try nra; apply dot3_self_nonneg).
  rewrite sqrt_square by lra. reflexivity.
Qed.
Lemma quot_v s x y : s <> 0 -> s * x / (s * y) = x / y.
Proof. intro Z. unfold Rdiv. rewrite Rinv_mult. generalize (/ y). intro z. field. exact Z. Qed.
Lemma normalize_v s u : 0 < s -> 0 < dot3 u u -> normalize (vscal s u) = normalize u.
Proof.
  intros P U. unfold normalize. rewrite norm_v by exact P. rewrite dot_vl, dot_vr.
  destruct (Rlt_dec 0 (s * (s * dot3 u u))) as [A|A]; destruct (Rlt_dec 0 (dot3 u u)) as [B|B]; try contradiction.
  - vx. unfold vscal. apply quot_v. lra.
  - exfalso. apply A. apply Rmult_lt_0_compat; [lra|]. apply Rmult_lt_0_compat; lra.
Qed.
Lemma reg_col c i : regular c -> 0 < dot3 (jcol c i) (jcol c i).
Proof.
  unfold regular. intro H. pose proof (dot3_self_nonneg (jcol c i)) as D. destruct (Rle_lt_or_eq_dec _ _ D) as [L|Z]; [exact L|exfalso].
  symmetry in Z. revert H Z. destruct i as [|i]; unfold jcol; generalize (j1 c) (j2 c); intros a b; unfold dot3, sum3, cross3; intros H Z.
  - assert (a 0%nat = 0 /\ a 1%nat = 0 /\ a 2%nat = 0) as (E0 & E1 & E2) by (repeat split; nra). rewrite E0, E1, E2 in H. nra.
  - assert (b 0%nat = 0 /\ b 1%nat = 0 /\ b 2%nat = 0) as (E0 & E1 & E2) by (repeat split; nra). rewrite E0, E1, E2 in H. nra.
Qed.

(* ---------- the geometry ---------- *)
Section Geo.
Variables (r : R).
Hypothesis Pr : 0 < r.
Lemma j1_s c : j1 (jscal r c) = vscal r (j1 c). Proof. reflexivity. Qed.
Lemma j2_s c : j2 (jscal r c) = vscal r (j2 c). Proof. reflexivity. Qed.
Lemma sec_s c a : jsec (jscal r c) a = vscal r (jsec c a). Proof. destruct a as [|[|a]]; reflexivity. Qed.
Lemma col_s c i : jcol (jscal r c) i = vscal r (jcol c i). Proof. destruct i; reflexivity. Qed.
Lemma rr : 0 < r * r. Proof. nra. Qed.
Lemma regular_s c : regular c -> regular (jscal r c).
Proof. unfold regular. rewrite j1_s, j2_s, cross_vv, dot_vl, dot_vr. pose proof rr. intro. apply Rmult_lt_0_compat; [assumption|]. apply Rmult_lt_0_compat; assumption. Qed.
Lemma measure_s c : measure (jscal r c) = r * r * measure c.
Proof. unfold measure. rewrite j1_s, j2_s, cross_vv. apply norm_v, rr. Qed.
Lemma unormal_s c : regular c -> unormal (jscal r c) = unormal c.
Proof. intro H. unfold unormal. rewrite j1_s, j2_s, cross_vv. apply normalize_v; [apply rr|exact H]. Qed.
Lemma nrm_s c : nrm (jscal r c) = nrm c.
Proof.
  vx. unfold nrm. rewrite j1_s, j2_s, cross_vv. fold (norm3 (vscal (r * r) (cross3 (j1 c) (j2 c)))). rewrite norm_v by apply rr.
  unfold vscal. rewrite quot_v by (pose proof rr; lra). reflexivity.
Qed.
Lemma m_var_s c v : m_var (jscal r c) v = vscal (/ r) (m_var c v).
Proof.
  vx. unfold m_var. rewrite measure_s, j1_s, j2_s, !cross_vr. unfold vscal, Rdiv. rewrite Rinv_mult. generalize (/ measure c). intro z. field. lra.
Qed.
Lemma outer_v s n m : outer_apply n (vscal s m) = vscal s (outer_apply n m).
Proof. vx. unfold outer_apply, vscal, sum3. ring. Qed.
Lemma var1_s c v : regular c -> var1 (jscal r c) v = vscal (/ r) (var1 c v).
Proof. intro H. vx. unfold var1. rewrite m_var_s, unormal_s, outer_v by exact H. unfold vscal. ring. Qed.
Lemma m_uv_s c u v : m_uv (jscal r c) u v = vscal (/ r * / r) (m_uv c u v).
Proof. vx. unfold m_uv. rewrite measure_s. unfold vscal, Rdiv. rewrite Rinv_mult. generalize (/ measure c). intro z. field. lra. Qed.
Lemma var2_s c u v : regular c -> var2 (jscal r c) u v = vscal (/ r * / r) (var2 c u v).
Proof.
  intro H. vx. unfold var2, var2_with. rewrite !m_var_s, m_uv_s, unormal_s by exact H. rewrite !outer_v.
  unfold vscal, dot3, sum3. ring.
Qed.
Lemma Em_s c v : Em_der (jscal r c) v = vscal r (Em_der c v).
Proof. vx. unfold Em_der. rewrite j1_s, j2_s, !dot_vl. unfold vscal. destruct x as [|[|x]]; ring. Qed.
Lemma d2map_s c w : deriv2_map (jscal r c) (vscal (/ r) w) = deriv2_map c w.
Proof. vx. unfold deriv2_map. rewrite sec_s, dot_vl, dot_vr. field. lra. Qed.
Lemma Efd_s c d p : regular c -> Ef_der_dof (jscal r c) d p = Ef_der_dof c d p.
Proof. intro H. unfold Ef_der_dof. rewrite unormal_s, var1_s by exact H. rewrite d2map_s. reflexivity. Qed.
Lemma flatdot2_s c u v M : regular c -> flatdot2 (jscal r c) u v M = / r * flatdot2 c u v M.
Proof. intro H. unfold flatdot2, mult2. rewrite var1_s by exact H. unfold dot3, sum3, vscal. ring. Qed.
Lemma var2d2_s c u v f : regular c -> var2deriv2dot (jscal r c) u v f = / r * var2deriv2dot c u v f.
Proof.
  intro H. unfold var2deriv2dot. rewrite var2_s by exact H.
  assert (C : forall w, curv_of (jscal r c) (vscal (/ r * / r) w) = vscal (/ r) (curv_of c w)).
  { intro w. vx. change (vscal (/ r) (curv_of c w) x) with (/ r * curv_of c w x). unfold curv_of. change (j12 (jscal r c)) with (vscal r (j12 c)). destruct x as [|[|[|x]]]; rewrite ?sec_s, dot_vl, dot_vr; field; lra. }
  fold (curv_of (jscal r c) (vscal (/ r * / r) (var2 c u v))). rewrite C, dot_vr. reflexivity.
Qed.
Lemma Ef2_s c u v M : regular c -> Ef_der2 (jscal r c) u v M = / r * Ef_der2 c u v M.
Proof. intro H. unfold Ef_der2. rewrite !flatdot2_s, var2d2_s by exact H. ring. Qed.
Lemma mem_s o c : mem_strain (jscal r o) (jscal r c) = vscal (r * r) (mem_strain o c).
Proof. vx. unfold mem_strain. rewrite !j1_s, !j2_s, !dot_vl, !dot_vr. unfold vscal. destruct x as [|[|x]]; field. Qed.
Lemma curv_s c a : curvature (jscal r c) a = r * curvature c a.
Proof. unfold curvature. rewrite nrm_s, sec_s, dot_vl. reflexivity. Qed.
Lemma bend_s o c : bend_strain (jscal r o) (jscal r c) = vscal r (bend_strain o c).
Proof. vx. unfold bend_strain. rewrite !curv_s. unfold vscal. destruct x as [|[|x]]; ring. Qed.
(* edges *)
Lemma tan_s s i c : tangent s i (jscal r c) = vscal r (tangent s i c).
Proof. unfold tangent. rewrite col_s, !vscal_vscal. f_equal. ring. Qed.
Lemma tan_pos s i c : s <> 0 -> regular c -> 0 < dot3 (tangent s i c) (tangent s i c).
Proof. intros S H. unfold tangent. rewrite dot_vl, dot_vr, <- Rmult_assoc. apply Rmult_lt_0_compat; [nra|apply reg_col, H]. Qed.
Lemma tvar1_s s i c v : s <> 0 -> regular c -> tvar1 s i (jscal r c) v = vscal (/ r) (tvar1 s i c v).
Proof.
  intros S H. vx. unfold tvar1. rewrite tan_s, normalize_v, norm_v by (exact Pr || apply tan_pos; assumption).
  unfold vscal at 3. unfold Rdiv. rewrite Rinv_mult. ring.
Qed.
Lemma onormal_s s i c : s <> 0 -> regular c -> onormal s i (jscal r c) = onormal s i c.
Proof. intros S H. unfold onormal. rewrite tan_s, normalize_v, unormal_s by (exact Pr || exact H || apply tan_pos; assumption). reflexivity. Qed.
Lemma ovar1_s s i c v : s <> 0 -> regular c -> ovar1 s i (jscal r c) v = vscal (/ r) (ovar1 s i c v).
Proof.
  intros S H. unfold ovar1. rewrite tvar1_s, var1_s, unormal_s, tan_s, normalize_v by (exact Pr || exact H || exact S || apply tan_pos; assumption).
  rewrite cross_vl, cross_vr. apply vadd_vv.
Qed.
(* fields *)
Lemma jadd_s a b : jadd (jscal r a) (jscal r b) = jscal r (jadd a b).
Proof. unfold jadd, jscal. cbn [j0 j1 j2 j11 j22 j12]. rewrite !vadd_vv. reflexivity. Qed.
Lemma jscal_jscal s c : jscal (r * s) c = jscal r (jscal s c).
Proof. unfold jscal. cbn [j0 j1 j2 j11 j22 j12]. rewrite !vscal_vscal. reflexivity. Qed.
Lemma jzero_s : jscal r jzero = jzero.
Proof. unfold jscal, jzero. cbn [j0 j1 j2 j11 j22 j12]. assert (E : vscal r vzero = vzero) by (vx; unfold vscal, vzero; ring). rewrite !E. reflexivity. Qed.
Lemma field_s n bas x : fieldjet n bas (cscale r x) = jscal r (fieldjet n bas x).
Proof.
  induction n as [|n IH]; cbn [fieldjet]. symmetry; apply jzero_s. rewrite IH. unfold cscale. rewrite !jscal_jscal, !jadd_s. reflexivity.
Qed.
End Geo.

(* ---------- sums ---------- *)
Lemma psum_rel {A} (P : A -> A -> Prop) f f' c l l' : Forall2 P l l' -> (forall q q', In q l -> P q q' -> f' q' = c * f q) -> psum l' f' = c * psum l f.
Proof.
  induction 1 as [|q q' l l' Hq _ IH]; intro H; cbn [psum]. ring. rewrite IH by (intros; apply H; [right|]; assumption).
  rewrite (H q q' (or_introl eq_refl) Hq). ring.
Qed.
Lemma dot_w s t u u' v v' : (forall a, (a < 3)%nat -> u' a = s * u a) -> (forall a, (a < 3)%nat -> v' a = t * v a) -> dot3 u' v' = s * t * dot3 u v.
Proof. intros U V. unfold dot3, sum3. rewrite !U, !V by lia. ring. Qed.
Lemma dot_wl s u u' v : (forall a, (a < 3)%nat -> u' a = s * u a) -> dot3 u' v = s * dot3 u v.
Proof. intros U. unfold dot3, sum3. rewrite !U by lia. ring. Qed.
Lemma rowmat_w s t x x' A A' b : (b < 3)%nat -> (forall a, (a < 3)%nat -> x' a = s * x a) -> (forall a b, (a < 3)%nat -> (b < 3)%nat -> A' a b = t * A a b) -> rowmat x' A' b = s * t * rowmat x A b.
Proof. intros Hb X HA. unfold rowmat, sum3. rewrite !X, !HA by lia. ring. Qed.
Lemma flatdot_w s u v N N' : (forall a, (a < 3)%nat -> N' a = s * N a) -> flatdot u v N' = s * flatdot u v N.
Proof. intro H. unfold flatdot. rewrite !H by lia. ring. Qed.
Lemma Ef2_w s c u v M M' : (forall a, (a < 3)%nat -> M' a = s * M a) -> Ef_der2 c u v M' = s * Ef_der2 c u v M.
Proof. intro H. unfold Ef_der2, flatdot2, var2deriv2dot, dot3, sum3. rewrite !H by lia. ring. Qed.

(* ---------- a point ---------- *)
Section Point.
Variables (r k : R) (n : nat) (q q' : qpoint) (x : coefs).
Hypothesis Pr : 0 < r.
Hypothesis U : units_point r k q q'.
Lemma qdef_s : qdef n q' (cscale r x) = jscal r (qdef n q x).
Proof. destruct U as (_ & B & O & _). unfold qdef. rewrite B, O, field_s, jadd_s. reflexivity. Qed.
Lemma qem_s : qem n q' (cscale r x) = vscal (r * r) (qem n q x).
Proof. unfold qem. rewrite qdef_s. destruct U as (_ & _ & O & _). rewrite O. apply mem_s. Qed.
Lemma qef_s : qef n q' (cscale r x) = vscal r (qef n q x).
Proof. unfold qef. rewrite qdef_s. destruct U as (_ & _ & O & _). rewrite O. apply bend_s, Pr. Qed.
Lemma force_pt i d : regular (qdef n q x) ->
  qw q' * (dot3 (qN q' (qem n q' (cscale r x)) (qef n q' (cscale r x))) (Em_der (qdef n q' (cscale r x)) (bvar d (qbas q' i)))
     + dot3 (qM q' (qem n q' (cscale r x)) (qef n q' (cscale r x))) (Ef_der_dof (qdef n q' (cscale r x)) d (qbas q' i))) =
  k * (r * r) * (qw q * (dot3 (qN q (qem n q x) (qef n q x)) (Em_der (qdef n q x) (bvar d (qbas q i)))
     + dot3 (qM q (qem n q x) (qef n q x)) (Ef_der_dof (qdef n q x) d (qbas q i)))).
Proof.
  intro H. rewrite qdef_s, qem_s, qef_s. destruct U as (W & B & _ & L). rewrite W, B, Efd_s, Em_s by assumption.
  destruct (L (qem n q x) (qef n q x)) as (L1 & _).
  rewrite dot_vr, (dot_wl (k / r) _ _ _ (fun a Ha => proj1 (L1 a Ha))), (dot_wl k _ _ _ (fun a Ha => proj2 (L1 a Ha))).
  field. lra.
Qed.
Lemma Kentry_s i d j e : regular (qdef n q x) -> qw q' * Kentry q' n (cscale r x) i d j e = k * r * (qw q * Kentry q n x i d j e).
Proof.
  intro H. unfold Kentry. cbv zeta. rewrite qdef_s, qem_s, qef_s. destruct U as (W & B & _ & L). rewrite W, B, !Efd_s, !Em_s, !Ef2_s by assumption.
  destruct (L (qem n q x) (qef n q x)) as (L1 & L2).
  set (em := qem n q x) in *. set (ef := qef n q x) in *. set (em' := vscal (r * r) em) in *. set (ef' := vscal r ef) in *.
  set (Emv := Em_der (qdef n q x) (bvar d (qbas q i))). set (Emu := Em_der (qdef n q x) (bvar e (qbas q j))).
  set (Efv := Ef_der_dof (qdef n q x) d (qbas q i)). set (Efu := Ef_der_dof (qdef n q x) e (qbas q j)).
  rewrite (flatdot_w (k / r) _ _ _ _ (fun a Ha => proj1 (L1 a Ha))), (Ef2_w k _ _ _ _ _ (fun a Ha => proj2 (L1 a Ha))).
  assert (One : forall (y : vec) a, (a < 3)%nat -> y a = 1 * y a) by (intros; ring).
  rewrite (dot_w (k / (r * r)) r (vadd (rowmat Emv (qA q em ef)) (rowmat Efv (qB q em ef))) _ Emu).
  3:{ intros; reflexivity. }
  2:{ intros a Ha. unfold vadd.
      rewrite (rowmat_w r (k / (r * r * r)) Emv (vscal r Emv) (qA q em ef) _ a Ha (fun _ _ => eq_refl) (fun a b Ha Hb => proj1 (L2 a b Ha Hb))).
      rewrite (rowmat_w 1 (k / (r * r)) Efv Efv (qB q em ef) _ a Ha (One Efv) (fun a b Ha Hb => proj1 (proj2 (L2 a b Ha Hb)))). field. lra. }
  rewrite (dot_w (k / r) 1 (vadd (rowmat Emv (qC q em ef)) (rowmat Efv (qD q em ef))) _ Efu Efu).
  3:{ apply One. }
  2:{ intros a Ha. unfold vadd.
      rewrite (rowmat_w r (k / (r * r)) Emv (vscal r Emv) (qC q em ef) _ a Ha (fun _ _ => eq_refl) (fun a b Ha Hb => proj1 (proj2 (proj2 (L2 a b Ha Hb))))).
      rewrite (rowmat_w 1 (k / r) Efv Efv (qD q em ef) _ a Ha (One Efv) (fun a b Ha Hb => proj2 (proj2 (proj2 (L2 a b Ha Hb))))). field. lra. }
  field. lra.
Qed.
Lemma Klentry_s i d j e : regular (qori q) -> qw q' * Klentry q' i d j e = k * r * (qw q * Klentry q i d j e).
Proof.
  intro H. unfold Klentry. cbv zeta. destruct U as (W & B & O & L). rewrite W, B, O, !Efd_s, !Em_s by assumption.
  destruct (L vzero vzero) as (_ & L2).
  assert (Z : forall s, vscal s vzero = vzero) by (intro; vx; unfold vscal, vzero; ring). rewrite !Z in L2.
  set (Emv := Em_der (qori q) (bvar d (qbas q i))). set (Emu := Em_der (qori q) (bvar e (qbas q j))).
  set (Efv := Ef_der_dof (qori q) d (qbas q i)). set (Efu := Ef_der_dof (qori q) e (qbas q j)).
  assert (One : forall (y : vec) a, (a < 3)%nat -> y a = 1 * y a) by (intros; ring).
  rewrite (dot_w (k / (r * r)) r (vadd (rowmat Emv (qA q vzero vzero)) (rowmat Efv (qB q vzero vzero))) _ Emu).
  3:{ intros; reflexivity. }
  2:{ intros a Ha. unfold vadd.
      rewrite (rowmat_w r (k / (r * r * r)) Emv (vscal r Emv) (qA q vzero vzero) _ a Ha (fun _ _ => eq_refl) (fun a b Ha Hb => proj1 (L2 a b Ha Hb))).
      rewrite (rowmat_w 1 (k / (r * r)) Efv Efv (qB q vzero vzero) _ a Ha (One Efv) (fun a b Ha Hb => proj1 (proj2 (L2 a b Ha Hb)))). field. lra. }
  rewrite (dot_w (k / r) 1 (vadd (rowmat Emv (qC q vzero vzero)) (rowmat Efv (qD q vzero vzero))) _ Efu Efu).
  3:{ apply One. }
  2:{ intros a Ha. unfold vadd.
      rewrite (rowmat_w r (k / (r * r)) Emv (vscal r Emv) (qC q vzero vzero) _ a Ha (fun _ _ => eq_refl) (fun a b Ha Hb => proj1 (proj2 (proj2 (L2 a b Ha Hb))))).
      rewrite (rowmat_w 1 (k / r) Efv Efv (qD q vzero vzero) _ a Ha (One Efv) (fun a b Ha Hb => proj2 (proj2 (proj2 (L2 a b Ha Hb))))). field. lra. }
  field. lra.
Qed.
End Point.

(* ---------- linear systems ---------- *)
Lemma dapply_w n K K' s r x i d : (forall i d j e, K' i d j e = s * K i d j e) -> dapply n K' (cscale r x) i d = s * r * dapply n K x i d.
Proof.
  intro H. unfold dapply. rewrite <- rsum_scal. apply rsum_ext. intros j _. unfold sum3, cscale. rewrite !H. ring.
Qed.
Lemma solves_w n fr K K' s r f g x : s <> 0 -> r <> 0 -> (forall i d j e, K' i d j e = s * K i d j e) ->
  solves n fr K f g x <-> solves n fr K' (cscale (s * r) f) (cscale r g) (cscale r x).
Proof.
  intros S Rn H. unfold solves, prescribed. split; intros (A & B); split; intros i d Hi Hd F.
  - unfold cscale. rewrite (A i d Hi Hd F). reflexivity.
  - rewrite (dapply_w n K K' s r) by exact H. rewrite (B i d Hi Hd F). reflexivity.
  - specialize (A i d Hi Hd F). unfold cscale in A. apply Rmult_eq_reg_l in A; assumption.
  - specialize (B i d Hi Hd F). rewrite (dapply_w n K K' s r) in B by exact H. unfold cscale in B. apply Rmult_eq_reg_l in B; [exact B|].
    apply Rmult_integral_contrapositive. split; assumption.
Qed.

(* ---------- penalty factors ---------- *)
Section Pen.
Variables (r : R).
Hypothesis Pr : 0 < r.
Lemma covMetric_s c i j : regular c -> (i < 3)%nat -> (j < 3)%nat ->
  covMetric (jscal r c) i j = (if (i <? 2)%nat then r else 1) * (if (j <? 2)%nat then r else 1) * covMetric c i j.
Proof.
  intros H Hi Hj. unfold covMetric, covBasis. rewrite j1_s, j2_s, unormal_s by assumption.
  destruct i as [|[|[|i]]]; try lia; destruct j as [|[|[|j]]]; try lia; cbn [Nat.ltb Nat.leb]; rewrite ?dot_vl, ?dot_vr; ring.
Qed.
Lemma cart_mat_w s b1 b2 e1 e2 i j : cart_mat (vscal s b1) (vscal s b2) e1 e2 i j = s * s * cart_mat b1 b2 e1 e2 i j.
Proof. unfold cart_mat. rewrite !dot_vl, !dot_vr. destruct i as [|[|i]], j as [|[|j]]; ring. Qed.
Lemma inv3_w s M M' i j : s <> 0 -> (forall a b, (a < 3)%nat -> (b < 3)%nat -> M' a b = s * M a b) -> inv3 M' i j = / s * inv3 M i j.
Proof.
  intros S H. assert (D : det3 M' = s * s * s * det3 M) by (unfold det3; rewrite !H by lia; ring).
  unfold inv3. rewrite D. destruct i as [|[|i]], j as [|[|j]]; rewrite !H by lia; unfold Rdiv; rewrite !Rinv_mult; generalize (/ det3 M); intro z; field; exact S.
Qed.
Definition bl (i : nat) : R := if (i <? 2)%nat then r else 1.
Lemma inv3_bl M M' i j : (forall a b, (a < 3)%nat -> (b < 3)%nat -> M' a b = bl a * bl b * M a b) -> (i < 3)%nat -> (j < 3)%nat -> inv3 M' i j = / bl i * / bl j * inv3 M i j.
Proof.
  intros H Hi Hj. assert (D : det3 M' = r * r * (r * r) * det3 M) by (unfold det3; rewrite !H by lia; unfold bl; cbn [Nat.ltb Nat.leb]; ring).
  unfold inv3. rewrite D. destruct i as [|[|[|i]]]; try lia; destruct j as [|[|[|j]]]; try lia; rewrite !H by lia; unfold bl; cbn [Nat.ltb Nat.leb]; unfold Rdiv; rewrite !Rinv_mult; generalize (/ det3 M); intro z; field; lra.
Qed.
Lemma conBasis_s c i : regular c -> (i < 2)%nat -> conBasis (jscal r c) i = vscal (/ r) (conBasis c i).
Proof.
  intros H Hi. vx. unfold conBasis. rewrite !(inv3_bl (covMetric c) (covMetric (jscal r c))) by (lia || (intros; apply covMetric_s; assumption)).
  unfold covBasis. rewrite unormal_s by assumption. rewrite j1_s, j2_s. replace (bl i) with r by (unfold bl; destruct i as [|[|i]]; try lia; reflexivity).
  unfold bl. cbn [Nat.ltb Nat.leb]. unfold vscal. field. lra.
Qed.
Lemma e1_s c : regular c -> cart_e1 (j1 (jscal r c)) = cart_e1 (j1 c).
Proof. intro H. apply normalize_v; [exact Pr|]. apply (reg_col c 0 H). Qed.
Lemma e2_s c : regular c -> cart_e2 (j1 (jscal r c)) (j2 (jscal r c)) = cart_e2 (j1 c) (j2 c).
Proof.
  intro H. unfold cart_e2. rewrite e1_s, j2_s, dot_vl by exact H. pose proof (frame_model c H) as F. unfold frame in F. destruct F as (_ & F2 & _).
  set (e := cart_e1 (j1 c)) in *. rewrite <- vscal_vscal, vsub_vv. apply normalize_v; [exact Pr|].
  unfold cart_e2 in F2. fold e in F2. unfold normalize in F2. destruct (Rlt_dec 0 _) as [L|L] in F2; [exact L|]. rewrite F2. lra.
Qed.
Lemma mmcart_s s c A A' i j : regular c -> (i < 3)%nat -> (j < 3)%nat -> (forall a b, (a < 3)%nat -> (b < 3)%nat -> A' a b = s * A a b) ->
  mmcart (jscal r c) A' i j = s * (r * r * (r * r)) * mmcart c A i j.
Proof.
  intros H Hi Hj HA.
  assert (V : forall a b, cartcov (jscal r c) a b = r * r * cartcov c a b) by (intros; unfold cartcov; rewrite e1_s, e2_s, j1_s, j2_s by exact H; apply cart_mat_w).
  assert (C : forall a b, cartcon (jscal r c) a b = / r * / r * cartcon c a b) by (intros; unfold cartcon; rewrite e1_s, e2_s, !conBasis_s by (exact H || lia); apply cart_mat_w).
  assert (I : forall a b, inv3 (cartcon (jscal r c)) a b = r * r * inv3 (cartcon c) a b).
  { intros. rewrite (inv3_w (/ r * / r) (cartcon c)); [f_equal; field; lra| |intros; apply C]. pose proof (Rinv_0_lt_compat r Pr). nra. }
  unfold mmcart, mmul3, sum3. rewrite !V, !I, !HA by lia. ring.
Qed.
Lemma max9_w t M M' : 0 <= t -> (forall a b, (a < 3)%nat -> (b < 3)%nat -> M' a b = t * M a b) -> max9 M' = t * max9 M.
Proof. intros T H. unfold max9. rewrite !H by lia. rewrite <- !RmaxRmult by exact T. reflexivity. Qed.
Lemma penalty_s s alpha c A A' area : 0 <= s -> regular c -> (forall a b, (a < 3)%nat -> (b < 3)%nat -> A' a b = s * A a b) ->
  penalty alpha (jscal r c) A' (r * r * area) = s * (r * r) * penalty alpha c A area.
Proof.
  intros S H HA. unfold penalty. rewrite (max9_w (s * (r * r * (r * r))) (mmcart c A)).
  - unfold Rdiv. rewrite !Rinv_mult. generalize (/ area). intro z. field. lra.
  - pose proof rr. apply Rmult_le_pos; [exact S|]. nra.
  - intros. apply mmcart_s; assumption.
Qed.
End Pen.

(* ---------- linear material ---------- *)
Section LinMat.
Variables (r k : R).
Hypothesis Pr : 0 < r.
Lemma cometric_s c i j : cometric (jscal r c) i j = / (r * r) * cometric c i j.
Proof.
  unfold cometric. cbv zeta. rewrite j1_s, j2_s, !dot_vl, !dot_vr. set (a := dot3 (j1 c) (j1 c)). set (b := dot3 (j2 c) (j2 c)). set (d := dot3 (j1 c) (j2 c)).
  replace (r * (r * a) * (r * (r * b)) - r * (r * d) * (r * (r * d))) with (r * r * (r * r) * (a * b - d * d)) by ring.
  destruct i as [|[|i]], j as [|[|j]]; unfold Rdiv; rewrite !Rinv_mult; generalize (/ (a * b - d * d)); intro z; field; lra.
Qed.
Lemma mu_s E nu : mu_of (k * E) nu = k * mu_of E nu. Proof. unfold mu_of, Rdiv. ring. Qed.
Lemma la_s E nu : lambda_of (k * E) nu = k * lambda_of E nu. Proof. unfold lambda_of, Rdiv. ring. Qed.
Lemma Cc_s E nu : k <> 0 -> Cconstant (k * E) nu = k * Cconstant E nu.
Proof.
  intro K. unfold Cconstant. rewrite mu_s, la_s. replace (k * lambda_of E nu + 2 * (k * mu_of E nu)) with (k * (lambda_of E nu + 2 * mu_of E nu)) by ring.
  unfold Rdiv. rewrite Rinv_mult. generalize (/ (lambda_of E nu + 2 * mu_of E nu)). intro z. field. exact K.
Qed.
Lemma H_s q a b : k <> 0 -> Hq (units_apoint r k q) a b = k / (r * r * (r * r)) * Hq q a b.
Proof.
  intro K. unfold Hq, units_apoint. cbn [apar aori pE pnu].
  assert (C : forall i j l m, Cijkl (k * pE (apar q)) (pnu (apar q)) (cometric (jscal r (aori q))) i j l m = k / (r * r * (r * r)) * Cijkl (pE (apar q)) (pnu (apar q)) (cometric (aori q)) i j l m).
  { intros. unfold Cijkl. rewrite Cc_s, mu_s, !cometric_s by exact K. field. lra. }
  unfold voigt. destruct a as [|[|[|a]]]; destruct b as [|[|[|b]]]; rewrite ?C; ring.
Qed.
Lemma fz0_s t : fz (r * t) 0 = r * fz t 0.
Proof. unfold fz, multiplyZ. cbn [Nat.odd Nat.even negb Nat.add pow]. unfold Rdiv. generalize (/ (INR 0 + 1)). intro z. ring. Qed.
Lemma fz2_s t : fz (r * t) 2 = r * r * r * fz t 2.
Proof. unfold fz, multiplyZ. cbn [Nat.odd Nat.even negb Nat.add pow]. unfold Rdiv. generalize (/ (INR 2 + 1)). intro z. ring. Qed.
Lemma lin_units q : k <> 0 -> units_point r k (linq q) (linq (units_apoint r k q)).
Proof.
  intro K. unfold units_point. repeat split; cbn [linq qw qbas qori qN qM qA qB qC qD units_apoint aw abas aori athick].
  - rewrite measure_s by exact Pr. ring.
  - unfold mv, sum3. rewrite fz0_s, !H_s by exact K. unfold vscal. field. lra.
  - unfold mv, sum3. rewrite fz2_s, !H_s by exact K. unfold vscal. field. lra.
  - rewrite fz0_s, H_s by exact K. field. lra.
  - ring.
  - ring.
  - rewrite fz2_s, H_s by exact K. field. lra.
Qed.
End LinMat.

(* ---------- interfaces ---------- *)
Definition jpair (r : R) (c : jet * jet) : jet * jet := (jscal r (fst c), jscal r (snd c)).
Section Ifc.
Variables (r k : R).
Hypothesis Pr : 0 < r.
Variables (o d : jet * jet).
Hypothesis Ro : regular (fst o) /\ regular (snd o).
Hypothesis Rd : regular (fst d) /\ regular (snd d).
Notation o' := (jpair r o). Notation d' := (jpair r d).
Lemma dNd_s : dNd o' d' = dNd o d.
Proof. destruct Ro, Rd. unfold dNd, jpair. cbn [fst snd]. rewrite !unormal_s by assumption. reflexivity. Qed.
Lemma dNd'_s : dNd' o' d' = dNd' o d.
Proof. destruct Ro, Rd. unfold dNd', jpair. cbn [fst snd]. rewrite !unormal_s by assumption. reflexivity. Qed.
Lemma v1l_s v : v1l d' v = vscal (/ r) (v1l d v).
Proof. destruct Rd. unfold v1l, jpair. cbn [fst snd]. apply var1_s; assumption. Qed.
Lemma v1r_s v : v1r d' v = vscal (/ r) (v1r d v).
Proof. destruct Rd. unfold v1r, jpair. cbn [fst snd]. apply var1_s; assumption. Qed.
Lemma Fifc3_s al v : Fifc3 (k / r * al) o' d' v = k * Fifc3 al o d v.
Proof.
  assert (J : ifc_jump o' d' = vscal r (ifc_jump o d)) by (vx; unfold ifc_jump, jpair, vsub, jscal, vscal; cbn [fst snd j0]; ring).
  unfold Fifc3. rewrite J, !dot_vr. field. lra.
Qed.
Lemma FifcC1_s al v : FifcC1 (k * r * al) o' d' v = k * FifcC1 al o d v.
Proof.
  destruct Rd. unfold FifcC1. cbv zeta. rewrite dNd_s, dNd'_s, v1l_s, v1r_s. unfold jpair. cbn [fst snd]. rewrite !unormal_s, !dot_vl by assumption. field. lra.
Qed.
Lemma KifcC1_s al v u : KifcC1 (k * r * al) o' d' v u = k / r * KifcC1 al o d v u.
Proof.
  destruct Rd. unfold KifcC1, var2dot. cbv zeta. rewrite dNd_s, dNd'_s, !v1l_s, !v1r_s. unfold jpair. cbn [fst snd].
  rewrite !unormal_s, !var2_s by assumption. rewrite !dot_vl, !dot_vr. field. lra.
Qed.
Variables (sl sr : side).
Hypothesis Sl : fst sl <> 0.
Hypothesis Sr : fst sr <> 0.
Lemma dnN_s : dnN sl sr o' d' = dnN sl sr o d.
Proof. destruct Ro, Rd. unfold dnN, jpair. cbn [fst snd]. rewrite !unormal_s, !onormal_s by assumption. reflexivity. Qed.
Lemma dnN'_s : dnN' sl sr o' d' = dnN' sl sr o d.
Proof. destruct Ro, Rd. unfold dnN', jpair. cbn [fst snd]. rewrite !unormal_s, !onormal_s by assumption. reflexivity. Qed.
Lemma o1l_s v : o1l sl d' v = vscal (/ r) (o1l sl d v).
Proof. destruct Rd. unfold o1l, jpair. cbn [fst snd]. apply ovar1_s; assumption. Qed.
Lemma o1r_s v : o1r sr d' v = vscal (/ r) (o1r sr d v).
Proof. destruct Rd. unfold o1r, jpair. cbn [fst snd]. apply ovar1_s; assumption. Qed.
Lemma FifcIn_s al v : FifcIn (k * r * al) sl sr o' d' v = k * FifcIn al sl sr o d v.
Proof.
  destruct Rd. unfold FifcIn. cbv zeta. rewrite dnN_s, dnN'_s, v1l_s, v1r_s, o1l_s, o1r_s. unfold jpair. cbn [fst snd].
  rewrite !unormal_s, !onormal_s by assumption. rewrite !dot_vl. field. lra.
Qed.
(* in-plane part of the matrix: everything except the terms with the second variation of the outer normal *)
Lemma KifcIn_s al v u : KifcIn (k * r * al) sl sr o' d' v u = k / r * KifcIn al sl sr o d v u
  + k * r * al * (dnN sl sr o d + dnN' sl sr o d) *
    ((dot3 (unormal (snd d)) (ovar2 (fst sl) (snd sl) (jscal r (fst d)) (fst v) (fst u)) - / r * / r * dot3 (unormal (snd d)) (ovar2 (fst sl) (snd sl) (fst d) (fst v) (fst u)))
     + (dot3 (unormal (fst d)) (ovar2 (fst sr) (snd sr) (jscal r (snd d)) (snd v) (snd u)) - / r * / r * dot3 (unormal (fst d)) (ovar2 (fst sr) (snd sr) (snd d) (snd v) (snd u)))).
Proof.
  destruct Rd. unfold KifcIn. cbv zeta. rewrite dnN_s, dnN'_s, !v1l_s, !v1r_s, !o1l_s, !o1r_s. unfold jpair. cbn [fst snd].
  rewrite !unormal_s, !onormal_s by assumption. rewrite !dot_vl, !dot_vr. field. lra.
Qed.
End Ifc.
(* what the second variation of the outer normal does: its last part does not depend on the size of the geometry *)
Lemma ovar2_s r s i c u v : 0 < r -> s <> 0 -> regular c -> ovar2 s i (jscal r c) u v = fun a =>
    / r * / r * cross3 (tvar2 s i c u v) (unormal c) a
  + / r * (cross3 (tvar1 s i c u) (snvar1_with c (jnorm c) v) a + cross3 (tvar1 s i c v) (snvar1_with c (jnorm c) u) a)
  + cross3 (normalize (tangent s i c)) (snvar2_with c (jnorm c) u v) a.
Proof.
  intros Pr S H. vx. unfold ovar2, ovar2_with.
  assert (T2 : tvar2 s i (jscal r c) u v = vscal (/ r * / r) (tvar2 s i c u v)).
  { vx. unfold tvar2. rewrite !tvar1_s, tan_s, normalize_v, norm_v by (exact Pr || exact S || exact H || apply tan_pos; assumption).
    rewrite dot_vl. set (tu := tvar1 s i c u). set (tv := tvar1 s i c v). set (y := dot3 tv _). set (y1 := dot3 _ (vscal s (jcol v i))). set (y2 := dot3 _ (vscal s (jcol u i))).
    unfold vscal, Rdiv. rewrite Rinv_mult. ring. }
  assert (N : forall w, snvar1_with (jscal r c) (jnorm (jscal r c)) w = snvar1_with c (jnorm c) w /\ m_var (jnorm (jscal r c)) w = m_var (jnorm c) w).
  { intro w. assert (M : m_var (jnorm (jscal r c)) w = m_var (jnorm c) w).
    { unfold m_var, measure, jnorm. cbn [j1 j2]. rewrite j1_s, j2_s, !normalize_v by (exact Pr || apply (reg_col c 0 H) || apply (reg_col c 1 H)). reflexivity. }
    split; [|exact M]. unfold snvar1_with. rewrite M, unormal_s by assumption. reflexivity. }
  assert (N2 : snvar2_with (jscal r c) (jnorm (jscal r c)) u v = snvar2_with c (jnorm c) u v).
  { unfold snvar2_with. cbv zeta. rewrite !(proj1 (N v)), !(proj2 (N u)), !(proj2 (N v)), unormal_s by assumption.
    assert (Q : m_uv (jnorm (jscal r c)) u v = m_uv (jnorm c) u v).
    { unfold m_uv, measure, jnorm. cbn [j1 j2]. rewrite j1_s, j2_s, !normalize_v by (exact Pr || apply (reg_col c 0 H) || apply (reg_col c 1 H)). reflexivity. }
    rewrite Q. reflexivity. }
  rewrite T2, N2, !(proj1 (N _)), !tvar1_s, unormal_s, tan_s, normalize_v by (exact Pr || exact S || exact H || apply tan_pos; assumption).
  rewrite !cross_vl. unfold vscal. ring.
Qed.

Section IPoint.
Variables (r k : R) (n m : nat) (q q' : ipoint) (x : coefs2).
Hypothesis Pr : 0 < r.
Hypothesis U : units_ipoint r k q q'.
Lemma iori_s : iori q' = jpair r (iori q).
Proof. destruct U as (_ & _ & _ & O1 & O2 & _). unfold iori, jpair. cbn [fst snd]. rewrite O1, O2. reflexivity. Qed.
Lemma idef_s : idef n m q' (cscale2 r x) = jpair r (idef n m q x).
Proof. destruct U as (_ & B1 & B2 & O1 & O2 & _). unfold idef, jpair, cscale2. cbn [fst snd]. rewrite B1, B2, O1, O2, !field_s, !jadd_s. reflexivity. Qed.
Lemma iad_s : iad_at n m q' (cscale2 r x) = k / r * iad_at n m q x.
Proof.
  unfold iad_at. rewrite idef_s. destruct U as (_ & _ & _ & O1 & _ & _ & _ & L). rewrite O1. unfold jpair. cbn [fst]. rewrite mem_s, bend_s by exact Pr. apply (L _ _).
Qed.
Lemma iar_s : iar_at n m q' (cscale2 r x) = k * r * iar_at n m q x.
Proof.
  unfold iar_at. rewrite idef_s. destruct U as (_ & _ & _ & O1 & _ & _ & _ & L). rewrite O1. unfold jpair. cbn [fst]. rewrite mem_s, bend_s by exact Pr. apply (L _ _).
Qed.
Lemma itest_s s i d : itest q' s i d = itest q s i d.
Proof. destruct U as (_ & B1 & B2 & _). unfold itest. rewrite B1, B2. reflexivity. Qed.
End IPoint.
