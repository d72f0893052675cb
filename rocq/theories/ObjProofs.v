(* Behaviour of the kinematic expressions under orthogonal maps. *)
From Coq Require Import Reals Lra Lia List FunctionalExtensionality.
From Coquelicot Require Import Coquelicot.
From Verif Require Import Tensor MetricSpec KinModel KinSpec KinAsm KinProofs KinStiff KinLoads DwrProofs ObjSpec.
Open Scope R_scope.

Section Orth.
Variables (Q : mat) (s : R).
Hypothesis O : orth Q s.
Lemma SS : s * s = 1. Proof. exact (proj2 (proj2 O)). Qed.

Lemma orth_dot u v : dot3 (mvec3 Q u) (mvec3 Q v) = dot3 u v.
Proof.
  pose proof (proj1 O) as H.
  pose proof (H 0 0 ltac:(lia) ltac:(lia))%nat as H00. pose proof (H 0 1 ltac:(lia) ltac:(lia))%nat as H01.
  pose proof (H 0 2 ltac:(lia) ltac:(lia))%nat as H02. pose proof (H 1 1 ltac:(lia) ltac:(lia))%nat as H11.
  pose proof (H 1 2 ltac:(lia) ltac:(lia))%nat as H12. pose proof (H 2 2 ltac:(lia) ltac:(lia))%nat as H22.
  clear H. cbv [sum3 delta Nat.eqb] in *.
  transitivity (u 0%nat * v 0%nat * 1 + u 1%nat * v 1%nat * 1 + u 2%nat * v 2%nat * 1
    + (u 0%nat * v 1%nat + u 1%nat * v 0%nat) * 0 + (u 0%nat * v 2%nat + u 2%nat * v 0%nat) * 0
    + (u 1%nat * v 2%nat + u 2%nat * v 1%nat) * 0).
  - rewrite <- H00 at 1. rewrite <- H11 at 1. rewrite <- H22 at 1. rewrite <- H01 at 1. rewrite <- H02 at 1.
    rewrite <- H12 at 1. unfold dot3, mvec3, sum3. ring.
  - unfold dot3, sum3. ring.
Qed.
Lemma sq_zero (z : vec) : dot3 z z = 0 -> forall i, (i < 3)%nat -> z i = 0.
Proof. unfold dot3, sum3. intros H i Hi. destruct i as [|[|[|i]]]; [nra|nra|nra|lia]. Qed.
Lemma lagr u v : dot3 (cross3 u v) (cross3 u v) = dot3 u u * dot3 v v - dot3 u v * dot3 u v.
Proof. unfold dot3, sum3, cross3. ring. Qed.
Lemma orth_cross u v i : (i < 3)%nat -> cross3 (mvec3 Q u) (mvec3 Q v) i = s * mvec3 Q (cross3 u v) i.
Proof.
  intro Hi. pose (z := fun i => cross3 (mvec3 Q u) (mvec3 Q v) i - s * mvec3 Q (cross3 u v) i).
  assert (Z : z i = 0); [|unfold z in Z; lra]. revert i Hi. apply sq_zero.
  assert (E : dot3 z z = dot3 (cross3 (mvec3 Q u) (mvec3 Q v)) (cross3 (mvec3 Q u) (mvec3 Q v))
    - 2 * s * dot3 (mvec3 Q (cross3 u v)) (cross3 (mvec3 Q u) (mvec3 Q v)) + s * s * dot3 (mvec3 Q (cross3 u v)) (mvec3 Q (cross3 u v))).
  { unfold z. set (a := cross3 (mvec3 Q u) (mvec3 Q v)). set (b := mvec3 Q (cross3 u v)). unfold dot3, sum3. ring. }
  assert (T : dot3 (mvec3 Q (cross3 u v)) (cross3 (mvec3 Q u) (mvec3 Q v)) = det3 Q * dot3 (cross3 u v) (cross3 u v)).
  { unfold dot3, cross3, mvec3, det3, sum3. ring. }
  pose proof (proj1 (proj2 O)) as D. rewrite E, T, D, SS, lagr, !orth_dot. rewrite lagr.
  replace (2 * s * (s * (dot3 u u * dot3 v v - dot3 u v * dot3 u v))) with (2 * (s * s) * (dot3 u u * dot3 v v - dot3 u v * dot3 u v)) by ring. rewrite SS. ring.
Qed.
Lemma rows_orth d k : (d < 3)%nat -> (k < 3)%nat -> sum3 (fun e => Q d e * Q k e) = delta d k.
Proof.
  pose (r := fun d => sum3 (fun e => Q d e * Q d e)).
  assert (TOT : r 0%nat + r 1%nat + r 2%nat = 3).
  { pose proof (proj1 O) as H. pose proof (H 0 0 ltac:(lia) ltac:(lia))%nat as H00. pose proof (H 1 1 ltac:(lia) ltac:(lia))%nat as H11. pose proof (H 2 2 ltac:(lia) ltac:(lia))%nat as H22.
    unfold r. cbv [sum3 delta Nat.eqb] in *. lra. }
  pose (ev := fun d i : nat => if Nat.eqb i d then 1 else 0).
  pose (z := fun d i => ev d i - mvec3 Q (fun e => Q d e) i).
  assert (ZZ : forall d, (d < 3)%nat -> dot3 (z d) (z d) = 1 - r d).
  { intros c Hc. assert (A : dot3 (mvec3 Q (fun e => Q c e)) (mvec3 Q (fun e => Q c e)) = r c) by (rewrite orth_dot; reflexivity).
    assert (B : mvec3 Q (fun e => Q c e) c = r c) by reflexivity.
    assert (E : dot3 (z c) (z c) = 1 - 2 * mvec3 Q (fun e => Q c e) c + dot3 (mvec3 Q (fun e => Q c e)) (mvec3 Q (fun e => Q c e))).
    { unfold z, ev. set (m := mvec3 Q (fun e => Q c e)). unfold dot3, sum3. destruct c as [|[|[|c]]]; [| | |lia]; cbn [Nat.eqb]; ring. }
    rewrite E, A, B. ring. }
  assert (NN : forall u, 0 <= dot3 u u) by (intro u; unfold dot3, sum3; nra).
  assert (P0 := NN (z 0%nat)). assert (P1 := NN (z 1%nat)). assert (P2 := NN (z 2%nat)). rewrite !ZZ in P0, P1, P2 by lia.
  intros Hd Hk. assert (R1 : r d = 1) by (destruct d as [|[|[|d]]]; [lra|lra|lra|lia]).
  assert (Z := sq_zero (z d) ltac:(rewrite ZZ by exact Hd; lra) k Hk). unfold z, ev, mvec3 in Z.
  transitivity (sum3 (fun e => Q k e * Q d e)). unfold sum3; ring. unfold delta. rewrite Nat.eqb_sym. lra.
Qed.

(* u' is t Q u *)
Definition vrel (t : R) (u u' : vec) : Prop := forall i, (i < 3)%nat -> u' i = t * mvec3 Q u i.
Lemma vrel_dot t r u u' v v' : vrel t u u' -> vrel r v v' -> dot3 u' v' = t * r * dot3 u v.
Proof.
  intros U V. transitivity (t * r * dot3 (mvec3 Q u) (mvec3 Q v)); [|rewrite orth_dot; reflexivity].
  unfold dot3, sum3. rewrite !U, !V by lia. ring.
Qed.
Lemma cross_ext u u' v v' : (forall i, (i < 3)%nat -> u i = u' i) -> (forall i, (i < 3)%nat -> v i = v' i) -> cross3 u v = cross3 u' v'.
Proof. intros U V. extensionality i. unfold cross3. rewrite !U, !V by lia. reflexivity. Qed.
Lemma vrel_cross t r u u' v v' : vrel t u u' -> vrel r v v' -> vrel (s * t * r) (cross3 u v) (cross3 u' v').
Proof.
  intros U V i Hi. rewrite (cross_ext u' (vscal t (mvec3 Q u)) v' (vscal r (mvec3 Q v)) U V).
  transitivity (t * r * cross3 (mvec3 Q u) (mvec3 Q v) i).
  destruct i as [|[|[|i]]]; [| | |lia]; unfold cross3, vscal; ring. rewrite orth_cross by exact Hi. ring.
Qed.
Lemma vrel_lin t u u' v v' a b : vrel t u u' -> vrel t v v' -> vrel t (fun i => a * u i + b * v i) (fun i => a * u' i + b * v' i).
Proof. intros U V i Hi. rewrite (U i Hi), (V i Hi). unfold mvec3, sum3. ring. Qed.
Lemma vrel_ext t u u' v v' : (forall i, (i < 3)%nat -> u i = v i) -> (forall i, (i < 3)%nat -> u' i = v' i) -> vrel t u u' -> vrel t v v'.
Proof. intros A B U i Hi. rewrite <- B, (U i Hi) by exact Hi. unfold mvec3, sum3. rewrite !A by lia. reflexivity. Qed.

Variables (c c' : jet).
Hypothesis C : jmoved Q c c'.
Lemma j1_rel v v' : jmoved Q v v' -> vrel 1 (j1 v) (j1 v').
Proof. intros H i Hi. destruct (H i Hi) as (A & _). rewrite A. ring. Qed.
Lemma j2_rel v v' : jmoved Q v v' -> vrel 1 (j2 v) (j2 v').
Proof. intros H i Hi. destruct (H i Hi) as (_ & A & _). rewrite A. ring. Qed.
Lemma jsec_rel v v' a : jmoved Q v v' -> vrel 1 (jsec v a) (jsec v' a).
Proof. intros H i Hi. destruct (H i Hi) as (_ & _ & A). rewrite A. ring. Qed.
Lemma jcross_rel v v' w w' : jmoved Q v v' -> jmoved Q w w' -> vrel s (cross3 (j1 v) (j2 w)) (cross3 (j1 v') (j2 w')).
Proof. intros V W. replace s with (s * 1 * 1) by ring. apply vrel_cross; [apply j1_rel|apply j2_rel]; assumption. Qed.
Lemma jcross_rel' v v' w w' : jmoved Q v v' -> jmoved Q w w' -> vrel s (cross3 (j2 v) (j1 w)) (cross3 (j2 v') (j1 w')).
Proof. intros V W. replace s with (s * 1 * 1) by ring. apply vrel_cross; [apply j2_rel|apply j1_rel]; assumption. Qed.
Lemma cross_sq : dot3 (cross3 (j1 c') (j2 c')) (cross3 (j1 c') (j2 c')) = dot3 (cross3 (j1 c) (j2 c)) (cross3 (j1 c) (j2 c)).
Proof. rewrite (vrel_dot s s _ _ _ _ (jcross_rel c c' c c' C C) (jcross_rel c c' c c' C C)), SS. ring. Qed.
Lemma moved_regular : regular c' <-> regular c.
Proof. unfold regular. rewrite cross_sq. reflexivity. Qed.
Lemma moved_measure : measure c' = measure c.
Proof. unfold measure, norm3. rewrite cross_sq. reflexivity. Qed.
Lemma moved_normal : vrel s (unormal c) (unormal c').
Proof.
  assert (N := jcross_rel c c' c c' C C). unfold unormal, normalize, norm3. rewrite cross_sq. destruct (Rlt_dec _ _); [|exact N].
  intros i Hi. rewrite (N i Hi). unfold mvec3, sum3, Rdiv. ring.
Qed.
Section V.
Variables (v v' : jet).
Hypothesis V : jmoved Q v v'.
Lemma moved_m : vrel s (m_var c v) (m_var c' v').
Proof.
  unfold m_var. rewrite moved_measure.
  apply (vrel_ext s (fun i => / measure c * cross3 (j1 v) (j2 c) i + - / measure c * cross3 (j2 v) (j1 c) i) (fun i => / measure c * cross3 (j1 v') (j2 c') i + - / measure c * cross3 (j2 v') (j1 c') i)).
  intros; unfold Rdiv; ring. intros; unfold Rdiv; ring. apply vrel_lin. apply jcross_rel; assumption. apply jcross_rel'; assumption.
Qed.
Lemma n_m : dot3 (unormal c') (m_var c' v') = dot3 (unormal c) (m_var c v).
Proof. rewrite (vrel_dot s s _ _ _ _ moved_normal moved_m), SS. ring. Qed.
Lemma moved_var1 : vrel s (var1 c v) (var1 c' v').
Proof.
  intros i Hi. unfold var1. rewrite !outer_eq, n_m, (moved_m i Hi), (moved_normal i Hi).
  unfold mvec3, sum3. rewrite !outer_eq. ring.
Qed.
Lemma moved_mem a : Em_der c' v' a = Em_der c v a.
Proof.
  unfold Em_der. destruct a as [|[|a]].
  - rewrite (vrel_dot 1 1 _ _ _ _ (j1_rel c c' C) (j1_rel v v' V)). ring.
  - rewrite (vrel_dot 1 1 _ _ _ _ (j2_rel c c' C) (j2_rel v v' V)). ring.
  - rewrite (vrel_dot 1 1 _ _ _ _ (j1_rel c c' C) (j2_rel v v' V)), (vrel_dot 1 1 _ _ _ _ (j2_rel c c' C) (j1_rel v v' V)). ring.
Qed.
Lemma moved_bend a : Ef_der c' v' a = s * Ef_der c v a.
Proof.
  unfold Ef_der, mult2, deriv2_map.
  assert (E : forall b, - (dot3 (unormal c') (jsec v' b) + dot3 (var1 c' v') (jsec c' b)) = s * - (dot3 (unormal c) (jsec v b) + dot3 (var1 c v) (jsec c b))).
  { intro b. rewrite (vrel_dot s 1 _ _ _ _ moved_normal (jsec_rel v v' b V)), (vrel_dot s 1 _ _ _ _ moved_var1 (jsec_rel c c' b C)). ring. }
  destruct a as [|[|[|a]]]; rewrite E; ring.
Qed.
End V.
Section VU.
Variables (v v' u u' : jet).
Hypothesis V : jmoved Q v v'.
Hypothesis U : jmoved Q u u'.
Lemma moved_muv : vrel s (m_uv c u v) (m_uv c' u' v').
Proof.
  unfold m_uv. rewrite moved_measure.
  apply (vrel_ext s (fun i => / measure c * cross3 (j1 u) (j2 v) i + / measure c * cross3 (j1 v) (j2 u) i) (fun i => / measure c * cross3 (j1 u') (j2 v') i + / measure c * cross3 (j1 v') (j2 u') i)).
  intros; unfold Rdiv; ring. intros; unfold Rdiv; ring. apply vrel_lin; apply jcross_rel; assumption.
Qed.
Lemma moved_var2 : vrel s (var2 c u v) (var2 c' u' v').
Proof.
  assert (N := moved_normal). assert (MU := moved_m u u' U). assert (MV := moved_m v v' V). assert (MM := moved_muv).
  assert (NU := n_m u u' U). assert (NV := n_m v v' V).
  assert (ND : vrel s (fun i => m_var c v i - outer_apply (unormal c) (m_var c v) i) (fun i => m_var c' v' i - outer_apply (unormal c') (m_var c' v') i)) by exact (moved_var1 v v' V).
  unfold var2, var2_with. cbv zeta.
  set (nd := fun i => m_var c v i - outer_apply (unormal c) (m_var c v) i) in *. set (nd' := fun i => m_var c' v' i - outer_apply (unormal c') (m_var c' v') i) in *.
  rewrite NU, NV. set (k := dot3 (unormal c) (m_var c v)).
  assert (MD : vrel s (fun i => m_uv c u v i - k * m_var c u i) (fun i => m_uv c' u' v' i - k * m_var c' u' i)).
  { apply (vrel_ext s (fun i => 1 * m_uv c u v i + (- k) * m_var c u i) (fun i => 1 * m_uv c' u' v' i + (- k) * m_var c' u' i)); [intros; ring|intros; ring|]. apply vrel_lin; assumption. }
  set (md := fun i => m_uv c u v i - k * m_var c u i) in *. set (md' := fun i => m_uv c' u' v' i - k * m_var c' u' i) in *.
  rewrite (vrel_dot s s _ _ _ _ MU ND), (vrel_dot s s _ _ _ _ N MD), SS.
  set (h := dot3 (m_var c u) nd + dot3 (unormal c) md). set (g := dot3 (unormal c) (m_var c u)).
  intros i Hi. transitivity (md' i - h * unormal c' i - g * nd' i). unfold md', nd', h; ring.
  rewrite (MD i Hi), (N i Hi), (ND i Hi). unfold mvec3, sum3, md, nd. ring.
Qed.
Lemma moved_flatdot X : flatdot v' u' X = flatdot v u X.
Proof.
  unfold flatdot. rewrite (vrel_dot 1 1 _ _ _ _ (j1_rel v v' V) (j1_rel u u' U)), (vrel_dot 1 1 _ _ _ _ (j1_rel v v' V) (j2_rel u u' U)),
    (vrel_dot 1 1 _ _ _ _ (j2_rel v v' V) (j1_rel u u' U)), (vrel_dot 1 1 _ _ _ _ (j2_rel v v' V) (j2_rel u u' U)). ring.
Qed.
Lemma moved_flatdot2 X : flatdot2 c' u' v' X = s * flatdot2 c u v X.
Proof.
  unfold flatdot2. rewrite !dot_mult2. rewrite !(vrel_dot 1 s _ _ _ _ (jsec_rel u u' _ U) (moved_var1 v v' V)). ring.
Qed.
Lemma moved_var2deriv2dot X : var2deriv2dot c' u' v' X = s * var2deriv2dot c u v X.
Proof.
  unfold var2deriv2dot. rewrite !dot_curv, !dot_mult2. rewrite !(vrel_dot 1 s _ _ _ _ (jsec_rel c c' _ C) moved_var2). ring.
Qed.
End VU.
Lemma moved_bend2 v v' u u' X : jmoved Q v v' -> jmoved Q u u' -> Ef_der2 c' v' u' X = s * Ef_der2 c v u X.
Proof.
  intros V U. unfold Ef_der2. rewrite (moved_flatdot2 u u' v v' U V), (moved_flatdot2 v v' u u' V U), (moved_var2deriv2dot u u' v v' U V). ring.
Qed.
Lemma moved_Fint v v' N M : jmoved Q v v' -> Fint c' N (vscal s M) v' = Fint c N M v.
Proof.
  intro V. unfold Fint, dot3, sum3, vscal. rewrite !(moved_mem v v' V), !(moved_bend v v' V).
  replace (s * M 0%nat * (s * Ef_der c v 0%nat)) with (s * s * (M 0%nat * Ef_der c v 0%nat)) by ring.
  replace (s * M 1%nat * (s * Ef_der c v 1%nat)) with (s * s * (M 1%nat * Ef_der c v 1%nat)) by ring.
  replace (s * M 2%nat * (s * Ef_der c v 2%nat)) with (s * s * (M 2%nat * Ef_der c v 2%nat)) by ring. rewrite SS. ring.
Qed.
Definition mscal (t : R) (A : mat) : mat := fun a b => t * A a b.
Lemma moved_Kstiff v v' u u' A B D E N M : jmoved Q v v' -> jmoved Q u u' ->
  Kstiff c' A (mscal s B) (mscal s D) E N (vscal s M) v' u' = Kstiff c A B D E N M v u.
Proof.
  intros V U. unfold Kstiff. cbv zeta. rewrite (moved_flatdot v v' u u' V U).
  assert (E2 : Ef_der2 c' v' u' (vscal s M) = Ef_der2 c v u M).
  { rewrite (moved_bend2 v v' u u' (vscal s M) V U). unfold Ef_der2, flatdot2, var2deriv2dot. rewrite !dot_scall.
    replace (s * - (s * dot3 M (mult2 (fun a => dot3 (jsec v a) (var1 c u))) + s * dot3 M (mult2 (fun a => dot3 (jsec u a) (var1 c v))) + s * dot3 M (curv_of c (var2 c v u))))
      with (s * s * - (dot3 M (mult2 (fun a => dot3 (jsec v a) (var1 c u))) + dot3 M (mult2 (fun a => dot3 (jsec u a) (var1 c v))) + dot3 M (curv_of c (var2 c v u)))) by ring.
    rewrite SS. ring. }
  rewrite E2.
  assert (A1 : forall a, Em_der c' v' a = Em_der c v a) by (intro; apply moved_mem; exact V). assert (A2 : forall a, Em_der c' u' a = Em_der c u a) by (intro; apply moved_mem; exact U).
  assert (A3 : forall a, Ef_der c' v' a = s * Ef_der c v a) by (intro; apply moved_bend; exact V). assert (A4 : forall a, Ef_der c' u' a = s * Ef_der c u a) by (intro; apply moved_bend; exact U).
  set (mv := Em_der c v) in *. set (mu := Em_der c u) in *. set (fv := Ef_der c v) in *. set (fu := Ef_der c u) in *.
  assert (T1 : dot3 (vadd (rowmat (Em_der c' v') A) (rowmat (Ef_der c' v') (mscal s B))) (Em_der c' u') = dot3 (vadd (rowmat mv A) (rowmat fv B)) mu).
  { unfold dot3, vadd, rowmat, mscal, sum3. rewrite !A1, !A2, !A3.
    assert (K : forall x b, s * x * (s * b) = x * b) by (intros x b; transitivity (s * s * (x * b)); [ring|rewrite SS; ring]). rewrite !K. reflexivity. }
  assert (T2 : dot3 (vadd (rowmat (Em_der c' v') (mscal s D)) (rowmat (Ef_der c' v') E)) (Ef_der c' u') = dot3 (vadd (rowmat mv D) (rowmat fv E)) fu).
  { unfold dot3, vadd, rowmat, mscal, sum3. rewrite !A1, !A4, !A3.
    match goal with |- ?l = ?r => transitivity (s * s * r); [ring|rewrite SS; ring] end. }
  rewrite T1, T2. reflexivity.
Qed.
(* the unit field in direction d is the moved combination of the unit fields with row d of Q *)
Definition brot (d : nat) (p : sjet) : jet := jadd (jscal (Q d 0%nat) (bvar 0 p)) (jadd (jscal (Q d 1%nat) (bvar 1 p)) (jscal (Q d 2%nat) (bvar 2 p))).
Lemma brot_moved d p : (d < 3)%nat -> jmoved Q (brot d p) (bvar d p).
Proof.
  intro Hd. assert (K : forall a i, (i < 3)%nat -> vecFun d a i = mvec3 Q (vadd (vscal (Q d 0%nat) (vecFun 0 a)) (vadd (vscal (Q d 1%nat) (vecFun 1 a)) (vscal (Q d 2%nat) (vecFun 2 a)))) i).
  { intros a i Hi. assert (R := rows_orth d i Hd Hi). transitivity (delta d i * a).
    - unfold vecFun, delta. rewrite Nat.eqb_sym. destruct (Nat.eqb d i); ring.
    - rewrite <- R. unfold mvec3, vadd, vscal, vecFun, sum3. cbn [Nat.eqb]. ring. }
  intros i Hi. unfold brot. cbn [jadd jscal bvar j1 j2]. split; [|split].
  - apply K, Hi.
  - apply K, Hi.
  - intro a. destruct a as [|[|a]]; cbn [jsec jadd jscal bvar j11 j22 j12]; apply K, Hi.
Qed.
Lemma brot_lin F d p : linj F -> F (brot d p) = sum3 (fun e => Q d e * F (bvar e p)).
Proof. intros (A & B). unfold brot. rewrite !A, !B. unfold sum3. ring. Qed.
End Orth.

Section Strain.
Variables (Q : mat) (s : R).
Hypothesis O : orth Q s.
Lemma nrm_unormal c : regular c -> nrm c = unormal c.
Proof. intro H. symmetry. apply unormal_nrm. exact H. Qed.
(* strains of a moved configuration against a reference *)
Lemma moved_mem_strain ori c c' : jmoved Q c c' -> mem_strain ori c' = mem_strain ori c.
Proof.
  intro C. extensionality a. unfold mem_strain. destruct a as [|[|a]].
  - rewrite (vrel_dot Q s O 1 1 _ _ _ _ (j1_rel Q c c' C) (j1_rel Q c c' C)). field.
  - rewrite (vrel_dot Q s O 1 1 _ _ _ _ (j2_rel Q c c' C) (j2_rel Q c c' C)). field.
  - rewrite (vrel_dot Q s O 1 1 _ _ _ _ (j1_rel Q c c' C) (j2_rel Q c c' C)). field.
Qed.
Lemma moved_mem_strain_ori ori ori' c : jmoved Q ori ori' -> mem_strain ori' c = mem_strain ori c.
Proof.
  intro C. extensionality a. unfold mem_strain. destruct a as [|[|a]].
  - rewrite (vrel_dot Q s O 1 1 _ _ _ _ (j1_rel Q ori ori' C) (j1_rel Q ori ori' C)). field.
  - rewrite (vrel_dot Q s O 1 1 _ _ _ _ (j2_rel Q ori ori' C) (j2_rel Q ori ori' C)). field.
  - rewrite (vrel_dot Q s O 1 1 _ _ _ _ (j1_rel Q ori ori' C) (j2_rel Q ori ori' C)). field.
Qed.
Lemma moved_curvature c c' a : jmoved Q c c' -> curvature c' a = s * curvature c a.
Proof.
  intro C. unfold curvature.
  assert (N : vrel Q s (nrm c) (nrm c')).
  { assert (X := jcross_rel Q s O c c' c c' C C). unfold nrm. rewrite (cross_sq Q s O c c' C). intros i Hi. rewrite (X i Hi). unfold mvec3, sum3, Rdiv. ring. }
  rewrite (vrel_dot Q s O 1 s _ _ _ _ (jsec_rel Q c c' a C) N). ring.
Qed.
End Strain.
