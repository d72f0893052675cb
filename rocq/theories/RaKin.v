(* Proofs for RaProps: variations of strains in other parameters. *)
From Coq Require Import Reals Lra Lia Arith List FunctionalExtensionality.
From Coquelicot Require Import Coquelicot.
From Verif Require Import Tensor MetricModel MetricSpec MetricProofs LinearModel LinearSpec IntegrateModel NonlinearModel SizeModel PtModel ReparSpec ReparTens ReparProofs ReparGeo.
From Verif Require Import KinModel KinSpec KinAsm KinProofs KinStiff KinLoads HypModel RaModel RaSpec.
Import ListNotations.
Open Scope R_scope.
Notation side := ReparSpec.side.
Notation regular := KinSpec.regular.

(* ---------- the normal and its variations are orthogonal to the tangents, along every path ---------- *)
Lemma n_orth c a : regular c -> (a < 2)%nat -> dot3 (unormal c) (jcol c a) = 0.
Proof.
  intros H Ha. destruct (unormal_is c H) as (U & X & Y & _). destruct a as [|[|a]]; try lia; cbn [jcol]; assumption.
Qed.
Lemma reg_loc c v : regular c -> locally 0 (fun t => regular (moved c v t)).
Proof.
  intro P. assert (R0 : regular (moved c v 0)) by (rewrite moved0; exact P).
  assert (CP := cross_path (moved c v) 0 v (moved_path c v 0)). exact (loc_pos _ _ _ (d_dot _ _ 0 _ _ CP CP) R0).
Qed.
Lemma dcol c v t a : is_dvec (fun s => jcol (moved c v s) a) t (jcol v a).
Proof. destruct a as [|a]; [apply dm1|apply dm2]. Qed.
Lemma zero_derive f l : locally 0 (fun t => f t = 0) -> is_derive f 0 l -> l = 0.
Proof.
  intros L D. assert (Z : is_derive (fun _ : R => 0) 0 l).
  { apply (is_derive_ext_loc f); [|exact D]. revert L. apply filter_imp. intros s E. exact E. }
  pose proof (is_derive_unique _ _ _ Z) as U. pose proof (is_derive_unique _ _ _ (d_const 0 0)) as V. rewrite <- U. exact V.
Qed.
Lemma orth1 c v a : regular c -> (a < 2)%nat -> dot3 (var1 c v) (jcol c a) + dot3 (unormal c) (jcol v a) = 0.
Proof.
  intros P Ha. apply (zero_derive (fun t => dot3 (unormal (moved c v t)) (jcol (moved c v t) a))).
  - generalize (reg_loc c v P). apply filter_imp. intros t R. apply n_orth; assumption.
  - pose proof (d_dot _ _ 0 _ _ (nor_m c v P) (dcol c v 0 a)) as D. cbv beta in D. rewrite moved0 in D. exact D.
Qed.
Lemma orth2 c u v a : regular c -> (a < 2)%nat ->
  dot3 (var2 c v u) (jcol c a) + dot3 (var1 c v) (jcol u a) + dot3 (var1 c u) (jcol v a) = 0.
Proof.
  intros P Ha. apply (zero_derive (fun t => dot3 (var1 (moved c u t) v) (jcol (moved c u t) a) + dot3 (unormal (moved c u t)) (jcol v a))).
  - generalize (reg_loc c u P). apply filter_imp. intros t R. apply orth1; assumption.
  - apply (is_derive_plus (K := R_AbsRing) (V := R_NormedModule) (fun t => dot3 (var1 (moved c u t) v) (jcol (moved c u t) a)) (fun t => dot3 (unormal (moved c u t)) (jcol v a)) 0 (dot3 (var2 c v u) (jcol c a) + dot3 (var1 c v) (jcol u a)) (dot3 (var1 c u) (jcol v a))).
    + pose proof (d_dot _ _ 0 _ _ (var_m c u v P) (dcol c u 0 a)) as D. cbv beta in D. rewrite moved0 in D. exact D.
    + apply dotc'. apply nor_m. exact P.
Qed.

(* ---------- strain variations as tensors ---------- *)
Definition Et (c v : jet) : mat := fun i j => / 2 * (dot3 (jcol c i) (jcol v j) + dot3 (jcol c j) (jcol v i)).
Definition Bt (c v : jet) : mat := fun i j => - (dot3 (jdd v i j) (unormal c) + dot3 (jdd c i j) (var1 c v)).
Definition B2t (c v u : jet) : mat := fun i j => - (dot3 (jdd v i j) (var1 c u) + dot3 (jdd u i j) (var1 c v) + dot3 (jdd c i j) (var2 c v u)).
Lemma Em_voi c v a : (a < 3)%nat -> Em_der c v a = voi (Et c v) a.
Proof.
  intro H. destruct a as [|[|[|a]]]; try lia; unfold Em_der, voi, Et; cbn [jcol]; rewrite ?(dot_comm (j2 c) (j1 v)); try field; unfold dot3, sum3; field.
Qed.
Lemma Ef_voi c v a : (a < 3)%nat -> Ef_der c v a = voi (Bt c v) a.
Proof.
  intro H. unfold Ef_der, mult2, deriv2_map. destruct a as [|[|[|a]]]; try lia; unfold voi, Bt; cbn [jdd jsec]; rewrite !(dot_comm (unormal c)), !(dot_comm (var1 c v)); ring.
Qed.
Lemma dot_voi X e f : (forall a, (a < 3)%nat -> f a = voi e a) -> dot3 X f = workV X e.
Proof. intro H. unfold dot3, workV, sum3. rewrite !H by lia. reflexivity. Qed.
Lemma flatdot_work v u N : flatdot v u N = workV N (Et v u).
Proof. unfold flatdot, workV, sum3, voi, Et. cbn [jcol]. rewrite (dot_comm (j2 v) (j1 u)). field_simplify. unfold dot3, sum3. field. Qed.
Lemma Ef2_work c v u M : Ef_der2 c v u M = workV M (B2t c v u).
Proof.
  unfold Ef_der2, flatdot2, var2deriv2dot, mult2, curv_of. unfold workV, voi, B2t. cbn [jdd jsec]. 
  set (x := var1 c u). set (y := var1 c v). set (z := var2 c v u). clearbody x y z. unfold dot3, sum3. cbn [jsec]. ring.
Qed.
Lemma form_eq x A y e f : (forall a, (a < 3)%nat -> x a = voi e a) -> (forall a, (a < 3)%nat -> y a = voi f a) -> dot3 (rowmat x A) y = formV A e f.
Proof. intros H G. unfold dot3, rowmat, formV, sum3. rewrite !H, !G by lia. ring. Qed.
Lemma jdd_sym c i j : jdd c i j = jdd c j i.
Proof. destruct i as [|[|i]], j as [|[|j]]; reflexivity. Qed.
Lemma Et_sym c v : symmetric 2 (Et c v). Proof. intros i j _ _. unfold Et. ring. Qed.
Lemma Bt_sym c v : symmetric 2 (Bt c v). Proof. intros i j _ _. unfold Bt. rewrite (jdd_sym v i j), (jdd_sym c i j). ring. Qed.
Lemma B2t_sym c v u : symmetric 2 (B2t c v u). Proof. intros i j _ _. unfold B2t. rewrite (jdd_sym v i j), (jdd_sym u i j), (jdd_sym c i j). ring. Qed.

(* ---------- in other parameters ---------- *)
Lemma jcol_rep P K c i : (i < 2)%nat -> jcol (jrepar P K c) i = fun k => sum2 (fun a => P a i * jcol c a k).
Proof. intro H. destruct i as [|[|i]]; try lia; reflexivity. Qed.
Lemma jdd_rep P K c i j : (i < 2)%nat -> (j < 2)%nat ->
  exists r, jdd (jrepar P K c) i j = fun k => sum2 (fun a => sum2 (fun b => P a i * P b j * jdd c a b k)) + sum2 (fun a => K a r * jcol c a k).
Proof.
  intros Hi Hj. destruct i as [|[|i]]; try lia; destruct j as [|[|j]]; try lia; [exists 0%nat|exists 2%nat|exists 2%nat|exists 1%nat]; extensionality k;
    unfold jrepar; cbn [jdd j11 j22 j12]; unfold jrow, sum2; cbn [row_pair fst snd jdd]; ring.
Qed.
Section Rep.
Variables (P : mat) (K : nat -> nat -> R).
Hypothesis DP : det2 P <> 0.
Notation s := (side P).
Notation rep := (jrepar P K).
Lemma sq1 : s * s = 1. Proof. apply side_sq. Qed.
Lemma s0n : s <> 0. Proof. intro Z. pose proof sq1 as X. rewrite Z in X. lra. Qed.
Lemma msr c : measure (rep c) = Rabs (det2 P) * measure c.
Proof.
  unfold measure, norm3.
  replace (dot3 (cross3 (j1 (rep c)) (j2 (rep c))) (cross3 (j1 (rep c)) (j2 (rep c)))) with ((det2 P)² * dot3 (cross3 (j1 c) (j2 c)) (cross3 (j1 c) (j2 c))).
  - rewrite sqrt_mult by (apply Rle_0_sqr || apply dot3_self_nonneg). rewrite sqrt_Rsqr_abs. reflexivity.
  - unfold jrepar. cbn [j1 j2]. unfold Rsqr, dot3, sum3, cross3, det2, sum2. cbn [jcol]. ring.
Qed.
Lemma reg_rep c : regular c -> regular (rep c).
Proof.
  unfold regular. intro H.
  replace (dot3 (cross3 (j1 (rep c)) (j2 (rep c))) (cross3 (j1 (rep c)) (j2 (rep c)))) with ((det2 P)² * dot3 (cross3 (j1 c) (j2 c)) (cross3 (j1 c) (j2 c))).
  - apply Rmult_lt_0_compat; [apply Rsqr_pos_lt; exact DP|exact H].
  - unfold jrepar. cbn [j1 j2]. unfold Rsqr, dot3, sum3, cross3, det2, sum2. cbn [jcol]. ring.
Qed.
Lemma msr_pos c : regular c -> 0 < measure c.
Proof. intro H. unfold measure, norm3. apply sqrt_lt_R0. exact H. Qed.
Lemma reg_geo c : regular c -> MetricSpec.regular (sgeo c).
Proof.
  intro H. unfold MetricSpec.regular. cbn [sgeo tang jcol].
  destruct (Req_dec (cross3 (j1 c) (j2 c) 0%nat) 0) as [a|a]; [|exists 0%nat; split; [lia|exact a]].
  destruct (Req_dec (cross3 (j1 c) (j2 c) 1%nat) 0) as [b|b]; [|exists 1%nat; split; [lia|exact b]].
  destruct (Req_dec (cross3 (j1 c) (j2 c) 2%nat) 0) as [d|d]; [|exists 2%nat; split; [lia|exact d]].
  exfalso. unfold regular, dot3, sum3 in H. rewrite a, b, d in H. lra.
Qed.
Lemma nor_rep c i : regular c -> unormal (rep c) i = s * unormal c i.
Proof. intro H. exact (normal_repar P K (sgeo c) DP (reg_geo c H) i). Qed.
Lemma scale_div x m : m <> 0 -> det2 P * x / (Rabs (det2 P) * m) = s * (x / m).
Proof.
  intro M. rewrite side_abs by exact DP. pose proof s0n as S. pose proof sq1 as SS.
  transitivity (/ s * (x / m)); [field; repeat split; assumption|]. apply (f_equal (fun r => r * (x / m))). apply (Rmult_eq_reg_l s); [|exact S]. rewrite SS. field. exact S.
Qed.
Lemma m_rep c v i : regular c -> m_var (rep c) (rep v) i = s * m_var c v i.
Proof.
  intro H. pose proof (msr_pos c H) as M. unfold m_var. rewrite msr, <- scale_div by lra. f_equal.
  unfold jrepar. cbn [j1 j2]. unfold cross3, det2, sum2. destruct i as [|[|i]]; cbn [jcol]; ring.
Qed.
Lemma muv_rep c u v i : regular c -> m_uv (rep c) (rep u) (rep v) i = s * m_uv c u v i.
Proof.
  intro H. pose proof (msr_pos c H) as M. unfold m_uv. rewrite msr, <- scale_div by lra. f_equal.
  unfold jrepar. cbn [j1 j2]. unfold cross3, det2, sum2. destruct i as [|[|i]]; cbn [jcol]; ring.
Qed.
Lemma var1_rep c v i : regular c -> var1 (rep c) (rep v) i = s * var1 c v i.
Proof.
  intro H. unfold var1, outer_apply, sum3. rewrite !m_rep, !nor_rep by exact H.
  transitivity (s * m_var c v i - s * s * s * (unormal c i * m_var c v 0%nat * unormal c 0%nat + unormal c i * m_var c v 1%nat * unormal c 1%nat + unormal c i * m_var c v 2%nat * unormal c 2%nat)); [ring|].
  rewrite sq1. ring.
Qed.
Lemma var2_rep c u v i : regular c -> var2 (rep c) (rep u) (rep v) i = s * var2 c u v i.
Proof.
  intro H. unfold var2, var2_with. cbv zeta.
  assert (D1 : forall w, dot3 (unormal (rep c)) (m_var (rep c) (rep w)) = dot3 (unormal c) (m_var c w)).
  { intro w. unfold dot3, sum3. rewrite !nor_rep, !m_rep by exact H. transitivity (s * s * (unormal c 0%nat * m_var c w 0%nat + unormal c 1%nat * m_var c w 1%nat + unormal c 2%nat * m_var c w 2%nat)); [ring|]. rewrite sq1. ring. }
  assert (N : forall w k, m_var (rep c) (rep w) k - outer_apply (unormal (rep c)) (m_var (rep c) (rep w)) k = s * (m_var c w k - outer_apply (unormal c) (m_var c w) k)) by (intros; apply var1_rep; exact H).
  assert (MD : forall k, m_uv (rep c) (rep u) (rep v) k - dot3 (unormal (rep c)) (m_var (rep c) (rep v)) * m_var (rep c) (rep u) k = s * (m_uv c u v k - dot3 (unormal c) (m_var c v) * m_var c u k)).
  { intro k. rewrite D1, muv_rep, m_rep by exact H. ring. }
  rewrite MD, N, D1.
  assert (Q1 : dot3 (m_var (rep c) (rep u)) (fun k => m_var (rep c) (rep v) k - outer_apply (unormal (rep c)) (m_var (rep c) (rep v)) k) = dot3 (m_var c u) (fun k => m_var c v k - outer_apply (unormal c) (m_var c v) k)).
  { unfold dot3, sum3. rewrite !N, !m_rep by exact H. set (a0 := m_var c v 0%nat - _). set (a1 := m_var c v 1%nat - _). set (a2 := m_var c v 2%nat - _).
    transitivity (s * s * (m_var c u 0%nat * a0 + m_var c u 1%nat * a1 + m_var c u 2%nat * a2)); [ring|]. rewrite sq1. ring. }
  assert (Q2 : dot3 (unormal (rep c)) (fun k => m_uv (rep c) (rep u) (rep v) k - dot3 (unormal c) (m_var c v) * m_var (rep c) (rep u) k) = dot3 (unormal c) (fun k => m_uv c u v k - dot3 (unormal c) (m_var c v) * m_var c u k)).
  { unfold dot3 at 1, sum3. rewrite D1 in MD. rewrite !MD, !nor_rep by exact H. set (a0 := m_uv c u v 0%nat - _). set (a1 := m_uv c u v 1%nat - _). set (a2 := m_uv c u v 2%nat - _).
    transitivity (s * s * (unormal c 0%nat * a0 + unormal c 1%nat * a1 + unormal c 2%nat * a2)); [ring|]. rewrite sq1. unfold dot3, sum3, a0, a1, a2, dot3, sum3. ring. }
  rewrite Q1, Q2, (D1 u), nor_rep by exact H. ring.
Qed.
Lemma Et_rep c v i j : (i < 2)%nat -> (j < 2)%nat -> Et (rep c) (rep v) i j = pullback2 P (Et c v) i j.
Proof. intros Hi Hj. unfold Et. rewrite !jcol_rep by assumption. unfold pullback2, sum2, dot3, sum3. field. Qed.
Lemma dot_rep P' a0 a1 : dot3 (fun k => a0 * jcol P' 0 k + a1 * jcol P' 1 k) = fun y => a0 * dot3 (jcol P' 0) y + a1 * dot3 (jcol P' 1) y.
Proof. extensionality y. unfold dot3, sum3. ring. Qed.
Lemma Bt_rep c v i j : regular c -> (i < 2)%nat -> (j < 2)%nat -> Bt (rep c) (rep v) i j = s * pullback2 P (Bt c v) i j.
Proof.
  intros H Hi Hj. unfold Bt at 1.
  assert (EX : exists r, forall w, jdd (rep w) i j = fun k => sum2 (fun a => sum2 (fun b => P a i * P b j * jdd w a b k)) + sum2 (fun a => K a r * jcol w a k)).
  { destruct i as [|[|i]]; try lia; destruct j as [|[|j]]; try lia; [exists 0%nat|exists 2%nat|exists 2%nat|exists 1%nat]; intro w; extensionality k;
    unfold jrepar; cbn [jdd j11 j22 j12]; unfold jrow, sum2; cbn [row_pair fst snd jdd]; ring. }
  destruct EX as (r & EX). rewrite !EX.
  pose proof (orth1 c v 0%nat H ltac:(lia)) as O0. pose proof (orth1 c v 1%nat H ltac:(lia)) as O1.
  transitivity (s * (pullback2 P (Bt c v) i j - K 0%nat r * (dot3 (var1 c v) (jcol c 0) + dot3 (unormal c) (jcol v 0)) - K 1%nat r * (dot3 (var1 c v) (jcol c 1) + dot3 (unormal c) (jcol v 1)))).
  - unfold dot3, sum3. rewrite !nor_rep, !var1_rep by exact H. unfold pullback2, Bt, sum2, dot3, sum3. ring.
  - rewrite O0, O1. ring.
Qed.
Lemma B2t_rep c v u i j : regular c -> (i < 2)%nat -> (j < 2)%nat -> B2t (rep c) (rep v) (rep u) i j = s * pullback2 P (B2t c v u) i j.
Proof.
  intros H Hi Hj. unfold B2t at 1.
  assert (EX : exists r, forall w, jdd (rep w) i j = fun k => sum2 (fun a => sum2 (fun b => P a i * P b j * jdd w a b k)) + sum2 (fun a => K a r * jcol w a k)).
  { destruct i as [|[|i]]; try lia; destruct j as [|[|j]]; try lia; [exists 0%nat|exists 2%nat|exists 2%nat|exists 1%nat]; intro w; extensionality k;
    unfold jrepar; cbn [jdd j11 j22 j12]; unfold jrow, sum2; cbn [row_pair fst snd jdd]; ring. }
  destruct EX as (r & EX). rewrite !EX.
  pose proof (orth2 c u v 0%nat H ltac:(lia)) as O0. pose proof (orth2 c u v 1%nat H ltac:(lia)) as O1.
  transitivity (s * (pullback2 P (B2t c v u) i j - K 0%nat r * (dot3 (var2 c v u) (jcol c 0) + dot3 (var1 c v) (jcol u 0) + dot3 (var1 c u) (jcol v 0)) - K 1%nat r * (dot3 (var2 c v u) (jcol c 1) + dot3 (var1 c v) (jcol u 1) + dot3 (var1 c u) (jcol v 1)))).
  - unfold dot3, sum3. rewrite !var1_rep, !var2_rep by exact H. unfold pullback2, B2t, sum2, dot3, sum3. ring.
  - rewrite O0, O1. ring.
Qed.
(* work and form through the tensor transformation *)
Lemma voi_ext e f : (forall i j, (i < 2)%nat -> (j < 2)%nat -> e i j = f i j) -> forall a, voi e a = voi f a.
Proof. intros H a. unfold voi. destruct a as [|[|a]]; rewrite !H by lia; reflexivity. Qed.
Lemma workV_ext X e f : (forall i j, (i < 2)%nat -> (j < 2)%nat -> e i j = f i j) -> workV X e = workV X f.
Proof. intro H. unfold workV, sum3. rewrite !(voi_ext e f H). reflexivity. Qed.
Lemma formV_ext A e e' f f' : (forall i j, (i < 2)%nat -> (j < 2)%nat -> e i j = e' i j) -> (forall i j, (i < 2)%nat -> (j < 2)%nat -> f i j = f' i j) -> formV A e f = formV A e' f'.
Proof. intros H G. unfold formV, sum3. rewrite !(voi_ext e e' H), !(voi_ext f f' G). reflexivity. Qed.
Lemma workV_scal X r e : workV X (fun i j => r * e i j) = r * workV X e.
Proof. unfold workV, voi, sum3. ring. Qed.
Lemma workV_scalX X r e : workV (fun a => r * X a) e = r * workV X e.
Proof. unfold workV, sum3. ring. Qed.
Lemma formV_scal A p r e f : formV A (fun i j => p * e i j) (fun i j => r * f i j) = p * r * formV A e f.
Proof. unfold formV, voi, sum3. ring. Qed.
Lemma formV_scalA A r e f : formV (fun a b => r * A a b) e f = r * formV A e f.
Proof. unfold formV, sum3. ring. Qed.

(* resultants and tangents of the same wall seen in the two parametrisations *)
Definition res_rel (X Y : vec * vec) : Prop := same_stress P (fst X) (fst Y) /\ same_stress P (snd X) (fun a => s * snd Y a).
Definition tan_rel (X Y : mat * mat * (mat * mat)) : Prop :=
  same_stiffness P (fst (fst X)) (fst (fst Y)) /\ same_stiffness P (snd (fst X)) (fun a b => s * snd (fst Y) a b) /\
  same_stiffness P (fst (snd X)) (fun a b => s * fst (snd Y) a b) /\ same_stiffness P (snd (snd X)) (snd (snd Y)).
Lemma work_E N N' c v : same_stress P N N' -> workV N' (Et (rep c) (rep v)) = workV N (Et c v).
Proof. intro H. rewrite (workV_ext _ _ _ (Et_rep c v)). apply H. apply Et_sym. Qed.
Lemma work_B M M' (B B' : mat) : same_stress P M (fun a => s * M' a) -> symmetric 2 B -> (forall i j, (i < 2)%nat -> (j < 2)%nat -> B' i j = s * pullback2 P B i j) -> workV M' B' = workV M B.
Proof. intros H S E. rewrite (workV_ext _ _ _ E), workV_scal, <- workV_scalX. apply H. exact S. Qed.
Lemma force_rep c v X Y : regular c -> res_rel X Y ->
  dot3 (fst Y) (Em_der (rep c) (rep v)) + dot3 (snd Y) (Ef_der (rep c) (rep v)) = dot3 (fst X) (Em_der c v) + dot3 (snd X) (Ef_der c v).
Proof.
  intros H (A & B). rewrite !(dot_voi _ _ _ (Em_voi _ _)), !(dot_voi _ _ _ (Ef_voi _ _)). f_equal.
  - apply work_E. exact A.
  - apply work_B; [exact B|apply Bt_sym|intros; apply Bt_rep; assumption].
Qed.
Lemma dot_vadd x y z : dot3 (vadd x y) z = dot3 x z + dot3 y z.
Proof. unfold dot3, vadd, sum3. ring. Qed.
Lemma stiff_rep c v u X Y T U : regular c -> res_rel X Y -> tan_rel T U ->
  Kstiff (rep c) (fst (fst U)) (snd (fst U)) (fst (snd U)) (snd (snd U)) (fst Y) (snd Y) (rep v) (rep u)
  = Kstiff c (fst (fst T)) (snd (fst T)) (fst (snd T)) (snd (snd T)) (fst X) (snd X) v u.
Proof.
  intros H (A & B) (TA & TB & TC & TD). unfold Kstiff. cbv zeta. rewrite !dot_vadd.
  rewrite !(form_eq _ _ _ _ _ (Em_voi _ _) (Em_voi _ _)), !(form_eq _ _ _ _ _ (Ef_voi _ _) (Em_voi _ _)), !(form_eq _ _ _ _ _ (Em_voi _ _) (Ef_voi _ _)), !(form_eq _ _ _ _ _ (Ef_voi _ _) (Ef_voi _ _)).
  rewrite !flatdot_work, !Ef2_work. rewrite (work_E _ _ v u A). rewrite (work_B (snd X) (snd Y) (B2t c v u) (B2t (rep c) (rep v) (rep u)) B (B2t_sym _ _ _)) by (intros; apply B2t_rep; assumption).
  assert (FA : formV (fst (fst U)) (Et (rep c) (rep v)) (Et (rep c) (rep u)) = formV (fst (fst T)) (Et c v) (Et c u)).
  { rewrite (formV_ext _ _ _ _ _ (Et_rep c v) (Et_rep c u)). apply TA; apply Et_sym. }
  assert (FB : formV (snd (fst U)) (Bt (rep c) (rep v)) (Et (rep c) (rep u)) = formV (snd (fst T)) (Bt c v) (Et c u)).
  { rewrite (formV_ext _ _ (fun i j => s * pullback2 P (Bt c v) i j) _ (fun i j => 1 * pullback2 P (Et c u) i j)); [|intros; apply Bt_rep; assumption|intros; rewrite Et_rep by assumption; ring].
    rewrite formV_scal, Rmult_1_r, <- formV_scalA. apply TB; [apply Bt_sym|apply Et_sym]. }
  assert (FC : formV (fst (snd U)) (Et (rep c) (rep v)) (Bt (rep c) (rep u)) = formV (fst (snd T)) (Et c v) (Bt c u)).
  { rewrite (formV_ext _ _ (fun i j => 1 * pullback2 P (Et c v) i j) _ (fun i j => s * pullback2 P (Bt c u) i j)); [|intros; rewrite Et_rep by assumption; ring|intros; apply Bt_rep; assumption].
    rewrite formV_scal, Rmult_1_l, <- formV_scalA. apply TC; [apply Et_sym|apply Bt_sym]. }
  assert (FD : formV (snd (snd U)) (Bt (rep c) (rep v)) (Bt (rep c) (rep u)) = formV (snd (snd T)) (Bt c v) (Bt c u)).
  { rewrite (formV_ext _ _ (fun i j => s * pullback2 P (Bt c v) i j) _ (fun i j => s * pullback2 P (Bt c u) i j)); [|intros; apply Bt_rep; assumption..].
    rewrite formV_scal, sq1, Rmult_1_l. apply TD; apply Bt_sym. }
  rewrite FA, FB, FC, FD. reflexivity.
Qed.
(* displacement fields *)
Lemma bvar_rep d p : bvar d (srepar P K p) = rep (bvar d p).
Proof.
  unfold bvar, srepar, jrepar. cbn [s0 s1 s2 s11 s22 s12 j0 j1 j2 j11 j22 j12].
  f_equal; extensionality i; unfold jrow, srow, vecFun, sum2; cbn [row_pair fst snd jdd sdd jcol sfst s1 s2 s11 s22 s12 j1 j2 j11 j22 j12]; destruct (Nat.eqb i d); ring.
Qed.
Lemma rep_add c v : rep (jadd c v) = jadd (rep c) (rep v).
Proof. unfold jadd, jrepar. cbn [j0 j1 j2 j11 j22 j12]. f_equal; extensionality i; unfold jrow, vadd, sum2; cbn [row_pair fst snd jdd jcol j1 j2 j11 j22 j12]; unfold vadd; ring. Qed.
Lemma rep_scal r c : rep (jscal r c) = jscal r (rep c).
Proof. unfold jscal, jrepar. cbn [j0 j1 j2 j11 j22 j12]. f_equal; extensionality i; unfold jrow, vscal, sum2; cbn [row_pair fst snd jdd jcol j1 j2 j11 j22 j12]; unfold vscal; ring. Qed.
Lemma rep_zero : rep jzero = jzero.
Proof. unfold jzero, jrepar. cbn [j0 j1 j2 j11 j22 j12]. f_equal; extensionality i; unfold jrow, vzero, sum2; cbn [row_pair fst snd jdd jcol j1 j2 j11 j22 j12]; unfold vzero; ring. Qed.
Lemma field_rep n bas bas' x : (forall i, bas' i = srepar P K (bas i)) -> fieldjet n bas' x = rep (fieldjet n bas x).
Proof.
  intro E. induction n as [|n IH]; cbn [fieldjet]; [symmetry; apply rep_zero|]. rewrite IH, E, !bvar_rep, !rep_add, !rep_scal. reflexivity.
Qed.
End Rep.
