(* Exchange of the parameter directions; walls symmetric about the middle surface. *)
From Coq Require Import Reals Lra Lia List Permutation FunctionalExtensionality.
From Coquelicot Require Import Coquelicot.
From Verif Require Import Tensor MetricSpec IntegrateModel KinModel KinSpec KinAsm KinProofs KinStiff KinLoads KinMore ObjSpec ObjProofs ObjAsm.
Import ListNotations.
Open Scope R_scope.

Lemma swap_cross u v : cross3 v u = fun i => - cross3 u v i.
Proof. extensionality i. destruct i as [|[|i]]; unfold cross3; ring. Qed.
Lemma dot_negl u v : dot3 (fun i => - u i) v = - dot3 u v.
Proof. unfold dot3, sum3; ring. Qed.
Lemma dot_negr u v : dot3 u (fun i => - v i) = - dot3 u v.
Proof. unfold dot3, sum3; ring. Qed.
Lemma swap_sq c : dot3 (cross3 (j1 (jswap c)) (j2 (jswap c))) (cross3 (j1 (jswap c)) (j2 (jswap c))) = dot3 (cross3 (j1 c) (j2 c)) (cross3 (j1 c) (j2 c)).
Proof. cbn [jswap j1 j2]. rewrite (swap_cross (j1 c) (j2 c)), dot_negl, dot_negr. ring. Qed.
Lemma swap_measure c : measure (jswap c) = measure c.
Proof. unfold measure, norm3. rewrite swap_sq. reflexivity. Qed.
Lemma swap_normal c : unormal (jswap c) = fun i => - unormal c i.
Proof.
  unfold unormal, normalize, norm3. rewrite swap_sq. cbn [jswap j1 j2]. rewrite (swap_cross (j1 c) (j2 c)). destruct (Rlt_dec _ _); [|reflexivity].
  extensionality i. unfold Rdiv. ring.
Qed.
Lemma swap_nrm c : nrm (jswap c) = fun i => - nrm c i.
Proof. unfold nrm. rewrite swap_sq. cbn [jswap j1 j2]. rewrite (swap_cross (j1 c) (j2 c)). extensionality i. unfold Rdiv. ring. Qed.
Lemma swap_sec c a : jsec (jswap c) a = jsec c (swi a).
Proof. destruct a as [|[|a]]; reflexivity. Qed.
Lemma swap_m c v : m_var (jswap c) (jswap v) = fun i => - m_var c v i.
Proof. unfold m_var. rewrite swap_measure. cbn [jswap j1 j2]. extensionality i. unfold Rdiv. ring. Qed.
Lemma swap_muv c u v : m_uv (jswap c) (jswap u) (jswap v) = fun i => - m_uv c u v i.
Proof. unfold m_uv. rewrite swap_measure. cbn [jswap j1 j2]. extensionality i. rewrite (swap_cross (j1 v) (j2 u)), (swap_cross (j1 u) (j2 v)). unfold Rdiv. ring. Qed.
Lemma swap_var1 c v : var1 (jswap c) (jswap v) = fun i => - var1 c v i.
Proof. unfold var1. rewrite swap_m, swap_normal. extensionality i. rewrite !outer_eq, dot_negl, dot_negr. ring. Qed.
Lemma swap_var2 c u v : var2 (jswap c) (jswap u) (jswap v) = fun i => - var2 c u v i.
Proof.
  unfold var2, var2_with. cbv zeta. rewrite !swap_m, swap_normal, swap_muv.
  extensionality i. rewrite !outer_eq, !dot_negl, !dot_negr.
  assert (A : forall n mv k, - mv k - outer_apply (fun i => - n i) (fun i => - mv i) k = - (mv k - outer_apply n mv k)).
  { intros n mv k. rewrite !outer_eq, dot_negl, dot_negr. ring. }
  assert (B : dot3 (m_var c u) (fun i0 : nat => - m_var c v i0 - outer_apply (fun i1 : nat => - unormal c i1) (fun i1 : nat => - m_var c v i1) i0)
     = - dot3 (m_var c u) (fun i => m_var c v i - outer_apply (unormal c) (m_var c v) i)).
  { rewrite <- dot_negr. apply dot_ext3. reflexivity. intros k _. apply A. }
  assert (D : dot3 (unormal c) (fun i0 : nat => - m_uv c u v i0 - - - dot3 (unormal c) (m_var c v) * - m_var c u i0)
     = - dot3 (unormal c) (fun i => m_uv c u v i - dot3 (unormal c) (m_var c v) * m_var c u i)).
  { set (h := dot3 (unormal c) (m_var c v)). unfold dot3, sum3. ring. }
  rewrite B, D. ring.
Qed.
Lemma swap_Em c v a : (a < 3)%nat -> Em_der (jswap c) (jswap v) a = Em_der c v (swi a).
Proof. intro Ha. destruct a as [|[|[|a]]]; [| | |lia]; unfold Em_der, jswap; simpl; ring. Qed.
Lemma swap_Ef c v a : (a < 3)%nat -> Ef_der (jswap c) (jswap v) a = - Ef_der c v (swi a).
Proof.
  intro Ha. unfold Ef_der, mult2, deriv2_map. rewrite swap_normal, swap_var1.
  destruct a as [|[|[|a]]]; [| | |lia]; rewrite !swap_sec; cbn [swi]; rewrite !dot_negl; ring.
Qed.
Lemma swap_flat v u N N' : (forall a, (a < 3)%nat -> N' a = N (swi a)) -> flatdot (jswap v) (jswap u) N' = flatdot v u N.
Proof. intro H. unfold flatdot, jswap. cbn [j1 j2]. rewrite !H by lia. cbn [swi]. ring. Qed.
Lemma swap_Ef2 c v u M M' : (forall a, (a < 3)%nat -> M' a = - M (swi a)) -> Ef_der2 (jswap c) (jswap v) (jswap u) M' = Ef_der2 c v u M.
Proof.
  intro H. unfold Ef_der2, flatdot2, var2deriv2dot. rewrite !dot_curv, !dot_mult2, !swap_var1, !swap_var2, !swap_sec, !dot_negr, !H by lia. cbn [swi]. ring.
Qed.
Lemma swap_dot x y x' y' s : (forall a, (a < 3)%nat -> x' a = s * x (swi a)) -> (forall a, (a < 3)%nat -> y' a = s * y (swi a)) -> s * s = 1 -> dot3 x' y' = dot3 x y.
Proof.
  intros X Y S. unfold dot3, sum3. rewrite !X, !Y by lia. cbn [swi].
  transitivity (s * s * (x 0%nat * y 0%nat + x 1%nat * y 1%nat + x 2%nat * y 2%nat)). ring. rewrite S. ring.
Qed.
Lemma swap_Fint c v N M N' M' : (forall a, (a < 3)%nat -> N' a = N (swi a)) -> (forall a, (a < 3)%nat -> M' a = - M (swi a)) ->
  Fint (jswap c) N' M' (jswap v) = Fint c N M v.
Proof.
  intros HN HM. unfold Fint. f_equal.
  - apply (swap_dot _ _ _ _ 1); [| |ring]; intros a Ha. rewrite HN by exact Ha; ring. rewrite swap_Em by exact Ha; ring.
  - apply (swap_dot _ _ _ _ (-1)); [| |ring]; intros a Ha. rewrite HM by exact Ha; ring. rewrite swap_Ef by exact Ha; ring.
Qed.
Lemma swap_row x x' A A' s r b : (forall a, (a < 3)%nat -> x' a = s * x (swi a)) -> (forall a b, (a < 3)%nat -> (b < 3)%nat -> A' a b = r * A (swi a) (swi b)) -> (b < 3)%nat ->
  rowmat x' A' b = s * r * rowmat x A (swi b).
Proof. intros X H Hb. unfold rowmat, sum3. rewrite !X, !H by lia. cbn [swi]. ring. Qed.
Lemma swap_Kstiff c v u A B C D N M A' B' C' D' N' M' :
  (forall a b, (a < 3)%nat -> (b < 3)%nat -> A' a b = A (swi a) (swi b)) -> (forall a b, (a < 3)%nat -> (b < 3)%nat -> B' a b = - B (swi a) (swi b)) ->
  (forall a b, (a < 3)%nat -> (b < 3)%nat -> C' a b = - C (swi a) (swi b)) -> (forall a b, (a < 3)%nat -> (b < 3)%nat -> D' a b = D (swi a) (swi b)) ->
  (forall a, (a < 3)%nat -> N' a = N (swi a)) -> (forall a, (a < 3)%nat -> M' a = - M (swi a)) ->
  Kstiff (jswap c) A' B' C' D' N' M' (jswap v) (jswap u) = Kstiff c A B C D N M v u.
Proof.
  intros HA HB HC HD HN HM. unfold Kstiff. cbv zeta. rewrite (swap_flat v u N N' HN), (swap_Ef2 c v u M M' HM).
  assert (EV : forall a, (a < 3)%nat -> Em_der (jswap c) (jswap v) a = 1 * Em_der c v (swi a)) by (intros; rewrite swap_Em by assumption; ring).
  assert (FV : forall a, (a < 3)%nat -> Ef_der (jswap c) (jswap v) a = -1 * Ef_der c v (swi a)) by (intros; rewrite swap_Ef by assumption; ring).
  apply f_equal2; [apply f_equal2; [apply f_equal2; [|reflexivity]|]|reflexivity].
  - apply (swap_dot _ _ _ _ 1); [| |ring]; intros a Ha; [|rewrite swap_Em by exact Ha; ring]. unfold vadd.
    rewrite (swap_row _ _ A A' 1 1 a EV) by (assumption || (intros; rewrite HA by assumption; ring)).
    rewrite (swap_row _ _ B B' (-1) (-1) a FV) by (assumption || (intros; rewrite HB by assumption; ring)). ring.
  - apply (swap_dot _ _ _ _ (-1)); [| |ring]; intros a Ha; [|rewrite swap_Ef by exact Ha; ring]. unfold vadd.
    rewrite (swap_row _ _ C C' 1 (-1) a EV) by (assumption || (intros; rewrite HC by assumption; ring)).
    rewrite (swap_row _ _ D D' (-1) 1 a FV) by (assumption || (intros; rewrite HD by assumption; ring)). ring.
Qed.

Lemma swap_field n bas bas' x : (forall i, bas' i = sswap (bas i)) -> fieldjet n bas' x = jswap (fieldjet n bas x).
Proof. intro H. induction n; simpl. reflexivity. rewrite IHn, H. reflexivity. Qed.
Lemma swap_def n q q' x : swapped q q' -> qdef n q' x = jswap (qdef n q x).
Proof. intros (_ & B & G & _). unfold qdef. rewrite G, (swap_field n (qbas q) (qbas q') x B). reflexivity. Qed.
Lemma swap_curv c a : curvature (jswap c) a = - curvature c (swi a).
Proof. unfold curvature. rewrite swap_sec, swap_nrm, dot_negr. reflexivity. Qed.
Lemma swap_qem n q q' x a : swapped q q' -> (a < 3)%nat -> qem n q' x a = qem n q x (swi a).
Proof.
  intros S Ha. unfold qem. rewrite (swap_def n q q' x S). destruct S as (_ & _ & G & _). rewrite G.
  destruct a as [|[|[|a]]]; [| | |lia]; unfold mem_strain, jswap; cbn [swi j1 j2]; try reflexivity. rewrite (dot_comm (j2 _) (j1 _)), (dot_comm (j2 (qori q)) (j1 _)). reflexivity.
Qed.
Lemma swap_qef n q q' x a : swapped q q' -> (a < 3)%nat -> qef n q' x a = - qef n q x (swi a).
Proof.
  intros S Ha. unfold qef. rewrite (swap_def n q q' x S). destruct S as (_ & _ & G & _). rewrite G.
  destruct a as [|[|[|a]]]; [| | |lia]; unfold bend_strain; rewrite !swap_curv; cbn [swi]; ring.
Qed.
Lemma swap_response n q q' x : swapped q q' -> wall_symmetric q -> forall a, (a < 3)%nat ->
  qN q' (qem n q' x) (qef n q' x) a = qN q (qem n q x) (qef n q x) (swi a) /\ qM q' (qem n q' x) (qef n q' x) a = - qM q (qem n q x) (qef n q x) (swi a) /\ forall b, (b < 3)%nat ->
    qA q' (qem n q' x) (qef n q' x) a b = qA q (qem n q x) (qef n q x) (swi a) (swi b) /\ qB q' (qem n q' x) (qef n q' x) a b = - qB q (qem n q x) (qef n q x) (swi a) (swi b) /\
    qC q' (qem n q' x) (qef n q' x) a b = - qC q (qem n q x) (qef n q x) (swi a) (swi b) /\ qD q' (qem n q' x) (qef n q' x) a b = qD q (qem n q x) (qef n q x) (swi a) (swi b).
Proof.
  intros S W a Ha. pose (f := fun a => - qef n q x a).
  assert (SW : (swi a < 3)%nat) by (destruct a as [|[|[|a]]]; simpl; lia).
  assert (P := proj2 (proj2 (proj2 S)) (qem n q x) f (qem n q' x) (qef n q' x)).
  destruct P with (a := a) as (PN & PM & PT); [intros c Hc; split; [apply (swap_qem n q q' x c S Hc)|apply (swap_qef n q q' x c S Hc)]|exact Ha|].
  destruct (W (qem n q x) (qef n q x) f (fun _ _ => eq_refl) (swi a) SW) as (WN & WM & WT).
  split; [rewrite PN; exact WN|split; [rewrite PM; exact WM|]].
  intros b Hb. assert (SB : (swi b < 3)%nat) by (destruct b as [|[|[|b]]]; simpl; lia).
  destruct (PT b Hb) as (TA & TB & TC & TD). destruct (WT (swi b) SB) as (UA & UB & UC & UD).
  rewrite TA, TB, TC, TD. auto.
Qed.
Lemma swap_force n pts pts' x i d : (d < 3)%nat -> Forall2 swapped pts pts' -> (forall q, In q pts -> wall_symmetric q) ->
  Fvec n pts' x i d = Fvec n pts x i d.
Proof.
  intros Hd S W. unfold Fvec. induction S as [|q q' l l' S F IH]; cbn [psum]. reflexivity.
  rewrite IH by (intros; apply W; right; assumption). f_equal.
  rewrite (Fpt n x q' d i Hd), (Fpt n x q d i Hd), (swap_def n q q' x S).
  assert (R := swap_response n q q' x S (W q (or_introl eq_refl))). destruct S as (E & B & _). rewrite E, B. f_equal.
  apply (swap_Fint (qdef n q x) (bvar d (qbas q i))); intros a Ha; apply (R a Ha).
Qed.
Lemma swap_stiff n pts pts' x i d j e : (d < 3)%nat -> (e < 3)%nat -> Forall2 swapped pts pts' -> (forall q, In q pts -> wall_symmetric q) ->
  Kmat n pts' x i d j e = Kmat n pts x i d j e.
Proof.
  intros Hd He S W. unfold Kmat. induction S as [|q q' l l' S F IH]; cbn [psum]. reflexivity.
  rewrite IH by (intros; apply W; right; assumption). f_equal.
  rewrite !Kpt by assumption. rewrite (swap_def n q q' x S).
  assert (R := swap_response n q q' x S (W q (or_introl eq_refl))). destruct S as (E & B & _). rewrite E, !B. f_equal.
  apply (swap_Kstiff (qdef n q x) (bvar d (qbas q i)) (bvar e (qbas q j))); intros a; try (intros b Ha Hb; apply (R a Ha); exact Hb); intro Ha; apply (R a Ha).
Qed.
Lemma swap_press p c d b : Fpress p (jswap c) (bvar d (sswap b)) = - Fpress p c (bvar d b).
Proof. unfold Fpress. rewrite swap_normal, dot_negr. cbn [bvar sswap j0 s0]. ring. Qed.

(* ---------------------------------------------------------------- integrated walls *)
Definition neg_rule (q : rule) : rule := map (fun p => (fst p, - snd p)) q.
Lemma int_perm q q' t m f : Permutation q q' -> integrateZ q t m f = integrateZ q' t m f.
Proof. intro H. induction H as [|[w z] l l' H IH|[w z] [w' z'] l|l l' l'' H1 IH1 H2 IH2]; simpl; [reflexivity|rewrite IH; reflexivity|ring|congruence]. Qed.
Lemma int_neg q t m f : integrateZ (neg_rule q) t m (fun z => f (- z)) = (-1) ^ m * integrateZ q t m f.
Proof.
  induction q as [|[w z] q IH]; simpl. ring. fold (neg_rule q). rewrite IH, Ropp_involutive.
  replace (- z * t) with (-1 * (z * t)) by ring. rewrite Rpow_mult_distr. ring.
Qed.
Lemma int_ext q t m f g : (forall z, f z = g z) -> integrateZ q t m f = integrateZ q t m g.
Proof. intro H. induction q as [|[w z] q IH]; simpl. reflexivity. rewrite H, IH. reflexivity. Qed.
Lemma int_sym q t m f g : Permutation q (neg_rule q) -> (forall z, g z = f (- z)) -> integrateZ q t m g = (-1) ^ m * integrateZ q t m f.
Proof. intros P H. rewrite (int_perm q (neg_rule q) t m g P). rewrite (int_ext _ t m g (fun z => f (- z)) H). apply int_neg. Qed.
Definition int_point (w : R) (bas : nat -> sjet) (ori : jet) (q : rule) (t : R) (S : R -> vec -> vec) (T : R -> vec -> mat) : qpoint :=
  mkq w bas ori (res_vec q t 0 S) (res_vec q t 1 S) (res_mat q t 0 T) (res_mat q t 1 T) (res_mat q t 1 T) (res_mat q t 2 T).
Definition law_local (S : R -> vec -> vec) (T : R -> vec -> mat) : Prop := forall z e e' a, (forall b, (b < 3)%nat -> e b = e' b) -> (a < 3)%nat ->
  S z e a = S (- z) e' a /\ forall b, (b < 3)%nat -> T z e a b = T (- z) e' a b.
Lemma int_wall w bas ori q t S T : Permutation q (neg_rule q) -> law_local S T -> wall_symmetric (int_point w bas ori q t S T).
Proof.
  intros P L e f f' H a Ha. cbn [int_point qN qM qA qB qC qD].
  assert (K : forall z b, (b < 3)%nat -> kl_at t z e f' b = kl_at t (- z) e f b) by (intros; unfold kl_at; rewrite H by assumption; ring).
  assert (R : forall m, res_vec q t m S e f' a = (-1) ^ m * res_vec q t m S e f a).
  { intro m. unfold res_vec. apply (int_sym q t m (fun z => S z (kl_at t z e f) a) _ P). intro z. apply (L z _ _ a (K z) Ha). }
  assert (M : forall m b, (b < 3)%nat -> res_mat q t m T e f' a b = (-1) ^ m * res_mat q t m T e f a b).
  { intros m b Hb. unfold res_mat. apply (int_sym q t m (fun z => T z (kl_at t z e f) a b) _ P). intro z. apply (L z _ _ a (K z) Ha). exact Hb. }
  split; [rewrite R; simpl; ring|split; [rewrite R; simpl; ring|]]. intros b Hb. rewrite !M by exact Hb. simpl. repeat split; ring.
Qed.
