(* Strain variations, stiffness = linearisation of the internal force, symmetry, loads and couplings. *)
From Coq Require Import Reals Lra Lia List Arith Psatz FunctionalExtensionality.
From Coquelicot Require Import Coquelicot.
From Verif Require Import Tensor KinModel KinSpec KinAsm KinProofs.
Import ListNotations.
Open Scope R_scope.

Ltac dsum := unfold dot3, sum3.

Lemma dot_comm : forall u v, dot3 u v = dot3 v u.
Proof. intros. dsum. ring. Qed.

(* ---------------------------------------------------------------- first variations of the strains *)
Lemma mem_path : forall ori g t v, jpath g t v -> is_dvec (fun s => mem_strain ori (g s)) t (Em_der (g t) v).
Proof.
  intros ori g t v (_ & H1 & H2 & _) a Ha.
  assert (D11 := d_dot _ _ t _ _ H1 H1). assert (D22 := d_dot _ _ t _ _ H2 H2). assert (D12 := d_dot _ _ t _ _ H1 H2).
  destruct a as [|[|[|a]]]; [| | |exfalso; lia]; unfold mem_strain, Em_der.
  - evar_last. apply (d_div (fun s => dot3 (j1 (g s)) (j1 (g s)) - dot3 (j1 ori) (j1 ori)) (fun _ => 2)). lra.
    apply (d_minus (fun s => dot3 (j1 (g s)) (j1 (g s))) (fun _ => dot3 (j1 ori) (j1 ori))); [exact D11|apply d_const]. apply d_const.
    cbv beta. rewrite (dot_comm (j1 v)). field.
  - evar_last. apply (d_div (fun s => dot3 (j2 (g s)) (j2 (g s)) - dot3 (j2 ori) (j2 ori)) (fun _ => 2)). lra.
    apply (d_minus (fun s => dot3 (j2 (g s)) (j2 (g s))) (fun _ => dot3 (j2 ori) (j2 ori))); [exact D22|apply d_const]. apply d_const.
    cbv beta. rewrite (dot_comm (j2 v)). field.
  - evar_last. apply (d_minus (fun s => dot3 (j1 (g s)) (j2 (g s))) (fun _ => dot3 (j1 ori) (j2 ori))); [exact D12|apply d_const].
    cbv beta. rewrite (dot_comm (j1 v)). ring.
Qed.

Lemma curv_path : forall g t v a, jpath g t v -> regular (g t) ->
  is_derive (fun s => curvature (g s) a) t (deriv2_map v (unormal (g t)) a + deriv2_map (g t) (var1 (g t) v) a).
Proof.
  intros g t v a J P. assert (N := normal_path g t v J P). destruct J as (H0 & H1 & H2 & Hs).
  assert (L : locally t (fun s => regular (g s))).
  { apply (loc_pos (fun s => dot3 (cross3 (j1 (g s)) (j2 (g s))) (cross3 (j1 (g s)) (j2 (g s)))) t _
            (d_dot _ _ t _ _ (dv_cross _ _ t _ _ H1 H2) (dv_cross _ _ t _ _ H1 H2)) P). }
  unfold curvature.
  apply (is_derive_ext_loc (fun s => dot3 (jsec (g s) a) (unormal (g s)))).
  - revert L. apply filter_imp. intros s R. rewrite unormal_nrm by exact R. reflexivity.
  - evar_last. apply d_dot. apply Hs. exact N. cbv beta. unfold deriv2_map. rewrite (dot_comm (jsec v a)), (dot_comm (jsec (g t) a)). reflexivity.
Qed.

Lemma bend_path : forall ori g t v, jpath g t v -> regular (g t) -> is_dvec (fun s => bend_strain ori (g s)) t (Ef_der (g t) v).
Proof.
  intros ori g t v J P a Ha.
  destruct a as [|[|[|a]]]; [| | |exfalso; lia]; unfold bend_strain, Ef_der, mult2.
  - evar_last. apply (d_minus (fun _ => curvature ori 0) (fun s => curvature (g s) 0)); [apply d_const|exact (curv_path g t v 0 J P)]. ring.
  - evar_last. apply (d_minus (fun _ => curvature ori 1) (fun s => curvature (g s) 1)); [apply d_const|exact (curv_path g t v 1 J P)]. ring.
  - evar_last. apply d_cmul. apply (d_minus (fun _ => curvature ori 2) (fun s => curvature (g s) 2)); [apply d_const|exact (curv_path g t v 2 J P)]. cbv beta. ring.
Qed.

(* dof version = field version for the field p e_d *)
Lemma vecFun_dot : forall d x n, (d < 3)%nat -> dot3 n (vecFun d x) = x * n d.
Proof. intros d x n H. destruct d as [|[|[|d]]]; [| | |exfalso; lia]; unfold vecFun, dot3, sum3; simpl; ring. Qed.
Lemma Ef_dof : forall c d p a, (d < 3)%nat -> Ef_der_dof c d p a = Ef_der c (bvar d p) a.
Proof.
  intros c d p a H. unfold Ef_der_dof, Ef_der, mult2, deriv2_space, deriv2_map.
  assert (E : forall a, ssec p a * unormal c d = dot3 (unormal c) (jsec (bvar d p) a)).
  { intros [|[|b]]; unfold ssec, jsec, bvar; simpl; rewrite vecFun_dot by exact H; reflexivity. }
  destruct a as [|[|[|a]]]; rewrite E; reflexivity.
Qed.
Lemma Ef_dof_ext : forall c d p, (d < 3)%nat -> Ef_der_dof c d p = Ef_der c (bvar d p).
Proof. intros. extensionality a. apply Ef_dof. assumption. Qed.

(* ---------------------------------------------------------------- second variations of the strains *)
Lemma Em_der_path : forall g t u v a, (a < 3)%nat -> jpath g t u ->
  is_derive (fun s => Em_der (g s) v a) t (Em_der u v a).
Proof.
  intros g t u v a Ha (_ & H1 & H2 & _).
  assert (K : forall w z f, is_dvec f t z -> is_derive (fun s => dot3 (f s) w) t (dot3 z w)).
  { intros w z f F. evar_last. apply d_dot. exact F. apply (dv_const w t). dsum. unfold vzero. ring. }
  destruct a as [|[|[|a]]]; [| | |exfalso; lia]; unfold Em_der.
  - apply (K _ _ (fun s => j1 (g s)) H1).
  - apply (K _ _ (fun s => j2 (g s)) H2).
  - apply (d_plus (fun s => dot3 (j1 (g s)) (j2 v)) (fun s => dot3 (j2 (g s)) (j1 v)));
    [apply (K _ _ (fun s => j1 (g s)) H1)|apply (K _ _ (fun s => j2 (g s)) H2)].
Qed.

Lemma Ef_der_path : forall g t u v a, (a < 3)%nat -> jpath g t u -> regular (g t) ->
  is_derive (fun s => Ef_der (g s) v a) t
    (mult2 (fun a => - (dot3 (jsec v a) (var1 (g t) u) + dot3 (jsec u a) (var1 (g t) v) + dot3 (jsec (g t) a) (var2 (g t) v u))) a).
Proof.
  intros g t u v a Ha J P.
  assert (N := normal_path g t u J P). assert (V := var1_path g t u v J P). destruct J as (H0 & H1 & H2 & Hs).
  assert (K : forall b, is_derive (fun s => - (deriv2_map v (unormal (g s)) b + deriv2_map (g s) (var1 (g s) v) b)) t
     (- (dot3 (jsec v b) (var1 (g t) u) + dot3 (jsec u b) (var1 (g t) v) + dot3 (jsec (g t) b) (var2 (g t) v u)))).
  { intro b. unfold deriv2_map. evar_last. apply d_opp.
    apply (d_plus (fun s => dot3 (unormal (g s)) (jsec v b)) (fun s => dot3 (var1 (g s) v) (jsec (g s) b))).
    apply d_dot; [exact N|apply (dv_const (jsec v b) t)]. apply d_dot; [exact V|apply Hs].
    cbv beta. dsum. unfold vzero. ring. }
  destruct a as [|[|[|a]]]; [| | |exfalso; lia]; unfold Ef_der, mult2.
  - apply K. - apply K.
  - evar_last. apply (d_mult (fun s => - (deriv2_map v (unormal (g s)) 2%nat + deriv2_map (g s) (var1 (g s) v) 2%nat)) (fun _ => 2)); [apply K|apply d_const]. cbv beta. ring.
Qed.

Lemma Em2_flatdot : forall u v N, dot3 N (Em_der u v) = flatdot v u N.
Proof. intros. unfold Em_der, flatdot. rewrite (dot_comm (j1 u) (j1 v)), (dot_comm (j2 u) (j2 v)), (dot_comm (j1 u) (j2 v)), (dot_comm (j2 u) (j1 v)). unfold dot3 at 1, sum3 at 1. ring. Qed.

Lemma dot_mult2 : forall M x, dot3 M (mult2 x) = M 0%nat * x 0%nat + M 1%nat * x 1%nat + M 2%nat * (x 2%nat * 2).
Proof. reflexivity. Qed.
Lemma dot_curv : forall M c w, dot3 M (curv_of c w) = dot3 M (mult2 (fun a => dot3 (jsec c a) w)).
Proof. reflexivity. Qed.
Lemma Ef2_eq : forall c u v M,
  dot3 M (mult2 (fun a => - (dot3 (jsec v a) (var1 c u) + dot3 (jsec u a) (var1 c v) + dot3 (jsec c a) (var2 c v u)))) = Ef_der2 c v u M.
Proof.
  intros. unfold Ef_der2, flatdot2, var2deriv2dot. rewrite dot_curv, !dot_mult2. ring.
Qed.

(* ---------------------------------------------------------------- stiffness = derivative of the internal force *)
Section stiff.
Variable ori : jet.
Variables N M : vec -> vec -> vec.
Variables A B C D : vec -> vec -> mat.
Hypothesis HN : has_tangents N A C.
Hypothesis HM : has_tangents M B D.

Lemma Fint_path : forall g u v, jpath g 0 u -> regular (g 0) ->
  let e := fun s => mem_strain ori (g s) in let f := fun s => bend_strain ori (g s) in
  is_derive (fun s => Fint (g s) (N (e s) (f s)) (M (e s) (f s)) v) 0
    (Kstiff (g 0) (A (e 0) (f 0)) (B (e 0) (f 0)) (C (e 0) (f 0)) (D (e 0) (f 0)) (N (e 0) (f 0)) (M (e 0) (f 0)) v u).
Proof.
  intros g u v J P e f.
  assert (DE : is_dvec e 0 (Em_der (g 0) u)) by (apply mem_path; exact J).
  assert (DF : is_dvec f 0 (Ef_der (g 0) u)) by (apply bend_path; assumption).
  assert (TN := HN e f _ _ DE DF). assert (TM := HM e f _ _ DE DF).
  unfold Fint.
  evar_last.
  apply (d_plus (fun s => dot3 (N (e s) (f s)) (Em_der (g s) v)) (fun s => dot3 (M (e s) (f s)) (Ef_der (g s) v))).
  - apply (d_dot (fun s => N (e s) (f s)) (fun s => Em_der (g s) v) 0
      (fun a => sum3 (fun b => A (e 0) (f 0) a b * Em_der (g 0) u b) + sum3 (fun b => C (e 0) (f 0) a b * Ef_der (g 0) u b)) (Em_der u v)).
    exact TN. intros a Ha. apply Em_der_path; assumption.
  - apply (d_dot (fun s => M (e s) (f s)) (fun s => Ef_der (g s) v) 0
      (fun a => sum3 (fun b => B (e 0) (f 0) a b * Em_der (g 0) u b) + sum3 (fun b => D (e 0) (f 0) a b * Ef_der (g 0) u b))).
    exact TM. intros a Ha. apply (Ef_der_path g 0 u v a Ha J P).
  - cbv beta. rewrite (Em2_flatdot u v). rewrite Ef2_eq. unfold Kstiff. cbv zeta.
    set (q1 := flatdot v u (N (e 0) (f 0))). set (q2 := Ef_der2 (g 0) v u (M (e 0) (f 0))).
    set (a := A (e 0) (f 0)). set (b := B (e 0) (f 0)). set (c := C (e 0) (f 0)). set (d := D (e 0) (f 0)).
    set (mv := Em_der (g 0) v). set (mu := Em_der (g 0) u). set (fv := Ef_der (g 0) v). set (fu := Ef_der (g 0) u).
    clearbody q1 q2 a b c d mv mu fv fu. unfold vadd, rowmat, dot3, sum3. ring.
Qed.
End stiff.

(* ---------------------------------------------------------------- linearity in the trial field *)
Definition linj (F : jet -> R) : Prop :=
  (forall a b, F (jadd a b) = F a + F b) /\ (forall s a, F (jscal s a) = s * F a).

Lemma jscal0 : jscal 0 jzero = jzero.
Proof. unfold jscal, jzero, vscal, vzero. simpl. f_equal; extensionality i; ring. Qed.
Lemma linj_zero : forall F, linj F -> F jzero = 0.
Proof. intros F [_ H]. rewrite <- jscal0, H. ring. Qed.

Lemma m_add : forall c a b, m_var c (jadd a b) = vadd (m_var c a) (m_var c b).
Proof. intros. extensionality i. unfold m_var, vadd, jadd, cross3; simpl; destruct i as [|[|i]]; unfold vadd, Rdiv; ring. Qed.
Lemma m_scal : forall c s a, m_var c (jscal s a) = vscal s (m_var c a).
Proof. intros. extensionality i. unfold m_var, vscal, jscal, cross3; simpl; destruct i as [|[|i]]; unfold vscal, Rdiv; ring. Qed.
Lemma muv_add : forall c v a b, m_uv c v (jadd a b) = vadd (m_uv c v a) (m_uv c v b).
Proof. intros. extensionality i. unfold m_uv, vadd, jadd, cross3; simpl; destruct i as [|[|i]]; unfold vadd, Rdiv; ring. Qed.
Lemma muv_scal : forall c v s a, m_uv c v (jscal s a) = vscal s (m_uv c v a).
Proof. intros. extensionality i. unfold m_uv, vscal, jscal, cross3; simpl; destruct i as [|[|i]]; unfold vscal, Rdiv; ring. Qed.
Lemma var1_add : forall c a b, var1 c (jadd a b) = vadd (var1 c a) (var1 c b).
Proof. intros. extensionality i. unfold var1. rewrite m_add. unfold vadd, outer_apply, sum3. ring. Qed.
Lemma var1_scal : forall c s a, var1 c (jscal s a) = vscal s (var1 c a).
Proof. intros. extensionality i. unfold var1. rewrite m_scal. unfold vscal, outer_apply, sum3. ring. Qed.
Lemma var2_add : forall c v a b, var2 c v (jadd a b) = vadd (var2 c v a) (var2 c v b).
Proof. intros. extensionality i. unfold var2, var2_with. cbv zeta. rewrite m_add, muv_add. unfold vadd, outer_apply, dot3, sum3. ring. Qed.
Lemma var2_scal : forall c v s a, var2 c v (jscal s a) = vscal s (var2 c v a).
Proof. intros. extensionality i. unfold var2, var2_with. cbv zeta. rewrite m_scal, muv_scal. unfold vscal, outer_apply, dot3, sum3. ring. Qed.
Lemma jsec_add : forall a b k, jsec (jadd a b) k = vadd (jsec a k) (jsec b k).
Proof. intros. destruct k as [|[|k]]; reflexivity. Qed.
Lemma jsec_scal : forall s a k, jsec (jscal s a) k = vscal s (jsec a k).
Proof. intros. destruct k as [|[|k]]; reflexivity. Qed.
Lemma dot_add : forall x u v, dot3 x (vadd u v) = dot3 x u + dot3 x v.
Proof. intros. unfold vadd. dsum. ring. Qed.
Lemma dot_addl : forall x u v, dot3 (vadd u v) x = dot3 u x + dot3 v x.
Proof. intros. unfold vadd. dsum. ring. Qed.
Lemma dot_scal : forall x s u, dot3 x (vscal s u) = s * dot3 x u.
Proof. intros. unfold vscal. dsum. ring. Qed.
Lemma dot_scall : forall x s u, dot3 (vscal s u) x = s * dot3 u x.
Proof. intros. unfold vscal. dsum. ring. Qed.
Lemma Em_add : forall c a b, Em_der c (jadd a b) = vadd (Em_der c a) (Em_der c b).
Proof. intros. extensionality k. unfold vadd at 1. destruct k as [|[|k]]; unfold Em_der, jadd; simpl; rewrite ?dot_add; ring. Qed.
Lemma Em_scal : forall c s a, Em_der c (jscal s a) = vscal s (Em_der c a).
Proof. intros. extensionality k. unfold vscal at 1. destruct k as [|[|k]]; unfold Em_der, jscal; simpl; rewrite ?dot_scal; ring. Qed.
Lemma Ef_add : forall c a b, Ef_der c (jadd a b) = vadd (Ef_der c a) (Ef_der c b).
Proof.
  intros. extensionality k. unfold vadd at 1. unfold Ef_der, mult2, deriv2_map. rewrite var1_add.
  destruct k as [|[|[|k]]]; rewrite jsec_add, dot_add, dot_addl; ring.
Qed.
Lemma Ef_scal : forall c s a, Ef_der c (jscal s a) = vscal s (Ef_der c a).
Proof.
  intros. extensionality k. unfold vscal at 1. unfold Ef_der, mult2, deriv2_map. rewrite var1_scal.
  destruct k as [|[|[|k]]]; rewrite jsec_scal, dot_scal, dot_scall; ring.
Qed.

Lemma lin_Fint : forall c N M, linj (Fint c N M).
Proof. intros. split; intros; unfold Fint; [rewrite Em_add, Ef_add, !dot_add | rewrite Em_scal, Ef_scal, !dot_scal]; ring. Qed.

Lemma lin_Kstiff : forall c A B C D N M v, linj (Kstiff c A B C D N M v).
Proof.
  intros. split; intros; unfold Kstiff, flatdot, Ef_der2, flatdot2, var2deriv2dot; cbv zeta.
  - rewrite Em_add, Ef_add, var1_add, var2_add, !dot_curv, !dot_mult2, !dot_add, !jsec_add, !dot_addl.
    unfold jadd; simpl. rewrite !dot_add. ring.
  - rewrite Em_scal, Ef_scal, var1_scal, var2_scal, !dot_curv, !dot_mult2, !dot_scal, !jsec_scal, !dot_scall.
    unfold jscal; simpl. rewrite !dot_scal. ring.
Qed.

Lemma lin_field : forall F n bas x, linj F ->
  F (fieldjet n bas x) = rsum n (fun j => sum3 (fun e => F (bvar e (bas j)) * x j e)).
Proof.
  intros F n bas x L. induction n.
  - simpl. apply linj_zero. exact L.
  - destruct L as [La Ls]. simpl. rewrite !La, !Ls, IHn. unfold sum3. ring.
Qed.

(* ---------------------------------------------------------------- the assembled system *)
Lemma rsum_ext : forall n f g, (forall i, (i < n)%nat -> f i = g i) -> rsum n f = rsum n g.
Proof. induction n; intros; simpl. reflexivity. rewrite (IHn f g) by (intros; apply H; lia). rewrite H by lia. reflexivity. Qed.
Lemma rsum_plus : forall n f g, rsum n (fun i => f i + g i) = rsum n f + rsum n g.
Proof. induction n; intros; simpl. ring. rewrite IHn. ring. Qed.
Lemma rsum_scal : forall n c f, rsum n (fun i => c * f i) = c * rsum n f.
Proof. induction n; intros; simpl. ring. rewrite IHn. ring. Qed.
Lemma rsum_zero : forall n f, (forall i, (i < n)%nat -> f i = 0) -> rsum n f = 0.
Proof. induction n; intros f H; simpl. reflexivity. rewrite IHn by (intros; apply H; lia). rewrite H by lia. ring. Qed.
Lemma psum_derive : forall (l : list qpoint) (f : R -> qpoint -> R) (d : qpoint -> R) t,
  (forall q, In q l -> is_derive (fun s => f s q) t (d q)) -> is_derive (fun s => psum l (f s)) t (psum l d).
Proof.
  induction l; intros f d t H; simpl. apply d_const.
  apply (d_plus (fun s => f s a) (fun s => psum l (f s))). apply H; left; reflexivity. apply IHl. intros; apply H; right; assumption.
Qed.

Lemma field_path : forall n bas x y t, jpath (fun s => fieldjet n bas (cmove x y s)) t (fieldjet n bas y).
Proof.
  intros. assert (E : forall (P : jet -> vec), (forall a b, P (jadd a b) = vadd (P a) (P b)) -> (forall s a, P (jscal s a) = vscal s (P a)) ->
     P jzero = vzero ->
     is_dvec (fun s => P (fieldjet n bas (cmove x y s))) t (P (fieldjet n bas y))).
  { intros P Pa Ps Pz. induction n; intros i Hi.
    - simpl. rewrite Pz. apply d_const.
    - simpl. apply (is_derive_ext (fun s => P (fieldjet n bas (cmove x y s)) i + ((x n 0%nat + s * y n 0%nat) * P (bvar 0 (bas n)) i
          + ((x n 1%nat + s * y n 1%nat) * P (bvar 1 (bas n)) i + (x n 2%nat + s * y n 2%nat) * P (bvar 2 (bas n)) i)))).
      { intro s. rewrite !Pa, !Ps. unfold vadd, vscal, cmove. reflexivity. }
      evar_last. apply (d_plus (fun s => P (fieldjet n bas (cmove x y s)) i)). apply IHn; exact Hi.
      apply (d_plus (fun s => (x n 0%nat + s * y n 0%nat) * P (bvar 0 (bas n)) i)).
      apply (d_mult (fun s => x n 0%nat + s * y n 0%nat) (fun _ => P (bvar 0 (bas n)) i)); [apply d_line|apply d_const].
      apply (d_plus (fun s => (x n 1%nat + s * y n 1%nat) * P (bvar 1 (bas n)) i) (fun s => (x n 2%nat + s * y n 2%nat) * P (bvar 2 (bas n)) i)).
      apply (d_mult (fun s => x n 1%nat + s * y n 1%nat) (fun _ => P (bvar 1 (bas n)) i)); [apply d_line|apply d_const].
      apply (d_mult (fun s => x n 2%nat + s * y n 2%nat) (fun _ => P (bvar 2 (bas n)) i)); [apply d_line|apply d_const].
      cbv beta. rewrite !Pa, !Ps. unfold vadd, vscal. ring. }
  split; [apply (E j0)|split; [apply (E j1)|split; [apply (E j2)|intros [|[|a]]; [apply (E j11)|apply (E j22)|apply (E j12)]]]]; reflexivity.
Qed.

Lemma qdef_path : forall n q x y t, jpath (fun s => qdef n q (cmove x y s)) t (fieldjet n (qbas q) y).
Proof.
  intros. destruct (field_path n (qbas q) x y t) as (H0 & H1 & H2 & Hs).
  assert (E : forall (f : R -> vec) (c d : vec), is_dvec f t d -> is_dvec (fun s => vadd c (f s)) t d).
  { intros f c d F. eapply dv_ext. apply dv_add. apply (dv_const c t). exact F. intros; unfold vadd, vzero; ring. }
  unfold qdef, jpath. split; [apply (E _ (j0 (qori q)) _ H0)|split; [apply (E _ (j1 (qori q)) _ H1)|split; [apply (E _ (j2 (qori q)) _ H2)|]]].
  intro a. assert (Z : forall s, jsec (jadd (qori q) (fieldjet n (qbas q) (cmove x y s))) a = vadd (jsec (qori q) a) (jsec (fieldjet n (qbas q) (cmove x y s)) a)).
  { intro. apply jsec_add. }
  intros i Hi. apply (is_derive_ext (fun s => vadd (jsec (qori q) a) (jsec (fieldjet n (qbas q) (cmove x y s)) a) i)).
  intro s. rewrite Z. reflexivity. apply (E _ (jsec (qori q) a) _ (Hs a) i Hi).
Qed.

Lemma cmove0 : forall x y, cmove x y 0 = x.
Proof. intros. unfold cmove. extensionality i. extensionality d. ring. Qed.

Definition point_ok (n : nat) (x : coefs) (q : qpoint) : Prop :=
  regular (qdef n q x) /\ has_tangents (qN q) (qA q) (qC q) /\ has_tangents (qM q) (qB q) (qD q).

Lemma psum_ext : forall (l : list qpoint) f g, (forall q, In q l -> f q = g q) -> psum l f = psum l g.
Proof. induction l; intros; simpl. reflexivity. rewrite H by (left; reflexivity). rewrite (IHl f g). reflexivity. intros; apply H; right; assumption. Qed.

Lemma Kapply_eq : forall n pts x y i d, (d < 3)%nat ->
  Kapply n pts x y i d = psum pts (fun q => qw q * Kstiff (qdef n q x) (qA q (qem n q x) (qef n q x)) (qB q (qem n q x) (qef n q x))
     (qC q (qem n q x) (qef n q x)) (qD q (qem n q x) (qef n q x)) (qN q (qem n q x) (qef n q x)) (qM q (qem n q x) (qef n q x))
     (bvar d (qbas q i)) (fieldjet n (qbas q) y)).
Proof.
  intros n pts x y i d Hd. unfold Kapply, Kmat.
  assert (E : forall q j e, (e < 3)%nat -> Kentry q n x i d j e = Kstiff (qdef n q x) (qA q (qem n q x) (qef n q x)) (qB q (qem n q x) (qef n q x))
     (qC q (qem n q x) (qef n q x)) (qD q (qem n q x) (qef n q x)) (qN q (qem n q x) (qef n q x)) (qM q (qem n q x) (qef n q x))
     (bvar d (qbas q i)) (bvar e (qbas q j))).
  { intros q j e He. unfold Kentry, Kstiff. cbv zeta. rewrite !Ef_dof_ext by assumption. reflexivity. }
  induction pts.
  - simpl. apply rsum_zero. intros. unfold sum3. ring.
  - simpl. rewrite <- IHpts. rewrite (lin_field _ n (qbas a) y (lin_Kstiff _ _ _ _ _ _ _ _)).
    rewrite <- rsum_scal, <- rsum_plus. apply rsum_ext. intros j Hj. unfold sum3. rewrite !E by lia. ring.
Qed.

Lemma assembled : forall n pts x y i d, (d < 3)%nat -> (forall q, In q pts -> point_ok n x q) ->
  is_derive (fun t => Fvec n pts (cmove x y t) i d) 0 (Kapply n pts x y i d).
Proof.
  intros n pts x y i d Hd OK. rewrite Kapply_eq by exact Hd. unfold Fvec.
  apply psum_derive. intros q Hq. destruct (OK q Hq) as (P & HN & HM).
  apply d_cmul.
  assert (R0 : regular (qdef n q (cmove x y 0))) by (rewrite cmove0; exact P).
  assert (G := Fint_path (qori q) _ _ _ _ _ _ HN HM (fun s => qdef n q (cmove x y s)) (fieldjet n (qbas q) y) (bvar d (qbas q i)) (qdef_path n q x y 0) R0).
  cbv beta zeta in G. rewrite cmove0 in G.
  unfold Fint in G. unfold qem, qef.
  apply (is_derive_ext _ _ _ _ (fun t => f_equal2 Rplus eq_refl (f_equal2 dot3 eq_refl (eq_sym (Ef_dof_ext (qdef n q (cmove x y t)) d (qbas q i) Hd)))) G).
Qed.

Lemma energy_gradient : forall n pts W x y,
  (forall q, In q pts -> regular (qdef n q x) /\ has_gradient (W q) (qN q) (qM q)) ->
  is_derive (fun t => energy n pts W (cmove x y t)) 0 (rsum n (fun i => sum3 (fun d => Fvec n pts x i d * y i d))).
Proof.
  intros n pts W x y OK.
  assert (E : rsum n (fun i => sum3 (fun d => Fvec n pts x i d * y i d)) =
     psum pts (fun q => qw q * Fint (qdef n q x) (qN q (qem n q x) (qef n q x)) (qM q (qem n q x) (qef n q x)) (fieldjet n (qbas q) y))).
  { unfold Fvec. clear OK. induction pts; simpl.
    - apply rsum_zero. intros. unfold sum3. ring.
    - rewrite <- IHpts. rewrite (lin_field _ n (qbas a) y (lin_Fint _ _ _)). rewrite <- rsum_scal, <- rsum_plus. apply rsum_ext.
      intros j Hj. unfold sum3, Fint. rewrite !Ef_dof_ext by lia. ring. }
  rewrite E. unfold energy. apply psum_derive. intros q Hq. destruct (OK q Hq) as (P & HG).
  apply d_cmul.
  assert (R0 : regular (qdef n q (cmove x y 0))) by (rewrite cmove0; exact P).
  assert (J := qdef_path n q x y 0).
  assert (G := HG _ _ _ _ (mem_path (qori q) _ 0 _ J) (bend_path (qori q) _ 0 _ J R0)).
  cbv beta in G. rewrite cmove0 in G. exact G.
Qed.

(* ---------------------------------------------------------------- symmetry *)
Lemma flatdot_sym : forall u v N, flatdot u v N = flatdot v u N.
Proof. intros. unfold flatdot. rewrite (dot_comm (j1 v) (j1 u)), (dot_comm (j2 v) (j2 u)), (dot_comm (j1 v) (j2 u)), (dot_comm (j2 v) (j1 u)). ring. Qed.
Definition veq (u v : vec) : Prop := forall i, (i < 3)%nat -> u i = v i.
Lemma dot_ext : forall x u v, veq u v -> dot3 x u = dot3 x v.
Proof. intros x u v H. unfold dot3, sum3. rewrite !H by lia. reflexivity. Qed.
Lemma Ef2_sym : forall c u v M, regular c -> Ef_der2 c u v M = Ef_der2 c v u M.
Proof.
  intros c u v M P. unfold Ef_der2, var2deriv2dot.
  assert (V : forall w, dot3 w (var2 c u v) = dot3 w (var2 c v u)). { intro. apply dot_ext. intros i _. apply var2_sym. exact P. }
  rewrite !dot_curv, !dot_mult2, !V. ring.
Qed.
Lemma Kstiff_sym : forall c A B C D N M u v, regular c -> symm3 A -> symm3 D -> transp3 B C ->
  Kstiff c A B C D N M u v = Kstiff c A B C D N M v u.
Proof.
  intros c A B C D N M u v P SA SD T. unfold Kstiff. cbv zeta. rewrite (Ef2_sym c u v M P), (flatdot_sym u v N).
  unfold vadd, rowmat, dot3, sum3.
  rewrite (SA 1 0)%nat, (SA 2 0)%nat, (SA 2 1)%nat, (SD 1 0)%nat, (SD 2 0)%nat, (SD 2 1)%nat by lia.
  rewrite !(T 0 _)%nat, !(T 1 _)%nat, !(T 2 _)%nat by lia. ring.
Qed.
Lemma Kmat_sym : forall n pts x i d j e, (d < 3)%nat -> (e < 3)%nat ->
  (forall q, In q pts -> regular (qdef n q x) /\ symm3 (qA q (qem n q x) (qef n q x)) /\ symm3 (qD q (qem n q x) (qef n q x))
     /\ transp3 (qB q (qem n q x) (qef n q x)) (qC q (qem n q x) (qef n q x))) ->
  Kmat n pts x i d j e = Kmat n pts x j e i d.
Proof.
  intros n pts x i d j e Hd He OK. unfold Kmat. apply psum_ext. intros q Hq. f_equal.
  destruct (OK q Hq) as (P & SA & SD & T). unfold Kentry. cbv zeta. rewrite !Ef_dof_ext by assumption.
  apply (Kstiff_sym _ _ _ _ _ _ _ (bvar d (qbas q i)) (bvar e (qbas q j)) P SA SD T).
Qed.
