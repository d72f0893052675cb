(* Lemmas for the kinematics. *)
From Coq Require Import Reals Lra Lia List Arith Psatz FunctionalExtensionality.
From Coquelicot Require Import Coquelicot.
From Verif Require Import Tensor KinModel KinSpec.
Import ListNotations.
Open Scope R_scope.

(* ---------------------------------------------------------------- calculus of vectors *)
Lemma d_mult : forall (f g : R -> R) t a b, is_derive f t a -> is_derive g t b ->
  is_derive (fun s => f s * g s) t (a * g t + f t * b).
Proof. intros. evar_last. apply (is_derive_mult f g t a b); auto. intros; apply Rmult_comm. reflexivity. Qed.
Lemma d_plus : forall (f g : R -> R) t a b, is_derive f t a -> is_derive g t b -> is_derive (fun s => f s + g s) t (a + b).
Proof. intros. apply (is_derive_plus f g t a b); auto. Qed.
Lemma d_minus : forall (f g : R -> R) t a b, is_derive f t a -> is_derive g t b -> is_derive (fun s => f s - g s) t (a - b).
Proof. intros. apply (is_derive_minus f g t a b); auto. Qed.
Lemma d_opp : forall (f : R -> R) t a, is_derive f t a -> is_derive (fun s => - f s) t (- a).
Proof. intros. apply (is_derive_opp f t a); auto. Qed.
Lemma d_const : forall (a t : R), is_derive (fun _ => a) t 0.
Proof. intros. apply (is_derive_const a t). Qed.
Lemma d_cmul : forall (c : R) (f : R -> R) t a, is_derive f t a -> is_derive (fun s => c * f s) t (c * a).
Proof. intros. evar_last. apply d_mult; [apply d_const | exact H]. cbv beta. ring. Qed.
Lemma d_div : forall (p D : R -> R) t dp dD, D t <> 0 -> is_derive p t dp -> is_derive D t dD ->
  is_derive (fun s => p s / D s) t ((dp - p t / D t * dD) / D t).
Proof.
  intros. evar_last. apply (is_derive_div p D t dp dD); auto. cbv beta. change pow with pow. field. auto.
Qed.

Lemma dv_ext : forall f t d d', is_dvec f t d -> (forall i, (i < 3)%nat -> d i = d' i) -> is_dvec f t d'.
Proof. intros f t d d' H E i Hi. rewrite <- (E i Hi). apply H; exact Hi. Qed.
Lemma dv_const : forall (u : vec) t, is_dvec (fun _ => u) t vzero.
Proof. intros u t i Hi. apply d_const. Qed.
Lemma dv_add : forall f g t a b, is_dvec f t a -> is_dvec g t b -> is_dvec (fun s => vadd (f s) (g s)) t (vadd a b).
Proof. intros f g t a b F G i Hi. apply (d_plus (fun s => f s i) (fun s => g s i)); auto. Qed.
Lemma dv_sub : forall f g t a b, is_dvec f t a -> is_dvec g t b -> is_dvec (fun s => vsub (f s) (g s)) t (vsub a b).
Proof. intros f g t a b F G i Hi. apply (d_minus (fun s => f s i) (fun s => g s i)); auto. Qed.
Lemma dv_scal : forall (k : R -> R) f t dk a, is_derive k t dk -> is_dvec f t a ->
  is_dvec (fun s => vscal (k s) (f s)) t (vadd (vscal dk (f t)) (vscal (k t) a)).
Proof. intros k f t dk a K F i Hi. apply (d_mult k (fun s => f s i)); auto. Qed.

Lemma d_dot : forall u v t a b, is_dvec u t a -> is_dvec v t b ->
  is_derive (fun s => dot3 (u s) (v s)) t (dot3 a (v t) + dot3 (u t) b).
Proof.
  intros u v t a b U V. unfold dot3, sum3.
  assert (M : forall i, (i < 3)%nat -> is_derive (fun s => u s i * v s i) t (a i * v t i + u t i * b i)).
  { intros i Hi. apply (d_mult (fun s => u s i) (fun s => v s i)); auto. }
  evar_last.
  apply (d_plus (fun s => u s 0%nat * v s 0%nat + u s 1%nat * v s 1%nat) (fun s => u s 2%nat * v s 2%nat)).
  apply (d_plus (fun s => u s 0%nat * v s 0%nat) (fun s => u s 1%nat * v s 1%nat)).
  apply M; lia. apply M; lia. apply M; lia.
  cbv beta. ring.
Qed.

Lemma dv_cross : forall u v t a b, is_dvec u t a -> is_dvec v t b ->
  is_dvec (fun s => cross3 (u s) (v s)) t (vadd (cross3 a (v t)) (cross3 (u t) b)).
Proof.
  intros u v t a b U V i Hi. unfold vadd.
  assert (M : forall i j, (i < 3)%nat -> (j < 3)%nat -> is_derive (fun s => u s i * v s j) t (a i * v t j + u t i * b j)).
  { intros k j Hk Hj. apply (d_mult (fun s => u s k) (fun s => v s j)); auto. }
  destruct i as [|[|[|i]]]; [| | |exfalso; lia]; unfold cross3.
  - evar_last. apply (d_minus (fun s => u s 1%nat * v s 2%nat) (fun s => u s 2%nat * v s 1%nat)); apply M; lia. cbv beta; ring.
  - evar_last. apply (d_minus (fun s => u s 2%nat * v s 0%nat) (fun s => u s 0%nat * v s 2%nat)); apply M; lia. cbv beta; ring.
  - evar_last. apply (d_minus (fun s => u s 0%nat * v s 1%nat) (fun s => u s 1%nat * v s 0%nat)); apply M; lia. cbv beta; ring.
Qed.

Lemma d_sqrt : forall (f : R -> R) t a, 0 < f t -> is_derive f t a -> is_derive (fun s => sqrt (f s)) t (a / (2 * sqrt (f t))).
Proof.
  intros f t a P F. evar_last. apply (is_derive_comp sqrt f t); [|exact F].
  apply is_derive_Reals. apply derivable_pt_lim_sqrt. exact P.
  unfold scal; simpl; unfold mult; simpl. field. apply Rgt_not_eq, sqrt_lt_R0, P.
Qed.

Lemma sqrt_pos_ne : forall x, 0 < x -> sqrt x <> 0.
Proof. intros. apply Rgt_not_eq, sqrt_lt_R0; auto. Qed.

(* derivative of the normalised vector *)
Lemma dv_unit : forall u t a, 0 < dot3 (u t) (u t) -> is_dvec u t a ->
  is_dvec (fun s i => u s i / norm3 (u s)) t
    (fun i => a i / norm3 (u t) - dot3 (fun j => u t j / norm3 (u t)) (fun j => a j / norm3 (u t)) * (u t i / norm3 (u t))).
Proof.
  intros u t a P U i Hi. unfold norm3.
  assert (S : sqrt (dot3 (u t) (u t)) <> 0) by (apply sqrt_pos_ne; exact P).
  evar_last.
  apply (d_div (fun s => u s i) (fun s => sqrt (dot3 (u s) (u s)))). exact S. apply U; exact Hi.
  apply d_sqrt. exact P. apply d_dot; exact U.
  cbv beta. set (q := sqrt (dot3 (u t) (u t))) in *. unfold dot3, sum3. field. exact S.
Qed.

Lemma normalize_pos : forall u, 0 < dot3 u u -> normalize u = fun i => u i / norm3 u.
Proof. intros u P. unfold normalize. destruct (Rlt_dec 0 (dot3 u u)); [reflexivity | contradiction]. Qed.

Lemma loc_pos : forall (f : R -> R) t a, is_derive f t a -> 0 < f t -> locally t (fun s => 0 < f s).
Proof.
  intros f t a F P.
  assert (C : continuous f t) by (apply (ex_derive_continuous f t); eexists; exact F).
  apply (C (fun y => 0 < y)). apply (open_gt 0). exact P.
Qed.

Lemma dv_normalize : forall u t a, 0 < dot3 (u t) (u t) -> is_dvec u t a ->
  is_dvec (fun s => normalize (u s)) t
    (fun i => a i / norm3 (u t) - dot3 (normalize (u t)) (fun j => a j / norm3 (u t)) * normalize (u t) i).
Proof.
  intros u t a P U i Hi. rewrite (normalize_pos (u t) P).
  apply (is_derive_ext_loc (fun s => u s i / norm3 (u s))).
  - generalize (loc_pos _ _ _ (d_dot u u t a a U U) P). apply filter_imp. intros s Q. rewrite normalize_pos by exact Q. reflexivity.
  - apply (dv_unit u t a P U i Hi).
Qed.

(* ---------------------------------------------------------------- moved configurations *)
Lemma d_line : forall (x y t : R), is_derive (fun s => x + s * y) t y.
Proof. intros. auto_derive; [trivial|ring]. Qed.
Lemma dm0 : forall c v t, is_dvec (fun s => j0 (moved c v s)) t (j0 v).
Proof. intros c v t i Hi. apply (d_line (j0 c i) (j0 v i)). Qed.
Lemma dm1 : forall c v t, is_dvec (fun s => j1 (moved c v s)) t (j1 v).
Proof. intros c v t i Hi. apply (d_line (j1 c i) (j1 v i)). Qed.
Lemma dm2 : forall c v t, is_dvec (fun s => j2 (moved c v s)) t (j2 v).
Proof. intros c v t i Hi. apply (d_line (j2 c i) (j2 v i)). Qed.
Lemma dmsec : forall c v t a, is_dvec (fun s => jsec (moved c v s) a) t (jsec v a).
Proof. intros c v t a i Hi. destruct a as [|[|a]]; [apply (d_line (j11 c i) (j11 v i)) | apply (d_line (j22 c i) (j22 v i)) | apply (d_line (j12 c i) (j12 v i))]. Qed.

Lemma moved0 : forall c v, moved c v 0 = c.
Proof.
  intros [] []. unfold moved, jadd, jscal, vadd, vscal; simpl.
  f_equal; extensionality i; ring.
Qed.

(* a path of jets with velocity v at t *)
Definition jpath (g : R -> jet) (t : R) (v : jet) : Prop :=
  is_dvec (fun s => j0 (g s)) t (j0 v) /\ is_dvec (fun s => j1 (g s)) t (j1 v) /\ is_dvec (fun s => j2 (g s)) t (j2 v)
  /\ forall a, is_dvec (fun s => jsec (g s) a) t (jsec v a).
Lemma moved_path : forall c v t, jpath (moved c v) t v.
Proof. intros. split; [apply dm0|split; [apply dm1|split; [apply dm2|intro; apply dmsec]]]. Qed.

(* ---------------------------------------------------------------- the normal *)
Lemma unormal_nrm : forall c, regular c -> unormal c = nrm c.
Proof. intros c P. unfold unormal. rewrite normalize_pos by exact P. reflexivity. Qed.

Lemma unormal_unit : forall c, regular c -> dot3 (unormal c) (unormal c) = 1.
Proof.
  intros c P. rewrite unormal_nrm by exact P. unfold nrm. unfold regular in P.
  set (w := cross3 (j1 c) (j2 c)) in *. assert (S := sqrt_pos_ne _ P).
  assert (Q : sqrt (dot3 w w) * sqrt (dot3 w w) = dot3 w w) by (apply sqrt_sqrt; lra).
  set (q := sqrt (dot3 w w)) in *. unfold dot3, sum3 in *.
  match goal with |- ?l = _ => replace l with ((w 0%nat * w 0%nat + w 1%nat * w 1%nat + w 2%nat * w 2%nat) / (q * q)) by (field; exact S) end.
  rewrite <- Q. field. exact S.
Qed.

Lemma cross_orth1 : forall a b, dot3 (cross3 a b) a = 0.
Proof. intros. unfold dot3, sum3, cross3. ring. Qed.
Lemma cross_orth2 : forall a b, dot3 (cross3 a b) b = 0.
Proof. intros. unfold dot3, sum3, cross3. ring. Qed.

Lemma dot_divl : forall u v q, q <> 0 -> dot3 (fun i => u i / q) v = dot3 u v / q.
Proof. intros. unfold dot3, sum3. field. auto. Qed.

Lemma unormal_is : forall c, regular c -> is_unit_normal (j1 c) (j2 c) (unormal c).
Proof.
  intros c P. assert (U := unormal_unit c P). repeat split; try exact U;
  rewrite unormal_nrm by exact P; unfold nrm; rewrite dot_divl by (apply sqrt_pos_ne; exact P).
  - rewrite cross_orth1. unfold Rdiv; ring.
  - rewrite cross_orth2. unfold Rdiv; ring.
  - apply Rdiv_lt_0_compat; [exact P | apply sqrt_lt_R0; exact P].
Qed.

Lemma outer_eq : forall n m i, outer_apply n m i = dot3 n m * n i.
Proof. intros. unfold outer_apply, dot3, sum3. ring. Qed.

Lemma measure_ne : forall c, regular c -> measure c <> 0.
Proof. intros. unfold measure, norm3. apply sqrt_pos_ne. assumption. Qed.

Lemma cross_path : forall g t v, jpath g t v ->
  is_dvec (fun s => cross3 (j1 (g s)) (j2 (g s))) t (fun i => cross3 (j1 v) (j2 (g t)) i - cross3 (j2 v) (j1 (g t)) i).
Proof.
  intros g t v (_ & H1 & H2 & _). eapply dv_ext. apply dv_cross; [exact H1 | exact H2].
  intros i Hi. destruct i as [|[|[|i]]]; [| | |exfalso; lia]; unfold vadd, cross3; ring.
Qed.

Lemma normal_path : forall g t v, jpath g t v -> regular (g t) -> is_dvec (fun s => unormal (g s)) t (var1 (g t) v).
Proof.
  intros g t v J P. unfold unormal. eapply dv_ext. apply dv_normalize; [exact P | apply cross_path; exact J].
  intros i Hi. unfold var1. rewrite outer_eq. reflexivity.
Qed.

Lemma measure_path : forall g t v, jpath g t v -> regular (g t) ->
  is_derive (fun s => measure (g s)) t (measure (g t) * dot3 (unormal (g t)) (m_var (g t) v)).
Proof.
  intros g t v J P. unfold measure at 1, norm3. assert (M := measure_ne _ P).
  evar_last. apply d_sqrt. exact P. apply d_dot; apply cross_path; exact J.
  cbv beta. fold (norm3 (cross3 (j1 (g t)) (j2 (g t)))). fold (measure (g t)). rewrite unormal_nrm by exact P.
  unfold nrm, m_var. fold (norm3 (cross3 (j1 (g t)) (j2 (g t)))). fold (measure (g t)).
  unfold dot3, sum3. field. exact M.
Qed.

Lemma m_path : forall g t v u, jpath g t v -> regular (g t) ->
  is_dvec (fun s => m_var (g s) u) t (fun i => m_uv (g t) u v i - dot3 (unormal (g t)) (m_var (g t) v) * m_var (g t) u i).
Proof.
  intros g t v u J P i Hi. assert (M := measure_ne _ P). destruct J as (J0 & J1 & J2 & Js).
  assert (X1 := dv_cross _ _ t _ _ (dv_const (j1 u) t) J2 i Hi).
  assert (X2 := dv_cross _ _ t _ _ (dv_const (j2 u) t) J1 i Hi).
  unfold m_var at 1. evar_last.
  apply (d_div (fun s => cross3 (j1 u) (j2 (g s)) i - cross3 (j2 u) (j1 (g s)) i) (fun s => measure (g s))). exact M.
  apply (d_minus (fun s => cross3 (j1 u) (j2 (g s)) i) (fun s => cross3 (j2 u) (j1 (g s)) i)); [exact X1|exact X2].
  apply measure_path. split; [exact J0|split; [exact J1|split; [exact J2|exact Js]]]. exact P.
  cbv beta. set (k := dot3 (unormal (g t)) (m_var (g t) v)). clearbody k. unfold m_uv, vadd.
  destruct i as [|[|[|i]]]; [| | |exfalso; lia]; unfold m_var, cross3, vzero; field; exact M.
Qed.

Lemma var1_path : forall g t v u, jpath g t v -> regular (g t) ->
  is_dvec (fun s => var1 (g s) u) t (var2 (g t) u v).
Proof.
  intros g t v u J P i Hi.
  assert (N := normal_path g t v J P). assert (M := m_path g t v u J P).
  apply (is_derive_ext (fun s => m_var (g s) u i - dot3 (unormal (g s)) (m_var (g s) u) * unormal (g s) i)).
  { intro s. unfold var1. rewrite outer_eq. reflexivity. }
  evar_last. apply (d_minus (fun s => m_var (g s) u i) (fun s => dot3 (unormal (g s)) (m_var (g s) u) * unormal (g s) i)).
  apply M; exact Hi.
  apply (d_mult (fun s => dot3 (unormal (g s)) (m_var (g s) u)) (fun s => unormal (g s) i)).
  apply d_dot; [exact N|exact M]. apply N; exact Hi.
  cbv beta. unfold var2, var2_with, var1. cbv zeta.
  set (n := unormal (g t)). set (mu := m_var (g t) u). set (mw := m_var (g t) v). set (muv := m_uv (g t) u v).
  clearbody n mu mw muv. unfold outer_apply, dot3, sum3. ring.
Qed.

Lemma m_uv_sym : forall c u v i, m_uv c u v i = m_uv c v u i.
Proof. intros. unfold m_uv. f_equal. ring. Qed.

Lemma var2_with_swap : forall c u v w w' i, regular c ->
  var2_with c u v w i - var2_with c v u w' i = (w i - w' i) - dot3 (unormal c) (vsub w w') * unormal c i.
Proof.
  intros c u v w w' i P. assert (U := unormal_unit c P). unfold var2_with.
  set (n := unormal c) in *. set (mu := m_var c u). set (mv := m_var c v). clearbody n mu mv.
  rewrite !outer_eq.
  assert (E : forall m, dot3 m (fun j => m j - outer_apply n m j) = dot3 m m - dot3 n m * dot3 n m).
  { intro m. unfold outer_apply, dot3, sum3. ring. }
  assert (E2 : forall p m, dot3 p (fun j => m j - outer_apply n m j) = dot3 p m - dot3 n m * dot3 n p).
  { intros p m. unfold outer_apply, dot3, sum3. ring. }
  rewrite !E2.
  assert (E3 : forall w k p, dot3 n (fun j => w j - k * p j) = dot3 n w - k * dot3 n p).
  { intros. unfold dot3, sum3. ring. }
  rewrite !E3. replace (dot3 mv mu) with (dot3 mu mv) by (unfold dot3, sum3; ring).
  replace (dot3 n (vsub w w')) with (dot3 n w - dot3 n w') by (unfold vsub, dot3, sum3; ring).
  ring.
Qed.

Lemma var2_sym : forall c u v i, regular c -> var2 c u v i = var2 c v u i.
Proof.
  intros c u v i P. assert (H := var2_with_swap c u v (m_uv c u v) (m_uv c v u) i P). unfold var2.
  assert (Z : dot3 (unormal c) (vsub (m_uv c u v) (m_uv c v u)) = 0).
  { unfold vsub, dot3, sum3. rewrite !(m_uv_sym c u v). ring. }
  rewrite Z, (m_uv_sym c u v i) in H. lra.
Qed.

(* var2 with another m_uv *)
Lemma var2_with_diff : forall c u v w w' i,
  var2_with c u v w i - var2_with c u v w' i = (w i - w' i) - dot3 (unormal c) (vsub w w') * unormal c i.
Proof. intros. unfold var2_with, vsub, dot3, sum3. ring. Qed.
