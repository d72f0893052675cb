(* Interface terms under orthogonal maps and rigid test fields. *)
From Coq Require Import Reals Lra Lia List FunctionalExtensionality.
From Coquelicot Require Import Coquelicot.
From Verif Require Import Tensor MetricSpec KinModel KinSpec KinAsm KinProofs KinStiff KinLoads KinMore DwrProofs ObjSpec ObjProofs ObjAsm WifModel WifSpec.
Import ListNotations.
Open Scope R_scope.

Section M.
Variables (Q : mat) (s : R).
Hypothesis O : orth Q s.
Notation vr := (vrel Q).
Notation VD := (vrel_dot Q s O).
Notation VC := (vrel_cross Q s O).
Lemma norm_rel t u u' : t * t = 1 -> vr t u u' -> norm3 u' = norm3 u.
Proof. intros T H. unfold norm3. rewrite (VD t t _ _ _ _ H H), T. f_equal; ring. Qed.
Lemma normalize_rel t u u' : t * t = 1 -> vr t u u' -> vr t (normalize u) (normalize u').
Proof.
  intros T H. unfold normalize. assert (E : dot3 u' u' = dot3 u u) by (rewrite (VD t t _ _ _ _ H H), T; ring). rewrite (norm_rel t u u' T H).
  rewrite E.
  destruct (Rlt_dec _ _); [|exact H]. intros i Hi. rewrite (H i Hi). unfold mvec3, sum3, Rdiv. ring.
Qed.
Lemma vr_scal t a u u' : vr t u u' -> vr t (vscal a u) (vscal a u').
Proof. intros H i Hi. unfold vscal. rewrite (H i Hi). unfold mvec3, sum3. ring. Qed.
Lemma vr_add t u u' v v' : vr t u u' -> vr t v v' -> vr t (vadd u v) (vadd u' v').
Proof. intros H K i Hi. unfold vadd. rewrite (H i Hi), (K i Hi). unfold mvec3, sum3. ring. Qed.
Lemma vr_sub t u u' v v' : vr t u u' -> vr t v v' -> vr t (fun i => u i - v i) (fun i => u' i - v' i).
Proof. intros H K i Hi. rewrite (H i Hi), (K i Hi). unfold mvec3, sum3. ring. Qed.
Lemma vr_mul t a u u' : vr t u u' -> vr t (fun i => a * u i) (fun i => a * u' i).
Proof. intros H i Hi. rewrite (H i Hi). unfold mvec3, sum3. ring. Qed.
Lemma one1 : 1 * 1 = 1. Proof. ring. Qed.
Lemma jcol_rel c c' i : jmoved Q c c' -> vr 1 (jcol c i) (jcol c' i).
Proof. intro C. destruct i; [apply j1_rel|apply j2_rel]; exact C. Qed.

Section P.
Variables (c c' : jet).
Hypothesis C : jmoved Q c c'.
Lemma tan_rel z i : vr 1 (tangent z i c) (tangent z i c').
Proof. apply vr_scal, jcol_rel, C. Qed.
Lemma utan_rel z i : vr 1 (normalize (tangent z i c)) (normalize (tangent z i c')).
Proof. apply normalize_rel. apply one1. apply tan_rel. Qed.
Lemma onormal_rel z i : vr 1 (onormal z i c) (onormal z i c').
Proof.
  unfold onormal. replace 1 with (s * 1 * s) by (transitivity (s * s); [ring|exact (SS Q s O)]).
  apply VC. apply utan_rel. apply moved_normal; assumption.
Qed.
Lemma jnorm_moved : jmoved Q (jnorm c) (jnorm c').
Proof.
  intros i Hi. assert (A := normalize_rel 1 _ _ one1 (j1_rel Q c c' C) i Hi). assert (B := normalize_rel 1 _ _ one1 (j2_rel Q c c' C) i Hi).
  cbn [jnorm j1 j2]. rewrite A, B. split; [ring|split; [ring|]]. intro a. destruct (C i Hi) as (_ & _ & S). specialize (S a). destruct a as [|[|a]]; exact S.
Qed.
Lemma tvar1_rel z i v v' : jmoved Q v v' -> vr 1 (tvar1 z i c v) (tvar1 z i c' v').
Proof.
  intro V. unfold tvar1. cbv zeta. rewrite (norm_rel 1 _ _ one1 (tan_rel z i)).
  assert (D : vr 1 (vscal z (jcol v i)) (vscal z (jcol v' i))) by (apply vr_scal, jcol_rel, V).
  rewrite (VD 1 1 _ _ _ _ (utan_rel z i) D). apply vr_mul, vr_sub. exact D.
  replace (1 * 1 * dot3 (normalize (tangent z i c)) (vscal z (jcol v i))) with (dot3 (normalize (tangent z i c)) (vscal z (jcol v i))) by ring.
  apply vr_mul, utan_rel.
Qed.
Lemma ovar1_rel z i v v' : jmoved Q v v' -> vr 1 (ovar1 z i c v) (ovar1 z i c' v').
Proof.
  intro V. unfold ovar1. apply vr_add; (replace 1 with (s * 1 * s) by (transitivity (s * s); [ring|exact (SS Q s O)])); apply VC.
  apply tvar1_rel, V. apply moved_normal; assumption. apply utan_rel. apply moved_var1; assumption.
Qed.
Lemma tvar2_rel z i u u' v v' : jmoved Q u u' -> jmoved Q v v' -> vr 1 (tvar2 z i c u v) (tvar2 z i c' u' v').
Proof.
  intros U V. unfold tvar2. cbv zeta. rewrite (norm_rel 1 _ _ one1 (tan_rel z i)).
  assert (DU : vr 1 (vscal z (jcol u i)) (vscal z (jcol u' i))) by (apply vr_scal, jcol_rel, U).
  assert (DV : vr 1 (vscal z (jcol v i)) (vscal z (jcol v' i))) by (apply vr_scal, jcol_rel, V).
  assert (TU := tvar1_rel z i u u' U). assert (TV := tvar1_rel z i v v' V).
  rewrite (VD 1 1 _ _ _ _ TV DU), (VD 1 1 _ _ _ _ (utan_rel z i) DV), (VD 1 1 _ _ _ _ (utan_rel z i) DU).
  set (a := dot3 (tvar1 z i c v) (vscal z (jcol u i))). set (b := dot3 (normalize (tangent z i c)) (vscal z (jcol v i))).
  set (e := dot3 (normalize (tangent z i c)) (vscal z (jcol u i))). set (h := -1 / norm3 (tangent z i c)). 
  intros k Hk. rewrite (utan_rel z i k Hk), (TU k Hk), (TV k Hk). unfold mvec3, sum3. ring.
Qed.
Section S.
Variables (J J' : jet).
Hypothesis JM : jmoved Q J J'.
Lemma NM v v' : jmoved Q v v' -> dot3 (unormal c') (m_var J' v') = dot3 (unormal c) (m_var J v).
Proof. intro V. rewrite (VD s s _ _ _ _ (moved_normal Q s O c c' C) (moved_m Q s O J J' JM v v' V)), (SS Q s O). ring. Qed.
Lemma snvar1_rel v v' : jmoved Q v v' -> vr s (snvar1_with c J v) (snvar1_with c' J' v').
Proof. intro V. unfold snvar1_with. cbv zeta. rewrite (NM v v' V). apply vr_sub. apply moved_m; assumption. apply vr_mul. apply moved_normal; assumption. Qed.
Lemma snvar2_rel u u' v v' : jmoved Q u u' -> jmoved Q v v' -> vr s (snvar2_with c J u v) (snvar2_with c' J' u' v').
Proof.
  intros U V. unfold snvar2_with. cbv zeta. rewrite (NM v v' V), (NM u u' U).
  assert (N := moved_normal Q s O c c' C). assert (MU := moved_m Q s O J J' JM u u' U). assert (SV := snvar1_rel v v' V).
  assert (MD : vr s (fun k => m_uv J u v k - dot3 (unormal c) (m_var J v) * m_var J u k) (fun k => m_uv J' u' v' k - dot3 (unormal c) (m_var J v) * m_var J' u' k)).
  { apply vr_sub. apply moved_muv; assumption. apply vr_mul, MU. }
  rewrite (VD s s _ _ _ _ MU SV), (VD s s _ _ _ _ N MD), (SS Q s O), !Rmult_1_l.
  apply (vr_sub s (fun k => m_uv J u v k - dot3 (unormal c) (m_var J v) * m_var J u k - (dot3 (m_var J u) (snvar1_with c J v) + dot3 (unormal c) (fun k0 : nat => m_uv J u v k0 - dot3 (unormal c) (m_var J v) * m_var J u k0)) * unormal c k)
    (fun k => m_uv J' u' v' k - dot3 (unormal c) (m_var J v) * m_var J' u' k - (dot3 (m_var J u) (snvar1_with c J v) + dot3 (unormal c) (fun k0 : nat => m_uv J u v k0 - dot3 (unormal c) (m_var J v) * m_var J u k0)) * unormal c' k)).
  - apply (vr_sub s _ _ _ _ MD). apply vr_mul, N.
  - apply vr_mul, SV.
Qed.
End S.
Lemma ovar2_rel z i u u' v v' : jmoved Q u u' -> jmoved Q v v' -> vr 1 (ovar2 z i c u v) (ovar2 z i c' u' v').
Proof.
  intros U V. unfold ovar2, ovar2_with. assert (JM := jnorm_moved).
  assert (E : forall x x' y y', vr 1 x x' -> vr s y y' -> vr 1 (cross3 x y) (cross3 x' y')).
  { intros x x' y y' X Y. replace 1 with (s * 1 * s) by (transitivity (s * s); [ring|exact (SS Q s O)]). apply VC; assumption. }
  assert (A := E _ _ _ _ (tvar2_rel z i u u' v v' U V) (moved_normal Q s O c c' C)).
  assert (B := E _ _ _ _ (tvar1_rel z i u u' U) (snvar1_rel _ _ JM v v' V)).
  assert (D := E _ _ _ _ (tvar1_rel z i v v' V) (snvar1_rel _ _ JM u u' U)).
  assert (F := E _ _ _ _ (utan_rel z i) (snvar2_rel _ _ JM u u' v v' U V)).
  intros k Hk. rewrite (A k Hk), (B k Hk), (D k Hk), (F k Hk). unfold mvec3, sum3. ring.
Qed.
(* the choice of the edge does not depend on the frame *)
Lemma detect_rel tol o o' : vr 1 o o' -> detect tol c' o' = detect tol c o.
Proof.
  intro H. unfold detect. cbv zeta.
  rewrite (VD 1 1 _ _ _ _ (normalize_rel 1 _ _ one1 (j1_rel Q c c' C)) (normalize_rel 1 _ _ one1 H)),
    (VD 1 1 _ _ _ _ (normalize_rel 1 _ _ one1 (j2_rel Q c c' C)) (normalize_rel 1 _ _ one1 H)), !Rmult_1_l. reflexivity.
Qed.
Lemma detect_sign_rel t t' i : vr 1 t t' -> detect_sign c' t' i = detect_sign c t i.
Proof. intro H. unfold detect_sign. cbv zeta. rewrite (VD 1 1 _ _ _ _ H (normalize_rel 1 _ _ one1 (jcol_rel c c' i C))), !Rmult_1_l. reflexivity. Qed.
End P.

(* ---------------------------------------------------------------- the C1 terms of one interface point *)
Definition pmoved (p p' : jet * jet) : Prop := jmoved Q (fst p) (fst p') /\ jmoved Q (snd p) (snd p').
Ltac vd H K := rewrite (VD _ _ _ _ _ _ H K).
Lemma sq2 x y : s * x * (s * y) = x * y.
Proof. transitivity (s * s * (x * y)); [ring|rewrite (SS Q s O); ring]. Qed.
Section D.
Variables (c c' : jet * jet) (sl sr : side) (ori : jet * jet).
Hypothesis C : pmoved c c'.
Let nl := moved_normal Q s O _ _ (proj1 C).
Let nr := moved_normal Q s O _ _ (proj2 C).
Lemma dNd_rel : dNd ori c' = dNd ori c.
Proof. unfold dNd. rewrite (VD s s _ _ _ _ nl nr), (SS Q s O). ring. Qed.
Lemma dNd'_rel : dNd' ori c' = dNd' ori c.
Proof. unfold dNd'. rewrite (VD s s _ _ _ _ nr nl), (SS Q s O). ring. Qed.
End D.
Lemma FifcC1_moved al ori c c' v v' : pmoved c c' -> pmoved v v' -> FifcC1 al ori c' v' = FifcC1 al ori c v.
Proof.
  intros C V. unfold FifcC1. cbv zeta. rewrite (dNd_rel c c' ori C), (dNd'_rel c c' ori C). unfold v1l, v1r.
  assert (Nl := moved_normal Q s O _ _ (proj1 C)). assert (Nr := moved_normal Q s O _ _ (proj2 C)).
  assert (Vl := moved_var1 Q s O _ _ (proj1 C) _ _ (proj1 V)). assert (Vr := moved_var1 Q s O _ _ (proj2 C) _ _ (proj2 V)).
  vd Vl Nr. vd Vr Nl. rewrite (SS Q s O). ring.
Qed.
Lemma KifcC1_moved al ori c c' v v' u u' : pmoved c c' -> pmoved v v' -> pmoved u u' -> KifcC1 al ori c' v' u' = KifcC1 al ori c v u.
Proof.
  intros C V U. unfold KifcC1. cbv zeta. rewrite (dNd_rel c c' ori C), (dNd'_rel c c' ori C). unfold v1l, v1r, var2dot.
  assert (Nl := moved_normal Q s O _ _ (proj1 C)). assert (Nr := moved_normal Q s O _ _ (proj2 C)).
  assert (Vl := moved_var1 Q s O _ _ (proj1 C) _ _ (proj1 V)). assert (Vr := moved_var1 Q s O _ _ (proj2 C) _ _ (proj2 V)).
  assert (Ul := moved_var1 Q s O _ _ (proj1 C) _ _ (proj1 U)). assert (Ur := moved_var1 Q s O _ _ (proj2 C) _ _ (proj2 U)).
  assert (Wl := moved_var2 Q s O _ _ (proj1 C) _ _ _ _ (proj1 U) (proj1 V)). assert (Wr := moved_var2 Q s O _ _ (proj2 C) _ _ _ _ (proj2 U) (proj2 V)).
  vd Vl Nr. vd Vr Nl. vd Ul Nr. vd Ur Nl. vd Vl Ur. vd Vr Ul. vd Nr Wl. vd Nl Wr. rewrite (SS Q s O). ring.
Qed.
Section I.
Variables (sl sr : side) (ori ori' c c' : jet * jet).
Hypothesis C : pmoved c c'.
Lemma ol_nr p p' : pmoved p p' -> dot3 (onormal (fst sl) (snd sl) (fst p')) (unormal (snd p')) = s * dot3 (onormal (fst sl) (snd sl) (fst p)) (unormal (snd p)).
Proof. intro P. rewrite (VD _ _ _ _ _ _ (onormal_rel _ _ (proj1 P) _ _) (moved_normal Q s O _ _ (proj2 P))). ring. Qed.
Lemma or_nl p p' : pmoved p p' -> dot3 (onormal (fst sr) (snd sr) (snd p')) (unormal (fst p')) = s * dot3 (onormal (fst sr) (snd sr) (snd p)) (unormal (fst p)).
Proof. intro P. rewrite (VD _ _ _ _ _ _ (onormal_rel _ _ (proj2 P) _ _) (moved_normal Q s O _ _ (proj1 P))). ring. Qed.
End I.
(* the in-plane jump is multiplied with s if the undeformed patches are moved as well (ori'), and for rotations (s = 1) also if they are not *)
Definition follows (ori ori' : jet * jet) : Prop := s = 1 /\ ori' = ori \/ pmoved ori ori'.
Lemma dnN_rel sl sr ori ori' c c' : follows ori ori' -> pmoved c c' -> dnN sl sr ori' c' = s * dnN sl sr ori c /\ dnN' sl sr ori' c' = s * dnN' sl sr ori c.
Proof.
  intros F C. unfold dnN, dnN'. rewrite (ol_nr sl c c' C), (or_nl sr c c' C). destruct F as [(E & ->)|F].
  - rewrite E. split; ring.
  - rewrite (ol_nr sl ori ori' F), (or_nl sr ori ori' F). split; ring.
Qed.
Lemma FifcIn_moved al sl sr ori ori' c c' v v' : follows ori ori' -> pmoved c c' -> pmoved v v' -> FifcIn al sl sr ori' c' v' = FifcIn al sl sr ori c v.
Proof.
  intros F C V. unfold FifcIn. cbv zeta. destruct (dnN_rel sl sr ori ori' c c' F C) as (A & B). rewrite A, B. unfold v1l, v1r, o1l, o1r.
  assert (Nl := moved_normal Q s O _ _ (proj1 C)). assert (Nr := moved_normal Q s O _ _ (proj2 C)).
  assert (Vl := moved_var1 Q s O _ _ (proj1 C) _ _ (proj1 V)). assert (Vr := moved_var1 Q s O _ _ (proj2 C) _ _ (proj2 V)).
  assert (Ol := onormal_rel _ _ (proj1 C) (fst sl) (snd sl)). assert (Or := onormal_rel _ _ (proj2 C) (fst sr) (snd sr)).
  assert (Wl := ovar1_rel _ _ (proj1 C) (fst sl) (snd sl) _ _ (proj1 V)). assert (Wr := ovar1_rel _ _ (proj2 C) (fst sr) (snd sr) _ _ (proj2 V)).
  vd Wl Nr. vd Vr Ol. vd Wr Nl. vd Vl Or. rewrite !Rmult_1_l, !Rmult_1_r.
  transitivity (s * s * (- (al * dnN sl sr ori c * dot3 (ovar1 (fst sl) (snd sl) (fst c) (fst v)) (unormal (snd c)))
    - al * dnN sl sr ori c * dot3 (var1 (snd c) (snd v)) (onormal (fst sl) (snd sl) (fst c))
    - al * dnN' sl sr ori c * dot3 (ovar1 (fst sr) (snd sr) (snd c) (snd v)) (unormal (fst c))
    - al * dnN' sl sr ori c * dot3 (var1 (fst c) (fst v)) (onormal (fst sr) (snd sr) (snd c)))). ring. rewrite (SS Q s O). ring.
Qed.
Lemma KifcIn_moved al sl sr ori ori' c c' v v' u u' : follows ori ori' -> pmoved c c' -> pmoved v v' -> pmoved u u' -> KifcIn al sl sr ori' c' v' u' = KifcIn al sl sr ori c v u.
Proof.
  intros F C V U. unfold KifcIn. cbv zeta. destruct (dnN_rel sl sr ori ori' c c' F C) as (A & B). rewrite A, B. unfold v1l, v1r, o1l, o1r.
  assert (Nl := moved_normal Q s O _ _ (proj1 C)). assert (Nr := moved_normal Q s O _ _ (proj2 C)).
  assert (Vl := moved_var1 Q s O _ _ (proj1 C) _ _ (proj1 V)). assert (Vr := moved_var1 Q s O _ _ (proj2 C) _ _ (proj2 V)).
  assert (Ul := moved_var1 Q s O _ _ (proj1 C) _ _ (proj1 U)). assert (Ur := moved_var1 Q s O _ _ (proj2 C) _ _ (proj2 U)).
  assert (Ol := onormal_rel _ _ (proj1 C) (fst sl) (snd sl)). assert (Or := onormal_rel _ _ (proj2 C) (fst sr) (snd sr)).
  assert (Wl := ovar1_rel _ _ (proj1 C) (fst sl) (snd sl) _ _ (proj1 V)). assert (Wr := ovar1_rel _ _ (proj2 C) (fst sr) (snd sr) _ _ (proj2 V)).
  assert (Xl := ovar1_rel _ _ (proj1 C) (fst sl) (snd sl) _ _ (proj1 U)). assert (Xr := ovar1_rel _ _ (proj2 C) (fst sr) (snd sr) _ _ (proj2 U)).
  assert (Yl := ovar2_rel _ _ (proj1 C) (fst sl) (snd sl) _ _ _ _ (proj1 V) (proj1 U)). assert (Yr := ovar2_rel _ _ (proj2 C) (fst sr) (snd sr) _ _ _ _ (proj2 V) (proj2 U)).
  vd Nr Yl. vd Nl Yr. vd Wl Ur. vd Wr Ul. vd Wl Nr. vd Xl Nr. vd Vl Or. vd Ul Or. vd Ur Ol. vd Xr Nl. vd Vr Ol. vd Wr Nl. rewrite !Rmult_1_l, !Rmult_1_r.
  set (a := dnN sl sr ori c). set (b := dnN' sl sr ori c).
  match goal with |- _ = ?r => transitivity (s * s * r); [ring|rewrite (SS Q s O); ring] end.
Qed.
End M.
