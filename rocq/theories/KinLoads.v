(* Loads, couplings, boundary terms, rigid motions, outer normals. *)
From Coq Require Import Reals Lra Lia List Arith Psatz FunctionalExtensionality.
From Coquelicot Require Import Coquelicot.
From Verif Require Import Tensor KinModel KinSpec KinAsm KinProofs KinStiff.
Import ListNotations.
Open Scope R_scope.

Lemma dotc : forall f t d w, is_dvec f t d -> is_derive (fun s => dot3 w (f s)) t (dot3 w d).
Proof. intros. evar_last. apply d_dot. apply (dv_const w t). exact H. unfold vzero; dsum. ring. Qed.
Lemma dotc' : forall f t d w, is_dvec f t d -> is_derive (fun s => dot3 (f s) w) t (dot3 d w).
Proof. intros. evar_last. apply d_dot. exact H. apply (dv_const w t). unfold vzero; dsum. ring. Qed.

(* ---------------------------------------------------------------- pressure *)
Lemma press_path : forall p c v u, regular c -> is_derive (fun t => Fpress p (moved c u t) v) 0 (- Kpress p c v u).
Proof.
  intros p c v u P. unfold Fpress, Kpress. evar_last. apply d_cmul. apply (dotc _ 0 (var1 c u)).
  assert (G := normal_path (moved c u) 0 u (moved_path c u 0)). rewrite moved0 in G. apply G; exact P. ring.
Qed.

(* ---------------------------------------------------------------- foundation *)
Lemma found_path : forall k ori c v u, is_derive (fun t => Ffound k ori (moved c u t) v) 0 (Kfound k v u).
Proof.
  intros. unfold Ffound, Kfound. assert (M := dm0 c u 0).
  assert (E : forall i, (i < 3)%nat -> is_derive (fun t => j0 v i * k i * (j0 (moved c u t) i - j0 ori i)) 0 (j0 v i * k i * j0 u i)).
  { intros i Hi. apply d_cmul. evar_last. apply (d_minus (fun t => j0 (moved c u t) i) (fun _ => j0 ori i)); [apply M; exact Hi|apply d_const]. cbv beta. ring. }
  unfold sum3. apply (d_plus (fun t => j0 v 0%nat * k 0%nat * (j0 (moved c u t) 0%nat - j0 ori 0%nat) + j0 v 1%nat * k 1%nat * (j0 (moved c u t) 1%nat - j0 ori 1%nat))
     (fun t => j0 v 2%nat * k 2%nat * (j0 (moved c u t) 2%nat - j0 ori 2%nat))); [|apply E; lia].
  apply (d_plus (fun t => j0 v 0%nat * k 0%nat * (j0 (moved c u t) 0%nat - j0 ori 0%nat)) (fun t => j0 v 1%nat * k 1%nat * (j0 (moved c u t) 1%nat - j0 ori 1%nat))); apply E; lia.
Qed.

(* ---------------------------------------------------------------- weak Dirichlet, interfaces *)
Lemma weakdir_path : forall al g ori c v u, is_derive (fun t => Fweakdir al g ori (moved c u t) v) 0 (- Kweakdir al v u).
Proof.
  intros. unfold Fweakdir, Kweakdir. evar_last. apply d_cmul.
  apply (d_minus (fun t => dot3 (j0 v) (vsub (j0 (moved c u t)) (j0 ori))) (fun _ => dot3 (j0 v) g)); [|apply d_const].
  apply dotc. apply dv_sub. apply dm0. apply (dv_const (j0 ori)). cbv beta. unfold vsub, vzero. dsum. ring.
Qed.

Definition moved2 (c u : jet * jet) (t : R) : jet * jet := (moved (fst c) (fst u) t, moved (snd c) (snd u) t).
Lemma moved2_0 : forall c u, moved2 c u 0 = c.
Proof. intros [c d] [u v]. unfold moved2; simpl. rewrite !moved0. reflexivity. Qed.

Lemma jump_path : forall ori c u, is_dvec (fun t => ifc_jump ori (moved2 c u t)) 0 (vsub (j0 (fst u)) (j0 (snd u))).
Proof.
  intros. unfold ifc_jump, moved2; simpl. eapply dv_ext. apply dv_sub; apply dv_sub.
  apply dm0. apply (dv_const (j0 (fst ori))). apply dm0. apply (dv_const (j0 (snd ori))).
  intros. unfold vsub, vzero. ring.
Qed.
Lemma ifc3_path : forall al ori c v u, is_derive (fun t => Fifc3 al ori (moved2 c u t) v) 0 (- Kifc al v u).
Proof.
  intros. unfold Fifc3, Kifc. assert (J := jump_path ori c u). evar_last.
  apply (d_plus (fun t => - (al * dot3 (j0 (fst v)) (ifc_jump ori (moved2 c u t)))) (fun t => al * dot3 (j0 (snd v)) (ifc_jump ori (moved2 c u t)))).
  apply d_opp. apply d_cmul. apply dotc. exact J. apply d_cmul. apply dotc. exact J.
  unfold vsub. dsum. ring.
Qed.
Lemma ifc2_path : forall al ori c v u, is_derive (fun t => Fifc2 al ori (moved2 c u t) v) 0 (Kifc al v u).
Proof.
  intros. unfold Fifc2, Kifc. assert (J := jump_path ori c u). evar_last.
  apply (d_minus (fun t => al * dot3 (j0 (fst v)) (ifc_jump ori (moved2 c u t))) (fun t => al * dot3 (j0 (snd v)) (ifc_jump ori (moved2 c u t)))).
  apply d_cmul. apply dotc. exact J. apply d_cmul. apply dotc. exact J.
  unfold vsub. dsum. ring.
Qed.
Lemma ifc_square : forall al v, Kifc al v v = al * dot3 (vsub (j0 (fst v)) (j0 (snd v))) (vsub (j0 (fst v)) (j0 (snd v))).
Proof. intros. unfold Kifc, vsub. dsum. ring. Qed.
Lemma dot_nonneg : forall u, 0 <= dot3 u u.
Proof. intro. unfold dot3, sum3. generalize (Rle_0_sqr (u 0%nat)) (Rle_0_sqr (u 1%nat)) (Rle_0_sqr (u 2%nat)). unfold Rsqr. lra. Qed.

(* C1 coupling, out-of-plane *)
Lemma nor_m : forall c u, regular c -> is_dvec (fun t => unormal (moved c u t)) 0 (var1 c u).
Proof. intros c u P. assert (G := normal_path (moved c u) 0 u (moved_path c u 0)). rewrite moved0 in G. apply G; exact P. Qed.
Lemma var_m : forall c u v, regular c -> is_dvec (fun t => var1 (moved c u t) v) 0 (var2 c v u).
Proof. intros c u v P. assert (G := var1_path (moved c u) 0 u v (moved_path c u 0)). rewrite moved0 in G. apply G; exact P. Qed.

Lemma ifcC1_path : forall al ori c v u, regular (fst c) -> regular (snd c) ->
  is_derive (fun t => FifcC1 al ori (moved2 c u t) v) 0 (- KifcC1 al ori c v u).
Proof.
  intros al ori c v u P Q.
  assert (Nl := nor_m (fst c) (fst u) P). assert (Nr := nor_m (snd c) (snd u) Q).
  assert (Vl := var_m (fst c) (fst u) (fst v) P). assert (Vr := var_m (snd c) (snd u) (snd v) Q).
  assert (A : is_derive (fun t => dNd ori (moved2 c u t)) 0 (dot3 (v1l c u) (unormal (snd c)) + dot3 (unormal (fst c)) (v1r c u))).
  { unfold dNd. evar_last. apply (d_minus (fun t => dot3 (unormal (fst (moved2 c u t))) (unormal (snd (moved2 c u t)))) (fun _ => _)); [|apply d_const].
    apply d_dot; [exact Nl|exact Nr]. cbv beta. unfold v1l, v1r, moved2; simpl. rewrite !moved0. ring. }
  assert (B : is_derive (fun t => dNd' ori (moved2 c u t)) 0 (dot3 (v1r c u) (unormal (fst c)) + dot3 (unormal (snd c)) (v1l c u))).
  { unfold dNd'. evar_last. apply (d_minus (fun t => dot3 (unormal (snd (moved2 c u t))) (unormal (fst (moved2 c u t)))) (fun _ => _)); [|apply d_const].
    apply d_dot; [exact Nr|exact Nl]. cbv beta. unfold v1l, v1r, moved2; simpl. rewrite !moved0. ring. }
  assert (X : is_derive (fun t => dot3 (v1l (moved2 c u t) v) (unormal (snd (moved2 c u t)))) 0
      (dot3 (var2 (fst c) (fst v) (fst u)) (unormal (snd c)) + dot3 (v1l c v) (v1r c u))).
  { unfold v1l. evar_last. apply d_dot; [exact Vl|exact Nr]. cbv beta. unfold moved2, v1r; simpl. rewrite !moved0. reflexivity. }
  assert (Y : is_derive (fun t => dot3 (v1r (moved2 c u t) v) (unormal (fst (moved2 c u t)))) 0
      (dot3 (var2 (snd c) (snd v) (snd u)) (unormal (fst c)) + dot3 (v1r c v) (v1l c u))).
  { unfold v1r. evar_last. apply d_dot; [exact Vr|exact Nl]. cbv beta. unfold moved2, v1l; simpl. rewrite !moved0. reflexivity. }
  assert (M : forall (a x : R -> R) da dx, is_derive a 0 da -> is_derive x 0 dx -> is_derive (fun t => al * a t * x t) 0 (al * (da * x 0 + a 0 * dx))).
  { intros a x da dx Ha Hx. apply (is_derive_ext (fun t => al * (a t * x t))). intro; symmetry; apply Rmult_assoc. apply d_cmul. apply d_mult; assumption. }
  unfold FifcC1. cbv zeta. evar_last.
  apply (d_minus (fun t => - (al * dNd ori (moved2 c u t) * dot3 (v1l (moved2 c u t) v) (unormal (snd (moved2 c u t))))
     - al * dNd ori (moved2 c u t) * dot3 (v1r (moved2 c u t) v) (unormal (fst (moved2 c u t))) - al * dNd' ori (moved2 c u t) * dot3 (v1r (moved2 c u t) v) (unormal (fst (moved2 c u t))))
     (fun t => al * dNd' ori (moved2 c u t) * dot3 (v1l (moved2 c u t) v) (unormal (snd (moved2 c u t))))); [|apply M; [exact B|exact X]].
  apply (d_minus (fun t => - (al * dNd ori (moved2 c u t) * dot3 (v1l (moved2 c u t) v) (unormal (snd (moved2 c u t))))
     - al * dNd ori (moved2 c u t) * dot3 (v1r (moved2 c u t) v) (unormal (fst (moved2 c u t)))) (fun t => al * dNd' ori (moved2 c u t) * dot3 (v1r (moved2 c u t) v) (unormal (fst (moved2 c u t))))); [|apply M; [exact B|exact Y]].
  apply (d_minus (fun t => - (al * dNd ori (moved2 c u t) * dot3 (v1l (moved2 c u t) v) (unormal (snd (moved2 c u t)))))
     (fun t => al * dNd ori (moved2 c u t) * dot3 (v1r (moved2 c u t) v) (unormal (fst (moved2 c u t))))); [|apply M; [exact A|exact Y]].
  apply d_opp. apply M; [exact A|exact X].
  cbv beta. rewrite moved2_0. unfold KifcC1, var2dot. cbv zeta.
  rewrite (dot_comm (unormal (snd c)) (var2 _ _ _)), (dot_comm (unormal (fst c)) (var2 _ _ _)).
  rewrite (dot_comm (unormal (fst c)) (v1r c u)), (dot_comm (unormal (snd c)) (v1l c u)).
  assert (S : dNd' ori c = dNd ori c). { unfold dNd, dNd'. rewrite (dot_comm (unormal (snd c))), (dot_comm (unormal (snd ori))). reflexivity. }
  rewrite S. ring.
Qed.

(* ---------------------------------------------------------------- outer normal *)
Lemma jcol_path : forall g t v i, jpath g t v -> is_dvec (fun s => jcol (g s) i) t (jcol v i).
Proof. intros g t v i (_ & H1 & H2 & _). destruct i; [exact H1|exact H2]. Qed.
Lemma tan_path : forall s i g t v, jpath g t v -> is_dvec (fun r => tangent s i (g r)) t (vscal s (jcol v i)).
Proof. intros. unfold tangent. intros k Hk. unfold vscal. apply d_cmul. apply (jcol_path g t v i H k Hk). Qed.
Lemma tvar_path : forall s i g t v, jpath g t v -> 0 < dot3 (tangent s i (g t)) (tangent s i (g t)) ->
  is_dvec (fun r => normalize (tangent s i (g r))) t (tvar1 s i (g t) v).
Proof.
  intros s i g t v J P. eapply dv_ext. apply dv_normalize. exact P. apply tan_path; exact J.
  intros k Hk. unfold tvar1. cbv zeta. cbv beta.
  assert (S : norm3 (tangent s i (g t)) <> 0) by (apply sqrt_pos_ne; exact P).
  set (q := norm3 (tangent s i (g t))) in *. set (w := normalize (tangent s i (g t))). set (d := vscal s (jcol v i)). clearbody q w d.
  dsum. field. exact S.
Qed.
Lemma onormal_path : forall s i g t v, jpath g t v -> regular (g t) -> 0 < dot3 (tangent s i (g t)) (tangent s i (g t)) ->
  is_dvec (fun r => onormal s i (g r)) t (ovar1 s i (g t) v).
Proof. intros. unfold onormal, ovar1. apply dv_cross. apply tvar_path; assumption. apply normal_path; assumption. Qed.

Lemma tvar2_path : forall s i g t u v, jpath g t u -> 0 < dot3 (tangent s i (g t)) (tangent s i (g t)) ->
  is_dvec (fun r => tvar1 s i (g r) v) t (tvar2 s i (g t) v u).
Proof.
  intros s i g t u v J P.
  assert (S : norm3 (tangent s i (g t)) <> 0) by (apply sqrt_pos_ne; exact P).
  assert (T := tvar_path s i g t u J P).
  assert (Q : is_derive (fun r => norm3 (tangent s i (g r))) t (dot3 (normalize (tangent s i (g t))) (vscal s (jcol u i)))).
  { unfold norm3. evar_last. apply d_sqrt. exact P. apply d_dot; apply tan_path; exact J. cbv beta. rewrite normalize_pos by exact P.
    fold (norm3 (tangent s i (g t))). set (q := norm3 (tangent s i (g t))) in *. dsum. field. exact S. }
  intros k Hk. unfold tvar1. cbv zeta.
  set (dv := vscal s (jcol v i)).
  evar_last.
  apply (d_mult (fun r => 1 / norm3 (tangent s i (g r))) (fun r => dv k - dot3 (normalize (tangent s i (g r))) dv * normalize (tangent s i (g r)) k)).
  apply (d_div (fun _ => 1) (fun r => norm3 (tangent s i (g r)))). exact S. apply d_const. exact Q.
  apply (d_minus (fun _ => dv k) (fun r => dot3 (normalize (tangent s i (g r))) dv * normalize (tangent s i (g r)) k)). apply d_const.
  apply (d_mult (fun r => dot3 (normalize (tangent s i (g r))) dv) (fun r => normalize (tangent s i (g r)) k)). apply (dotc' _ t _ dv T). apply T; exact Hk.
  cbv beta. unfold tvar2. cbv zeta. unfold tvar1 at 4. cbv zeta.
  fold dv. set (q := norm3 (tangent s i (g t))) in *. set (w := normalize (tangent s i (g t))). set (z := vscal s (jcol u i)).
  set (Tu := tvar1 s i (g t) u). clearbody q w z Tu dv. field. exact S.
Qed.

Lemma onormal2_path : forall s i g t u v, jpath g t u -> regular (g t) -> 0 < dot3 (tangent s i (g t)) (tangent s i (g t)) ->
  is_dvec (fun r => ovar1 s i (g r) v) t (ovar2_with s i (g t) (g t) v u).
Proof.
  intros s i g t u v J P Q. unfold ovar1.
  eapply dv_ext. apply dv_add. apply dv_cross. apply tvar2_path; eassumption. apply normal_path; eassumption.
  apply dv_cross. apply tvar_path; eassumption. apply var1_path; eassumption.
  intros k Hk. unfold ovar2_with.
  assert (E1 : forall w, snvar1_with (g t) (g t) w = var1 (g t) w).
  { intro w. extensionality m. unfold snvar1_with, var1. rewrite outer_eq. reflexivity. }
  assert (E2 : snvar2_with (g t) (g t) v u = var2 (g t) v u).
  { extensionality m. unfold snvar2_with. cbv zeta. rewrite E1. unfold var2, var2_with. cbv zeta. reflexivity. }
  rewrite !E1, E2. unfold vadd.
  destruct k as [|[|[|k]]]; [| | |exfalso; lia]; unfold cross3; ring.
Qed.

Lemma norm_unit : forall u, dot3 u u = 1 -> normalize u = u.
Proof.
  intros u H. rewrite normalize_pos by lra. unfold norm3. rewrite H, sqrt_1. extensionality i. field.
Qed.
Lemma jnorm_unit : forall c, dot3 (j1 c) (j1 c) = 1 -> dot3 (j2 c) (j2 c) = 1 -> jnorm c = c.
Proof. intros [] H K. unfold jnorm; simpl in *. rewrite !norm_unit by assumption. reflexivity. Qed.

(* ---------------------------------------------------------------- weak clamped *)
Lemma var1_orth : forall c v, regular c -> dot3 (var1 c v) (unormal c) = 0.
Proof.
  intros c v P. assert (U := unormal_unit c P). unfold var1. set (n := unormal c) in *. set (m := m_var c v). clearbody n m.
  transitivity (dot3 m n - dot3 n m * dot3 n n). unfold outer_apply; dsum; ring. rewrite U, (dot_comm m n). ring.
Qed.
Lemma clamp_at_ori : forall al nvo c v u, regular c -> is_derive (fun t => Fclamp al nvo c (moved c u t) v) 0 0.
Proof.
  intros al nvo c v u P. assert (N := nor_m c u P). assert (V := var_m c u v P). unfold Fclamp. evar_last.
  apply d_opp. apply (d_mult (fun t => al * (dot3 (unormal (moved c u t)) nvo - dot3 (unormal c) nvo)) (fun t => dot3 (var1 (moved c u t) v) (unormal c))).
  apply d_cmul. apply (d_minus (fun t => dot3 (unormal (moved c u t)) nvo) (fun _ => dot3 (unormal c) nvo)); [|apply d_const].
  apply dotc'. exact N. apply dotc'. exact V. cbv beta. rewrite !moved0, var1_orth by exact P. ring.
Qed.

(* ---------------------------------------------------------------- rigid motions *)
(* velocity field of an infinitesimal rigid motion: b + w x (.) *)
Definition rigid (w b : vec) (c : jet) : jet :=
  mkjet (vadd b (cross3 w (j0 c))) (cross3 w (j1 c)) (cross3 w (j2 c)) (cross3 w (j11 c)) (cross3 w (j22 c)) (cross3 w (j12 c)).

Lemma cross_lin : forall w a b, cross3 w (fun i => a i / b) = fun i => cross3 w a i / b.
Proof. intros. extensionality i. destruct i as [|[|i]]; unfold cross3, Rdiv; ring. Qed.
Lemma var1_rigid : forall w b c i, regular c -> var1 c (rigid w b c) i = cross3 w (unormal c) i.
Proof.
  intros w b c i P. assert (M := measure_ne c P).
  assert (E : m_var c (rigid w b c) = cross3 w (unormal c)).
  { extensionality k. rewrite unormal_nrm by exact P. unfold nrm, m_var. fold (norm3 (cross3 (j1 c) (j2 c))). fold (measure c).
    rewrite cross_lin. f_equal. unfold rigid; simpl. destruct k as [|[|k]]; unfold cross3; ring. }
  unfold var1. rewrite E, outer_eq.
  replace (dot3 (unormal c) (cross3 w (unormal c))) with 0 by (unfold cross3; dsum; ring). ring.
Qed.
Lemma Em_rigid : forall w b c a, Em_der c (rigid w b c) a = 0.
Proof. intros. destruct a as [|[|a]]; unfold Em_der, rigid; simpl; unfold cross3; dsum; ring. Qed.
Lemma Ef_rigid : forall w b c a, regular c -> Ef_der c (rigid w b c) a = 0.
Proof.
  intros w b c a P. assert (E : var1 c (rigid w b c) = cross3 w (unormal c)) by (extensionality i; apply var1_rigid; exact P).
  unfold Ef_der, mult2, deriv2_map. rewrite E.
  assert (K : forall q n, dot3 n (cross3 w q) + dot3 (cross3 w n) q = 0) by (intros; unfold cross3; dsum; ring).
  destruct a as [|[|[|a]]]; unfold jsec, rigid; simpl; rewrite K; ring.
Qed.
Lemma Fint_rigid : forall c N M w b, regular c -> Fint c N M (rigid w b c) = 0.
Proof. intros. unfold Fint, dot3, sum3. rewrite !Em_rigid, !Ef_rigid by assumption. ring. Qed.
Lemma Klin_rigid : forall c A B C D w b v, regular c -> Klin c A B C D v (rigid w b c) = 0 /\ Klin c A B C D (rigid w b c) v = 0.
Proof. intros. split; unfold Klin, vadd, rowmat, dot3, sum3; rewrite !Em_rigid, !Ef_rigid by assumption; ring. Qed.

Lemma force_moment_balance : forall n pts x y w b,
  (forall q, In q pts -> regular (qdef n q x)) ->
  (forall q, In q pts -> fieldjet n (qbas q) y = rigid w b (qdef n q x)) ->
  rsum n (fun i => sum3 (fun d => Fvec n pts x i d * y i d)) = 0.
Proof.
  intros n pts x y w b P Y.
  assert (E : rsum n (fun i => sum3 (fun d => Fvec n pts x i d * y i d)) =
     psum pts (fun q => qw q * Fint (qdef n q x) (qN q (qem n q x) (qef n q x)) (qM q (qem n q x) (qef n q x)) (fieldjet n (qbas q) y))).
  { unfold Fvec. clear P Y. induction pts; simpl.
    - apply rsum_zero. intros. unfold sum3. ring.
    - rewrite <- IHpts. rewrite (lin_field _ n (qbas a) y (lin_Fint _ _ _)). rewrite <- rsum_scal, <- rsum_plus. apply rsum_ext.
      intros j Hj. unfold sum3, Fint. rewrite !Ef_dof_ext by lia. ring. }
  rewrite E. clear E. induction pts as [|q l IH]; simpl. reflexivity.
  rewrite (Y q) by (left; reflexivity). rewrite Fint_rigid by (apply P; left; reflexivity).
  rewrite IH. ring. intros; apply P; right; assumption. intros; apply Y; right; assumption.
Qed.
