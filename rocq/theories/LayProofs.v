(* Layout of the local matrices and assembly of the element matrices. *)
From Coq Require Import Reals Lra Lia List Arith Bool FunctionalExtensionality.
From Verif Require Import Tensor KinModel KinSpec KinAsm KinProofs KinStiff KinMore DwrProofs EstProofs LayModel LaySpec.
Import ListNotations.
Open Scope R_scope.

Lemma for_keep (S : Type) (P : S -> Prop) n (body : nat -> S -> S) s :
  (forall k x, (k < n)%nat -> P x -> P (body k x)) -> P s -> P (for_ n body s).
Proof. induction n; intros H H0; cbn [for_]. exact H0. apply H. lia. apply IHn; [|exact H0]. intros; apply H; [lia|assumption]. Qed.
Lemma for_hit (S : Type) (P : S -> Prop) n (body : nat -> S -> S) s k0 : (k0 < n)%nat ->
  (forall k x, (k < n)%nat -> P x -> P (body k x)) -> (forall x, P (body k0 x)) -> P (for_ n body s).
Proof.
  induction n; intros K H H0. lia. cbn [for_]. destruct (Nat.eq_dec k0 n) as [->|NE]. apply H0.
  apply H. lia. apply IHn; [lia| |exact H0]. intros; apply H; [lia|assumption].
Qed.
Lemma dof_inj A d j d' j' : (j < A)%nat -> (j' < A)%nat -> (d * A + j = d' * A + j')%nat -> d = d' /\ j = j'.
Proof.
  intros J J' E. assert (d = d') by (destruct (Nat.lt_trichotomy d d') as [L|[L|L]]; [exfalso; nia|exact L|exfalso; nia]).
  subst. lia.
Qed.
Lemma dof_div A d j : (j < A)%nat -> ((d * A + j) / A = d)%nat.
Proof. intro J. rewrite Nat.div_add_l, Nat.div_small by lia. lia. Qed.
Lemma dof_mod A d j : (j < A)%nat -> ((d * A + j) mod A = j)%nat.
Proof. intro J. rewrite Nat.add_comm, Nat.mod_add, Nat.mod_small by lia. reflexivity. Qed.
Lemma dof_lt A d j : (d < 3)%nat -> (j < A)%nat -> (d * A + j < 3 * A)%nat.
Proof. nia. Qed.

Lemma var1_mat_eq L c m0 d j a : (d < 3)%nat -> (j < lA L)%nat -> var1_mat L c m0 (dof (lA L) d j) a = var1 c (bvar d (active L j)) a.
Proof.
  intros D J. change (var1 c (bvar d (active L j)) a) with (var1 c (gradjet L d j) a).
  pose (P := fun m : mtx => m (dof (lA L) d j) a = var1 c (gradjet L d j) a).
  assert (ST : forall d' j' m, (j' < lA L)%nat -> P m -> P (setrow (d' * lA L + j') (var1 c (gradjet L d' j')) m)).
  { intros d' j' m J' H. unfold P, setrow, dof. destruct (Nat.eqb_spec (d * lA L + j) (d' * lA L + j')) as [E|E]; [|exact H].
    destruct (dof_inj _ _ _ _ _ J J' E) as (-> & ->). reflexivity. }
  change (P (var1_mat L c m0)). unfold var1_mat. apply for_hit with (k0 := d). exact D.
  - intros k x _ H. apply for_keep; [|exact H]. intros; apply ST; assumption.
  - intro x. apply for_hit with (k0 := j). exact J. intros; apply ST; assumption. intro y. unfold P, setrow, dof. rewrite Nat.eqb_refl. reflexivity.
Qed.
Lemma deriv2dot_mat_eq L n m0 d j a : (d < 3)%nat -> (j < lA L)%nat -> (a < 3)%nat ->
  deriv2dot_mat L n m0 (dof (lA L) d j) a = deriv2_space d (active L j) n a.
Proof.
  intros D J Ha. assert (V : deriv2_space d (active L j) n a = lh L (3 * j + a)%nat * n d).
  { unfold deriv2_space. f_equal. destruct a as [|[|[|a]]]; [cbn [ssec active s11]; f_equal; lia|reflexivity|reflexivity|lia]. }
  rewrite V. pose (P := fun m : mtx => m (dof (lA L) d j) a = lh L (3 * j + a)%nat * n d).
  change (P (deriv2dot_mat L n m0)). unfold deriv2dot_mat. apply for_hit with (k0 := d). exact D.
  - intros k x _ H. unfold P, setblock, dof. destruct (Nat.leb_spec (k * lA L) (d * lA L + j)); [|exact H].
    destruct (Nat.ltb_spec (d * lA L + j) (k * lA L + lA L)); [|exact H]. cbn [andb]. assert (d = k) by nia. subst k.
    replace (d * lA L + j - d * lA L)%nat with j by lia. reflexivity.
  - intro x. unfold P, setblock, dof. destruct (Nat.leb_spec (d * lA L) (d * lA L + j)); [|lia].
    destruct (Nat.ltb_spec (d * lA L + j) (d * lA L + lA L)); [|lia]. cbn [andb]. replace (d * lA L + j - d * lA L)%nat with j by lia. reflexivity.
Qed.
Lemma deriv2_mat_eq L d j a k : (d < 3)%nat -> (j < lA L)%nat -> (a < 3)%nat -> (k < 3)%nat ->
  deriv2_mat L a (dof (lA L) d j * 3 + k)%nat = jsec (bvar d (active L j)) a k.
Proof.
  intros D J Ha Hk. assert (V : jsec (bvar d (active L j)) a k = if Nat.eqb k d then lh L (3 * j + a)%nat else 0).
  { destruct a as [|[|[|a]]]; try lia; unfold jsec, bvar; cbn [j11 j22 j12]; unfold vecFun, active; cbn [s11 s22 s12]; try reflexivity. replace (3 * j + 0)%nat with (3 * j)%nat by lia. reflexivity. }
  rewrite V. pose (P := fun m : mtx => m a (dof (lA L) d j * 3 + k)%nat = if Nat.eqb k d then lh L (3 * j + a)%nat else 0).
  assert (ST : forall d' j' m, (d' < 3)%nat -> (j' < lA L)%nat -> P m -> P (setcol (d' * (3 * lA L + 1) + j' * 3) (fun a => lh L (3 * j' + a)%nat) m)).
  { intros d' j' m D' J' H. unfold P, setcol, dof. destruct (Nat.eqb_spec ((d * lA L + j) * 3 + k) (d' * (3 * lA L + 1) + j' * 3)) as [E|E]; [|exact H].
    assert (X : (3 * (d * lA L + j) + k = 3 * (d' * lA L + j') + d')%nat) by nia.
    assert (k = d' /\ (d * lA L + j = d' * lA L + j')%nat) as (-> & E') by lia. destruct (dof_inj _ _ _ _ _ J J' E') as (-> & ->).
    rewrite Nat.eqb_refl. reflexivity. }
  change (P (deriv2_mat L)). unfold deriv2_mat. destruct (Nat.eq_dec k d) as [->|NE].
  - apply for_hit with (k0 := d). exact D.
    + intros k x K H. apply for_keep; [|exact H]. intros; apply ST; assumption.
    + intro x. apply for_hit with (k0 := j). exact J. intros; apply ST; assumption. intro y. unfold P, setcol, dof.
      replace (Nat.eqb ((d * lA L + j) * 3 + d) (d * (3 * lA L + 1) + j * 3)) with true by (symmetry; apply Nat.eqb_eq; nia). rewrite Nat.eqb_refl. reflexivity.
  - apply for_keep. intros k' x K H. apply for_keep; [|exact H]. intros; apply ST; assumption.
    unfold P. destruct (Nat.eqb_spec k d); [contradiction|reflexivity].
Qed.
Lemma jac_eq L d j k b : (j < lA L)%nat -> (b < 2)%nat ->
  jac_mat L k (2 * dof (lA L) d j + b)%nat = (match b with O => j1 (bvar d (active L j)) | _ => j2 (bvar d (active L j)) end) k.
Proof.
  intros J B. unfold jac_mat. assert (Q : ((2 * dof (lA L) d j + b) / 2 = dof (lA L) d j)%nat) by (rewrite Nat.mul_comm; apply dof_div; exact B).
  assert (Q' : ((2 * dof (lA L) d j + b) mod 2 = b)%nat) by (rewrite (Nat.mul_comm 2); apply dof_mod; exact B).
  cbv zeta. rewrite Q, Q'. unfold dof. rewrite dof_div, dof_mod by exact J.
  destruct b as [|[|b]]; [|reflexivity|lia]. cbn [bvar j1 active s1]. unfold vecFun. replace (2 * j + 0)%nat with (2 * j)%nat by lia. reflexivity.
Qed.
Lemma Em_mat_eq L c d j : (j < lA L)%nat -> Em_mat L c (dof (lA L) d j) = Em_der c (bvar d (active L j)).
Proof.
  intro J. extensionality a. unfold Em_mat, Em_der.
  assert (X0 : forall g, sum3 (fun k => g k * jac_mat L k (2 * dof (lA L) d j + 0)%nat) = dot3 g (j1 (bvar d (active L j)))).
  { intro g. unfold dot3, sum3. rewrite !(jac_eq L d j _ 0) by (try assumption; lia). reflexivity. }
  assert (X1 : forall g, sum3 (fun k => g k * jac_mat L k (2 * dof (lA L) d j + 1)%nat) = dot3 g (j2 (bvar d (active L j)))).
  { intro g. unfold dot3, sum3. rewrite !(jac_eq L d j _ 1) by (try assumption; lia). reflexivity. }
  cbv zeta. rewrite !X0, !X1. reflexivity.
Qed.
Lemma dgeo_eq L c m0 d j a : (d < 3)%nat -> (j < lA L)%nat ->
  deriv2dot_geo c (var1_mat L c m0) (dof (lA L) d j) a = deriv2_map c (var1 c (bvar d (active L j))) a.
Proof. intros D J. unfold deriv2dot_geo, deriv2_map, dot3, sum3. rewrite !var1_mat_eq by assumption. reflexivity. Qed.
Lemma Ef_mat_eq U L c d j a : (d < 3)%nat -> (j < lA L)%nat -> (a < 3)%nat -> Ef_mat U L c (dof (lA L) d j) a = Ef_der c (bvar d (active L j)) a.
Proof.
  intros D J Ha. rewrite <- Ef_dof by assumption. unfold Ef_mat, Ef_der_dof. destruct a as [|[|[|a]]]; [| | |lia]; cbn [mult2];
  rewrite deriv2dot_mat_eq, dgeo_eq by (try assumption; lia); reflexivity.
Qed.
Lemma setat_hit n (g : nat -> nat -> R) (body : nat -> nat -> mtx -> mtx) m0 r s :
  (forall i j m, body i j m = setat i j (g i j) m) -> (r < n)%nat -> (s < n)%nat -> for_ n (fun i => for_ n (body i)) m0 r s = g r s.
Proof.
  intros B Hr Hs. pose (P := fun m : mtx => m r s = g r s).
  assert (ST : forall i j m, P m -> P (body i j m)).
  { intros i j m H. rewrite B. unfold P, setat. destruct (Nat.eqb_spec r i), (Nat.eqb_spec s j); subst; cbn [andb]; try exact H. reflexivity. }
  change (P (for_ n (fun i => for_ n (body i)) m0)). apply for_hit with (k0 := r). exact Hr.
  - intros k x _ H. apply for_keep; [|exact H]. intros; apply ST; assumption.
  - intro x. apply for_hit with (k0 := s). exact Hs. intros; apply ST; assumption. intro y. unfold P. rewrite B. unfold setat. rewrite !Nat.eqb_refl. reflexivity.
Qed.
Lemma flatdot_mat_eq U L N d j e i : (d < 3)%nat -> (j < lA L)%nat -> (e < 3)%nat -> (i < lA L)%nat ->
  Em2_mat U L N (dof (lA L) d j) (dof (lA L) e i) = flatdot (bvar d (active L j)) (bvar e (active L i)) N.
Proof.
  intros D J E I. unfold Em2_mat, flatdot_mat. erewrite setat_hit; [|intros; reflexivity|apply dof_lt; assumption|apply dof_lt; assumption].
  cbv beta zeta.
  assert (T : forall r a k, (k < 3)%nat -> jacT_mat L a (r * 3 + k)%nat = jac_mat L k (2 * r + a)%nat).
  { intros r a k K. unfold jacT_mat. rewrite dof_div, dof_mod by exact K. reflexivity. }
  assert (X : forall r b k, jac_mat L k (r * 2 + b)%nat = jac_mat L k (2 * r + b)%nat) by (intros; f_equal; lia).
  unfold sum3. rewrite !T by lia. rewrite !X. rewrite !(jac_eq L d j _ 0), !(jac_eq L d j _ 1), !(jac_eq L e i _ 0), !(jac_eq L e i _ 1) by (try assumption; lia).
  unfold flatdot, dot3, sum3. ring.
Qed.
Lemma flatdot2_mat_eq L c m0 m1 M d j e i : (d < 3)%nat -> (j < lA L)%nat -> (e < 3)%nat -> (i < lA L)%nat ->
  flatdot2_mat (3 * lA L) (deriv2_mat L) (fun k q => var1_mat L c m0 q k) M m1 (dof (lA L) d j) (dof (lA L) e i)
  = flatdot2 c (bvar d (active L j)) (bvar e (active L i)) M.
Proof.
  intros D J E I. unfold flatdot2_mat. erewrite setat_hit; [|intros; reflexivity|apply dof_lt; assumption|apply dof_lt; assumption].
  cbv beta zeta. unfold flatdot2, mult2, dot3, sum3. rewrite !var1_mat_eq, !deriv2_mat_eq by (try assumption; lia). reflexivity.
Qed.
Lemma var2d_mat_eq L c f m0 d j e i : (d < 3)%nat -> (j < lA L)%nat -> (e < 3)%nat -> (i < lA L)%nat ->
  var2d_mat L c f m0 (dof (lA L) d j) (dof (lA L) e i) = var2deriv2dot c (bvar d (active L j)) (bvar e (active L i)) f.
Proof.
  intros D J E I. change (var2deriv2dot c (bvar d (active L j)) (bvar e (active L i)) f) with (var2deriv2dot c (gradjet L d j) (gradjet L e i) f).
  pose (P := fun m : mtx => m (dof (lA L) d j) (dof (lA L) e i) = var2deriv2dot c (gradjet L d j) (gradjet L e i) f).
  assert (ST : forall j' i' d' e' m, (j' < lA L)%nat -> (i' < lA L)%nat -> P m ->
    P (setat (d' * lA L + j') (e' * lA L + i') (var2deriv2dot c (gradjet L d' j') (gradjet L e' i') f) m)).
  { intros j' i' d' e' m J' I' H. unfold P, setat, dof. destruct (Nat.eqb_spec (d * lA L + j) (d' * lA L + j')) as [X|X]; [|exact H].
    destruct (Nat.eqb_spec (e * lA L + i) (e' * lA L + i')) as [Y|Y]; [|exact H]. cbn [andb].
    destruct (dof_inj _ _ _ _ _ J J' X) as (-> & ->). destruct (dof_inj _ _ _ _ _ I I' Y) as (-> & ->). reflexivity. }
  change (P (var2d_mat L c f m0)). unfold var2d_mat. apply for_hit with (k0 := j). exact J.
  - intros k x K H. apply for_keep; [|exact H]. intros k1 x1 K1 H1. apply for_keep; [|exact H1]. intros k2 x2 K2 H2. apply for_keep; [|exact H2]. intros; apply ST; assumption.
  - intro x. apply for_hit with (k0 := i). exact I.
    + intros k1 x1 K1 H1. apply for_keep; [|exact H1]. intros k2 x2 K2 H2. apply for_keep; [|exact H2]. intros; apply ST; assumption.
    + intro x1. apply for_hit with (k0 := d). exact D.
      * intros k2 x2 K2 H2. apply for_keep; [|exact H2]. intros; apply ST; assumption.
      * intro x2. apply for_hit with (k0 := e). exact E. intros; apply ST; assumption. intro y. unfold P, setat, dof. rewrite !Nat.eqb_refl. reflexivity.
Qed.
Lemma Ef2_mat_eq U L c M d j e i : (d < 3)%nat -> (j < lA L)%nat -> (e < 3)%nat -> (i < lA L)%nat ->
  Ef2_mat U L c M (dof (lA L) d j) (dof (lA L) e i) = Ef_der2 c (bvar d (active L j)) (bvar e (active L i)) M.
Proof. intros D J E I. unfold Ef2_mat, Ef_der2. cbv zeta. rewrite !flatdot2_mat_eq, var2d_mat_eq by assumption. reflexivity. Qed.
Lemma local_K_eq U L c A B C D N M d j e i : (d < 3)%nat -> (j < lA L)%nat -> (e < 3)%nat -> (i < lA L)%nat ->
  local_K U L c A B C D N M (dof (lA L) d j) (dof (lA L) e i) = Kstiff c A B C D N M (bvar d (active L j)) (bvar e (active L i)).
Proof.
  intros Hd J He I. unfold local_K, Kstiff. cbv zeta. rewrite !Em_mat_eq, flatdot_mat_eq, Ef2_mat_eq by assumption.
  assert (X : forall a, (a < 3)%nat -> Ef_mat U L c (dof (lA L) d j) a = Ef_der c (bvar d (active L j)) a) by (intros; apply Ef_mat_eq; assumption).
  assert (Y : forall a, (a < 3)%nat -> Ef_mat U L c (dof (lA L) e i) a = Ef_der c (bvar e (active L i)) a) by (intros; apply Ef_mat_eq; assumption).
  set (p := Em_der c (bvar d (active L j))). set (q := Em_der c (bvar e (active L i))).
  unfold vadd, rowmat, dot3, sum3. rewrite !X, !Y by lia. reflexivity.
Qed.
Lemma local_F_eq U L c N M d j : (d < 3)%nat -> (j < lA L)%nat -> local_F U L c N M (dof (lA L) d j) = Fint c N M (bvar d (active L j)).
Proof.
  intros D J. unfold local_F, Fint. rewrite Em_mat_eq by assumption. f_equal. unfold dot3, sum3. rewrite !Ef_mat_eq by (try assumption; lia). reflexivity.
Qed.

(* ------------------------------------------------------------------ edges *)
Lemma rows_hit A (g : nat -> nat -> vec) m0 d j a : (d < 3)%nat -> (j < A)%nat ->
  for_ 3 (fun d => for_ A (fun j => setrow (d * A + j) (g d j))) m0 (dof A d j) a = g d j a.
Proof.
  intros D J. pose (P := fun m : mtx => m (dof A d j) a = g d j a).
  assert (ST : forall d' j' m, (j' < A)%nat -> P m -> P (setrow (d' * A + j') (g d' j') m)).
  { intros d' j' m J' H. unfold P, setrow, dof. destruct (Nat.eqb_spec (d * A + j) (d' * A + j')) as [E|E]; [|exact H].
    destruct (dof_inj _ _ _ _ _ J J' E) as (-> & ->). reflexivity. }
  change (P (for_ 3 (fun d => for_ A (fun j => setrow (d * A + j) (g d j))) m0)). apply for_hit with (k0 := d). exact D.
  - intros k x _ H. apply for_keep; [|exact H]. intros; apply ST; assumption.
  - intro x. apply for_hit with (k0 := j). exact J. intros; apply ST; assumption. intro y. unfold P, setrow, dof. rewrite Nat.eqb_refl. reflexivity.
Qed.
Lemma entries_hit A (g : nat -> nat -> nat -> nat -> R) m0 d j e i : (d < 3)%nat -> (j < A)%nat -> (e < 3)%nat -> (i < A)%nat ->
  for_ A (fun j => for_ A (fun i => for_ 3 (fun d => for_ 3 (fun e => setat (d * A + j) (e * A + i) (g d j e i))))) m0 (dof A d j) (dof A e i) = g d j e i.
Proof.
  intros D J E I. pose (P := fun m : mtx => m (dof A d j) (dof A e i) = g d j e i).
  assert (ST : forall j' i' d' e' m, (j' < A)%nat -> (i' < A)%nat -> P m -> P (setat (d' * A + j') (e' * A + i') (g d' j' e' i') m)).
  { intros j' i' d' e' m J' I' H. unfold P, setat, dof. destruct (Nat.eqb_spec (d * A + j) (d' * A + j')) as [X|X]; [|exact H].
    destruct (Nat.eqb_spec (e * A + i) (e' * A + i')) as [Y|Y]; [|exact H]. cbn [andb].
    destruct (dof_inj _ _ _ _ _ J J' X) as (-> & ->). destruct (dof_inj _ _ _ _ _ I I' Y) as (-> & ->). reflexivity. }
  match goal with |- ?F (dof A d j) (dof A e i) = _ => change (P F) end. apply for_hit with (k0 := j). exact J.
  - intros k x K H. apply for_keep; [|exact H]. intros k1 x1 K1 H1. apply for_keep; [|exact H1]. intros k2 x2 K2 H2. apply for_keep; [|exact H2]. intros; apply ST; assumption.
  - intro x. apply for_hit with (k0 := i). exact I.
    + intros k1 x1 K1 H1. apply for_keep; [|exact H1]. intros k2 x2 K2 H2. apply for_keep; [|exact H2]. intros; apply ST; assumption.
    + intro x1. apply for_hit with (k0 := d). exact D.
      * intros k2 x2 K2 H2. apply for_keep; [|exact H2]. intros; apply ST; assumption.
      * intro x2. apply for_hit with (k0 := e). exact E. intros; apply ST; assumption. intro y. unfold P, setat, dof. rewrite !Nat.eqb_refl. reflexivity.
Qed.
Lemma ovar1_mat_eq tol L s i c m0 m1 d j a : 0 < tol < 1 -> s = 1 \/ s = -1 -> (i < 2)%nat -> regular c -> (d < 3)%nat -> (j < lA L)%nat -> (a < 3)%nat ->
  ovar1_mat tol L c (onormal s i c) (tangent s i c) m0 m1 (dof (lA L) d j) a = ovar1 s i c (bvar d (active L j)) a.
Proof.
  intros T S Hi P D J Ha. destruct (detect_ok tol s i c T S Hi P) as (E1 & E2). unfold ovar1_mat.
  rewrite (rows_hit (lA L) (fun d j => vadd (cross3 (tvar1_mat tol L c (onormal s i c) (tangent s i c) (d * lA L + j)%nat) (unormal c)) (cross3 (normalize (tangent s i c)) (var1_mat L c m0 (d * lA L + j)%nat)))) by assumption.
  assert (X : forall b, tvar1_mat tol L c (onormal s i c) (tangent s i c) (d * lA L + j)%nat b = tvar1 s i c (bvar d (active L j)) b).
  { intro b. unfold tvar1_mat. rewrite E1, E2. change (d * lA L + j)%nat with (dof (lA L) d j). rewrite (rows_hit (lA L) (fun d j => tvar1_row s i (tangent s i c) (gradjet L d j))) by assumption. reflexivity. }
  assert (Y : forall b, var1_mat L c m0 (d * lA L + j)%nat b = var1 c (bvar d (active L j)) b) by (intro b; apply (var1_mat_eq L c m0 d j b); assumption).
  assert (X' : tvar1_mat tol L c (onormal s i c) (tangent s i c) (d * lA L + j)%nat = tvar1 s i c (bvar d (active L j))) by (extensionality b; apply X).
  assert (Y' : var1_mat L c m0 (d * lA L + j)%nat = var1 c (bvar d (active L j))) by (extensionality b; apply Y).
  rewrite X', Y'. reflexivity.
Qed.
Lemma ovar2_mat_eq tol L s i c w d j e k : 0 < tol < 1 -> s = 1 \/ s = -1 -> (i < 2)%nat -> regular c -> (d < 3)%nat -> (j < lA L)%nat -> (e < 3)%nat -> (k < lA L)%nat ->
  ovar2dot_mat tol L c (onormal s i c) (tangent s i c) w (dof (lA L) d j) (dof (lA L) e k) = dot3 w (ovar2 s i c (bvar d (active L j)) (bvar e (active L k))).
Proof.
  intros T S Hi P D J E K. destruct (detect_ok tol s i c T S Hi P) as (E1 & E2). unfold ovar2dot_mat. rewrite E1, E2.
  rewrite (entries_hit (lA L) (fun d j e k => dot3 w (ovar2 s i c (gradjet L d j) (gradjet L e k)))) by assumption. reflexivity.
Qed.

(* ------------------------------------------------------------------ assembly *)
Lemma bvar_zero d : bvar d szero = jzero.
Proof. unfold bvar, szero, jzero. cbn [s0 s1 s2 s11 s22 s12]. assert (E : vecFun d 0 = vzero) by (extensionality k; unfold vecFun, vzero; destruct (Nat.eqb k d); reflexivity). rewrite E. reflexivity. Qed.
Definition hit (P : bool) (x : R) : R := if P then x else 0.
Lemma hit_if (b : bool) g x : (if b then g + x else g) = g + hit b x.
Proof. destruct b; cbn; ring. Qed.
Lemma for_addF n (gi gd : nat -> nat) (v : nat -> R) G i d :
  for_ n (fun r => addF (gi r) (gd r) (v r)) G i d = G i d + rsum n (fun r => hit (andb (Nat.eqb i (gi r)) (Nat.eqb d (gd r))) (v r)).
Proof.
  induction n; cbn [for_ rsum]. ring. unfold addF at 1. rewrite hit_if, IHn. ring.
Qed.
Lemma for_addK n m (gi gd : nat -> nat) (v : nat -> nat -> R) G i d j e :
  for_ m (fun s => for_ n (fun r => addK (gi r) (gd r) (gi s) (gd s) (v r s))) G i d j e
  = G i d j e + rsum m (fun s => rsum n (fun r => hit (andb (andb (Nat.eqb i (gi r)) (Nat.eqb d (gd r))) (andb (Nat.eqb j (gi s)) (Nat.eqb e (gd s)))) (v r s))).
Proof.
  induction m; cbn [for_ rsum]. ring.
  assert (IN : forall H, for_ n (fun r => addK (gi r) (gd r) (gi m) (gd m) (v r m)) H i d j e
    = H i d j e + rsum n (fun r => hit (andb (andb (Nat.eqb i (gi r)) (Nat.eqb d (gd r))) (andb (Nat.eqb j (gi m)) (Nat.eqb e (gd m)))) (v r m))).
  { intro H. clear IHm. induction n; cbn [for_ rsum]. ring. unfold addK at 1. rewrite hit_if, IHn. ring. }
  rewrite IN, IHm. ring.
Qed.
Lemma rsum_one n f r : (r < n)%nat -> (forall k, (k < n)%nat -> k <> r -> f k = 0) -> rsum n f = f r.
Proof.
  induction n; intros H Z. lia. cbn [rsum]. destruct (Nat.eq_dec r n) as [->|NE].
  - rewrite rsum_zero. ring. intros; apply Z; lia.
  - rewrite IHn, (Z n) by (try lia; intros; apply Z; lia). ring.
Qed.
Section elem.
Variables (el : lelem) (n : nat) (x : coefs).
Hypothesis OK : elem_ok el.
Let A := enum el.
Lemma split_dof r : (r < 3 * A)%nat -> (r mod A < A)%nat /\ (r / A < 3)%nat /\ r = dof A (r / A) (r mod A).
Proof.
  intro H. assert (Z : A <> 0%nat) by lia. split. apply Nat.mod_upper_bound; exact Z. split. apply Nat.div_lt_upper_bound; lia.
  unfold dof. rewrite Nat.mul_comm. apply Nat.div_mod. exact Z.
Qed.
Lemma hit_dof r i d j : (r < 3 * A)%nat -> (j < A)%nat -> (d < 3)%nat -> eact el j = i ->
  andb (Nat.eqb i (eact el (r mod A))) (Nat.eqb d (r / A)) = Nat.eqb r (dof A d j).
Proof.
  intros H J D <-. destruct (split_dof r H) as (M & _ & E). destruct OK as (INJ & _).
  destruct (Nat.eqb_spec r (dof A d j)) as [->|NE].
  - unfold dof. rewrite dof_div, dof_mod, !Nat.eqb_refl by exact J. reflexivity.
  - destruct (Nat.eqb_spec (eact el j) (eact el (r mod A))) as [X|]; [|reflexivity]. destruct (Nat.eqb_spec d (r / A)) as [Y|]; [|reflexivity].
    exfalso. apply NE. rewrite E. rewrite <- Y. f_equal. symmetry. apply INJ; assumption.
Qed.
Lemma hit_none r i d : (r < 3 * A)%nat -> (forall j, (j < A)%nat -> eact el j <> i) -> andb (Nat.eqb i (eact el (r mod A))) (Nat.eqb d (r / A)) = false.
Proof.
  intros H Z. destruct (split_dof r H) as (M & _). destruct (Nat.eqb_spec i (eact el (r mod A))) as [X|]; [|reflexivity]. exfalso. exact (Z _ M (eq_sym X)).
Qed.
Lemma find_act i : (exists j, (j < A)%nat /\ eact el j = i) \/ (forall j, (j < A)%nat -> eact el j <> i).
Proof.
  clear OK x. induction A as [|a IH]. right; intros; lia. destruct IH as [(j & J & E)|IH]. left; exists j; split; [lia|exact E].
  destruct (Nat.eq_dec (eact el a) i) as [E|NE]. left; exists a; split; [lia|exact E]. right. intros j J. destruct (Nat.eq_dec j a) as [->|]. exact NE. apply IH. lia.
Qed.
Definition Kq (q : qpoint) (v u : jet) : R := let em := qem n q x in let ef := qef n q x in
  Kstiff (qdef n q x) (qA q em ef) (qB q em ef) (qC q em ef) (qD q em ef) (qN q em ef) (qM q em ef) v u.
Definition Fq (q : qpoint) (v : jet) : R := Fint (qdef n q x) (qN q (qem n q x) (qef n q x)) (qM q (qem n q x) (qef n q x)) v.
Lemma Kq_zero_r q v : Kq q v jzero = 0.
Proof. unfold Kq. cbv zeta. apply (linj_zero (Kstiff _ _ _ _ _ _ _ v)), lin_Kstiff. Qed.
Lemma Kq_zero_l q u : Kq q jzero u = 0.
Proof.
  unfold Kq, Kstiff. cbv zeta.
  assert (Z1 : forall c, Em_der c jzero = vzero) by (intro c; extensionality a; unfold Em_der, jzero; cbn [j1 j2]; unfold vzero, dot3, sum3; destruct a as [|[|a]]; ring).
  assert (V : forall c, var1 c jzero = vzero) by (intro c; extensionality a; unfold var1, outer_apply, m_var, jzero; cbn [j1 j2]; unfold cross3, vzero, sum3; destruct a as [|[|a]]; unfold Rdiv; ring).
  assert (Z2 : forall c, Ef_der c jzero = vzero).
  { intro c; extensionality a; unfold Ef_der, mult2, deriv2_map. rewrite V. destruct a as [|[|[|a]]]; unfold jsec, jzero; cbn [j11 j22 j12]; unfold vzero, dot3, sum3; ring. }
  assert (MU : forall c, m_var c jzero = vzero) by (intro c; extensionality a; unfold m_var, jzero; cbn [j1 j2]; unfold cross3, vzero; destruct a as [|[|a]]; unfold Rdiv; ring).
  assert (MUV : forall c w, m_uv c jzero w = vzero) by (intros c w; extensionality a; unfold m_uv, jzero; cbn [j1 j2]; unfold cross3, vzero; destruct a as [|[|a]]; unfold Rdiv; ring).
  assert (W : forall c w, var2 c jzero w = vzero).
  { intros c w. extensionality a. unfold var2, var2_with. cbv zeta. rewrite MU, MUV. unfold vzero, dot3, sum3. ring. }
  rewrite Z1, Z2. unfold Ef_der2, flatdot2, var2deriv2dot, curv_of, flatdot. rewrite V, W.
  unfold mult2, jsec, jzero; cbn [j1 j2 j11 j22 j12]. unfold rowmat, vadd, vzero, dot3, sum3. ring.
Qed.
Lemma Fq_zero q : Fq q jzero = 0.
Proof. unfold Fq. apply linj_zero, lin_Fint. Qed.
Lemma el_K_eq d j e i : (d < 3)%nat -> (j < A)%nat -> (e < 3)%nat -> (i < A)%nat ->
  el_K n x el (dof A d j) (dof A e i) = psum (map fst (epts el)) (fun q => qw q * Kq q (bvar d (qbas q (eact el j))) (bvar e (qbas q (eact el i)))).
Proof.
  intros D J E I. unfold el_K. destruct OK as (_ & P). unfold A in *.
  assert (G : forall l, (forall p, In p l -> In p (epts el)) -> psum l (fun p => let q := fst p in let em := qem n q x in let ef := qef n q x in
     qw q * local_K (snd (snd p)) (fst (snd p)) (qdef n q x) (qA q em ef) (qB q em ef) (qC q em ef) (qD q em ef) (qN q em ef) (qM q em ef) (dof (enum el) d j) (dof (enum el) e i))
     = psum (map fst l) (fun q => qw q * Kq q (bvar d (qbas q (eact el j))) (bvar e (qbas q (eact el i))))).
  { induction l as [|p l IH]; intro IN. reflexivity. cbn [psum map fold_right]. apply f_equal2; [|apply IH; intros; apply IN; right; assumption]. cbv zeta.
    destruct (P p (IN p (or_introl eq_refl))) as (LA & B & _). rewrite (B j J), (B i I). rewrite <- LA. unfold Kq. cbv zeta. f_equal. apply local_K_eq; rewrite ?LA; assumption. }
  apply G. auto.
Qed.
Lemma el_F_eq d j : (d < 3)%nat -> (j < A)%nat -> el_F n x el (dof A d j) = psum (map fst (epts el)) (fun q => qw q * Fq q (bvar d (qbas q (eact el j)))).
Proof.
  intros D J. unfold el_F. destruct OK as (_ & P). unfold A in *.
  assert (G : forall l, (forall p, In p l -> In p (epts el)) -> psum l (fun p => let q := fst p in let em := qem n q x in let ef := qef n q x in
     qw q * local_F (snd (snd p)) (fst (snd p)) (qdef n q x) (qN q em ef) (qM q em ef) (dof (enum el) d j))
     = psum (map fst l) (fun q => qw q * Fq q (bvar d (qbas q (eact el j))))).
  { induction l as [|p l IH]; intro IN. reflexivity. cbn [psum map fold_right]. apply f_equal2; [|apply IH; intros; apply IN; right; assumption]. cbv zeta.
    destruct (P p (IN p (or_introl eq_refl))) as (LA & B & _). rewrite (B j J). rewrite <- LA. unfold Fq. f_equal. apply local_F_eq; rewrite ?LA; assumption. }
  apply G. auto.
Qed.
Lemma zero_pts (f : qpoint -> R) : (forall q, In q (map fst (epts el)) -> f q = 0) -> psum (map fst (epts el)) f = 0.
Proof. intro H. rewrite (psum_e _ _ f (fun _ => 0)) by exact H. apply psum_zero. Qed.
Lemma off_pts i q : In q (map fst (epts el)) -> (forall j, (j < A)%nat -> eact el j <> i) -> qbas q i = szero.
Proof. intros IN Z. apply in_map_iff in IN. destruct IN as (p & <- & IP). destruct OK as (_ & P). destruct (P p IP) as (_ & _ & B). apply B. exact Z. Qed.
Lemma push_F_eq G i d : (d < 3)%nat -> push_F n x el G i d = G i d + psum (map fst (epts el)) (fun q => qw q * Fq q (bvar d (qbas q i))).
Proof.
  intro D. unfold push_F. rewrite for_addF. f_equal. fold A. destruct (find_act i) as [(j & J & E)|Z].
  - rewrite (rsum_one _ _ (dof A d j) (dof_lt A d j D J)).
    + rewrite (hit_dof _ i d j) by (try assumption; apply dof_lt; assumption). rewrite Nat.eqb_refl. cbn [hit]. rewrite el_F_eq, E by assumption. reflexivity.
    + intros k K NE. rewrite (hit_dof _ i d j) by assumption. destruct (Nat.eqb_spec k (dof A d j)); [contradiction|reflexivity].
  - rewrite rsum_zero by (intros r H; rewrite hit_none by assumption; reflexivity).
    symmetry. apply zero_pts. intros q IN. rewrite (off_pts i q IN Z), bvar_zero, Fq_zero. ring.
Qed.
Lemma push_K_eq G i d j e : (d < 3)%nat -> (e < 3)%nat ->
  push_K n x el G i d j e = G i d j e + psum (map fst (epts el)) (fun q => qw q * Kq q (bvar d (qbas q i)) (bvar e (qbas q j))).
Proof.
  intros D E. unfold push_K. rewrite (for_addK (3 * enum el) (3 * enum el) (fun r => eact el (r mod enum el)) (fun r => (r / enum el)%nat) (el_K n x el)). f_equal. fold A.
  destruct (find_act i) as [(k & K & EK)|Z].
  - destruct (find_act j) as [(l & L & EL)|Z].
    + rewrite (rsum_one _ _ (dof A e l) (dof_lt A e l E L)).
      * rewrite (rsum_one _ _ (dof A d k) (dof_lt A d k D K)).
        -- rewrite (hit_dof _ i d k), (hit_dof _ j e l) by (try assumption; apply dof_lt; assumption). rewrite !Nat.eqb_refl. cbn [hit andb]. rewrite el_K_eq, EK, EL by assumption. reflexivity.
        -- intros r R NE. rewrite (hit_dof _ i d k) by assumption. destruct (Nat.eqb_spec r (dof A d k)); [contradiction|reflexivity].
      * intros s S NE. apply rsum_zero. intros r R. rewrite (hit_dof s j e l) by assumption. destruct (Nat.eqb_spec s (dof A e l)); [contradiction|]. rewrite andb_false_r. reflexivity.
    + rewrite rsum_zero. 2:{ intros s S. apply rsum_zero. intros r R. rewrite (hit_none s j e S Z), andb_false_r. reflexivity. }
      symmetry. apply zero_pts. intros q IN. rewrite (off_pts j q IN Z), bvar_zero, Kq_zero_r. ring.
  - rewrite rsum_zero. 2:{ intros s S. apply rsum_zero. intros r R. rewrite (hit_none r i d R Z). reflexivity. }
    symmetry. apply zero_pts. intros q IN. rewrite (off_pts i q IN Z), bvar_zero, Kq_zero_l. ring.
Qed.
End elem.
Lemma asm_K_eq n x els i d j e : (d < 3)%nat -> (e < 3)%nat -> (forall el, In el els -> elem_ok el) -> asm_K n x els i d j e = Kmat n (all_pts els) x i d j e.
Proof.
  intros D E OK. assert (S : forall q, qw q * Kentry q n x i d j e = qw q * Kq n x q (bvar d (qbas q i)) (bvar e (qbas q j))).
  { intro q. f_equal. unfold Kentry, Kq, Kstiff. cbv zeta. rewrite !Ef_dof_ext by assumption. reflexivity. }
  unfold Kmat. rewrite (psum_e _ _ _ _ (fun q _ => S q)). unfold asm_K.
  assert (G : forall l G, (forall el, In el l -> elem_ok el) -> fold_left (fun G el => push_K n x el G) l G i d j e
     = G i d j e + psum (all_pts l) (fun q => qw q * Kq n x q (bvar d (qbas q i)) (bvar e (qbas q j)))).
  { induction l as [|a l IH]; intros G H. cbn. ring. cbn [fold_left all_pts flat_map]. rewrite IH by (intros; apply H; right; assumption).
    rewrite push_K_eq by (try assumption; apply H; left; reflexivity). rewrite psum_app. unfold all_pts. ring. }
  rewrite G by exact OK. ring.
Qed.
Lemma asm_F_eq n x els i d : (d < 3)%nat -> (forall el, In el els -> elem_ok el) -> asm_F n x els i d = Fvec n (all_pts els) x i d.
Proof.
  intros D OK. assert (S : forall q, qw q * (dot3 (qN q (qem n q x) (qef n q x)) (Em_der (qdef n q x) (bvar d (qbas q i)))
     + dot3 (qM q (qem n q x) (qef n q x)) (Ef_der_dof (qdef n q x) d (qbas q i))) = qw q * Fq n x q (bvar d (qbas q i))).
  { intro q. f_equal. unfold Fq, Fint. rewrite !Ef_dof_ext by assumption. reflexivity. }
  unfold Fvec. rewrite (psum_e _ _ _ _ (fun q _ => S q)). unfold asm_F.
  assert (G : forall l G, (forall el, In el l -> elem_ok el) -> fold_left (fun G el => push_F n x el G) l G i d
     = G i d + psum (all_pts l) (fun q => qw q * Fq n x q (bvar d (qbas q i)))).
  { induction l as [|a l IH]; intros G H. cbn. ring. cbn [fold_left all_pts flat_map]. rewrite IH by (intros; apply H; right; assumption).
    rewrite push_F_eq by (try assumption; apply H; left; reflexivity). rewrite psum_app. unfold all_pts. ring. }
  rewrite G by exact OK. ring.
Qed.
