(* Lemmas about the post-processing queries. *)
From Coq Require Import Reals Lra Lia List Psatz FunctionalExtensionality.
From Coquelicot Require Import Coquelicot.
From Verif Require Import Tensor KinModel KinSpec KinAsm KinProofs DwrProofs EstProofs DiagModel DiagSpec.
Import ListNotations.
Open Scope R_scope.

Ltac dex := unfold dot3, cross3, vsub, vadd, vscal, sum3, sum2; cbn.

Lemma dot_self_nonneg : forall u, 0 <= dot3 u u.
Proof. intro u. unfold dot3, sum3. nra. Qed.
Lemma dot_self_zero : forall u, dot3 u u = 0 <-> same3 u vzero.
Proof.
  intro u. unfold same3, vzero. split.
  - intros H i Hi. unfold dot3, sum3 in H.
    assert (u 0%nat = 0 /\ u 1%nat = 0 /\ u 2%nat = 0) as (A & B & C) by (repeat split; nra).
    destruct i as [|[|[|i]]]; try lia; assumption.
  - intro H. unfold dot3, sum3. rewrite (H 0%nat), (H 1%nat), (H 2%nat) by lia. ring.
Qed.
Lemma measure_nonneg : forall c, 0 <= measure c.
Proof. intro; apply sqrt_pos. Qed.
Lemma measure_pos : forall c, regular c -> 0 < measure c.
Proof. intros c H. apply sqrt_lt_R0. exact H. Qed.
Lemma lagrange : forall u v, dot3 (cross3 u v) (cross3 u v) = dot3 u u * dot3 v v - dot3 u v * dot3 u v.
Proof. intros. dex. ring. Qed.
Lemma norm_eq : forall u v, dot3 u u = dot3 v v -> norm3 u = norm3 v.
Proof. intros u v H. unfold norm3. rewrite H. reflexivity. Qed.

(* ------------------------------------------------------------------ isometries *)
Lemma iso_dot : forall Q u v, isometric Q -> dot3 (mvec3 Q u) (mvec3 Q v) = dot3 u v.
Proof.
  intros Q u v H.
  pose proof (H 0%nat 0%nat ltac:(lia) ltac:(lia)) as H00. pose proof (H 0%nat 1%nat ltac:(lia) ltac:(lia)) as H01.
  pose proof (H 0%nat 2%nat ltac:(lia) ltac:(lia)) as H02. pose proof (H 1%nat 1%nat ltac:(lia) ltac:(lia)) as H11.
  pose proof (H 1%nat 2%nat ltac:(lia) ltac:(lia)) as H12. pose proof (H 2%nat 2%nat ltac:(lia) ltac:(lia)) as H22.
  clear H. unfold sum3, delta in *; cbn in *.
  transitivity (u 0%nat * v 0%nat * (Q 0%nat 0%nat * Q 0%nat 0%nat + Q 1%nat 0%nat * Q 1%nat 0%nat + Q 2%nat 0%nat * Q 2%nat 0%nat)
    + (u 0%nat * v 1%nat + u 1%nat * v 0%nat) * (Q 0%nat 0%nat * Q 0%nat 1%nat + Q 1%nat 0%nat * Q 1%nat 1%nat + Q 2%nat 0%nat * Q 2%nat 1%nat)
    + (u 0%nat * v 2%nat + u 2%nat * v 0%nat) * (Q 0%nat 0%nat * Q 0%nat 2%nat + Q 1%nat 0%nat * Q 1%nat 2%nat + Q 2%nat 0%nat * Q 2%nat 2%nat)
    + u 1%nat * v 1%nat * (Q 0%nat 1%nat * Q 0%nat 1%nat + Q 1%nat 1%nat * Q 1%nat 1%nat + Q 2%nat 1%nat * Q 2%nat 1%nat)
    + (u 1%nat * v 2%nat + u 2%nat * v 1%nat) * (Q 0%nat 1%nat * Q 0%nat 2%nat + Q 1%nat 1%nat * Q 1%nat 2%nat + Q 2%nat 1%nat * Q 2%nat 2%nat)
    + u 2%nat * v 2%nat * (Q 0%nat 2%nat * Q 0%nat 2%nat + Q 1%nat 2%nat * Q 1%nat 2%nat + Q 2%nat 2%nat * Q 2%nat 2%nat)).
  unfold mvec3, dot3, sum3. ring.
  rewrite H00, H01, H02, H11, H12, H22. unfold dot3, sum3. ring.
Qed.
Lemma iso_measure : forall Q t c, isometric Q -> measure (jmap Q t c) = measure c.
Proof.
  intros Q t c H. unfold measure. apply norm_eq. rewrite !lagrange. unfold jmap; cbn [j1 j2].
  rewrite !(iso_dot Q) by exact H. reflexivity.
Qed.

Lemma psum_ext : forall {A} (l : list A) f g, (forall a, In a l -> f a = g a) -> psum l f = psum l g.
Proof. intros A l f g H. induction l as [|a l IH]; cbn. reflexivity. rewrite H by (left; reflexivity). rewrite IH. reflexivity. intros b Hb. apply H. right; exact Hb. Qed.
Lemma psum_mul : forall {A} (l : list A) k f, psum l (fun a => k * f a) = k * psum l f.
Proof. intros A l k f. induction l as [|a l IH]; cbn. ring. rewrite IH. ring. Qed.
Lemma psum_app : forall {A} (l m : list A) f, psum (l ++ m) f = psum l f + psum m f.
Proof. intros A l m f. induction l as [|a l IH]; cbn. ring. rewrite IH. ring. Qed.
Lemma psum_le : forall {A} (l : list A) f g, (forall a, In a l -> f a <= g a) -> psum l f <= psum l g.
Proof.
  intros A l f g H. induction l as [|a l IH]; cbn. lra.
  pose proof (H a (or_introl eq_refl)). assert (psum l f <= psum l g) by (apply IH; intros; apply H; right; assumption). lra.
Qed.
Lemma psum_ge0 : forall {A} (l : list A) f, (forall a, In a l -> 0 <= f a) -> 0 <= psum l f.
Proof. intros A l f H. induction l as [|a l IH]; cbn. lra. pose proof (H a (or_introl eq_refl)). assert (0 <= psum l f) by (apply IH; intros; apply H; right; assumption). lra. Qed.
Lemma psum_zero_all : forall {A} (l : list A) f, (forall a, In a l -> 0 <= f a) -> psum l f = 0 -> forall a, In a l -> f a = 0.
Proof.
  intros A l f H E a Ha. induction l as [|b l IH]; cbn in *. contradiction.
  pose proof (H b (or_introl eq_refl)). assert (0 <= psum l f) by (apply psum_ge0; intros; apply H; right; assumption).
  destruct Ha as [<-|Ha]. lra. apply IH; [intros; apply H; right; assumption|lra|exact Ha].
Qed.
Lemma psum_pos : forall {A} (l : list A) f, l <> [] -> (forall a, In a l -> 0 < f a) -> 0 < psum l f.
Proof.
  intros A l f N H. destruct l as [|a l]; [contradiction|]. cbn. pose proof (H a (or_introl eq_refl)).
  assert (0 <= psum l f) by (apply psum_ge0; intros b Hb; apply Rlt_le, H; right; assumption). lra.
Qed.

(* ------------------------------------------------------------------ maxima *)
Lemma lmax_nonneg : forall {A} (l : list A) f, 0 <= lmax l f.
Proof. intros A l f. induction l as [|a l IH]; cbn. lra. eapply Rle_trans. exact IH. apply Rmax_r. Qed.
Lemma lmax_ub : forall {A} (l : list A) f a, In a l -> f a <= lmax l f.
Proof. intros A l f a Ha. induction l as [|b l IH]; cbn in *. contradiction. destruct Ha as [<-|Ha]. apply Rmax_l. eapply Rle_trans. apply IH; exact Ha. apply Rmax_r. Qed.
Lemma lmax_lub : forall {A} (l : list A) f m, 0 <= m -> (forall a, In a l -> f a <= m) -> lmax l f <= m.
Proof. intros A l f m M H. induction l as [|b l IH]; cbn. exact M. apply Rmax_lub. apply H; left; reflexivity. apply IH; intros; apply H; right; assumption. Qed.
Lemma lmax_zero : forall {A} (l : list A) f, (forall a, In a l -> 0 <= f a) -> (lmax l f = 0 <-> forall a, In a l -> f a = 0).
Proof.
  intros A l f P. split.
  - intros E a Ha. apply Rle_antisym. rewrite <- E. apply lmax_ub; exact Ha. apply P; exact Ha.
  - intro H. apply Rle_antisym. apply lmax_lub. lra. intros a Ha. rewrite H by exact Ha. lra. apply lmax_nonneg.
Qed.

(* ------------------------------------------------------------------ change of parametrisation *)
Lemma sn_reparam : forall P S c i, (i < 3)%nat -> sn (reparam P S c) i = det2 P * sn c i.
Proof. intros P S c i Hi. unfold sn, reparam, lin2, det2; cbn [j1 j2]. destruct i as [|[|[|i]]]; try lia; dex; ring. Qed.
Lemma dot_ext : forall u u' v v', same3 u u' -> same3 v v' -> dot3 u v = dot3 u' v'.
Proof. intros u u' v v' A B. unfold dot3, sum3. rewrite (A 0%nat), (A 1%nat), (A 2%nat), (B 0%nat), (B 1%nat), (B 2%nat) by lia. reflexivity. Qed.
Lemma sn_dot_reparam : forall P S c, dot3 (sn (reparam P S c)) (sn (reparam P S c)) = det2 P * det2 P * dot3 (sn c) (sn c).
Proof.
  intros. transitivity (dot3 (vscal (det2 P) (sn c)) (vscal (det2 P) (sn c))).
  apply dot_ext; intros i Hi; apply sn_reparam; exact Hi. dex. ring.
Qed.
Lemma reparam_regular : forall P S c, regular c -> det2 P <> 0 -> regular (reparam P S c).
Proof.
  intros P S c R D. unfold regular. change (0 < dot3 (sn (reparam P S c)) (sn (reparam P S c))). rewrite sn_dot_reparam.
  apply Rmult_lt_0_compat. nra. exact R.
Qed.
Lemma measure_reparam : forall P S c, measure (reparam P S c) = Rabs (det2 P) * measure c.
Proof.
  intros. unfold measure, norm3. change (sqrt (dot3 (sn (reparam P S c)) (sn (reparam P S c))) = Rabs (det2 P) * sqrt (dot3 (sn c) (sn c))).
  rewrite sn_dot_reparam, sqrt_mult_alt by nra. f_equal. exact (sqrt_Rsqr_abs (det2 P)).
Qed.
Definition sg (x : R) : R := x / Rabs x.
Lemma sg_sq : forall x, x <> 0 -> sg x * sg x = 1.
Proof. intros x H. unfold sg. assert (Rabs x <> 0) by (apply Rabs_no_R0; exact H). assert (Rabs x * Rabs x = x * x) by (exact (eq_sym (Rsqr_abs x))). field_simplify_eq; [nra|assumption]. Qed.
Lemma sg_pos : forall x, 0 < x -> sg x = 1.
Proof. intros x H. unfold sg. rewrite Rabs_right by lra. field. lra. Qed.
Lemma sg_neg : forall x, x < 0 -> sg x = -1.
Proof. intros x H. unfold sg. rewrite Rabs_left by lra. field. lra. Qed.
Lemma unormal_reparam : forall P S c i, (i < 3)%nat -> regular c -> det2 P <> 0 -> unormal (reparam P S c) i = sg (det2 P) * unormal c i.
Proof.
  intros P S c i Hi R D. pose proof (reparam_regular P S c R D) as R'.
  unfold unormal. rewrite !normalize_pos by assumption.
  change (norm3 (cross3 (j1 (reparam P S c)) (j2 (reparam P S c)))) with (measure (reparam P S c)).
  change (norm3 (cross3 (j1 c) (j2 c))) with (measure c).
  change (cross3 (j1 (reparam P S c)) (j2 (reparam P S c)) i) with (sn (reparam P S c) i).
  rewrite sn_reparam by exact Hi. rewrite measure_reparam. unfold sg, sn.
  pose proof (measure_pos c R). assert (Rabs (det2 P) <> 0) by (apply Rabs_no_R0; exact D). field. split; [lra|assumption].
Qed.

Definition tri2 (P : mat) (A : mat) : mat := fun a b => sum2 (fun c => sum2 (fun d => P c a * A c d * P d b)).
Lemma fform_reparam : forall P S c a b, (a < 2)%nat -> (b < 2)%nat -> fform (reparam P S c) a b = tri2 P (fform c) a b.
Proof.
  intros P S c a b Ha Hb. unfold fform, tri2, reparam, lin2. destruct a as [|[|a]]; try lia; destruct b as [|[|b]]; try lia; dex; ring.
Qed.
Lemma fform2nd_reparam : forall P S c a b, (a < 2)%nat -> (b < 2)%nat -> regular c -> det2 P <> 0 ->
  fform2nd (reparam P S c) a b = sg (det2 P) * tri2 P (fform2nd c) a b.
Proof.
  intros P S c a b Ha Hb R D.
  assert (N : forall x, dot3 x (unormal (reparam P S c)) = sg (det2 P) * dot3 x (unormal c)).
  { intro x. unfold dot3, sum3. rewrite !unormal_reparam by (lia || assumption). ring. }
  destruct (unormal_is c R) as (O1 & O2 & _). unfold fform2nd. rewrite N. f_equal.
  unfold dot3, sum3 in O1, O2. unfold tri2, reparam, quad2, lin2. set (n := unormal c) in *. clearbody n.
  destruct a as [|[|a]]; try lia; destruct b as [|[|b]]; try lia; cbn; unfold dot3, vadd, vscal, sum3, sum2; cbn;
  (match goal with |- ?l = ?r => cut (l - r = 0); [lra|] end).
  - transitivity (S 0%nat 0%nat * (n 0%nat * j1 c 0%nat + n 1%nat * j1 c 1%nat + n 2%nat * j1 c 2%nat) + S 1%nat 0%nat * (n 0%nat * j2 c 0%nat + n 1%nat * j2 c 1%nat + n 2%nat * j2 c 2%nat)). ring. rewrite O1, O2. ring.
  - transitivity (S 0%nat 2%nat * (n 0%nat * j1 c 0%nat + n 1%nat * j1 c 1%nat + n 2%nat * j1 c 2%nat) + S 1%nat 2%nat * (n 0%nat * j2 c 0%nat + n 1%nat * j2 c 1%nat + n 2%nat * j2 c 2%nat)). ring. rewrite O1, O2. ring.
  - transitivity (S 0%nat 2%nat * (n 0%nat * j1 c 0%nat + n 1%nat * j1 c 1%nat + n 2%nat * j1 c 2%nat) + S 1%nat 2%nat * (n 0%nat * j2 c 0%nat + n 1%nat * j2 c 1%nat + n 2%nat * j2 c 2%nat)). ring. rewrite O1, O2. ring.
  - transitivity (S 0%nat 1%nat * (n 0%nat * j1 c 0%nat + n 1%nat * j1 c 1%nat + n 2%nat * j1 c 2%nat) + S 1%nat 1%nat * (n 0%nat * j2 c 0%nat + n 1%nat * j2 c 1%nat + n 2%nat * j2 c 2%nat)). ring. rewrite O1, O2. ring.
Qed.

Lemma dot_swap : forall u v, dot3 u v = dot3 v u.
Proof. intros. unfold dot3, sum3. ring. Qed.
Lemma det_fform : forall c, det2 (fform c) = dot3 (sn c) (sn c).
Proof. intro c. unfold sn. rewrite lagrange. unfold det2, fform. rewrite (dot_swap (j2 c) (j1 c)). ring. Qed.
Lemma gauss_formula : forall c, regular c -> det2 (shape_op c) = det2 (fform2nd c) / det2 (fform c).
Proof.
  intros c R. assert (D : det2 (fform c) <> 0) by (rewrite det_fform; apply Rgt_not_eq; exact R).
  unfold shape_op, mul2, inv2, sum2, det2 in *. cbn in *. field. exact D.
Qed.
Lemma mean_formula : forall c, regular c -> trace2 (shape_op c)
  = (fform c 1%nat 1%nat * fform2nd c 0%nat 0%nat - 2 * fform c 0%nat 1%nat * fform2nd c 0%nat 1%nat + fform c 0%nat 0%nat * fform2nd c 1%nat 1%nat) / det2 (fform c).
Proof.
  intros c R. assert (D : det2 (fform c) <> 0) by (rewrite det_fform; apply Rgt_not_eq; exact R).
  assert (F : fform c 1%nat 0%nat = fform c 0%nat 1%nat) by (unfold fform; apply dot_swap).
  assert (G : fform2nd c 1%nat 0%nat = fform2nd c 0%nat 1%nat) by reflexivity.
  unfold trace2, shape_op, mul2, inv2, sum2, det2 in *. cbn in *. rewrite F in *. rewrite G. field. exact D.
Qed.

Lemma gauss_reparam : forall P S c, regular c -> det2 P <> 0 -> det2 (shape_op (reparam P S c)) = det2 (shape_op c).
Proof.
  intros P S c R D. rewrite !gauss_formula by (try apply reparam_regular; assumption).
  assert (K : det2 (fform c) <> 0) by (rewrite det_fform; apply Rgt_not_eq; exact R).
  pose proof (sg_sq _ D) as Q. unfold det2 at 1 2. rewrite !fform_reparam, !fform2nd_reparam by (lia || assumption).
  set (s := sg (det2 P)) in *. clearbody s. unfold tri2, sum2.
  assert (F : fform c 1%nat 0%nat = fform c 0%nat 1%nat) by (unfold fform; apply dot_swap).
  assert (G : fform2nd c 1%nat 0%nat = fform2nd c 0%nat 1%nat) by reflexivity. rewrite F, G. unfold det2 in *. rewrite F in *. rewrite G.
  set (I00 := fform c 0%nat 0%nat) in *. set (I01 := fform c 0%nat 1%nat) in *. set (I11 := fform c 1%nat 1%nat) in *.
  set (B00 := fform2nd c 0%nat 0%nat) in *. set (B01 := fform2nd c 0%nat 1%nat) in *. set (B11 := fform2nd c 1%nat 1%nat) in *.
  set (a := P 0%nat 0%nat) in *. set (b := P 0%nat 1%nat) in *. set (d := P 1%nat 0%nat) in *. set (e := P 1%nat 1%nat) in *.
  match goal with |- ?n / ?m = _ => replace n with ((s * s) * ((a * e - b * d) * (a * e - b * d) * (B00 * B11 - B01 * B01))) by ring;
    replace m with ((a * e - b * d) * (a * e - b * d) * (I00 * I11 - I01 * I01)) by ring end.
  rewrite Q. field. split; assumption.
Qed.
Lemma mean_reparam : forall P S c, regular c -> det2 P <> 0 -> trace2 (shape_op (reparam P S c)) = sg (det2 P) * trace2 (shape_op c).
Proof.
  intros P S c R D. rewrite !mean_formula by (try apply reparam_regular; assumption).
  assert (K : det2 (fform c) <> 0) by (rewrite det_fform; apply Rgt_not_eq; exact R).
  unfold det2 at 1. rewrite !fform_reparam, !fform2nd_reparam by (lia || assumption).
  set (s := sg (det2 P)) in *. clearbody s. unfold tri2, sum2.
  assert (F : fform c 1%nat 0%nat = fform c 0%nat 1%nat) by (unfold fform; apply dot_swap).
  assert (G : fform2nd c 1%nat 0%nat = fform2nd c 0%nat 1%nat) by reflexivity. rewrite F, G. unfold det2 in *. rewrite F in *.
  set (I00 := fform c 0%nat 0%nat) in *. set (I01 := fform c 0%nat 1%nat) in *. set (I11 := fform c 1%nat 1%nat) in *.
  set (B00 := fform2nd c 0%nat 0%nat) in *. set (B01 := fform2nd c 0%nat 1%nat) in *. set (B11 := fform2nd c 1%nat 1%nat) in *.
  set (a := P 0%nat 0%nat) in *. set (b := P 0%nat 1%nat) in *. set (d := P 1%nat 0%nat) in *. set (e := P 1%nat 1%nat) in *.
  match goal with |- ?n / ?m = _ => replace n with (s * ((a * e - b * d) * (a * e - b * d) * (I11 * B00 - 2 * I01 * B01 + I00 * B11))) by ring;
    replace m with ((a * e - b * d) * (a * e - b * d) * (I00 * I11 - I01 * I01)) by ring end.
  field. split; assumption.
Qed.
