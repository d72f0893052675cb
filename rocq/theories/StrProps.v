(* Property C143: structures of any number of weakly coupled patches. *)
From Coq Require Import Reals Lra Lia List Arith FunctionalExtensionality.
From Coquelicot Require Import Coquelicot.
From Verif Require Import Tensor MetricSpec KinModel KinSpec KinAsm KinProofs KinStiff KinLoads KinMore KinProps ObjSpec ObjProofs ObjAsm ObjProps WifModel WifSpec WifProofs WifAsm WifProps
  StrModel StrSpec StrProofs.
Import ListNotations.
Open Scope R_scope.

(* the whole deformed structure moved and the loads turned: the assembled vector turns *)
Theorem C143_residual : forall P S X Q b f x p i d, orth Q 1 -> proper P S X -> (p < P)%nat -> (d < 3)%nat ->
  Svec S (sturn Q f) (smoved Q b X x) p i d = mvec3 Q (Svec S f x p i) d.
Proof.
  intros P S X Q b f x p i d O (HP & HI) Hp Hd. unfold Svec. change (smoved Q b X x p) with (superposed Q b (X p) (x p)).
  rewrite (C126_force (snum S p) Q b (X p) (x p) (spts S p) i d O) by (exact Hd || (intros q I; destruct (HP p q Hp I); apply represents_iso; assumption)).
  match goal with |- _ + psum _ ?h = _ => rewrite (psum_rot (sifc S) Q d h
    (fun c e => at_ (fside c false) p (fvec S x c false i e) + at_ (fside c true) p (fvec S x c true i e))) end.
  - unfold sturn, cturn, mvec3, sum3. ring.
  - intros c I. destruct (HI c I) as (_ & _ & C).
    assert (E : forall r, fvec S (smoved Q b X x) c r i d = sum3 (fun e => Q d e * fvec S x c r i e)).
    { intro r. unfold fvec. exact (C141_force _ _ _ _ Q b (fstate c X) (fstate c x) (fpts c) r i d O C Hd). }
    rewrite !E, !at_rot. unfold sum3. ring.
Qed.
Print Assumptions C143_residual.

(* ... and every 3x3 block of the matrix, within and between patches *)
Theorem C143_matrix : forall P S X Q b x p i d q j e, orth Q 1 -> proper P S X -> (p < P)%nat -> (d < 3)%nat -> (e < 3)%nat ->
  Smat S (smoved Q b X x) p i d q j e = sum3 (fun g => sum3 (fun h => Q d g * Q e h * Smat S x p i g q j h)).
Proof.
  intros P S X Q b x p i d q j e O (HP & HI) Hp Hd He. unfold Smat. change (smoved Q b X x p) with (superposed Q b (X p) (x p)).
  rewrite (C126_stiffness (snum S p) Q b (X p) (x p) (spts S p) i d j e O) by (assumption || (intros z I; destruct (HP p z Hp I); apply represents_iso; assumption)).
  match goal with |- _ + psum _ ?h = _ => rewrite (psum_rot2 (sifc S) Q d e h (fun c g k =>
      at_ (fside c false) p (at_ (fside c false) q (fmat S x c false i g false j k)) + at_ (fside c false) p (at_ (fside c true) q (fmat S x c false i g true j k))
    + at_ (fside c true) p (at_ (fside c false) q (fmat S x c true i g false j k)) + at_ (fside c true) p (at_ (fside c true) q (fmat S x c true i g true j k)))) end.
  - assert (A : forall v, at_ p q v = (if Nat.eqb p q then 1 else 0) * v) by (intro; unfold at_; destruct (Nat.eqb p q); ring).
    rewrite A. unfold sum3. rewrite !A. ring.
  - intros c I. destruct (HI c I) as (_ & _ & C).
    assert (E : forall r r', fmat S (smoved Q b X x) c r i d r' j e = sum3 (fun g => sum3 (fun h => Q d g * Q e h * fmat S x c r i g r' j h))).
    { intros r r'. unfold fmat. exact (C141_stiffness _ _ _ _ Q b (fstate c X) (fstate c x) (fpts c) r i d r' j e O C Hd He). }
    rewrite !E, !at_rot2. unfold sum3. ring.
Qed.
Print Assumptions C143_matrix.

Lemma sapply_moved P S X Q b x y p i d : orth Q 1 -> proper P S X -> (p < P)%nat -> (d < 3)%nat ->
  sapply P S (Smat S (smoved Q b X x)) (sturn Q y) p i d = mvec3 Q (sapply P S (Smat S x) y p i) d.
Proof.
  intros O H Hp Hd. unfold sapply, mvec3.
  transitivity (rsum P (fun q => sum3 (fun g => Q d g * rsum (snum S q) (fun j => sum3 (fun h => Smat S x p i g q j h * y q j h))))).
  - apply rsum_ext. intros q _. unfold sum3 at 2. rewrite <- !rsum_scal, <- !rsum_plus. apply rsum_ext. intros j _.
    unfold sum3 at 1. rewrite !(C143_matrix P S X Q b x p i d q j) by (assumption || lia).
    assert (R : forall h k, (h < 3)%nat -> (k < 3)%nat -> sum3 (fun e => Q e h * Q e k) = delta h k) by (intros; apply (proj1 O); assumption).
    transitivity (sum3 (fun g => sum3 (fun h => sum3 (fun k => Q d g * Smat S x p i g q j h * y q j k * sum3 (fun e => Q e h * Q e k))))).
    + unfold sturn, cturn, mvec3, sum3. ring.
    + unfold sum3 at 1 2 3. rewrite !R by lia. unfold delta. simpl. unfold sum3. ring.
  - apply (rsum_sum3 P (Q d) (fun q g => rsum (snum S q) (fun j => sum3 (fun h => Smat S x p i g q j h * y q j h)))).
Qed.
(* Newton's method on the moved structure makes the turned steps and reaches the moved states *)
Theorem C143_newton : forall P S X Q b f x y, orth Q 1 -> proper P S X -> newton P S f x y ->
  newton P S (sturn Q f) (smoved Q b X x) (sturn Q y) /\ forall p i d, sadd (smoved Q b X x) (sturn Q y) p i d = smoved Q b X (sadd x y) p i d.
Proof.
  intros P S X Q b f x y O H N. split.
  - intros p i d Hp Hi Hd. rewrite (sapply_moved P S X Q b x y p i d O H Hp Hd), (C143_residual P S X Q b f x p i d O H Hp Hd).
    unfold mvec3, sum3. rewrite !(N p i) by (assumption || lia). reflexivity.
  - intros p i d. unfold sadd, smoved, sturn, superposed, cturn, mvec3, sum3. ring.
Qed.
Print Assumptions C143_newton.

Theorem C143_equilibrium : forall P S X Q b f x, orth Q 1 -> proper P S X ->
  equilibrium P S f x <-> equilibrium P S (sturn Q f) (smoved Q b X x).
Proof.
  intros P S X Q b f x O H. split; intros E p i d Hp Hi Hd.
  - rewrite (C143_residual P S X Q b f x p i d O H Hp Hd). unfold mvec3, sum3. rewrite !(E p i) by (assumption || lia). ring.
  - assert (R : forall h k, (h < 3)%nat -> (k < 3)%nat -> sum3 (fun e => Q e h * Q e k) = delta h k) by (intros; apply (proj1 O); assumption).
    assert (Z : forall e, (e < 3)%nat -> mvec3 Q (Svec S f x p i) e = 0) by (intros e He; rewrite <- (C143_residual P S X Q b f x p i e O H Hp He); apply E; assumption).
    transitivity (sum3 (fun e => Q e d * mvec3 Q (Svec S f x p i) e)); [|unfold sum3; rewrite !Z by lia; ring].
    transitivity (sum3 (fun k => sum3 (fun e => Q e d * Q e k) * Svec S f x p i k)); [|unfold mvec3, sum3; ring].
    unfold sum3 at 1. rewrite !R by lia. unfold delta. destruct d as [|[|[|d]]]; [| | |lia]; simpl; ring.
Qed.
Print Assumptions C143_equilibrium.

(* loads of a structure in equilibrium balance: the internal forces and the coupling terms of all patches have no resultant *)
Lemma total_work P S X x f w b : proper P S X -> sregular P S x -> equilibrium P S f x ->
  rsum P (fun p => work (snum S p) (f p) (rvel w b (X p) (x p))) = 0.
Proof.
  intros (HP & HI) (GP & GI) E. set (y := fun p => rvel w b (X p) (x p)).
  set (cf := fun p i d => psum (sifc S) (fun c => at_ (fside c false) p (fvec S x c false i d) + at_ (fside c true) p (fvec S x c true i d))).
  transitivity (rsum P (fun p => - work (snum S p) (cf p) (y p))).
  { apply rsum_ext. intros p Hp.
    transitivity (work (snum S p) (fun i d => Fvec (snum S p) (spts S p) (x p) i d - cf p i d) (y p)).
    - apply work_ext. intros i d Hi Hd. pose proof (E p i d Hp Hi Hd) as Z. unfold Svec in Z. fold (cf p i d) in Z. lra.
    - rewrite work_sub. unfold y. rewrite (patch_work (snum S p) (spts S p) (X p) (x p) w b) by (intros; (apply HP || apply GP); assumption). ring. }
  assert (C : rsum P (fun p => work (snum S p) (cf p) (y p)) = 0).
  { transitivity (psum (sifc S) (fun c => rsum P (fun p => at_ (fl c) p (work (snum S p) (fvec S x c false) (y p)) + at_ (fr c) p (work (snum S p) (fvec S x c true) (y p))))).
    - rewrite <- rsum_psum. apply rsum_ext. intros p _. unfold cf. rewrite work_psum. f_equal. extensionality c.
      rewrite (work_add (snum S p) (fun i d => at_ (fside c false) p (fvec S x c false i d))). rewrite !work_at. reflexivity.
    - apply psum_null. intros c I. destruct (HI c I) as (Hl & Hr & C). rewrite rsum_plus.
      rewrite (rsum_at P (fl c) (fun p => work (snum S p) (fvec S x c false) (y p)) Hl), (rsum_at P (fr c) (fun p => work (snum S p) (fvec S x c true) (y p)) Hr).
      apply (rigid_work (snum S (fl c)) (snum S (fr c)) (fc0 c) (fc1 c) (fstate c X) (fstate c x) (fpts c) w b).
      intros q J. destruct (C q J) as (C1 & C2). split; [exact C1|]. split; [apply (GI c q I J)|]. intro Z. right. exact (C2 Z). }
  transitivity (-1 * rsum P (fun p => work (snum S p) (cf p) (y p))); [rewrite <- rsum_scal; apply rsum_ext; intros; ring|rewrite C; ring].
Qed.
Theorem C143_loads_balance : forall P S X x f d, proper P S X -> sregular P S x -> equilibrium P S f x -> (d < 3)%nat ->
  total_force P S f d = 0 /\ total_moment P S X x f d = 0.
Proof.
  intros P S X x f d H G E Hd. split.
  - rewrite <- (total_work P S X x f vzero (unitv d) H G E). apply rsum_ext. intros p _. symmetry. apply work_force, Hd.
  - rewrite <- (total_work P S X x f (unitv d) vzero H G E). apply rsum_ext. intros p _. symmetry. apply work_moment, Hd.
Qed.
Print Assumptions C143_loads_balance.

(* the matrix is minus the derivative of the vector, in every direction and across the interfaces: displacements coupled, penalty factors that do not follow the deformation *)
Theorem C143_tangent : forall P S f x y p i d, (p < P)%nat -> (d < 3)%nat ->
  (forall q, In q (spts S p) -> KinSpec.regular (qdef (snum S p) q (x p)) /\ has_tangents (qN q) (qA q) (qC q) /\ has_tangents (qM q) (qB q) (qD q)) ->
  (forall c, In c (sifc S) -> (fl c < P)%nat /\ (fr c < P)%nat /\ fc1 c = false /\ forall q, In q (fpts c) -> forall e g e' g', iad q e g = iad q e' g') ->
  is_derive (fun t => Svec S f (fun p => cmove (x p) (y p) t) p i d) 0 (- sapply P S (Smat S x) y p i d).
Proof.
  intros P S f x y p i d Hp Hd HP HI. rewrite (sapply_parts P S x y p i d Hp) by (intros c I; destruct (HI c I) as (A & B & _); split; assumption).
  set (k := fun c => at_ (fside c false) p (fapply S x y c false i d) + at_ (fside c true) p (fapply S x y c true i d)).
  set (h := fun c => at_ (fside c false) p (fvec S x c false i d) + at_ (fside c true) p (fvec S x c true i d)).
  assert (L : forall l t, (forall c, In c l -> In c (sifc S)) ->
    psum l (fun c => at_ (fside c false) p (fvec S (fun p => cmove (x p) (y p) t) c false i d) + at_ (fside c true) p (fvec S (fun p => cmove (x p) (y p) t) c true i d)) = psum l h - t * psum l k).
  { intros l t. induction l as [|c l IH]; intro I; cbn [psum]. ring. rewrite IH by (intros; apply I; right; assumption). clear IH.
    destruct (HI c (I c (or_introl eq_refl))) as (_ & _ & C1 & CA).
    assert (E : forall r, fvec S (fun p => cmove (x p) (y p) t) c r i d = fvec S x c r i d - t * fapply S x y c r i d).
    { intro r. pose proof (iapply (snum S (fl c)) (snum S (fr c)) (fc0 c) (fc1 c) (fpts c) (fstate c x) (y (fl c), y (fr c)) r i d) as K. cbn [fst snd] in K.
      unfold fapply, fmat. rewrite K. unfold fvec. rewrite C1. exact (ivec_line (snum S (fl c)) (snum S (fr c)) (fc0 c) (fpts c) (fstate c x) (y (fl c), y (fr c)) r i d t CA). }
    rewrite !E. unfold h, k. assert (A : forall a u v, at_ a p (u - t * v) = at_ a p u - t * at_ a p v) by (intros a u v; unfold at_; destruct (Nat.eqb a p); ring). rewrite !A. ring. }
  apply (is_derive_ext (fun t => f p i d + psum (sifc S) h - t * psum (sifc S) k - Fvec (snum S p) (spts S p) (cmove (x p) (y p) t) i d)).
  { intro t. match goal with |- ?a = ?b => change (@eq R a b) end. unfold Svec. rewrite (L (sifc S) t) by (intros; assumption). ring. }
  pose proof (C50_stiffness_is_jacobian (snum S p) (spts S p) (x p) (y p) i d Hd HP) as D.
  replace (- (Kapply (snum S p) (spts S p) (x p) (y p) i d + psum (sifc S) k)) with (minus (- psum (sifc S) k) (Kapply (snum S p) (spts S p) (x p) (y p) i d)) by (unfold minus, plus, opp; simpl; ring).
  apply (is_derive_minus (fun t => f p i d + psum (sifc S) h - t * psum (sifc S) k) (fun t => Fvec (snum S p) (spts S p) (cmove (x p) (y p) t) i d)); [|exact D].
  auto_derive; [exact I|ring].
Qed.
Print Assumptions C143_tangent.

(* the matrix is symmetric, within and between patches: symmetric section tangents; where rotations are coupled the state does not change the in-plane angles *)
Lemma iblock_sym n m c0 c1 pts x r i d r' j e :
  (forall q, In q pts -> c1 = true -> iregular n m x q /\ dnN (isl q) (isr q) (iori q) (idef n m q x) + dnN' (isl q) (isr q) (iori q) (idef n m q x) = 0) ->
  Imat n m c0 c1 pts x r i d r' j e = Imat n m c0 c1 pts x r' j e r i d.
Proof.
  intro H. unfold Imat. induction pts as [|q l IH]; cbn [psum]. reflexivity. rewrite IH by (intros; apply H; [right|]; assumption). f_equal. f_equal. clear IH.
  unfold Kipt. f_equal.
  - destruct c0; [|reflexivity]. unfold Kifc, dot3, sum3. ring.
  - destruct c1; [|reflexivity]. destruct (H q (or_introl eq_refl) eq_refl) as ((Gl & Gr & _) & Z). set (u := itest q r' j e). set (v := itest q r i d).
    set (c := idef n m q x) in *. f_equal.
    + unfold KifcC1.
      assert (S : forall (g a b : jet) w, regular g -> var2dot g a b w = var2dot g b a w).
      { intros g a b w G. unfold var2dot, dot3, sum3. rewrite !(C48_symmetric g a b) by (exact G || lia). reflexivity. }
      rewrite (S (fst c) (fst v) (fst u)), (S (snd c) (snd v) (snd u)) by assumption. unfold dot3, sum3. ring.
    + unfold KifcIn. cbv zeta. set (a := dnN _ _ _ _) in *. set (b := dnN' _ _ _ _) in *. replace b with (- a) by lra. unfold dot3, sum3. ring.
Qed.
Theorem C143_symmetric : forall P S x p i d q j e, (p < P)%nat -> (d < 3)%nat -> (e < 3)%nat ->
  (forall z, In z (spts S p) -> KinSpec.regular (qdef (snum S p) z (x p)) /\
     let em := qem (snum S p) z (x p) in let ef := qef (snum S p) z (x p) in symm3 (qA z em ef) /\ symm3 (qD z em ef) /\ transp3 (qB z em ef) (qC z em ef)) ->
  (forall c z, In c (sifc S) -> In z (fpts c) -> fc1 c = true -> let n := snum S (fl c) in let m := snum S (fr c) in
     iregular n m (fstate c x) z /\ dnN (isl z) (isr z) (iori z) (idef n m z (fstate c x)) + dnN' (isl z) (isr z) (iori z) (idef n m z (fstate c x)) = 0) ->
  Smat S x p i d q j e = Smat S x q j e p i d.
Proof.
  intros P S x p i d q j e Hp Hd He HP HI. unfold Smat.
  assert (A : forall a b v, at_ a p (at_ b q v) = at_ b q (at_ a p v)) by (intros a b v; unfold at_; destruct (Nat.eqb a p), (Nat.eqb b q); reflexivity).
  f_equal.
  - unfold at_. destruct (Nat.eqb_spec p q) as [->|N]; [rewrite Nat.eqb_refl|rewrite (proj2 (Nat.eqb_neq q p)) by congruence; reflexivity].
    apply C51_matrix_symmetric; assumption.
  - assert (F : forall c, In c (sifc S) -> forall r r', fmat S x c r i d r' j e = fmat S x c r' j e r i d).
    { intros c I r r'. unfold fmat. apply iblock_sym. intros z J K. exact (HI c z I J K). }
    induction (sifc S) as [|c l IH]; cbn [psum]. reflexivity. rewrite IH by (intros; (apply F || apply HI); try right; assumption). clear IH.
    rewrite !(F c (or_introl eq_refl)), !A. ring.
Qed.
Print Assumptions C143_symmetric.

(* displacements and rotations coupled: the matrix of the undeformed structure is symmetric *)
Theorem C143_symmetric_undeformed : forall P S p i d q j e, (p < P)%nat -> (d < 3)%nat -> (e < 3)%nat -> sregular P S (fun _ _ _ => 0) ->
  (forall z, In z (spts S p) -> symm3 (qA z vzero vzero) /\ symm3 (qD z vzero vzero) /\ transp3 (qB z vzero vzero) (qC z vzero vzero)) ->
  Smat S (fun _ _ _ => 0) p i d q j e = Smat S (fun _ _ _ => 0) q j e p i d.
Proof.
  intros P S p i d q j e Hp Hd He (GP & GI) HS. apply (C143_symmetric P S (fun _ _ _ => 0) p i d q j e Hp Hd He).
  - intros z I. split; [apply (GP p z Hp I)|]. cbv zeta.
    assert (J : forall o, jadd o (fieldjet (snum S p) (qbas z) (fun _ _ => 0)) = o).
    { intro o. rewrite field_zero. destruct o as [y0 y1 y2 y11 y22 y12]. unfold jadd, jzero. cbn [j0 j1 j2 j11 j22 j12]. f_equal; extensionality k; unfold vadd, vzero; ring. }
    assert (E : qem (snum S p) z (fun _ _ => 0) = vzero /\ qef (snum S p) z (fun _ _ => 0) = vzero).
    { unfold qem, qef, qdef. rewrite J. split; extensionality a; unfold vzero; destruct a as [|[|a]]; unfold mem_strain, bend_strain; try field; ring. }
    destruct E as (-> & ->). exact (HS z I).
  - intros c z I J _. cbv zeta. split; [apply (GI c z I J)|].
    assert (K : forall n m, idef n m z (fstate c (fun _ _ _ => 0)) = iori z).
    { intros n m. unfold idef, iori, fstate. cbn [fst snd]. rewrite !field_zero. f_equal; [destruct (iol z) as [y0 y1 y2 y11 y22 y12]|destruct (ior z) as [y0 y1 y2 y11 y22 y12]];
        unfold jadd, jzero; cbn [j0 j1 j2 j11 j22 j12]; f_equal; extensionality k; unfold vadd, vzero; ring. }
    rewrite K. unfold dnN, dnN'. ring.
Qed.
Print Assumptions C143_symmetric_undeformed.

(* coupled displacements: the quadratic form of the matrix is that of the patches plus penalty times squared jump, so that coupling never softens a structure *)
Theorem C143_energy : forall P S x y, (forall c, In c (sifc S) -> (fl c < P)%nat /\ (fr c < P)%nat /\ fc0 c = true /\ fc1 c = false) ->
  squad P S (Smat S x) y = rsum P (fun p => rsum (snum S p) (fun i => sum3 (fun d => Kapply (snum S p) (spts S p) (x p) (y p) i d * y p i d)))
    + psum (sifc S) (fun c => psum (fpts c) (fun q => iw q * (iad_at (snum S (fl c)) (snum S (fr c)) q (fstate c x) * sum3 (fun d => sjump S c q y d * sjump S c q y d)))).
Proof.
  intros P S x y HI. set (cf := fun p i d => psum (sifc S) (fun c => at_ (fside c false) p (fapply S x y c false i d) + at_ (fside c true) p (fapply S x y c true i d))).
  transitivity (rsum P (fun p => work (snum S p) (Kapply (snum S p) (spts S p) (x p) (y p)) (y p)) + rsum P (fun p => work (snum S p) (cf p) (y p))).
  - rewrite <- rsum_plus. apply rsum_ext. intros p Hp. rewrite <- work_add. unfold work at 1. apply rsum_ext. intros i _. unfold sum3 at 1.
    rewrite !(sapply_parts P S x y p i) by (assumption || (intros c I; destruct (HI c I) as (A & B & _); split; assumption)). reflexivity.
  - apply f_equal2; [reflexivity|].
    transitivity (psum (sifc S) (fun c => rsum P (fun p => at_ (fl c) p (work (snum S p) (fapply S x y c false) (y p)) + at_ (fr c) p (work (snum S p) (fapply S x y c true) (y p))))).
    + rewrite <- rsum_psum. apply rsum_ext. intros p _. unfold cf. rewrite work_psum. f_equal. extensionality c.
      rewrite (work_add (snum S p) (fun i d => at_ (fside c false) p (fapply S x y c false i d))). rewrite !work_at. reflexivity.
    + apply DwrProofs.psum_e. intros c I. destruct (HI c I) as (Hl & Hr & C0 & C1). rewrite rsum_plus.
      rewrite (rsum_at P (fl c) (fun p => work (snum S p) (fapply S x y c false) (y p)) Hl), (rsum_at P (fr c) (fun p => work (snum S p) (fapply S x y c true) (y p)) Hr).
      rewrite (fenergy S x y c C1). apply DwrProofs.psum_e. intros q _. f_equal. unfold Kipt. rewrite C0, ifc_square, Rplus_0_r. f_equal. cbn [fst snd].
      unfold dot3, vsub, sum3, sjump. rewrite !field_j0 by lia. reflexivity.
Qed.
Print Assumptions C143_energy.
Theorem C143_coupling_stiffens : forall P S x y, (forall c, In c (sifc S) -> (fl c < P)%nat /\ (fr c < P)%nat /\ fc0 c = true /\ fc1 c = false /\
    forall q, In q (fpts c) -> 0 <= iw q /\ 0 <= iad_at (snum S (fl c)) (snum S (fr c)) q (fstate c x)) ->
  squad P (mkstr (snum S) (spts S) []) (Smat (mkstr (snum S) (spts S) []) x) y <= squad P S (Smat S x) y.
Proof.
  intros P S x y HI. rewrite (C143_energy P S x y) by (intros c I; destruct (HI c I) as (A & B & C & D & _); repeat split; assumption).
  rewrite (C143_energy P (mkstr (snum S) (spts S) []) x y) by (intros c []). cbn [sifc snum spts psum]. apply Rplus_le_compat_l.
  induction (sifc S) as [|c l IH]; cbn [psum]. apply Rle_refl. apply Rplus_le_le_0_compat; [|apply IH; intros; apply HI; right; assumption].
  destruct (HI c (or_introl eq_refl)) as (_ & _ & _ & _ & W). induction (fpts c) as [|q k IHk]; cbn [psum]. apply Rle_refl.
  apply Rplus_le_le_0_compat; [|apply IHk; intros; try (apply W; right; assumption)]. destruct (W q (or_introl eq_refl)) as (W1 & W2).
  apply Rmult_le_pos; [exact W1|]. apply Rmult_le_pos; [exact W2|]. apply dot_nonneg.
Qed.
Print Assumptions C143_coupling_stiffens.

(* sample: two elastic patches, one interface point *)
Definition spoint (o : jet) : qpoint := mkq 1 obas o (fun e _ => e) (fun _ _ => vzero) (fun _ _ a b => delta a b) (fun _ _ _ _ => 0) (fun _ _ _ _ => 0) (fun _ _ _ _ => 0).
Definition shift (v : vec) : coefs := fun _ d => v d.
Lemma shifted o v : (forall i, (i < 3)%nat -> j1 (qdef 3 (spoint o) (shift v)) i = j1 o i /\ j2 (qdef 3 (spoint o) (shift v)) i = j2 o i).
Proof.
  intros i Hi. unfold qdef, spoint. cbn [qori qbas jadd j1 j2]. unfold vadd. rewrite field_j1, field_j2 by exact Hi. cbn [rsum obas s1 s2]. unfold shift. split; ring.
Qed.
Lemma shifted_force o v i d : (d < 3)%nat -> Fvec 3 [spoint o] (shift v) i d = 0.
Proof.
  intro Hd. unfold Fvec. cbn [psum]. rewrite (Fpt 3 (shift v) (spoint o) d i Hd). unfold Fint.
  assert (Z : forall w, dot3 (qM (spoint o) (qem 3 (spoint o) (shift v)) (qef 3 (spoint o) (shift v))) w = 0) by (intro; unfold spoint at 1; cbn [qM]; unfold dot3, sum3, vzero; ring).
  rewrite Z. change (qN (spoint o) (qem 3 (spoint o) (shift v)) (qef 3 (spoint o) (shift v))) with (mem_strain o (qdef 3 (spoint o) (shift v))).
  assert (S : forall a, mem_strain o (qdef 3 (spoint o) (shift v)) a = 0).
  { assert (K := shifted o v). set (c := qdef 3 (spoint o) (shift v)) in *.
    assert (E : dot3 (j1 c) (j1 c) = dot3 (j1 o) (j1 o) /\ dot3 (j2 c) (j2 c) = dot3 (j2 o) (j2 o) /\ dot3 (j1 c) (j2 c) = dot3 (j1 o) (j2 o)).
    { destruct (K 0%nat ltac:(lia)) as (A & B), (K 1%nat ltac:(lia)) as (C & D), (K 2%nat ltac:(lia)) as (F & G). unfold dot3, sum3. rewrite A, B, C, D, F, G. repeat split. }
    destruct E as (A & B & C). intros [|[|a]]; unfold mem_strain; rewrite ?A, ?B, ?C; try field. }
  unfold dot3, sum3. rewrite !S. ring.
Qed.
Definition pair_of (o : jet) (q : ipoint) : structure := mkstr (fun _ => 3%nat) (fun p => match p with 0%nat => [spoint oori] | _ => [spoint o] end) [mkif 0 1 true false [q]].
Definition pulled (v : vec) : field := fun p => match p with 0%nat => shift v | _ => shift vzero end.
(* the loads that hold a state in equilibrium *)
Definition holding (S : structure) (x : field) : field := fun p i d => - Svec S (fun _ _ _ => 0) x p i d.
Lemma holding_ok P S x : equilibrium P S (holding S x) x.
Proof. intros p i d _ _ _. unfold holding, Svec. ring. Qed.
Definition ipt (o : jet) : ipoint := mki 1 (fun _ _ => 1) (fun _ _ => 1) obas obas oori o (1, 1%nat) (1, 1%nat).
Lemma ipt_jump o v i : (i < 3)%nat -> ifc_jump (iori (ipt o)) (idef 3 3 (ipt o) (shift v, shift vzero)) i = v i.
Proof.
  intro Hi. unfold ifc_jump, iori, vsub, idef. cbn [fst snd ipt iol ior ibl ibr]. cbn [jadd j0]. unfold vadd. rewrite !field_j0 by exact Hi.
  cbn [rsum obas s0]. unfold shift, vzero. ring.
Qed.
Lemma ipt_force o v r i d : (d < 3)%nat -> Ivec 3 3 true false [ipt o] (shift v, shift vzero) r i d = (if r then 1 else -1) * s0 (obas i) * v d.
Proof.
  intro Hd. unfold Ivec. cbn [psum]. unfold Fipt, Fifc3. change (iad_at 3 3 (ipt o) (shift v, shift vzero)) with 1. change (iw (ipt o)) with 1.
  destruct r; cbn [itest fst snd bvar jzero j0 ipt ibl ibr]; fold (ipt o); unfold dot3, sum3; rewrite !ipt_jump by lia;
    destruct d as [|[|[|d]]]; try lia; unfold vecFun, vzero; simpl; ring.
Qed.
Lemma pair_holding o v i d : (d < 3)%nat ->
  holding (pair_of o (ipt o)) (pulled v) 0%nat i d = s0 (obas i) * v d /\ holding (pair_of o (ipt o)) (pulled v) 1%nat i d = - (s0 (obas i) * v d).
Proof.
  intro Hd. unfold holding, Svec, pair_of. cbn [snum spts sifc psum fside fl fr]. unfold fvec, fstate. cbn [snum fl fr fc0 fc1 fpts pulled].
  rewrite !shifted_force, !ipt_force by exact Hd. unfold at_. cbn [Nat.eqb]. split; ring.
Qed.
Lemma shift_regular o v : regular o -> regular (qdef 3 (spoint o) (shift v)).
Proof.
  intro H. assert (K := shifted o v). set (c := qdef 3 (spoint o) (shift v)) in *. unfold regular, dot3, sum3, cross3 in *.
  destruct (K 0%nat ltac:(lia)) as (A & B), (K 1%nat ltac:(lia)) as (C & D), (K 2%nat ltac:(lia)) as (F & G). rewrite A, B, C, D, F, G. exact H.
Qed.
Lemma gori_rep : represents 3 obas gX gori.
Proof.
  intros i Hi. split; [|split; [|split]].
  - cbn [rsum]. destruct i as [|[|[|i]]]; try lia; unfold gX, oX, obas, gori, e1, vv; simpl; ring.
  - cbn [rsum]. destruct i as [|[|[|i]]]; try lia; unfold gX, oX, obas, gori, e1, vv; simpl; ring.
  - cbn [rsum]. destruct i as [|[|[|i]]]; try lia; unfold gX, oX, obas, gori, e2, vv; simpl; ring.
  - intros [|[|a]]; cbn [rsum]; destruct i as [|[|[|i]]]; try lia; unfold gX, oX, obas, gori, vv, vzero; simpl; ring.
Qed.
Lemma oori_regular : regular oori. Proof. unfold regular, oori, dot3, sum3, cross3, e1, e2, vv. cbn. lra. Qed.
Lemma gori_regular : regular gori. Proof. unfold regular, gori, dot3, sum3, cross3, e1, e2, vv. cbn. lra. Qed.
Lemma pair_regular o v : regular o -> sregular 2 (pair_of o (ipt o)) (pulled v).
Proof.
  intro H. split.
  - intros p q Hp. destruct p as [|[|p]]; [| |lia]; intros [<-|[]]; cbn [pair_of snum pulled]; apply shift_regular; [exact oori_regular|exact H].
  - intros c q [<-|[]] [<-|[]]. unfold iregular. cbn [pair_of snum fl fr fstate pulled idef fst snd ipt iol ior ibl ibr isl isr].
    split; [exact (shift_regular oori v oori_regular)|]. split; [exact (shift_regular o vzero H)|]. split; left; reflexivity.
Qed.
(* held apart by one unit along the first direction; turned by 90 degrees, the turned loads hold it *)
Example ex_C143 : let S := pair_of oori (ipt oori) in let f := holding S (pulled e1) in
  proper 2 S (fun _ => oX) /\ sregular 2 S (pulled e1) /\ equilibrium 2 S f (pulled e1) /\ f 0%nat 0%nat 0%nat = 1 /\ f 1%nat 0%nat 0%nat = -1 /\
  equilibrium 2 S (sturn quarter f) (smoved quarter e3 (fun _ => oX) (pulled e1)) /\ sturn quarter f 0%nat 0%nat 1%nat = 1.
Proof.
  intros S f.
  assert (PR : proper 2 S (fun _ => oX)).
  { split.
    - intros p q Hp. destruct p as [|[|p]]; [| |lia]; intros [<-|[]]; exact (conj obj_rep obj_unity).
    - intros c [<-|[]]. cbn [fl fr]. split; [lia|]. split; [lia|]. intros q [<-|[]]. split; [exact (conj obj_rep (conj obj_rep (conj obj_unity obj_unity)))|intros _ i Hi; reflexivity]. }
  assert (V : forall d, (d < 3)%nat -> f 0%nat 0%nat d = e1 d /\ f 1%nat 0%nat d = - e1 d).
  { intros d Hd. destruct (pair_holding oori e1 0%nat d Hd) as (A & B). unfold f, S. rewrite A, B. cbn [obas s0]. split; ring. }
  split; [exact PR|]. split; [apply pair_regular, oori_regular|]. split; [apply holding_ok|].
  destruct (V 0%nat ltac:(lia)) as (A & B). split; [rewrite A; reflexivity|]. split; [rewrite B; unfold e1, vv; ring|].
  split; [apply (proj1 (C143_equilibrium 2 S (fun _ => oX) quarter e3 f (pulled e1) quarter_orth PR)), holding_ok|].
  unfold sturn, cturn, mvec3, sum3. rewrite (proj1 (V 0%nat ltac:(lia))), (proj1 (V 1%nat ltac:(lia))), (proj1 (V 2%nat ltac:(lia))). unfold quarter, e1, vv. simpl. ring.
Qed.

(* the interface passes the motion of the first patch on to the second one *)
Lemma spoint_tangents o : has_tangents (qN (spoint o)) (qA (spoint o)) (qC (spoint o)) /\ has_tangents (qM (spoint o)) (qB (spoint o)) (qD (spoint o)).
Proof.
  split; intros e f de df He Hf a Ha; unfold spoint; cbn [qN qA qC qM qB qD].
  - replace (sum3 (fun b => delta a b * de b) + sum3 (fun b => 0 * df b)) with (de a); [exact (He a Ha)|].
    unfold sum3, delta. destruct a as [|[|[|a]]]; [| | |lia]; simpl; ring.
  - replace (sum3 (fun b => 0 * de b) + sum3 (fun b => 0 * df b)) with 0; [apply d_const|]. unfold sum3. ring.
Qed.
Example ex_C143_tangent : let S := pair_of oori (ipt oori) in let x : field := fun _ => shift vzero in
  (forall p q, (p < 2)%nat -> In q (spts S p) -> KinSpec.regular (qdef (snum S p) q (x p)) /\ has_tangents (qN q) (qA q) (qC q) /\ has_tangents (qM q) (qB q) (qD q)) /\
  (forall c, In c (sifc S) -> (fl c < 2)%nat /\ (fr c < 2)%nat /\ fc1 c = false /\ forall q, In q (fpts c) -> forall e g e' g', iad q e g = iad q e' g') /\
  sapply 2 S (Smat S x) (pulled e1) 1 0 0 = -1.
Proof.
  intros S x.
  assert (H1 : forall p q, (p < 2)%nat -> In q (spts S p) -> KinSpec.regular (qdef (snum S p) q (x p)) /\ has_tangents (qN q) (qA q) (qC q) /\ has_tangents (qM q) (qB q) (qD q)).
  { intros p q Hp Hq. split; [|destruct p as [|[|p]]; [| |lia]; destruct Hq as [<-|[]]; apply spoint_tangents].
    pose proof (proj1 (pair_regular oori vzero oori_regular) p q Hp Hq) as G. destruct p as [|[|p]]; [| |lia]; exact G. }
  assert (H2 : forall c, In c (sifc S) -> (fl c < 2)%nat /\ (fr c < 2)%nat /\ fc1 c = false /\ forall q, In q (fpts c) -> forall e g e' g', iad q e g = iad q e' g').
  { intros c [<-|[]]. cbn [fl fr fc1 fpts]. split; [lia|]. split; [lia|]. split; [reflexivity|]. intros q [<-|[]] e g e' g'. reflexivity. }
  split; [exact H1|]. split; [exact H2|].
  pose proof (C143_tangent 2 S (fun _ _ _ => 0) x (pulled e1) 1 0 0 ltac:(lia) ltac:(lia) (fun q => H1 1%nat q ltac:(lia)) H2) as D.
  assert (D' : is_derive (fun t : R => t) 0 (- sapply 2 S (Smat S x) (pulled e1) 1 0 0)).
  { eapply is_derive_ext; [|exact D]. intro t. cbv beta.
    replace (fun p => cmove (x p) (pulled e1 p) t) with (pulled (fun d => t * e1 d)).
    - pose proof (proj2 (pair_holding oori (fun d => t * e1 d) 0%nat 0%nat ltac:(lia))) as E. unfold holding in E. cbn [obas s0] in E. unfold e1 in E at 2. cbn [vv] in E.
      fold S in E. match goal with |- ?a = ?b => change (@eq R a b) end. lra.
    - extensionality p. extensionality i. extensionality d. unfold cmove, x, pulled, shift, vzero. destruct p; ring. }
  apply is_derive_unique in D'. rewrite Derive_id in D'. lra.
Qed.

(* two patches coupled in displacements and rotations: symmetric blocks between the patches *)
Example ex_C143_symmetric : let S := mkstr (fun _ => 3%nat) (fun p => [spoint oori]) [mkif 0 1 true true [ipt oori]] in
  sregular 2 S (fun _ _ _ => 0) /\ (forall p z, In z (spts S p) -> symm3 (qA z vzero vzero) /\ symm3 (qD z vzero vzero) /\ transp3 (qB z vzero vzero) (qC z vzero vzero)) /\
  Smat S (fun _ _ _ => 0) 0 0 1 1 2 2 = Smat S (fun _ _ _ => 0) 1 2 2 0 0 1.
Proof.
  intro S. assert (G : sregular 2 S (fun _ _ _ => 0)).
  { destruct (pair_regular oori vzero oori_regular) as (A & B). split.
    - intros p q Hp I. assert (E : forall k, pulled vzero k = (fun _ _ => 0)) by (intros [|k]; reflexivity).
      specialize (A p q Hp). rewrite E in A. apply A. destruct p; exact I.
    - intros c q [<-|[]] I. exact (B (mkif 0 1 true false [ipt oori]) q (or_introl eq_refl) I). }
  assert (Y : forall p z, In z (spts S p) -> symm3 (qA z vzero vzero) /\ symm3 (qD z vzero vzero) /\ transp3 (qB z vzero vzero) (qC z vzero vzero)).
  { intros p z [<-|[]]. cbn [spoint qA qB qC qD]. repeat split; intros a b Ha Hb; try reflexivity. unfold delta. rewrite Nat.eqb_sym. reflexivity. }
  split; [exact G|]. split; [exact Y|]. apply (C143_symmetric_undeformed 2 S); try lia; [exact G|]. intros z I. exact (Y 0%nat z I).
Qed.

(* the first patch shifted against the second one: the coupling adds one unit of energy *)
Example ex_C143_energy : let S := pair_of oori (ipt oori) in let U := mkstr (snum S) (spts S) [] in let x : field := fun _ => shift vzero in
  (forall c, In c (sifc S) -> (fl c < 2)%nat /\ (fr c < 2)%nat /\ fc0 c = true /\ fc1 c = false /\
    forall q, In q (fpts c) -> 0 <= iw q /\ 0 <= iad_at (snum S (fl c)) (snum S (fr c)) q (fstate c x)) /\
  squad 2 S (Smat S x) (pulled e1) = squad 2 U (Smat U x) (pulled e1) + 1.
Proof.
  intros S U x.
  assert (H : forall c, In c (sifc S) -> (fl c < 2)%nat /\ (fr c < 2)%nat /\ fc0 c = true /\ fc1 c = false /\
    forall q, In q (fpts c) -> 0 <= iw q /\ 0 <= iad_at (snum S (fl c)) (snum S (fr c)) q (fstate c x)).
  { intros c [<-|[]]. cbn [fl fr fc0 fc1 fpts]. repeat split; try lia; destruct H as [<-|[]]; unfold iad_at; cbn [ipt iw iad]; lra. }
  split; [exact H|]. rewrite (C143_energy 2 S) by (intros c I; destruct (H c I) as (A & B & C & D & _); repeat split; assumption).
  rewrite (C143_energy 2 U) by (intros c []). unfold U at 3. cbn [sifc psum]. change (snum U) with (snum S). change (spts U) with (spts S). rewrite Rplus_0_r. f_equal.
  unfold S, pair_of. cbn [sifc psum fpts fl fr snum]. unfold iad_at. cbn [ipt iw iad]. unfold sjump. cbn [snum fl fr ipt ibl ibr rsum obas s0]. unfold pulled, shift, e1, vv, vzero, sum3. cbn. ring.
Qed.

(* with a gap between the undeformed patches the loads of a state in equilibrium need not balance in moment *)
Theorem C143_gap_refuted : exists P S X x f, (forall p q, (p < P)%nat -> In q (spts S p) -> represents (snum S p) (qbas q) (X p) (qori q) /\ punity (snum S p) (qbas q)) /\
  (forall c q, In c (sifc S) -> In q (fpts c) -> coupled (snum S (fl c)) (snum S (fr c)) (fstate c X) q) /\ sregular P S x /\ equilibrium P S f x /\
  (forall d, (d < 3)%nat -> total_force P S f d = 0) /\ total_moment P S X x f 2 <> 0.
Proof.
  set (S := pair_of gori (ipt gori)). exists 2%nat, S, (fun p => match p with 0%nat => oX | _ => gX end), (pulled e2), (holding S (pulled e2)).
  split; [intros p q Hp; destruct p as [|[|p]]; [| |lia]; intros [<-|[]]; [exact (conj obj_rep obj_unity)|exact (conj gori_rep obj_unity)]|].
  split; [intros c q [<-|[]] [<-|[]]; exact (conj obj_rep (conj gori_rep (conj obj_unity obj_unity)))|].
  split; [apply pair_regular, gori_regular|]. split; [apply holding_ok|].
  assert (A : forall i d, (d < 3)%nat -> holding S (pulled e2) 0%nat i d = s0 (obas i) * e2 d) by (intros i d Hd; exact (proj1 (pair_holding gori e2 i d Hd))).
  assert (B : forall i d, (d < 3)%nat -> holding S (pulled e2) 1%nat i d = - (s0 (obas i) * e2 d)) by (intros i d Hd; exact (proj2 (pair_holding gori e2 i d Hd))).
  split.
  - intros d Hd. unfold total_force, netforce. change (snum S) with (fun _ : nat => 3%nat). cbn [rsum]. rewrite !A, !B by exact Hd. ring.
  - unfold total_moment, netmoment. change (snum S) with (fun _ : nat => 3%nat). cbn [rsum]. unfold cross3. cbn [Nat.eqb]. rewrite !A, !B by lia.
    unfold position, pulled, shift, gX, oX, e2, vv, vzero. cbn. lra.
Qed.
Print Assumptions C143_gap_refuted.
