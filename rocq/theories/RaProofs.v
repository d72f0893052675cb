(* Proofs for RaProps: assembled quantities of the two parametrisations. *)
From Coq Require Import Reals Lra Lia Arith List Permutation FunctionalExtensionality.
From Verif Require Import Tensor MetricModel MetricSpec MetricProofs LinearModel LinearSpec IntegrateModel NonlinearModel NonlinearSpec NonlinearProofs SpectralModel Newton33Model PrincipalModel SizeModel PtModel CompositeProofs ReparSpec ReparTens ReparProofs ReparGeo.
From Verif Require Import KinModel KinSpec KinAsm KinProofs KinStiff KinLoads HypModel RaModel RaSpec RaKin.
Import ListNotations.
Open Scope R_scope.
Notation side := ReparSpec.side.
Notation regular := KinSpec.regular.

(* both evaluations succeed with related values, or neither succeeds *)
Definition okrel {A B} (rel : A -> B -> Prop) (x : outcome A) (y : outcome B) : Prop :=
  match x, y with Ok a, Ok b => rel a b | Ok _, _ | _, Ok _ => False | _, _ => True end.
Lemma both_ok {A B} (rel : A -> B -> Prop) x y : both rel x y -> okrel rel x y.
Proof. destruct x, y; cbn; auto. Qed.
Lemma ok_bind {A B C D} (R : A -> B -> Prop) (S : C -> D -> Prop) x y f g : okrel R x y -> (forall a b, R a b -> okrel S (f a) (g b)) -> okrel S (obind x f) (obind y g).
Proof.
  intros H G. destruct x as [a| |], y as [b| |]; cbn [obind okrel] in *; try contradiction; try exact I. apply G. exact H.
Qed.
Lemma ok_eq {A} (x y : outcome A) : okrel eq x y -> forall v, y = Ok v <-> x = Ok v.
Proof. destruct x, y; cbn; intros H v; subst; split; intro X; try discriminate; try contradiction; exact X. Qed.
Lemma ok_trans {A B C} (R : A -> B -> Prop) (S : B -> C -> Prop) (T : A -> C -> Prop) x y z : okrel R x y -> okrel S y z -> (forall a b c, R a b -> S b c -> T a c) -> okrel T x z.
Proof. destruct x, y, z; cbn; intros; try contradiction; eauto. Qed.
Lemma ok_imp {A B} (R S : A -> B -> Prop) x y : okrel R x y -> (forall a b, R a b -> S a b) -> okrel S x y.
Proof. destruct x, y; cbn; auto. Qed.
Lemma ok_refl {A} (x : outcome A) : okrel eq x x. Proof. destruct x; cbn; auto. Qed.

(* ---------- through the thickness ---------- *)
Lemma ovec_perm t m f q q' : Permutation q q' -> okrel eq (ovec q t m f) (ovec q' t m f).
Proof.
  induction 1 as [|[w z] l l' H IH|[w1 z1] [w2 z2] l|l1 l2 l3 H IH H' IH']; cbn [ovec].
  - reflexivity.
  - apply (ok_bind eq); [apply ok_refl|]. intros s _ <-. apply (ok_bind eq); [exact IH|]. intros y _ <-. reflexivity.
  - destruct (f z1) as [s1| |], (f z2) as [s2| |]; cbn [obind okrel]; try exact I. destruct (ovec l t m f) as [y| |]; cbn [obind okrel]; try exact I. extensionality a. ring.
  - apply (ok_trans eq eq eq _ _ _ IH IH'). intros; congruence.
Qed.
Lemma omat_perm t m f q q' : Permutation q q' -> okrel eq (omat q t m f) (omat q' t m f).
Proof.
  induction 1 as [|[w z] l l' H IH|[w1 z1] [w2 z2] l|l1 l2 l3 H IH H' IH']; cbn [omat].
  - reflexivity.
  - apply (ok_bind eq); [apply ok_refl|]. intros s _ <-. apply (ok_bind eq); [exact IH|]. intros y _ <-. reflexivity.
  - destruct (f z1) as [s1| |], (f z2) as [s2| |]; cbn [obind okrel]; try exact I. destruct (omat l t m f) as [y| |]; cbn [obind okrel]; try exact I. extensionality a. extensionality b. ring.
  - apply (ok_trans eq eq eq _ _ _ IH IH'). intros; congruence.
Qed.
Definition flip (s : R) (wz : R * R) : R * R := (fst wz, s * snd wz).
Lemma ovec_rel P s t m f f' q : s * s = 1 -> (forall w z, In (w, z) q -> both (same_stress P) (f z) (f' (s * z))) ->
  okrel (fun X Y => same_stress P X (fun a => s ^ m * Y a)) (ovec q t m f) (ovec (map (flip s) q) t m f').
Proof.
  intros SS. assert (SM : s ^ m * s ^ m = 1) by (rewrite <- Rpow_mult_distr, SS, pow1; reflexivity).
  induction q as [|[w z] q IH]; intro H; cbn [ovec map flip fst snd].
  - cbn [okrel]. intros e _. unfold workV, vzero, sum3. ring.
  - apply (ok_bind (same_stress P)); [apply both_ok, (H w); left; reflexivity|]. intros X Y RX.
    apply (ok_bind (fun X Y => same_stress P X (fun a => s ^ m * Y a))); [apply IH; intros; apply (H w0); right; assumption|]. intros x y Rx. cbn [okrel].
    intros e Se. specialize (RX e Se). specialize (Rx e Se). unfold workV, sum3 in *.
    replace ((s * z * t) ^ m) with (s ^ m * (z * t) ^ m) by (rewrite <- Rpow_mult_distr; f_equal; ring).
    transitivity (s ^ m * s ^ m * (w * (z * t) ^ m * t) * (Y 0%nat * voi (pullback2 P e) 0%nat + Y 1%nat * voi (pullback2 P e) 1%nat + Y 2%nat * voi (pullback2 P e) 2%nat)
      + (s ^ m * y 0%nat * voi (pullback2 P e) 0%nat + s ^ m * y 1%nat * voi (pullback2 P e) 1%nat + s ^ m * y 2%nat * voi (pullback2 P e) 2%nat)); [ring|].
    rewrite RX, Rx, SM. ring.
Qed.
Lemma omat_rel P s t m f f' q : s * s = 1 -> (forall w z, In (w, z) q -> both (same_stiffness P) (f z) (f' (s * z))) ->
  okrel (fun X Y => same_stiffness P X (fun a b => s ^ m * Y a b)) (omat q t m f) (omat (map (flip s) q) t m f').
Proof.
  intros SS. assert (SM : s ^ m * s ^ m = 1) by (rewrite <- Rpow_mult_distr, SS, pow1; reflexivity).
  induction q as [|[w z] q IH]; intro H; cbn [omat map flip fst snd].
  - cbn [okrel]. intros e f0 _ _. unfold formV, mzero, sum3. ring.
  - apply (ok_bind (same_stiffness P)); [apply both_ok, (H w); left; reflexivity|]. intros X Y RX.
    apply (ok_bind (fun X Y => same_stiffness P X (fun a b => s ^ m * Y a b))); [apply IH; intros; apply (H w0); right; assumption|]. intros x y Rx. cbn [okrel].
    intros e g Se Sg. specialize (RX e g Se Sg). specialize (Rx e g Se Sg).
    assert (L : forall k (U V : mat) p q, formV (fun a b => k * U a b + V a b) p q = k * formV U p q + formV V p q) by (intros; unfold formV, sum3; ring).
    transitivity (formV (fun a b => s ^ m * s ^ m * (w * (z * t) ^ m * t) * Y a b + s ^ m * y a b) (pullback2 P e) (pullback2 P g)).
    + unfold formV. replace ((s * z * t) ^ m) with (s ^ m * (z * t) ^ m) by (rewrite <- Rpow_mult_distr; f_equal; ring). unfold sum3. ring.
    + rewrite L, RX, Rx, SM. transitivity (formV (fun a b => (w * (z * t) ^ m * t) * X a b + x a b) e g); [rewrite L; ring|]. unfold formV, sum3. ring.
Qed.

(* ---------- configurations ---------- *)
Lemma Gcov_rep P K c z : Gcov (sgeo (jrepar P K c)) z = Gcov (repar P K (sgeo c)) z.
Proof. extensionality i. extensionality j. destruct i as [|[|[|i]]]; destruct j as [|[|[|j]]]; reflexivity. Qed.
Lemma gcov_rep P K c z i k : (i < 3)%nat -> gcov (sgeo (jrepar P K c)) z i k = gcov (repar P K (sgeo c)) z i k.
Proof. intro H. destruct i as [|[|[|i]]]; try lia; reflexivity. Qed.
Lemma gcon_rep P K c z i k : gcon (sgeo (jrepar P K c)) z i k = gcon (repar P K (sgeo c)) z i k.
Proof. unfold gcon, Gcon. rewrite Gcov_rep, !gcov_rep by lia. reflexivity. Qed.
Lemma hrel_j P K o d z : det2 P <> 0 -> regular o -> regular d ->
  det3 (Gcov (sgeo o) (side P * z)) <> 0 -> det3 (Gcov (sgeo d) (side P * z)) <> 0 ->
  hrel (inv2 P) (side P) P (half3 (sgeo o) (side P * z)) (half3 (sgeo d) (side P * z)) (half3 (sgeo (jrepar P K o)) z) (half3 (sgeo (jrepar P K d)) z).
Proof.
  intros DP Ro Rd Do Dd. apply reg_geo in Ro. apply reg_geo in Rd. apply hrel_of; cbn [half3 hGcov hGcon hgcon]; try reflexivity; try assumption; try apply Gcov_shell.
  - apply side_sq.
  - intros. rewrite Gcov_rep. apply Gcov_repar; assumption.
  - intros. rewrite Gcov_rep. apply Gcov_repar; assumption.
  - intros. rewrite gcon_rep. apply gcon_repar; assumption.
Qed.
Lemma adef_rep P K n q q' x : same_point P K q q' -> adef n q' x = jrepar P K (adef n q x).
Proof. intros (_ & _ & B & O & _). unfold adef. rewrite rep_add, O, (field_rep P K n (abas q) (abas q') x B). reflexivity. Qed.
Lemma flip_eq P q : map (fun wz => (fst wz, side P * snd wz)) q = map (flip (side P)) q.
Proof. reflexivity. Qed.

Section Hyper.
Variables (close : mat -> mat -> bool) (eps epsm : R) (eig : mat -> vec * (nat -> vec)) (comp : bool) (imp : impl) (w : slaw).
Variables (P : mat) (K : nat -> nat -> R) (n : nat) (x : coefs) (q q' : apoint).
Hypothesis SP : same_point P K q q'.
Hypothesis LO : layers_ok n x q.
Let fs := fun z => eval_stress close eps epsm eig comp imp w (apt q (adef n q x)) z.
Let fs' := fun z => eval_stress close eps epsm eig comp imp w (apt q' (adef n q' x)) z.
Let fm := fun z => eval_matrix eps epsm eig comp imp w (apt q (adef n q x)) z.
Let fm' := fun z => eval_matrix eps epsm eig comp imp w (apt q' (adef n q' x)) z.
Lemma hr z : (exists u, In (u, z) (arule q)) ->
  hrel (inv2 P) (side P) P (half3 (sgeo (aori q)) (z * athick q)) (half3 (sgeo (adef n q x)) (z * athick q))
    (half3 (sgeo (aori q')) (side P * z * athick q)) (half3 (sgeo (adef n q' x)) (side P * z * athick q)).
Proof.
  intros (u & Hz). rewrite (adef_rep P K n q q' x SP). destruct SP as (DP & _ & _ & O & _). destruct LO as (Ro & Rd & L). destruct (L u z Hz) as (Do & Dd). rewrite O.
  assert (E : z * athick q = side P * (side P * z * athick q)) by (rewrite <- !Rmult_assoc, side_sq; ring).
  rewrite E in Do, Dd |- *. replace (side P * (side P * (side P * z * athick q))) with (side P * z * athick q) by (rewrite <- E; ring).
  rewrite <- E in Do, Dd |- *. rewrite E in Do, Dd. rewrite E at 1 2. apply hrel_j; assumption.
Qed.
Lemma stress_pts z : (exists u, In (u, z) (arule q)) -> same_test close P n x q q' -> both (same_stress P) (fs z) (fs' (side P * z)).
Proof.
  intros Hz ST. unfold fs, fs', eval_stress, apt. cbn [shell_pt po pd pT pp].
  assert (EP : apar q' = apar q /\ athick q' = athick q) by (destruct SP as (_ & _ & _ & _ & _ & A & B); auto). destruct EP as (-> & ->).
  apply (stress_rel (inv2 P) (side P) P); [apply hr; exact Hz|]. cbn [half3 hGcon].
  destruct Hz as (u & Hz). destruct SP as (_ & _ & _ & _ & PE & _).
  rewrite (ST u (side P * z)).
  - rewrite <- !Rmult_assoc, side_sq, Rmult_1_l. reflexivity.
  - apply (Permutation_in _ (Permutation_sym PE)). apply (in_map (fun wz => (fst wz, side P * snd wz)) _ _ Hz).
Qed.
Lemma matrix_pts z : (exists u, In (u, z) (arule q)) -> both (same_stiffness P) (fm z) (fm' (side P * z)).
Proof.
  intros Hz. unfold fm, fm', eval_matrix, apt. cbn [shell_pt po pd pT pp].
  assert (EP : apar q' = apar q /\ athick q' = athick q) by (destruct SP as (_ & _ & _ & _ & _ & A & B); auto). destruct EP as (-> & ->).
  apply (matrix_rel (inv2 P) (side P) P). apply hr; exact Hz.
Qed.
Lemma mom_vec m : same_test close P n x q q' -> okrel (fun X Y => same_stress P X (fun a => side P ^ m * Y a)) (ovec (arule q) (athick q) m fs) (ovec (arule q') (athick q') m fs').
Proof.
  intro ST. destruct SP as (_ & _ & _ & _ & PE & T & _). rewrite T.
  apply (ok_trans (fun X Y => same_stress P X (fun a => side P ^ m * Y a)) eq _ _ (ovec (map (flip (side P)) (arule q)) (athick q) m fs') _).
  - apply ovec_rel; [apply side_sq|]. intros u z Hz. apply stress_pts; [exists u; exact Hz|exact ST].
  - apply ovec_perm. apply Permutation_sym. exact PE.
  - intros a b c H <-. exact H.
Qed.
Lemma mom_mat m : okrel (fun X Y => same_stiffness P X (fun a b => side P ^ m * Y a b)) (omat (arule q) (athick q) m fm) (omat (arule q') (athick q') m fm').
Proof.
  destruct SP as (_ & _ & _ & _ & PE & T & _). rewrite T.
  apply (ok_trans (fun X Y => same_stiffness P X (fun a b => side P ^ m * Y a b)) eq _ _ (omat (map (flip (side P)) (arule q)) (athick q) m fm') _).
  - apply omat_rel; [apply side_sq|]. intros u z Hz. apply matrix_pts; exists u; exact Hz.
  - apply omat_perm. apply Permutation_sym. exact PE.
  - intros a b c H <-. exact H.
Qed.
Lemma hyper_res_rel : same_test close P n x q q' -> okrel (res_rel P) (hyper_res close eps epsm eig comp imp w q (adef n q x)) (hyper_res close eps epsm eig comp imp w q' (adef n q' x)).
Proof.
  intro ST. unfold hyper_res. cbv zeta. apply (ok_bind _ _ _ _ _ _ (mom_vec 0 ST)). intros N N' RN. apply (ok_bind _ _ _ _ _ _ (mom_vec 1 ST)). intros M M' RM. cbn [okrel].
  split; cbn [fst snd].
  - intros e Se. rewrite <- (RN e Se). unfold workV, sum3. cbn [pow]. ring.
  - intros e Se. rewrite <- (RM e Se). unfold workV, sum3. cbn [pow]. ring.
Qed.
Lemma hyper_tan_rel : okrel (tan_rel P) (hyper_tan eps epsm eig comp imp w q (adef n q x)) (hyper_tan eps epsm eig comp imp w q' (adef n q' x)).
Proof.
  unfold hyper_tan. cbv zeta. apply (ok_bind _ _ _ _ _ _ (mom_mat 0)). intros A A' RA. apply (ok_bind _ _ _ _ _ _ (mom_mat 1)). intros B B' RB.
  apply (ok_bind _ _ _ _ _ _ (mom_mat 1)). intros C C' RC. apply (ok_bind _ _ _ _ _ _ (mom_mat 2)). intros D D' RD. cbn [okrel].
  repeat split; cbn [fst snd]; intros e f Se Sf.
  - rewrite <- (RA e f Se Sf). unfold formV, sum3. cbn [pow]. ring.
  - rewrite <- (RB e f Se Sf). unfold formV, sum3. cbn [pow]. ring.
  - rewrite <- (RC e f Se Sf). unfold formV, sum3. cbn [pow]. ring.
  - rewrite <- (RD e f Se Sf). unfold formV, sum3. cbn [pow]. pose proof (side_sq P) as SS. rewrite Rmult_1_r, SS. ring.
Qed.
End Hyper.

(* ---------- the linear material ---------- *)
Section Linear.
Variables (P : mat) (K : nat -> nat -> R) (n : nat) (x : coefs) (q q' : apoint).
Hypothesis SP : same_point P K q q'.
Hypothesis Ro : regular (aori q).
Hypothesis Rd : regular (adef n q x).
Notation o := (aori q).
Notation d := (adef n q x).
Lemma Acov_j c i j : (i < 2)%nat -> (j < 2)%nat -> Acov (sgeo (jrepar P K c)) i j = pb P (Acov (sgeo c)) i j.
Proof. intros Hi Hj. rewrite <- (Acov_repar P K (sgeo c)). destruct i as [|[|i]]; try lia; destruct j as [|[|j]]; try lia; reflexivity. Qed.
Lemma Bcov_j c i j : regular c -> (i < 2)%nat -> (j < 2)%nat -> Bcov (sgeo (jrepar P K c)) i j = side P * pb P (Bcov (sgeo c)) i j.
Proof.
  intros R Hi Hj. rewrite <- (Bcov_repar P K (sgeo c)); [|apply SP|apply reg_geo; exact R|assumption|assumption].
  destruct i as [|[|i]]; try lia; destruct j as [|[|j]]; try lia; reflexivity.
Qed.
Lemma Acon_j c : regular c -> I2 (inv2 P) (Acon (sgeo c)) (Acon (sgeo (jrepar P K c))).
Proof.
  intros R i j Hi Hj. unfold Acon. apply (inv2_pb P); [intros; apply Acov_j; assumption|apply SP| |assumption|assumption].
  apply Rgt_not_eq. apply det2_Acov_pos. apply reg_geo. exact R.
Qed.
Lemma Cijkl_I4 E nu A A' : I2 (inv2 P) A A' -> I4 (inv2 P) (Cijkl E nu A) (Cijkl E nu A').
Proof. intros H i j k l Hi Hj Hk Hl. unfold Cijkl. rewrite !H by assumption. unfold sum2. ring. Qed.
Lemma Acon_sym g : symmetric 2 (Acon g).
Proof.
  intros i j Hi Hj. unfold Acon, inv2. destruct i as [|[|i]]; try lia; destruct j as [|[|j]]; try lia; try reflexivity;
    unfold Acov; rewrite (dot3_comm (tang g 0) (tang g 1)); reflexivity.
Qed.
Lemma Cijkl_mms E nu A : symmetric 2 A -> minor_major_symmetric 2 (Cijkl E nu A).
Proof.
  intros S i j k l Hi Hj Hk Hl. unfold Cijkl. rewrite (S j i), (S l k) by assumption. repeat split; try ring; try (rewrite (S j k), (S j l), (S i k), (S i l) by assumption; ring).
Qed.
Lemma triv : related (inv2 P) (side P) P (mkMetric (fun _ _ => 0) (fun _ _ => 0) (fun _ _ => 0) 0) (mkMetric (fun _ _ => 0) (fun _ _ => 0) (fun _ _ => 0) 0).
Proof.
  assert (DP : det2 P <> 0) by apply SP. constructor; cbn [Gori Gdef Gdefi J0]; try apply T2_zero; try (repeat split; reflexivity).
  - apply side_sq.
  - intros. apply inv2_l; assumption.
  - intros. apply inv2_r; assumption.
  - intros. unfold sum2. ring.
Qed.
Lemma lin_form E nu : same_stiffness P (voigt (Cijkl E nu (Acon (sgeo o)))) (voigt (Cijkl E nu (Acon (sgeo (jrepar P K o))))).
Proof.
  intros e f Se Sf.
  exact (same_form (inv2 P) (side P) P _ _ (Cijkl_I4 E nu _ _ (Acon_j o Ro)) (Cijkl_mms E nu _ (Acon_sym _)) (Cijkl_mms E nu _ (Acon_sym _)) _ _ triv e f Se Sf).
Qed.
Lemma S_form E nu A X e : symmetric 2 A -> symmetric 2 X -> symmetric 2 e -> workV (Svoigt E nu A X) e = formV (voigt (Cijkl E nu A)) e X.
Proof.
  intros SA SX Se. unfold workV, formV, sum3, voi. cbn [Svoigt voigt]. unfold Sij. rewrite (SX 1%nat 0%nat), (Se 1%nat 0%nat) by lia. unfold Cijkl. rewrite (SA 1%nat 0%nat) by lia. ring.
Qed.
Lemma lin_stress E nu r X X' : r * r = 1 -> symmetric 2 X -> (forall i j, (i < 2)%nat -> (j < 2)%nat -> X' i j = r * pullback2 P X i j) ->
  same_stress P (Svoigt E nu (Acon (sgeo o)) X) (fun a => r * Svoigt E nu (Acon (sgeo (jrepar P K o))) X' a).
Proof.
  intros RR SX EX e Se.
  assert (SPB : forall Y, symmetric 2 Y -> symmetric 2 (pullback2 P Y)) by (intros Y SY i j Hi Hj; unfold pullback2, sum2; rewrite (SY 1%nat 0%nat) by lia; ring).
  rewrite workV_scalX, !S_form; try apply Acon_sym; try assumption; try (apply SPB; assumption).
  - rewrite (formV_ext _ _ (fun i j => 1 * pullback2 P e i j) _ (fun i j => r * pullback2 P X i j)); [|intros; ring|assumption].
    rewrite formV_scal, <- (lin_form E nu e X Se SX). replace (r * (1 * r * formV (voigt (Cijkl E nu (Acon (sgeo (jrepar P K o))))) (pullback2 P e) (pullback2 P X))) with (r * r * formV (voigt (Cijkl E nu (Acon (sgeo (jrepar P K o))))) (pullback2 P e) (pullback2 P X)) by ring. rewrite RR. ring.
  - intros i j Hi Hj. rewrite !EX, (SPB X SX i j) by assumption. reflexivity.
Qed.
Lemma getM_reg c c' : regular c -> regular c' -> exists m, getM (half3 (sgeo c) 0) (half3 (sgeo c') 0) = Ok m.
Proof.
  intros R1 R2. assert (G : forall b, regular b -> 0 < det3 (Gcov (sgeo b) 0)).
  { intros b Rb. apply reg_geo in Rb. rewrite (det_Gcov_curvature _ 0 Rb). pose proof (det2_Acov_pos _ Rb).
    replace ((1 - 0 * (mixedB (sgeo b) 0%nat 0%nat + mixedB (sgeo b) 1%nat 1%nat) + 0 * 0 * det2 (mixedB (sgeo b))) ^ 2) with 1 by ring. lra. }
  pose proof (G c R1) as A. pose proof (G c' R2) as B. unfold getM. cbn [half3 hGcov]. unfold ratio. cbv zeta.
  destruct (Req_EM_T (det3 (Gcov (sgeo c) 0)) 0) as [e|e]; [lra|]. destruct (Rle_dec 0 (det3 (Gcov (sgeo c') 0) / det3 (Gcov (sgeo c) 0))) as [l|l].
  - cbn [obind]. eexists. reflexivity.
  - exfalso. apply l. apply Rlt_le, Rdiv_lt_0_compat; assumption.
Qed.
Lemma lin_vec_eq E nu k c c' t p : regular c -> regular c' -> lin_vector E nu k (shell_pt (sgeo c) (sgeo c') t p) 0 = Ok (Svoigt E nu (Acon (sgeo c)) (E_members k (half3 (sgeo c) 0) (half3 (sgeo c') 0))).
Proof.
  intros R1 R2. unfold lin_vector. cbn [shell_pt po pd pT]. rewrite Rmult_0_l. destruct (getM_reg c c' R1 R2) as (m & ->). reflexivity.
Qed.
Lemma lin_mat_eq E nu c c' t p : regular c -> regular c' -> lin_matrix E nu (shell_pt (sgeo c) (sgeo c') t p) 0 = Ok (voigt (Cijkl E nu (Acon (sgeo c)))).
Proof.
  intros R1 R2. unfold lin_matrix. cbn [shell_pt po pd pT]. rewrite Rmult_0_l. destruct (getM_reg c c' R1 R2) as (m & ->). reflexivity.
Qed.
Lemma lin_res_rel : okrel (res_rel P) (lin_res q d) (lin_res q' (adef n q' x)).
Proof.
  assert (DP : det2 P <> 0) by apply SP. pose proof (reg_rep P K DP _ Ro) as Ro'. pose proof (reg_rep P K DP _ Rd) as Rd'.
  rewrite (adef_rep P K n q q' x SP). unfold lin_res, apt. cbv zeta. destruct SP as (_ & _ & _ & -> & _ & -> & ->).
  rewrite !lin_vec_eq by assumption. cbn [obind okrel]. split; cbn [fst snd].
  - intros e Se. assert (X := lin_stress (pE (apar q)) (pnu (apar q)) 1 (E_members KMembrane (half3 (sgeo o) 0) (half3 (sgeo d) 0)) (E_members KMembrane (half3 (sgeo (jrepar P K o)) 0) (half3 (sgeo (jrepar P K d)) 0))).
    specialize (X ltac:(lra)). assert (Y := fun A B => X A B e Se). clear X.
    assert (SY : symmetric 2 (E_members KMembrane (half3 (sgeo o) 0) (half3 (sgeo d) 0))).
    { intros i j _ _. cbn [E_members half3 hAcov]. unfold Acov. rewrite (dot3_comm (tang (sgeo d) i)), (dot3_comm (tang (sgeo o) i)). reflexivity. }
    specialize (Y SY). refine (_ (Y _)).
    + intro Z. rewrite workV_scalX, Rmult_1_l in Z. unfold workV, sum3 in *.
      transitivity (fz (athick q) 0 * (Svoigt (pE (apar q)) (pnu (apar q)) (Acon (sgeo o)) (E_members KMembrane (half3 (sgeo o) 0) (half3 (sgeo d) 0)) 0%nat * voi e 0%nat
        + Svoigt (pE (apar q)) (pnu (apar q)) (Acon (sgeo o)) (E_members KMembrane (half3 (sgeo o) 0) (half3 (sgeo d) 0)) 1%nat * voi e 1%nat
        + Svoigt (pE (apar q)) (pnu (apar q)) (Acon (sgeo o)) (E_members KMembrane (half3 (sgeo o) 0) (half3 (sgeo d) 0)) 2%nat * voi e 2%nat)); [rewrite <- Z; ring|ring].
    + intros i j Hi Hj. cbn [E_members half3 hAcov]. rewrite !Acov_j by assumption. unfold pb, pullback2, sum2. unfold E_members. cbn [half3 hAcov]. field.
  - intros e Se. assert (X := lin_stress (pE (apar q)) (pnu (apar q)) (side P) (E_members KBending (half3 (sgeo o) 0) (half3 (sgeo d) 0)) (E_members KBending (half3 (sgeo (jrepar P K o)) 0) (half3 (sgeo (jrepar P K d)) 0)) (side_sq P)).
    assert (Y := fun A B => X A B e Se). clear X.
    assert (SY : symmetric 2 (E_members KBending (half3 (sgeo o) 0) (half3 (sgeo d) 0))).
    { intros i j Hi Hj. cbn [E_members half3 hBcov]. rewrite !(Bcov_sym _ i j) by assumption. reflexivity. }
    specialize (Y SY). refine (_ (Y _)).
    + intro Z. rewrite workV_scalX in Z. rewrite workV_scalX. unfold workV, sum3 in *.
      transitivity (fz (athick q) 2 * (Svoigt (pE (apar q)) (pnu (apar q)) (Acon (sgeo o)) (E_members KBending (half3 (sgeo o) 0) (half3 (sgeo d) 0)) 0%nat * voi e 0%nat
        + Svoigt (pE (apar q)) (pnu (apar q)) (Acon (sgeo o)) (E_members KBending (half3 (sgeo o) 0) (half3 (sgeo d) 0)) 1%nat * voi e 1%nat
        + Svoigt (pE (apar q)) (pnu (apar q)) (Acon (sgeo o)) (E_members KBending (half3 (sgeo o) 0) (half3 (sgeo d) 0)) 2%nat * voi e 2%nat)); [rewrite <- Z; ring|ring].
    + intros i j Hi Hj. cbn [E_members half3 hBcov]. rewrite !Bcov_j by assumption. unfold pb, pullback2, sum2. unfold E_members. cbn [half3 hBcov]. ring.
Qed.
Lemma lin_tan_rel : okrel (tan_rel P) (lin_tan q d) (lin_tan q' (adef n q' x)).
Proof.
  assert (DP : det2 P <> 0) by apply SP. pose proof (reg_rep P K DP _ Ro) as Ro'. pose proof (reg_rep P K DP _ Rd) as Rd'.
  rewrite (adef_rep P K n q q' x SP). unfold lin_tan, apt. pose proof lin_form as LF. destruct SP as (_ & _ & _ & -> & _ & -> & ->).
  rewrite !lin_mat_eq by assumption. cbn [obind okrel]. specialize (LF (pE (apar q)) (pnu (apar q))).
  assert (F1 : fz (athick q) 1 = 0) by reflexivity.
  assert (L : forall k (U : mat) e f, formV (fun a b => U a b * k) e f = k * formV U e f) by (intros; unfold formV, sum3; ring).
  split; [|split; [|split]]; cbn [fst snd]; intros e f Se Sf; rewrite ?formV_scalA, !L, ?F1, ?(LF e f Se Sf); ring.
Qed.
End Linear.

(* ---------- assembly ---------- *)
Lemma w_rep P K q q' : same_point P K q q' -> aw q' * measure (aori q') = aw q * measure (aori q).
Proof. intros (DP & W & _ & O & _). rewrite O, msr, <- W. ring. Qed.
Lemma aforce_rep res res' n x pts pts' i d : (d < 3)%nat ->
  Forall2 (fun q q' => exists P K, same_point P K q q' /\ regular (adef n q x) /\ okrel (res_rel P) (res q (adef n q x)) (res' q' (adef n q' x))) pts pts' ->
  okrel eq (aforce res n pts x i d) (aforce res' n pts' x i d).
Proof.
  intros Hd H. induction H as [|q q' l l' (P & K & S & R & O) H IH]; cbn [aforce]; [reflexivity|]. cbv zeta.
  apply (ok_bind _ _ _ _ _ _ O). intros X Y RXY. apply (ok_bind _ _ _ _ _ _ IH). intros y _ <-. cbn [okrel].
  rewrite (w_rep P K q q' S), !Ef_dof_ext by exact Hd. rewrite (adef_rep P K n q q' x S). destruct S as (DP & _ & B & _). rewrite B, bvar_rep.
  rewrite (force_rep P K DP _ _ X Y R RXY). reflexivity.
Qed.
Lemma aentry_K c NM T d p e r : (d < 3)%nat -> (e < 3)%nat -> aentry c NM T d p e r = Kstiff c (fst (fst T)) (snd (fst T)) (fst (snd T)) (snd (snd T)) (fst NM) (snd NM) (bvar d p) (bvar e r).
Proof. intros A B. unfold aentry, Kstiff. cbv zeta. rewrite !Ef_dof_ext by assumption. reflexivity. Qed.
Lemma astiff_rep res res' tan tan' n x pts pts' i d j e : (d < 3)%nat -> (e < 3)%nat ->
  Forall2 (fun q q' => exists P K, same_point P K q q' /\ regular (adef n q x) /\ okrel (res_rel P) (res q (adef n q x)) (res' q' (adef n q' x))
    /\ okrel (tan_rel P) (tan q (adef n q x)) (tan' q' (adef n q' x))) pts pts' ->
  okrel eq (astiff res tan n pts x i d j e) (astiff res' tan' n pts' x i d j e).
Proof.
  intros Hd He H. induction H as [|q q' l l' (P & K & S & R & O & O2) H IH]; cbn [astiff]; [reflexivity|]. cbv zeta.
  apply (ok_bind _ _ _ _ _ _ O). intros X Y RXY. apply (ok_bind _ _ _ _ _ _ O2). intros T U RTU. apply (ok_bind _ _ _ _ _ _ IH). intros y _ <-. cbn [okrel].
  rewrite (w_rep P K q q' S), !aentry_K by assumption. rewrite (adef_rep P K n q q' x S). destruct S as (DP & _ & B & _). rewrite !B, !bvar_rep.
  rewrite (stiff_rep P K DP _ _ _ X Y T U R RXY RTU). reflexivity.
Qed.

(* ---------- loads ---------- *)
Lemma asum_rep f f' k pts pts' : Forall2 (fun q q' => aw q' * measure (aori q') = aw q * measure (aori q) /\ f' q' = k * f q) pts pts' -> asum pts' f' = k * asum pts f.
Proof. induction 1 as [|q q' l l' (W & F) H IH]; cbn [asum]; [ring|]. rewrite W, F, IH. ring. Qed.
Lemma j0_bvar d p p' : s0 p' = s0 p -> j0 (bvar d p') = j0 (bvar d p).
Proof. intro H. unfold bvar. cbn [j0]. rewrite H. reflexivity. Qed.

(* ---------- planar patches ---------- *)
Lemma Gcov2_rep P K c : Gcov2 (sgeo2 (jrepar P K c)) = Gcov2 (repar2 P (sgeo2 c)).
Proof. extensionality i. extensionality j. destruct i as [|[|[|i]]]; destruct j as [|[|[|j]]]; reflexivity. Qed.
Lemma Gcon2_rep P K c : Gcon2 (sgeo2 (jrepar P K c)) = Gcon2 (repar2 P (sgeo2 c)).
Proof. unfold Gcon2. rewrite Gcov2_rep. reflexivity. Qed.
Lemma gcon2_rep P K c i k : gcon2 (sgeo2 (jrepar P K c)) i k = gcon2 (repar2 P (sgeo2 c)) i k.
Proof. unfold gcon2. rewrite Gcon2_rep. apply f_equal2; [apply f_equal2|]; apply f_equal2; try reflexivity; cbn [gcov2]; destruct k as [|[|k]]; reflexivity. Qed.
Lemma hrel2_j P K o d z z' : det2 P <> 0 -> det3 (Gcov2 (sgeo2 o)) <> 0 -> det3 (Gcov2 (sgeo2 d)) <> 0 ->
  hrel (inv2 P) 1 P (half2 (sgeo2 o) z) (half2 (sgeo2 d) z) (half2 (sgeo2 (jrepar P K o)) z') (half2 (sgeo2 (jrepar P K d)) z').
Proof.
  intros DP Do Dd. destruct (hrel_repar2 P (sgeo2 o) (sgeo2 d) z z' DP Do Dd) as [A1 A2 A3 A4 A5 A6 A7 A8 A9 A10 A11 A12 A13 A14 A15 A16 A17].
  cbn [half2 hGcov hGcon hgcon] in *. constructor; cbn [half2 hGcov hGcon hgcon]; rewrite ?Gcov2_rep, ?Gcon2_rep; assumption.
Qed.
Lemma adef_rep2 P K n q q' x : same_point2 P K q q' -> adef n q' x = jrepar P K (adef n q x).
Proof. intros (_ & _ & B & O & _). unfold adef. rewrite rep_add, O, (field_rep P K n (abas q) (abas q') x B). reflexivity. Qed.
Lemma ovec_rel0 P t f f' q : (forall w z, In (w, z) q -> both (same_stress P) (f z) (f' z)) -> okrel (same_stress P) (ovec q t 0 f) (ovec q t 0 f').
Proof.
  induction q as [|[w z] q IH]; intro H; cbn [ovec].
  - cbn [okrel]. intros e _. unfold workV, vzero, sum3. ring.
  - apply (ok_bind (same_stress P)); [apply both_ok, (H w); left; reflexivity|]. intros X Y RX.
    apply (ok_bind (same_stress P)); [apply IH; intros; apply (H w0); right; assumption|]. intros x y Rx. cbn [okrel].
    assert (L : forall (U V : vec) e, workV (fun a => w * (z * t) ^ 0 * U a * t + V a) e = w * (z * t) ^ 0 * t * workV U e + workV V e) by (intros; unfold workV, sum3; ring).
    intros e Se. rewrite !L, (RX e Se), (Rx e Se). reflexivity.
Qed.
Lemma omat_rel0 P t f f' q : (forall w z, In (w, z) q -> both (same_stiffness P) (f z) (f' z)) -> okrel (same_stiffness P) (omat q t 0 f) (omat q t 0 f').
Proof.
  induction q as [|[w z] q IH]; intro H; cbn [omat].
  - cbn [okrel]. intros e g _ _. unfold formV, mzero, sum3. ring.
  - apply (ok_bind (same_stiffness P)); [apply both_ok, (H w); left; reflexivity|]. intros X Y RX.
    apply (ok_bind (same_stiffness P)); [apply IH; intros; apply (H w0); right; assumption|]. intros x y Rx. cbn [okrel].
    assert (L : forall (U V : mat) e g, formV (fun a b => w * (z * t) ^ 0 * U a b * t + V a b) e g = w * (z * t) ^ 0 * t * formV U e g + formV V e g) by (intros; unfold formV, sum3; ring).
    intros e g Se Sg. rewrite !L, (RX e g Se Sg), (Rx e g Se Sg). reflexivity.
Qed.
Lemma plane_res_rel close eps epsm eig comp imp w P K n x q q' : same_point2 P K q q' -> planar_ok n x q -> same_test2 close n x q q' ->
  okrel (same_stress P) (plane_res close eps epsm eig comp imp w q (adef n q x)) (plane_res close eps epsm eig comp imp w q' (adef n q' x)).
Proof.
  intros SP (Do & Dd) ST. unfold same_test2 in ST. rewrite (adef_rep2 P K n q q' x SP) in *. destruct SP as (DP & _ & _ & O & R & T & A).
  unfold plane_res. rewrite R, T. unfold apt2. rewrite O in *. rewrite T, A. apply ovec_rel0. intros u z _. unfold eval_stress. cbn [planar_pt po pd pT pp].
  apply (stress_rel (inv2 P) 1 P); [apply hrel2_j; assumption|]. exact ST.
Qed.
Lemma plane_tan_rel eps epsm eig comp imp w P K n x q q' : same_point2 P K q q' -> planar_ok n x q ->
  okrel (same_stiffness P) (plane_tan eps epsm eig comp imp w q (adef n q x)) (plane_tan eps epsm eig comp imp w q' (adef n q' x)).
Proof.
  intros SP (Do & Dd). rewrite (adef_rep2 P K n q q' x SP) in *. destruct SP as (DP & _ & _ & O & R & T & A).
  unfold plane_tan. rewrite R, T. unfold apt2. rewrite O in *. rewrite T, A. apply omat_rel0. intros u z _. unfold eval_matrix. cbn [planar_pt po pd pT pp].
  apply (matrix_rel (inv2 P) 1 P). apply hrel2_j; assumption.
Qed.
Lemma w_rep2 P K q q' : same_point2 P K q q' -> aw q' * measure (aori q') = aw q * measure (aori q).
Proof. intros (DP & W & _ & O & _). rewrite O, msr, <- W. ring. Qed.
Lemma pforce_rep f f' n x pts pts' i d :
  Forall2 (fun q q' => exists P K, same_point2 P K q q' /\ okrel (same_stress P) (f q (adef n q x)) (f' q' (adef n q' x))) pts pts' ->
  okrel eq (pforce f n pts x i d) (pforce f' n pts' x i d).
Proof.
  intros H. induction H as [|q q' l l' (P & K & S & O) H IH]; cbn [pforce]; [reflexivity|]. cbv zeta.
  apply (ok_bind _ _ _ _ _ _ O). intros X Y RXY. apply (ok_bind _ _ _ _ _ _ IH). intros y _ <-. cbn [okrel].
  rewrite (w_rep2 P K q q' S), (adef_rep2 P K n q q' x S). destruct S as (DP & _ & B & _). rewrite B, bvar_rep.
  unfold Fint_mem. rewrite !(dot_voi _ _ _ (Em_voi _ _)), (work_E P K X Y _ _ RXY). reflexivity.
Qed.
Lemma pstiff_rep f f' g g' n x pts pts' i d j e :
  Forall2 (fun q q' => exists P K, same_point2 P K q q' /\ okrel (same_stress P) (f q (adef n q x)) (f' q' (adef n q' x))
    /\ okrel (same_stiffness P) (g q (adef n q x)) (g' q' (adef n q' x))) pts pts' ->
  okrel eq (pstiff f g n pts x i d j e) (pstiff f' g' n pts' x i d j e).
Proof.
  intros H. induction H as [|q q' l l' (P & K & S & O & O2) H IH]; cbn [pstiff]; [reflexivity|]. cbv zeta.
  apply (ok_bind _ _ _ _ _ _ O). intros X Y RXY. apply (ok_bind _ _ _ _ _ _ O2). intros T U RTU. apply (ok_bind _ _ _ _ _ _ IH). intros y _ <-. cbn [okrel].
  rewrite (w_rep2 P K q q' S), (adef_rep2 P K n q q' x S). destruct S as (DP & _ & B & _). rewrite !B, !bvar_rep. unfold Kstiff_mem.
  rewrite !(form_eq _ _ _ _ _ (Em_voi _ _) (Em_voi _ _)), !flatdot_work, (work_E P K X Y _ _ RXY).
  rewrite (formV_ext _ _ _ _ _ (Et_rep P K _ _) (Et_rep P K _ _)), RTU by apply Et_sym. reflexivity.
Qed.
