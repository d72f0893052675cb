(* Property theorems C113: principal stretches of compressible materials at several points and heights. *)
From Coq Require Import Reals Lra Lia List Arith.
From Verif Require Import Tensor MetricModel MetricSpec MetricProofs LinearModel LinearSpec NonlinearModel NonlinearSpec NonlinearProofs Newton33Model Newton33Proofs
  PrincipalModel PrincipalSpec PrincipalProofs BatchModel BatchSpec BatchProofs SizeModel StretchModel StretchSpec StretchProofs.
Import ListNotations.
Open Scope R_scope.

(* the metric of point p at height h *)
Definition at_height (p : point) (h : R) : metric := metric_of (Gcov (undef p) h) (Gcov (defd p) h).

Lemma c33_at_eq eps w P zc z k j : (k < zc)%nat -> fine (P k) (z j k * thick (P k)) ->
  c33_at eps w P zc z k j = c33_law eps w (pars (P k)) (at_height (P k) (z j k * thick (P k))).
Proof. intros H F. unfold c33_at, zread. rewrite (proj2 (Nat.ltb_lt _ _) H). cbn [obind]. rewrite getMetric_ok by exact F. reflexivity. Qed.

Section Batch.
  Variables (eps epsm : R) (w : law) (eig : mat -> vec * (nat -> vec)) (P : nat -> point) (n m zc : nat) (z : nat -> nat -> R) (c : nat -> nat -> R).
  Hypotheses (Z : (n <= zc)%nat)
    (F : forall k j, (k < n)%nat -> (j < m)%nat -> fine (P k) (z j k * thick (P k)))
    (L : forall k j, (k < n)%nat -> (j < m)%nat -> c33_law eps w (pars (P k)) (at_height (P k) (z j k * thick (P k))) = Ok (c k j)).
  Lemma C33s_ok : exists s, C33s eps w P n m zc z = Ok s /\ pointwise n m c s.
  Proof. apply batch_o_ok. intros k j Hk Hj. rewrite c33_at_eq by (auto; lia). auto. Qed.
  Lemma pstretch_ok : exists r, pstretch eps epsm w eig P n m zc z = Ok r /\
    pointwise n m (fun k j => let h := z j k * thick (P k) in fst (stretches_of epsm eig (P k) h (at_height (P k) h) (c k 0%nat))) r.
  Proof.
    destruct C33s_ok as (s & E & Hs & _). unfold pstretch. rewrite E. cbn [obind]. apply batch_o_ok. intros k j Hk Hj.
    unfold zread. rewrite (proj2 (Nat.ltb_lt k zc)) by lia. cbn [obind]. cbv zeta. rewrite getMetric_ok by auto. cbn [obind].
    unfold read. specialize (Hs k 0%nat Hk ltac:(lia)). cbn in Hs. rewrite Hs. reflexivity.
  Qed.
  Lemma detF_ok : exists r, detF eps w P n m zc z = Ok r /\
    pointwise n m (fun k j => sqrt (J0 (at_height (P k) (z j k * thick (P k))) * c k j)) r.
  Proof.
    destruct C33s_ok as (s & E & Hs & _). unfold detF. rewrite E. cbn [obind]. apply batch_o_ok. intros k j Hk Hj.
    unfold zread. rewrite (proj2 (Nat.ltb_lt k zc)) by lia. cbn [obind]. rewrite getMetric_ok by auto. cbn [obind].
    unfold read, colIdx. rewrite (Hs k j Hk Hj). reflexivity.
  Qed.
End Batch.

(* C113: for all points and heights the in-plane stretches are the principal ones of that point and height; the transverse stretch
   is the one of the first height of that point. *)
Theorem C113_every_height : forall eps epsm w eig P n m zc z c, (n <= zc)%nat ->
  (forall k j, (k < n)%nat -> (j < m)%nat -> let h := z j k * thick (P k) in
     fine (P k) h /\ c33_law eps w (pars (P k)) (at_height (P k) h) = Ok (c k j) /\ 0 <= c k j /\
     solved eig (undef (P k)) (defd (P k)) h /\ shortcut epsm (Bten (Gcov (defd (P k)) h) (gcon (undef (P k)) h)) = false) ->
  exists r, pstretch eps epsm w eig P n m zc z = Ok r /\
    forall k j, (k < n)%nat -> (j < m)%nat -> exists l, r (j * n + k)%nat = Some l /\
      in_plane_stretches (undef (P k)) (defd (P k)) (z j k * thick (P k)) l /\ transverse_stretch (c k 0%nat) l.
Proof.
  intros eps epsm w eig P n m zc z c Z H.
  destruct (pstretch_ok eps epsm w eig P n m zc z c Z (fun k j a b => proj1 (H k j a b)) (fun k j a b => proj1 (proj2 (H k j a b)))) as (r & Er & Hr & _).
  exists r. split; [exact Er|]. intros k j Hk Hj. eexists. split; [apply Hr; assumption|]. cbv zeta.
  destruct (H k j Hk Hj) as (Fj & _ & _ & E & S). destruct (H k 0%nat Hk ltac:(lia)) as (_ & _ & C0 & _).
  exact (stretches_in_plane epsm eig (P k) _ (c k 0%nat) E Fj S C0).
Qed.
Print Assumptions C113_every_height.

(* C113: with one height per point all three stretches are right, and they multiply to the volume ratio returned by detF. *)
Theorem C113_single_height : forall eps epsm w eig P n zc z c, (n <= zc)%nat ->
  (forall k, (k < n)%nat -> let h := z 0%nat k * thick (P k) in
     fine (P k) h /\ c33_law eps w (pars (P k)) (at_height (P k) h) = Ok (c k) /\ 0 <= c k /\
     solved eig (undef (P k)) (defd (P k)) h /\ shortcut epsm (Bten (Gcov (defd (P k)) h) (gcon (undef (P k)) h)) = false) ->
  exists r d, pstretch eps epsm w eig P n 1 zc z = Ok r /\ detF eps w P n 1 zc z = Ok d /\
    forall k, (k < n)%nat -> exists l, r k = Some l /\ in_plane_stretches (undef (P k)) (defd (P k)) (z 0%nat k * thick (P k)) l /\
      transverse_stretch (c k) l /\ d k = Some (l 0%nat * l 1%nat * l 2%nat).
Proof.
  intros eps epsm w eig P n zc z c Z H.
  assert (HF : forall k j, (k < n)%nat -> (j < 1)%nat -> fine (P k) (z j k * thick (P k))) by (intros k j Hk Hj; replace j with 0%nat by lia; apply (H k Hk)).
  assert (HL : forall k j, (k < n)%nat -> (j < 1)%nat -> c33_law eps w (pars (P k)) (at_height (P k) (z j k * thick (P k))) = Ok (c k))
    by (intros k j Hk Hj; replace j with 0%nat by lia; apply (H k Hk)).
  destruct (pstretch_ok eps epsm w eig P n 1 zc z (fun k _ => c k) Z HF HL) as (r & Er & Hr & _).
  destruct (detF_ok eps w P n 1 zc z (fun k _ => c k) Z HF HL) as (d & Ed & Hd & _).
  exists r, d. split; [exact Er|]. split; [exact Ed|]. intros k Hk. destruct (H k Hk) as (Fj & _ & C0 & E & S).
  specialize (Hr k 0%nat Hk ltac:(lia)). specialize (Hd k 0%nat Hk ltac:(lia)). cbn [Nat.mul Nat.add] in Hr, Hd. cbv zeta in Hr.
  eexists. split; [exact Hr|]. destruct (stretches_in_plane epsm eig (P k) _ (c k) E Fj S C0) as (A & B). split; [exact A|]. split; [exact B|].
  rewrite Hd. f_equal. unfold at_height. rewrite (area_change epsm eig (P k) _ (c k) E Fj S).
  rewrite sqrt_mult_alt. 2:{ destruct Fj as (Ro & Rd & Do & Dd). cbn [J0 metric_of]. pose proof (det_nonneg _ (z 0%nat k * thick (P k)) Ro).
    pose proof (det_nonneg _ (z 0%nat k * thick (P k)) Rd). apply Rmult_le_pos; [assumption|]. apply Rlt_le, Rinv_0_lt_compat. lra. }
  f_equal. unfold stretches_of, evalStretch. cbv zeta. destruct (shortcut _ _); reflexivity.
Qed.
Print Assumptions C113_single_height.

(* C113: the volume ratio is that of each point and height. *)
Theorem C113_detF : forall eps w P n m zc z c, (n <= zc)%nat ->
  (forall k j, (k < n)%nat -> (j < m)%nat -> let h := z j k * thick (P k) in
     fine (P k) h /\ c33_law eps w (pars (P k)) (at_height (P k) h) = Ok (c k j)) ->
  exists r, detF eps w P n m zc z = Ok r /\ pointwise n m (fun k j => let h := z j k * thick (P k) in
    sqrt (det3 (Gcov (defd (P k)) h) / det3 (Gcov (undef (P k)) h) * c k j)) r.
Proof. intros eps w P n m zc z c Z H. exact (detF_ok eps w P n m zc z c Z (fun k j a b => proj1 (H k j a b)) (fun k j a b => proj2 (H k j a b))). Qed.
Print Assumptions C113_detF.

(* C113: the call throws exactly when the plane-stress iteration fails at some point and height; it is never undefined when every
   point has its column of heights. *)
Theorem C113_throws : forall eps epsm w eig P n m zc z, (n <= zc)%nat ->
  (forall k j, (k < n)%nat -> (j < m)%nat -> fine (P k) (z j k * thick (P k))) ->
  pstretch eps epsm w eig P n m zc z <> UB /\
  (pstretch eps epsm w eig P n m zc z = Throw <->
   exists k j, (k < n)%nat /\ (j < m)%nat /\ c33_law eps w (pars (P k)) (at_height (P k) (z j k * thick (P k))) = Throw).
Proof.
  intros eps epsm w eig P n m zc z Z F.
  assert (K : forall k j, (k < n)%nat -> (j < m)%nat -> c33_at eps w P zc z k j = c33_law eps w (pars (P k)) (at_height (P k) (z j k * thick (P k))))
    by (intros; apply c33_at_eq; [lia|auto]).
  pose proof (batch_o_cases n m (c33_at eps w P zc z)) as B. specialize (B ltac:(intros k j Hk Hj; rewrite K by assumption; apply c33_noUB)).
  destruct (batch_o n m (n * m) (c33_at eps w P zc z)) as [s| |] eqn:E.
  - set (c := fun k j => match c33_at eps w P zc z k j with Ok x => x | _ => 0 end).
    assert (L : forall k j, (k < n)%nat -> (j < m)%nat -> c33_law eps w (pars (P k)) (at_height (P k) (z j k * thick (P k))) = Ok (c k j)).
    { intros k j Hk Hj. specialize (B k j Hk Hj). unfold c. rewrite <- (K k j Hk Hj). pose proof (c33_noUB eps w (pars (P k)) (at_height (P k) (z j k * thick (P k)))) as U.
      rewrite <- (K k j Hk Hj) in U. destruct (c33_at eps w P zc z k j); congruence. }
    destruct (pstretch_ok eps epsm w eig P n m zc z c Z F L) as (r & -> & _). split; [congruence|]. split; [congruence|].
    intros (k & j & Hk & Hj & T). rewrite L in T by assumption. congruence.
  - unfold pstretch, C33s. rewrite E. cbn [obind]. split; [congruence|]. split; [|reflexivity]. intros _.
    destruct B as (k & j & Hk & Hj & T). exists k, j. rewrite <- K by assumption. auto.
  - destruct B.
Qed.
Print Assumptions C113_throws.

(* C113: the functions without heights work for one point ... *)
Theorem C113_into_one_point : forall eps epsm w eig P c, solved eig (undef (P 0%nat)) (defd (P 0%nat)) 0 -> fine (P 0%nat) 0 ->
  c33_law eps w (pars (P 0%nat)) (at_height (P 0%nat) 0) = Ok c -> 0 <= c ->
  shortcut epsm (Bten (Gcov (defd (P 0%nat)) 0) (gcon (undef (P 0%nat)) 0)) = false ->
  exists r l, pstretch_into eps epsm w eig P 1 = Ok r /\ r 0%nat = Some l /\
    in_plane_stretches (undef (P 0%nat)) (defd (P 0%nat)) 0 l /\ transverse_stretch c l.
Proof.
  intros eps epsm w eig P c E F L C0 S.
  unfold pstretch_into, stretch_into, C33s, batch_o. cbn [seq outer_o inner_o]. unfold c33_at at 1, zread. cbn [Nat.ltb Nat.leb obind].
  rewrite Rmult_0_l. rewrite getMetric_ok by exact F. cbn [obind]. unfold at_height in L. rewrite L. cbn [obind].
  unfold write at 1, colIdx at 1. cbn [Nat.mul Nat.add Nat.ltb Nat.leb obind seq inner_o outer_o read Nat.eqb colIdx]. unfold read. cbn [Nat.eqb obind].
  unfold write, colIdx. cbn [Nat.mul Nat.add Nat.ltb Nat.leb obind]. eexists. eexists. split; [reflexivity|]. cbn [Nat.eqb]. split; [reflexivity|].
  exact (stretches_in_plane epsm eig (P 0%nat) 0 c E F S C0).
Qed.
Print Assumptions C113_into_one_point.

Lemma gcon_normal g z a : det3 (Gcov g z) <> 0 -> gcon g z 2%nat a = normal g a.
Proof.
  intro D. unfold gcon, Gcon, inv3. change (gcov g z 2%nat) with (normal g). rewrite det3_Gcov in *.
  change (Gcov g z 2%nat 0%nat) with 0. change (Gcov g z 2%nat 1%nat) with 0. change (Gcov g z 0%nat 2%nat) with 0. change (Gcov g z 1%nat 2%nat) with 0.
  unfold det2 in *. field. exact D.
Qed.
(* C113: ... and the directions returned for it are the principal ones, the third being the undeformed normal. *)
Theorem C113_directions_one_point : forall eps epsm w eig P c, solved eig (undef (P 0%nat)) (defd (P 0%nat)) 0 -> fine (P 0%nat) 0 ->
  c33_law eps w (pars (P 0%nat)) (at_height (P 0%nat) 0) = Ok c ->
  shortcut epsm (Bten (Gcov (defd (P 0%nat)) 0) (gcon (undef (P 0%nat)) 0)) = false ->
  exists r l d e, pstretch_into eps epsm w eig P 1 = Ok r /\ r 0%nat = Some l /\
    pstretchDir_into eps epsm w eig P 1 = Ok d /\ d 0%nat = Some e /\
    principal_stretches (Bten (Gcov (defd (P 0%nat)) 0) (gcon (undef (P 0%nat)) 0)) (normal (undef (P 0%nat))) (l 0%nat) (l 1%nat) (e 0%nat) (e 1%nat) /\
    (forall a, (a < 3)%nat -> e 2%nat a = normal (undef (P 0%nat)) a).
Proof.
  intros eps epsm w eig P c E F L S.
  unfold pstretch_into, pstretchDir_into, stretch_into, C33s, batch_o. cbn [seq outer_o inner_o]. unfold c33_at at 1 2, zread. cbn [Nat.ltb Nat.leb obind].
  rewrite Rmult_0_l. rewrite getMetric_ok by exact F. cbn [obind]. unfold at_height in L. rewrite L. cbn [obind].
  unfold write, colIdx. cbn [Nat.mul Nat.add Nat.ltb Nat.leb obind seq inner_o outer_o read Nat.eqb colIdx]. unfold read. cbn [Nat.eqb obind].
  do 4 eexists. split; [reflexivity|]. cbn [Nat.eqb]. split; [reflexivity|]. split; [reflexivity|]. cbn [Nat.eqb]. split; [reflexivity|].
  destruct F as (Ro & Rd & Do & Dd). pose proof (Gcov_spd _ 0 Rd Dd) as Q.
  assert (Q' : spd2 (with33 (Gcov (defd (P 0%nat)) 0) c)).
  { destruct Q as (s & a & d). split; [|split; [exact a|exact d]]. intros i j Hi Hj. pose proof (s i j Hi Hj) as q. idx2 i Hi; idx2 j Hj; exact q. }
  unfold stretches_of. cbn [Gdef metric_of]. cbv zeta. rewrite Bten_with33. split.
  - pose proof (stretch_correct epsm (undef (P 0%nat)) 0 (with33 (Gcov (defd (P 0%nat)) 0) c) (fst (eig (Bten (Gcov (defd (P 0%nat)) 0) (gcon (undef (P 0%nat)) 0)))) (snd (eig (Bten (Gcov (defd (P 0%nat)) 0) (gcon (undef (P 0%nat)) 0)))) Ro Do Q') as K.
    rewrite Bten_with33 in K. exact (K E S).
  - intros a Ha. unfold evalStretch. cbv zeta. destruct (shortcut _ _); cbn [snd]; exact (gcon_normal _ _ a Do).
Qed.
Print Assumptions C113_directions_one_point.

(* ... and read heights that do not exist for every further one. *)
Theorem C113_into_refuted : forall eps epsm w eig P n c, (2 <= n)%nat -> fine (P 0%nat) 0 ->
  c33_law eps w (pars (P 0%nat)) (at_height (P 0%nat) 0) = Ok c ->
  pstretch_into eps epsm w eig P n = UB /\ pstretchDir_into eps epsm w eig P n = UB.
Proof.
  intros eps epsm w eig P n c Hn F L. destruct n as [|[|n]]; [lia|lia|].
  assert (E : C33s eps w P (S (S n)) 1 1 (fun _ _ => 0) = UB).
  { unfold C33s, batch_o. cbn [seq outer_o inner_o]. unfold c33_at at 1, zread. cbn [Nat.ltb Nat.leb obind]. rewrite Rmult_0_l.
    rewrite getMetric_ok by exact F. cbn [obind]. unfold at_height in L. rewrite L. cbn [obind]. unfold write at 1, colIdx at 1.
    rewrite (proj2 (Nat.ltb_lt _ _)) by lia. cbn [obind]. reflexivity. }
  unfold pstretch_into, pstretchDir_into, stretch_into. rewrite E. split; reflexivity.
Qed.
Print Assumptions C113_into_refuted.

(* a flat plate bent into a cylinder: thickness 1/10, outer fibre stretched by 11/10 *)
Definition bent : geo := mkGeo (fun i c => delta i c) (fun i c => match i, c with 0%nat, 2%nat => - 1 | _, _ => 0 end).
Definition ex_point : point := mkPoint flat bent (/ 10) (mkPar (5 / 2) (/ 4) 0).
Lemma bent_regular : regular bent. Proof. exists 2%nat. split; [lia|]. cbv. lra. Qed.
Lemma bent_normal a : (a < 3)%nat -> normal bent a = delta 2 a. Proof. intro Ha. exact (flat_normal a Ha). Qed.
Lemma flat_Gcov_h h i j : (i < 3)%nat -> (j < 3)%nat -> Gcov flat h i j = delta i j.
Proof.
  intros Hi Hj. idx3 i Hi; idx3 j Hj; cbn [Gcov]; try reflexivity;
    unfold Acov, ncov, mixedB, Acon, Bcov, inv2, det2, Acov, dot3, sum3; cbn [flat tang der2 delta Nat.eqb]; field.
Qed.
Lemma bent_Gcov h i j : (i < 3)%nat -> (j < 3)%nat -> Gcov bent h i j = match i, j with 0%nat, 0%nat => (1 + h) * (1 + h) | _, _ => delta i j end.
Proof.
  intros Hi Hj. idx3 i Hi; idx3 j Hj; cbn [Gcov]; try reflexivity;
    unfold ncov, mixedB, Bcov, Acon, inv2, det2, Acov, dot3, sum3; rewrite ?bent_normal by lia; cbn [bent tang der2 delta Nat.eqb]; field.
Qed.
Lemma bent_det h : det3 (Gcov bent h) = (1 + h) * (1 + h).
Proof. rewrite det3_Gcov. unfold det2. rewrite !bent_Gcov by lia. cbn [delta Nat.eqb]. ring. Qed.
Lemma flat_det_h h : det3 (Gcov flat h) = 1.
Proof. rewrite det3_Gcov. unfold det2. rewrite !flat_Gcov_h by lia. cbn [delta Nat.eqb]. ring. Qed.
Lemma ex_fine h : 0 <= h -> fine ex_point h.
Proof. intro H. split; [exact flat_regular|]. split; [exact bent_regular|]. cbn [ex_point undef defd]. rewrite flat_det_h, bent_det. split; [lra|nra]. Qed.
Lemma ex_mu : mu (mkPar (5 / 2) (/ 4) 0) = 1. Proof. unfold mu, mu_of. cbn. field. Qed.
Lemma ex_lam : lam (mkPar (5 / 2) (/ 4) 0) = 1. Proof. unfold lam, lambda_of. cbn. field. Qed.
Lemma ex_c33 eps h : 0 <= eps <= tol / 2 -> 0 <= h <= / 10 ->
  exists c, c33_law eps NHe (mkPar (5 / 2) (/ 4) 0) (at_height ex_point h) = Ok c /\ Rabs (c - 3 / (2 + (1 + h) * (1 + h))) < 2 * tol.
Proof.
  intros He Hh.
  assert (EJ : J0 (at_height ex_point h) = (1 + h) * (1 + h)) by (unfold at_height; cbn [J0 metric_of ex_point undef defd]; rewrite flat_det_h, bent_det; field).
  destruct (nhe_accurate (mkPar (5 / 2) (/ 4) 0) (at_height ex_point h)) with (eps := eps) as (c & E & A).
  - unfold at_height. cbn [Gori metric_of ex_point undef defd]. unfold inv3. rewrite flat_det_h, !flat_Gcov_h by lia. cbn [delta Nat.eqb]. field.
  - rewrite ex_mu. lra.
  - rewrite ex_lam. lra.
  - rewrite EJ. nra.
  - lra.
  - lra.
  - rewrite ex_mu, ex_lam, EJ. rewrite Rabs_right by nra. nra.
  - unfold nhe_c33. rewrite ex_mu, ex_lam, EJ. apply Rmult_le_reg_r with (2 * 1 + 1 * ((1 + h) * (1 + h))); [nra|]. unfold Rdiv. rewrite Rmult_assoc, Rinv_l by nra. nra.
  - exists c. split; [exact E|]. unfold nhe_c33 in A. rewrite ex_mu, ex_lam, EJ in A.
    replace (3 / (2 + (1 + h) * (1 + h))) with ((2 * 1 + 1) / (2 * 1 + 1 * ((1 + h) * (1 + h)))) by (field; nra). exact A.
Qed.

(* C113 refuted: on the outer fibre of the bent plate the transverse stretch evaluated together with the mid-surface differs from the
   plane-stress one, from the one evaluated alone, and the stretches do not multiply to the volume ratio. *)
Theorem C113_heights_refuted : forall eps epsm eig, 0 <= eps <= tol / 2 ->
  let z2 := fun j _ : nat => INR j in let z1 := fun _ _ : nat => 1 in let P := fun _ : nat => ex_point in
  exists c1 r2 l2 r1 l1 d x, fine ex_point (/ 10) /\
    c33_law eps NHe (pars ex_point) (at_height ex_point (/ 10)) = Ok c1 /\
    pstretch eps epsm NHe eig P 1 2 1 z2 = Ok r2 /\ r2 1%nat = Some l2 /\
    pstretch eps epsm NHe eig P 1 1 1 z1 = Ok r1 /\ r1 0%nat = Some l1 /\
    detF eps NHe P 1 2 1 z2 = Ok d /\ d 1%nat = Some x /\
    l2 0%nat = l1 0%nat /\ l2 1%nat = l1 1%nat /\ transverse_stretch c1 l1 /\ ~ transverse_stretch c1 l2 /\ l1 2%nat + / 100 < l2 2%nat /\
    (x = l1 0%nat * l1 1%nat * l1 2%nat -> x <> l2 0%nat * l2 1%nat * l2 2%nat).
Proof.
  intros eps epsm eig He z2 z1 P.
  destruct (ex_c33 eps 0 He ltac:(lra)) as (c0 & E0 & A0). destruct (ex_c33 eps (/ 10) He ltac:(lra)) as (c1 & E1 & A1).
  pose proof tol_pos as Tp. assert (B0 : 99 / 100 < c0). { replace (3 / (2 + (1 + 0) * (1 + 0))) with 1 in A0 by field. apply Rabs_def2 in A0. unfold tol in *. lra. }
  assert (B1 : 93 / 100 < c1 < 94 / 100). { replace (3 / (2 + (1 + / 10) * (1 + / 10))) with (300 / 321) in A1 by field. apply Rabs_def2 in A1. unfold tol in *. lra. }
  set (c := fun (_ j : nat) => match j with 0%nat => c0 | _ => c1 end).
  assert (H2F : forall k j, (k < 1)%nat -> (j < 2)%nat -> fine (P k) (z2 j k * thick (P k))).
  { intros k j Hk Hj. unfold P, z2. apply ex_fine. cbn [thick ex_point]. pose proof (pos_INR j). lra. }
  assert (H2L : forall k j, (k < 1)%nat -> (j < 2)%nat -> c33_law eps NHe (pars (P k)) (at_height (P k) (z2 j k * thick (P k))) = Ok (c k j)).
  { intros k j Hk Hj. unfold P, z2. cbn [thick pars ex_point]. idx2 j Hj; cbn [INR c]; [rewrite Rmult_0_l|rewrite Rmult_1_l]; assumption. }
  assert (H1F : forall k j, (k < 1)%nat -> (j < 1)%nat -> fine (P k) (z1 j k * thick (P k))).
  { intros k j Hk Hj. unfold P, z1. apply ex_fine. cbn [thick ex_point]. lra. }
  assert (H1L : forall k j, (k < 1)%nat -> (j < 1)%nat -> c33_law eps NHe (pars (P k)) (at_height (P k) (z1 j k * thick (P k))) = Ok c1).
  { intros k j Hk Hj. unfold P, z1. cbn [thick pars ex_point]. rewrite Rmult_1_l. assumption. }
  destruct (pstretch_ok eps epsm NHe eig P 1 2 1 z2 c ltac:(lia) H2F H2L) as (r2 & R2 & Q2 & _).
  destruct (detF_ok eps NHe P 1 2 1 z2 c ltac:(lia) H2F H2L) as (d & D2 & Qd & _).
  destruct (pstretch_ok eps epsm NHe eig P 1 1 1 z1 (fun _ _ => c1) ltac:(lia) H1F H1L) as (r1 & R1 & Q1 & _).
  specialize (Q2 0%nat 1%nat ltac:(lia) ltac:(lia)). specialize (Qd 0%nat 1%nat ltac:(lia) ltac:(lia)). specialize (Q1 0%nat 0%nat ltac:(lia) ltac:(lia)).
  cbn [Nat.mul Nat.add] in Q2, Qd, Q1. unfold P, z2, z1 in Q2, Qd, Q1. cbv zeta in Q2, Q1. cbn [thick ex_point INR c] in Q2, Qd, Q1.
  fold ex_point in Q2, Qd, Q1. rewrite Rmult_1_l in Q2, Qd, Q1.
  set (l2 := fst (stretches_of epsm eig ex_point (/ 10) (at_height ex_point (/ 10)) c0)) in *.
  set (l1 := fst (stretches_of epsm eig ex_point (/ 10) (at_height ex_point (/ 10)) c1)) in *.
  assert (V2 : l2 2%nat = sqrt c0) by (unfold l2, stretches_of, evalStretch; cbv zeta; destruct (shortcut _ _); reflexivity).
  assert (V1 : l1 2%nat = sqrt c1) by (unfold l1, stretches_of, evalStretch; cbv zeta; destruct (shortcut _ _); reflexivity).
  assert (W : l2 0%nat = l1 0%nat /\ l2 1%nat = l1 1%nat) by (unfold l1, l2, stretches_of, evalStretch; cbv zeta; rewrite !Bten_with33; destruct (shortcut _ _); split; reflexivity).
  assert (S2 : sqrt c0 * sqrt c0 = c0) by (apply sqrt_sqrt; lra). assert (S1 : sqrt c1 * sqrt c1 = c1) by (apply sqrt_sqrt; lra).
  assert (G : sqrt c1 + / 100 < sqrt c0).
  { pose proof (sqrt_pos c0). pose proof (sqrt_pos c1). assert (sqrt c1 <= 1) by (rewrite <- sqrt_1; apply sqrt_le_1_alt; lra). nra. }
  exists c1, r2, l2, r1, l1, d, (sqrt (J0 (at_height ex_point (/ 10)) * c1)).
  split; [apply ex_fine; lra|]. split; [exact E1|]. split; [exact R2|]. split; [exact Q2|]. split; [exact R1|]. split; [exact Q1|].
  split; [exact D2|]. split; [exact Qd|]. destruct W as (W0 & W1). split; [exact W0|]. split; [exact W1|].
  split; [split; rewrite V1; [apply sqrt_pos|exact S1]|]. split; [intros (_ & N); rewrite V2, S2 in N; lra|]. split; [rewrite V1, V2; exact G|].
  rewrite W0, W1, V1, V2. intros X1 X2. 
  assert (J : J0 (at_height ex_point (/ 10)) = 121 / 100) by (unfold at_height; cbn [J0 metric_of ex_point undef defd]; rewrite flat_det_h, bent_det; field).
  rewrite J in X1, X2. assert (0 < sqrt (121 / 100 * c1)) by (apply sqrt_lt_R0; lra). set (q := l1 0%nat * l1 1%nat) in *. nra.
Qed.
Print Assumptions C113_heights_refuted.

Example ex_C113 : exists c eig, c33_law 0 NHe (pars ex_point) (at_height ex_point (/ 10)) = Ok c /\ fine ex_point (/ 10) /\ 0 <= c /\ solved eig (undef ex_point) (defd ex_point) (/ 10) /\
  shortcut (/ 10 ^ 16) (Bten (Gcov (defd ex_point) (/ 10)) (gcon (undef ex_point) (/ 10))) = false.
Proof.
  pose proof tol_pos. destruct (ex_c33 0 (/ 10) ltac:(lra) ltac:(lra)) as (c & E & A). exists c, (fun _ => (dg_vals (121 / 100) 1, dg_vecs)). split; [exact E|]. split; [apply ex_fine; lra|].
  split. { replace (3 / (2 + (1 + / 10) * (1 + / 10))) with (300 / 321) in A by field. apply Rabs_def2 in A. unfold tol in *. lra. }
  assert (G : forall i a, (i < 3)%nat -> (a < 3)%nat -> gcon flat (/ 10) i a = delta i a).
  { intros i a Hi Ha. unfold gcon, Gcon, inv3. rewrite flat_det_h. 
    assert (K : forall i, (i < 2)%nat -> gcov flat (/ 10) i a = delta i a).
    { intros b Hb. idx2 b Hb; cbn [gcov]; unfold ncov, mixedB, Bcov, Acon, inv2, det2, Acov, dot3, sum3; cbn [flat tang der2 delta Nat.eqb]; idx3 a Ha; cbn [Nat.eqb delta]; field. }
    rewrite !K by lia. change (gcov flat (/ 10) 2%nat a) with (normal flat a). rewrite flat_normal by exact Ha.
    idx3 i Hi; idx3 a Ha; rewrite !flat_Gcov_h by lia; cbn [delta Nat.eqb]; field. }
  assert (BB : forall a b, (a < 3)%nat -> (b < 3)%nat -> Bten (Gcov bent (/ 10)) (gcon flat (/ 10)) a b = match a, b with 0%nat, 0%nat => 121 / 100 | 1%nat, 1%nat => 1 | _, _ => 0 end).
  { intros a b Ha Hb. unfold Bten, sum2. rewrite !G, !bent_Gcov by lia. idx3 a Ha; idx3 b Hb; cbn [delta Nat.eqb]; field. }
  split. { destruct (dg_eigen (121 / 100) 1 ltac:(lra)) as (_ & O & C & L). split; [|split; [exact O|split; [exact C|exact L]]].
    intros k a Hk Ha. cbn [fst snd ex_point undef defd]. unfold mvec3, sum3. rewrite !BB by lia. idx3 k Hk; idx3 a Ha; cbv [dg_vals dg_vecs delta Nat.eqb Nat.sub]; ring. }
  unfold shortcut. destruct Rlt_dec as [q|q]; [|reflexivity]. exfalso. revert q. cbn [ex_point undef defd]. unfold Bten, sum2. rewrite !G, !bent_Gcov by lia.
  cbn [delta Nat.eqb]. intro q. apply Rabs_def2 in q. lra.
Qed.

(* a plate stretched by 11/10 meets the hypotheses of the functions without heights *)
Definition wide : geo := mkGeo (fun i c => match i, c with 0%nat, 0%nat => 11 / 10 | _, _ => delta i c end) (fun _ _ => 0).
Definition wide_point : point := mkPoint flat wide (/ 10) (mkPar (5 / 2) (/ 4) 0).
Example ex_C113_one_point : exists c eig, c33_law 0 NHe (pars wide_point) (at_height wide_point 0) = Ok c /\ fine wide_point 0 /\ 0 <= c /\
  solved eig (undef wide_point) (defd wide_point) 0 /\ shortcut (/ 10 ^ 16) (Bten (Gcov (defd wide_point) 0) (gcon (undef wide_point) 0)) = false.
Proof.
  assert (W : forall i j, (i < 3)%nat -> (j < 3)%nat -> Gcov wide 0 i j = match i, j with 0%nat, 0%nat => 121 / 100 | _, _ => delta i j end).
  { intros i j Hi Hj. idx3 i Hi; idx3 j Hj; cbn [Gcov]; try reflexivity;
      rewrite !Rmult_0_r, !Rmult_0_l; unfold Acov, dot3, sum3; cbn [wide tang delta Nat.eqb]; field. }
  assert (D : det3 (Gcov wide 0) = 121 / 100) by (unfold det3; rewrite !W by lia; cbn [delta Nat.eqb]; field).
  assert (J : J0 (at_height wide_point 0) = 121 / 100) by (unfold at_height; cbn [J0 metric_of wide_point undef defd]; rewrite flat_det_h, D; field).
  pose proof tol_pos as T.
  destruct (nhe_accurate (mkPar (5 / 2) (/ 4) 0) (at_height wide_point 0)) with (eps := 0) as (c & E & A).
  - unfold at_height. cbn [Gori metric_of wide_point undef defd]. unfold inv3. rewrite flat_det_h, !flat_Gcov_h by lia. cbn [delta Nat.eqb]. field.
  - rewrite ex_mu. lra.
  - rewrite ex_lam. lra.
  - rewrite J. lra.
  - lra.
  - lra.
  - rewrite ex_mu, ex_lam, J. rewrite Rabs_right by lra. lra.
  - unfold nhe_c33. rewrite ex_mu, ex_lam, J. lra.
  - exists c, (fun _ => (dg_vals (121 / 100) 1, dg_vecs)). split; [exact E|]. split.
    { split; [exact flat_regular|]. split; [exists 2%nat; split; [lia|]; cbv; lra|]. cbn [wide_point undef defd]. rewrite flat_det_h, D. split; lra. }
    split. { unfold nhe_c33 in A. rewrite ex_mu, ex_lam, J in A. apply Rabs_def2 in A. unfold tol in *. lra. }
    assert (BB : forall a b, (a < 3)%nat -> (b < 3)%nat -> Bten (Gcov wide 0) (gcon flat 0) a b = match a, b with 0%nat, 0%nat => 121 / 100 | 1%nat, 1%nat => 1 | _, _ => 0 end).
    { intros a b Ha Hb. unfold Bten, sum2. rewrite !flat_gcon, !W by lia. idx3 a Ha; idx3 b Hb; cbn [delta Nat.eqb]; field. }
    split. { destruct (dg_eigen (121 / 100) 1 ltac:(lra)) as (_ & O & C & L). split; [|split; [exact O|split; [exact C|exact L]]].
      intros k a Hk Ha. cbn [fst snd wide_point undef defd]. unfold mvec3, sum3. rewrite !BB by lia. idx3 k Hk; idx3 a Ha; cbv [dg_vals dg_vecs delta Nat.eqb Nat.sub]; ring. }
    unfold shortcut. destruct Rlt_dec as [q|q]; [|reflexivity]. exfalso. revert q. cbn [wide_point undef defd]. rewrite !BB by lia. intro q. apply Rabs_def2 in q. lra.
Qed.
