From Coq Require Import Reals List Lra Lia Arith Bool FunctionalExtensionality.
From Coquelicot Require Import Coquelicot.
From Verif Require Import Tensor MetricModel MetricSpec MetricProofs LinearModel NonlinearModel NonlinearSpec SpectralModel
  Newton33Model PrincipalModel BatchModel SizeModel StretchModel PtModel PtSpec BatchProofs.
Import ListNotations.
Open Scope R_scope.

(* ---------- planar elements ---------- *)
Lemma flat_Acov g d i j : Acov (flat g d) i j = Acov2 g i j.
Proof. unfold Acov, Acov2, flat, dot3, sum3, sum2. cbn. ring. Qed.

Lemma flat_normal01 g d c : (c < 2)%nat -> normal (flat g d) c = 0.
Proof.
  intro H. assert (Z : forall c, (c < 2)%nat -> cross3 (tang (flat g d) 0) (tang (flat g d) 1) c = 0).
  { intros [|[|?]] ?; try lia; unfold cross3, flat; cbn; ring. }
  unfold normal, normalize. destruct (Rlt_dec _ _); rewrite Z by assumption; [unfold Rdiv; ring|reflexivity].
Qed.

Lemma flat_Bcov g d i j : Bcov (flat g d) i j = 0.
Proof.
  assert (B : forall k, dot3 (der2 (flat g d) k) (normal (flat g d)) = 0).
  { intro k. unfold dot3, sum3. rewrite (flat_normal01 g d 0), (flat_normal01 g d 1) by lia. unfold flat; cbn. ring. }
  unfold Bcov. destruct i as [|[|?]], j as [|[|?]]; apply B.
Qed.

Lemma flat_ncov g d i c : ncov (flat g d) i c = 0.
Proof. unfold ncov, mixedB. rewrite !flat_Bcov. ring. Qed.

Lemma flat_Gcov g d z : Gcov (flat g d) z = Gcov2 g.
Proof.
  extensionality i; extensionality j. unfold Gcov, Gcov2.
  assert (N : forall i j, dot3 (ncov (flat g d) i) (ncov (flat g d) j) = 0).
  { intros. unfold dot3, sum3. rewrite !flat_ncov. ring. }
  destruct i as [|[|[|?]]], j as [|[|[|?]]]; try reflexivity; rewrite ?flat_Acov, ?flat_Bcov, ?N; ring.
Qed.

Lemma flat_Gcon g d z : Gcon (flat g d) z = Gcon2 g.
Proof. unfold Gcon, Gcon2. rewrite flat_Gcov. reflexivity. Qed.

Lemma Gcon2_02 g i : (i < 2)%nat -> Gcon2 g i 2%nat = 0.
Proof. intros. unfold Gcon2, Gcov2, inv3. destruct i as [|[|?]]; try lia; unfold Rdiv; ring. Qed.
Lemma Gcon2_20 g i : (i < 2)%nat -> Gcon2 g 2%nat i = 0.
Proof. intros. unfold Gcon2, Gcov2, inv3. destruct i as [|[|?]]; try lia; unfold Rdiv; ring. Qed.

Lemma flat_gcov g d z i : (i < 2)%nat -> gcov (flat g d) z i = gcov2 g i.
Proof.
  intro H. destruct i as [|[|?]]; try lia; unfold gcov, gcov2; extensionality c; rewrite flat_ncov; unfold flat; cbn;
    destruct c as [|[|?]]; ring.
Qed.

Lemma flat_gcon g d z i : (i < 2)%nat -> gcon (flat g d) z i = gcon2 g i.
Proof.
  intro H. extensionality k. unfold gcon, gcon2. rewrite flat_Gcon, (Gcon2_02 g i H), !flat_gcov by lia. ring.
Qed.

Lemma flat_cross g d : cross3 (tang (flat g d) 0) (tang (flat g d) 1) 2%nat = jac2 g.
Proof. unfold cross3, flat, jac2. cbn. ring. Qed.

Lemma flat_regular g d : jac2 g <> 0 -> regular (flat g d).
Proof. intro J. exists 2%nat. split; [lia|]. rewrite flat_cross. exact J. Qed.

(* the unit normal is the third axis with the sign of the orientation *)
Lemma flat_normal2 g d : jac2 g <> 0 -> (0 < jac2 g -> normal (flat g d) 2%nat = 1) /\ (jac2 g < 0 -> normal (flat g d) 2%nat = -1).
Proof.
  intro J. pose proof (normal_unit _ (flat_regular g d J)) as U. unfold dot3, sum3 in U.
  rewrite (flat_normal01 g d 0), (flat_normal01 g d 1) in U by lia.
  pose proof (normal_eq _ (flat_regular g d J)) as E. pose proof (norm_cross_pos _ (flat_regular g d J)) as P.
  assert (E2 : normal (flat g d) 2%nat * norm3 (cross3 (tang (flat g d) 0) (tang (flat g d) 1)) = jac2 g).
  { rewrite <- (flat_cross g d). rewrite E. field. lra. }
  set (x := normal (flat g d) 2%nat) in *. set (n := norm3 _) in *.
  assert (x = 1 \/ x = -1) as [X|X].
  { assert ((x - 1) * (x + 1) = 0) as M by lra. apply Rmult_integral in M. destruct M; [left|right]; lra. }
  - rewrite X in E2. split; intro; [exact X|lra].
  - rewrite X in E2. split; intro; [lra|exact X].
Qed.

Lemma gcon2_2 g : det3 (Gcov2 g) <> 0 -> forall c, gcon2 g 2%nat c = gcov2 g 2%nat c.
Proof.
  intros D c. unfold gcon2. rewrite !(Gcon2_20 g) by lia.
  assert (E : Gcon2 g 2%nat 2%nat = 1).
  { unfold Gcon2, inv3. unfold det3, Gcov2 in *. field. intro X. apply D. lra. }
  rewrite E. ring.
Qed.

Lemma det_Gcov2 g : det3 (Gcov2 g) = jac2 g * jac2 g.
Proof. unfold det3, Gcov2, Acov2, sum2, jac2. ring. Qed.

(* ---------- only these members are read by the laws ---------- *)
Lemma same_refl {A} (x : outcome A) (eq : A -> A -> Prop) : (forall a, eq a a) -> same eq x x.
Proof. intro H. destruct x; cbn; auto. Qed.

(* two bases that differ by the sign of the third vector *)
Definition flips (g g' : nat -> vec) : Prop :=
  g 0%nat = g' 0%nat /\ g 1%nat = g' 1%nat /\ exists s, s * s = 1 /\ forall c, (c < 3)%nat -> g 2%nat c = s * g' 2%nat c.

Lemma flips_refl g : flips g g.
Proof. repeat split. exists 1. split; [ring|]. intros. ring. Qed.

Section Flip.
  Variables (epsm : R) (eig : mat -> vec * (nat -> vec)).
  Variables (g g' : nat -> vec) (F : flips g g').

  Lemma Bten_flip X : Bten X g = Bten X g'.
  Proof. destruct F as (A & B & _). extensionality a; extensionality b. unfold Bten, sum2. rewrite A, B. reflexivity. Qed.

  Lemma evalStretch_flip C vals vecs :
    fst (evalStretch epsm C g vals vecs) = fst (evalStretch epsm C g' vals vecs) /\
    (forall k, (k < 2)%nat -> snd (evalStretch epsm C g vals vecs) k = snd (evalStretch epsm C g' vals vecs) k) /\
    snd (evalStretch epsm C g vals vecs) 2%nat = g 2%nat /\ snd (evalStretch epsm C g' vals vecs) 2%nat = g' 2%nat.
  Proof.
    unfold evalStretch. rewrite Bten_flip. destruct (shortcut epsm (Bten C g')); cbn; repeat split; intros [|[|?]] H; (reflexivity || lia).
  Qed.

  Lemma dot_flip_l u s v : (forall c, (c < 3)%nat -> u c = s * v c) -> forall w, dot3 u w = s * dot3 v w.
  Proof. intros H w. unfold dot3, sum3. rewrite !H by lia. ring. Qed.

  Lemma pr_flip (v v' : nat -> vec) : (forall k, (k < 2)%nat -> v k = v' k) -> v 2%nat = g 2%nat -> v' 2%nat = g' 2%nat ->
    forall i j a, shell_pair i j -> (a < 3)%nat -> pr g v i a * pr g v j a = pr g' v' i a * pr g' v' j a.
  Proof.
    intros V W W' i j a SP Ha. destruct F as (A & B & s & S1 & S2).
    assert (L : forall i a, (i < 2)%nat -> (a < 2)%nat -> pr g v i a = pr g' v' i a).
    { intros i0 a0 Hi Ha0. unfold pr. rewrite V by assumption. destruct i0 as [|[|?]]; try lia; [rewrite A|rewrite B]; reflexivity. }
    assert (L2 : forall i, (i < 2)%nat -> pr g v i 2%nat = s * pr g' v' i 2%nat).
    { intros i0 Hi. unfold pr. rewrite W, W', (dot3_comm (g i0)), (dot_flip_l _ s _ S2), (dot3_comm _ (g i0)).
      destruct i0 as [|[|?]]; try lia; [rewrite A|rewrite B]; reflexivity. }
    assert (L3 : forall a, (a < 2)%nat -> pr g v 2%nat a = s * pr g' v' 2%nat a).
    { intros a0 Ha0. unfold pr. rewrite V by assumption. apply dot_flip_l, S2. }
    assert (L4 : pr g v 2%nat 2%nat = pr g' v' 2%nat 2%nat).
    { unfold pr. rewrite W, W', (dot_flip_l _ s _ S2), (dot3_comm (g' 2%nat)), (dot_flip_l _ s _ S2). rewrite <- Rmult_assoc, S1. ring. }
    destruct SP as [(Hi & Hj)|(-> & ->)].
    - destruct (Nat.eq_dec a 2) as [->|Na].
      + rewrite !L2 by assumption. replace (s * pr g' v' i 2%nat * (s * pr g' v' j 2%nat)) with ((s * s) * (pr g' v' i 2%nat * pr g' v' j 2%nat)) by ring.
        rewrite S1. ring.
      + rewrite !L by lia. reflexivity.
    - destruct (Nat.eq_dec a 2) as [->|Na].
      + rewrite !L4. reflexivity.
      + rewrite !L3 by lia. replace (s * pr g' v' 2%nat a * (s * pr g' v' 2%nat a)) with ((s * s) * (pr g' v' 2%nat a * pr g' v' 2%nat a)) by ring.
        rewrite S1. ring.
  Qed.

  Lemma pr_flip2 (v v' : nat -> vec) : (forall k, (k < 2)%nat -> v k = v' k) -> forall i a, (i < 2)%nat -> (a < 2)%nat -> pr g v i a = pr g' v' i a.
  Proof.
    intros V i a Hi Ha. destruct F as (A & B & _). unfold pr. rewrite V by assumption.
    destruct i as [|[|?]]; try lia; [rewrite A|rewrite B]; reflexivity.
  Qed.

  Lemma S_i_flip imp w p m i j : shell_pair i j -> S_i epsm eig imp w p m g i j = S_i epsm eig imp w p m g' i j.
  Proof.
    intro SP. destruct imp; [destruct w; reflexivity|destruct w; reflexivity|]; cbn [S_i]; rewrite Bten_flip; unfold stress_code_i; cbv zeta;
      destruct (evalStretch_flip (cmat m (1 / J0 m)) (fst (eig (Bten (cmat m (1 / J0 m)) g'))) (snd (eig (Bten (cmat m (1 / J0 m)) g')))) as (E1 & E2 & E3 & E4);
      rewrite E1; unfold S_spec_i, sum2; rewrite !(pr_flip _ _ E2 E3 E4 i j) by (assumption || lia); reflexivity.
  Qed.
  Lemma S_c_flip imp w p m c i j : shell_pair i j -> S_c epsm eig imp w p m g c i j = S_c epsm eig imp w p m g' c i j.
  Proof.
    intro SP. destruct imp; [destruct w; reflexivity|destruct w; reflexivity|]; cbn [S_c]; rewrite Bten_flip; unfold stress_code_c; cbv zeta;
      destruct (evalStretch_flip (cmat m c) (fst (eig (Bten (cmat m c) g'))) (snd (eig (Bten (cmat m c) g')))) as (E1 & E2 & E3 & E4);
      rewrite E1; unfold S_spec_c, sum3; rewrite !(pr_flip _ _ E2 E3 E4 i j) by (assumption || lia); reflexivity.
  Qed.
  Lemma project_flip Cn Cx Cs (q q' : nat -> nat -> R) i j k l : (forall i a, (i < 2)%nat -> (a < 2)%nat -> q i a = q' i a) ->
    (i < 2)%nat -> (j < 2)%nat -> (k < 2)%nat -> (l < 2)%nat -> project Cn Cx Cs q i j k l = project Cn Cx Cs q' i j k l.
  Proof. intros H Hi Hj Hk Hl. unfold project. rewrite !H by lia. reflexivity. Qed.
  Lemma C_i_flip imp w p m i j k l : (i < 2)%nat -> (j < 2)%nat -> (k < 2)%nat -> (l < 2)%nat ->
    C_i epsm eig imp w p m g i j k l = C_i epsm eig imp w p m g' i j k l.
  Proof.
    intros. destruct imp; [destruct w; reflexivity|destruct w; reflexivity|]; cbn [C_i]; rewrite Bten_flip; unfold tangent_code_i; cbv zeta;
      destruct (evalStretch_flip (cmat m (1 / J0 m)) (fst (eig (Bten (cmat m (1 / J0 m)) g'))) (snd (eig (Bten (cmat m (1 / J0 m)) g')))) as (E1 & E2 & E3 & E4);
      rewrite E1; unfold C_spec_i; cbv zeta; apply project_flip; try assumption; apply pr_flip2, E2.
  Qed.
  Lemma C_c_flip imp w p m c i j k l : (i < 2)%nat -> (j < 2)%nat -> (k < 2)%nat -> (l < 2)%nat ->
    C_c epsm eig imp w p m g c i j k l = C_c epsm eig imp w p m g' c i j k l.
  Proof.
    intros. destruct imp; [destruct w; reflexivity|destruct w; reflexivity|]; cbn [C_c]; rewrite Bten_flip; unfold tangent_code_c; cbv zeta;
      destruct (evalStretch_flip (cmat m c) (fst (eig (Bten (cmat m c) g'))) (snd (eig (Bten (cmat m c) g')))) as (E1 & E2 & E3 & E4);
      rewrite E1; unfold C_spec_c; cbv zeta; apply project_flip; try assumption; apply pr_flip2, E2.
  Qed.
  Lemma C3333_flip imp w p m c : C3333_c epsm eig imp w p m g c = C3333_c epsm eig imp w p m g' c.
  Proof.
    destruct imp; [destruct w; reflexivity|destruct w; reflexivity|]; cbn [C3333_c]; rewrite Bten_flip; cbv zeta;
      destruct (evalStretch_flip (cmat m c) (fst (eig (Bten (cmat m c) g'))) (snd (eig (Bten (cmat m c) g')))) as (E1 & _); rewrite E1; reflexivity.
  Qed.
End Flip.

(* configurations with the same 3x3 metrics and bases up to the sign of the normal give the same response *)
Definition alike (h h' : half) : Prop := hGcov h = hGcov h' /\ hGcon h = hGcon h' /\ flips (hgcon h) (hgcon h').

Section Response.
  Variables (close : mat -> mat -> bool) (eps epsm : R) (eig : mat -> vec * (nat -> vec)).

  Lemma getM_alike ho ho' hd hd' : alike ho ho' -> hGcov hd = hGcov hd' -> hGcon hd = hGcon hd' -> getM ho hd = getM ho' hd'.
  Proof. intros (A & B & _) C D. unfold getM. rewrite A, B, C, D. reflexivity. Qed.

  Lemma matrix_out_in C C' a b : (forall i j k l, (i < 2)%nat -> (j < 2)%nat -> (k < 2)%nat -> (l < 2)%nat -> C i j k l = C' i j k l) ->
    matrix_out C a b = matrix_out C' a b.
  Proof. intro H. unfold matrix_out. destruct a as [|[|[|?]]], b as [|[|[|?]]]; apply H; lia. Qed.
  Lemma stress_out_in cl S S' r : (forall i j, shell_pair i j -> S i j = S' i j) -> stress_out cl S r = stress_out cl S' r.
  Proof. intro H. unfold stress_out. destruct cl; [reflexivity|]. destruct r as [|[|?]]; apply H; left; lia. Qed.

  Lemma c33_alike imp w p ho ho' hd hd' : alike ho ho' -> hGcov hd = hGcov hd' -> hGcon hd = hGcon hd' ->
    c33_pt eps epsm eig imp w p ho hd = c33_pt eps epsm eig imp w p ho' hd'.
  Proof.
    intros A C D. unfold c33_pt. rewrite (getM_alike ho ho' hd hd' A C D). destruct A as (_ & _ & F).
    destruct (getM ho' hd') as [m| |]; cbn [obind]; [|reflexivity|reflexivity].
    assert (E1 : (fun c => S_c epsm eig imp w p m (hgcon ho) c 2%nat 2%nat) = (fun c => S_c epsm eig imp w p m (hgcon ho') c 2%nat 2%nat)).
    { extensionality c. apply S_c_flip; [exact F|right; split; reflexivity]. }
    assert (E2 : C3333_c epsm eig imp w p m (hgcon ho) = C3333_c epsm eig imp w p m (hgcon ho')).
    { extensionality c. apply C3333_flip, F. }
    rewrite E1, E2. reflexivity.
  Qed.

  Lemma stress_alike comp imp w p ho ho' hd hd' : alike ho ho' -> hGcov hd = hGcov hd' -> hGcon hd = hGcon hd' ->
    same vec3eq (stress_pt close eps epsm eig comp imp w p ho hd) (stress_pt close eps epsm eig comp imp w p ho' hd').
  Proof.
    intros A C D. destruct comp; cbn [stress_pt].
    - unfold stress_comp. rewrite (c33_alike imp w p ho ho' hd hd' A C D), (getM_alike ho ho' hd hd' A C D).
      destruct (c33_pt _ _ _ _ _ _ _ _) as [c| |]; cbn [obind same]; trivial.
      destruct (getM ho' hd') as [m| |]; cbn [obind same]; trivial. destruct A as (_ & B & F). rewrite B, D.
      intros r _. apply stress_out_in. intros. apply S_c_flip; assumption.
    - unfold stress_inc. rewrite (getM_alike ho ho' hd hd' A C D).
      destruct (getM ho' hd') as [m| |]; cbn [obind same]; trivial. destruct A as (_ & B & F). rewrite B, D.
      intros r _. apply stress_out_in. intros. apply S_i_flip; assumption.
  Qed.
  Lemma matrix_alike comp imp w p ho ho' hd hd' : alike ho ho' -> hGcov hd = hGcov hd' -> hGcon hd = hGcon hd' ->
    same mat3eq (matrix_pt eps epsm eig comp imp w p ho hd) (matrix_pt eps epsm eig comp imp w p ho' hd').
  Proof.
    intros A C D. destruct comp; cbn [matrix_pt].
    - unfold matrix_comp. rewrite (c33_alike imp w p ho ho' hd hd' A C D), (getM_alike ho ho' hd hd' A C D).
      destruct (c33_pt _ _ _ _ _ _ _ _) as [c| |]; cbn [obind same]; trivial.
      destruct (getM ho' hd') as [m| |]; cbn [obind same]; trivial. destruct A as (_ & B & F).
      intros a b _ _. apply matrix_out_in. intros. apply C_c_flip; assumption.
    - unfold matrix_inc. rewrite (getM_alike ho ho' hd hd' A C D).
      destruct (getM ho' hd') as [m| |]; cbn [obind same]; trivial. destruct A as (_ & B & F).
      intros a b _ _. apply matrix_out_in. intros. apply C_i_flip; assumption.
  Qed.
End Response.

Lemma flat_alike g d z : jac2 g <> 0 -> alike (half2 g z) (half3 (flat g d) z).
Proof.
  intro J. unfold alike, half2, half3. cbn. rewrite flat_Gcov, flat_Gcon. split; [reflexivity|]. split; [reflexivity|].
  split; [symmetry; apply flat_gcon; lia|]. split; [symmetry; apply flat_gcon; lia|].
  assert (D : det3 (Gcov2 g) <> 0). { rewrite det_Gcov2. apply Rmult_integral_contrapositive. split; exact J. }
  destruct (flat_normal2 g d J) as (P & N).
  assert (E : forall c, (c < 3)%nat -> gcon (flat g d) z 2%nat c = normal (flat g d) 2%nat * gcov2 g 2%nat c).
  { intros c Hc. unfold gcon. rewrite flat_Gcon, !(Gcon2_20 g) by lia.
    assert (E : Gcon2 g 2%nat 2%nat = 1). { unfold Gcon2, inv3. unfold det3, Gcov2 in *. field. intro X. apply D. lra. }
    rewrite E. unfold gcov, gcov2. destruct c as [|[|[|?]]]; try lia; [rewrite (flat_normal01 g d 0) by lia|rewrite (flat_normal01 g d 1) by lia|]; ring. }
  destruct (Rlt_le_dec 0 (jac2 g)) as [H|H].
  - exists 1. split; [ring|]. intros c Hc. rewrite (E c Hc), (gcon2_2 g D), (P H). ring.
  - exists (-1). split; [ring|]. intros c Hc. rewrite (E c Hc), (gcon2_2 g D), N by lra. ring.
Qed.

(* ---------- a prescribed deformation tensor ---------- *)
Definition plane_metric (G : mat) : Prop := shell_G G /\ (forall i j, (2 < i)%nat \/ (2 < j)%nat -> G i j = 0).

Lemma G_of_components G : plane_metric G -> G_of (components G) = G.
Proof.
  intros ((( S & A & B & C & D) & E) & Z). extensionality i; extensionality j. unfold G_of, components.
  destruct i as [|[|[|i]]], j as [|[|[|j]]]; try reflexivity; try exact S; try (symmetry; assumption); symmetry; apply Z; lia.
Qed.
Lemma det3_shellG G : shell_G G -> det3 G = det2 G.
Proof. intros ((S & A & B & C & D) & E). unfold det3, det2. rewrite A, B, C, D, E. ring. Qed.
Lemma Gi_of_components G : shell_G G -> det2 G <> 0 -> Gi_of (components G) = inv3 G.
Proof.
  intros SG N. assert (D2 : det2 (G_of (components G)) = det2 G).
  { destruct SG as ((S & _) & _). unfold det2, G_of, components. rewrite <- S. ring. }
  pose proof (det3_shellG G SG) as D3. destruct SG as ((S & A & B & C & D) & E).
  extensionality i; extensionality j. unfold Gi_of, inv3, inv2.
  destruct i as [|[|i]], j as [|[|j]]; rewrite ?D2, D3; unfold G_of, components; rewrite ?A, ?B, ?C, ?D, ?E, <- ?S;
    try (field; exact N); try (unfold Rdiv; ring).
  unfold det2. rewrite <- S. field. unfold det2 in N. rewrite <- S in N. exact N.
Qed.

Lemma Gcov_plane g z : plane_metric (Gcov g z).
Proof.
  split.
  - split; [|reflexivity]. repeat split; try reflexivity. unfold Gcov. unfold Acov. rewrite (dot3_comm (tang g 1%nat)), (dot3_comm (ncov g 1%nat)).
    rewrite (Bcov_sym g 1 0) by lia. reflexivity.
  - intros i j H. unfold Gcov. destruct i as [|[|[|i]]], j as [|[|[|j]]]; try reflexivity; lia.
Qed.
Lemma Gcov2_plane g : plane_metric (Gcov2 g).
Proof.
  split.
  - split; [|reflexivity]. repeat split; try reflexivity. unfold Gcov2, Acov2, sum2. ring.
  - intros i j H. unfold Gcov2. destruct i as [|[|[|i]]], j as [|[|[|j]]]; try reflexivity; lia.
Qed.

Section PrescribedC.
  Variables (close : mat -> mat -> bool) (eps epsm : R) (eig : mat -> vec * (nat -> vec)).
  Lemma alike_refl h : alike h h.
  Proof. split; [reflexivity|]. split; [reflexivity|]. apply flips_refl. Qed.
  Lemma prescribed comp imp w q z : let hd := pd q (z * pT q) in plane_metric (hGcov hd) -> det2 (hGcov hd) <> 0 -> hGcon hd = inv3 (hGcov hd) ->
    same vec3eq (eval_stress_C close eps epsm eig comp imp w q (components (hGcov hd)) z) (eval_stress close eps epsm eig comp imp w q z) /\
    same mat3eq (eval_matrix_C eps epsm eig comp imp w q (components (hGcov hd)) z) (eval_matrix eps epsm eig comp imp w q z).
  Proof.
    cbv zeta. intros P N I. set (hd := pd q (z * pT q)) in *.
    assert (A : hGcov (halfC (components (hGcov hd))) = hGcov hd) by (apply G_of_components, P).
    assert (B : hGcon (halfC (components (hGcov hd))) = hGcon hd) by (rewrite I; apply Gi_of_components; [apply P|exact N]).
    split; [apply stress_alike|apply matrix_alike]; (apply alike_refl || assumption).
  Qed.
End PrescribedC.

(* ---------- derivative of the tangent ---------- *)
Lemma dC_total_sym p m a b d : Gdefi m 0%nat 1%nat = Gdefi m 1%nat 0%nat -> (a < 3)%nat -> (b < 3)%nat -> (d < 3)%nat ->
  dmatrix_out p m (a + 3 * b + 9 * d) = dmatrix_out p m (3 * (3 * b + a) + d).
Proof.
  intros S Ha Hb Hd. destruct a as [|[|[|?]]]; try lia; destruct b as [|[|[|?]]]; try lia; destruct d as [|[|[|?]]]; try lia;
    unfold dmatrix_out, dC_dC, dgcon, X4; cbn -[Rmult Rplus Rdiv]; rewrite <- ?S; unfold Rdiv; generalize (/ J0 m); intro; field.
Qed.

Lemma getM_adm ho hd : adm (hGcov ho) (hGcov hd) -> hGcon ho = inv3 (hGcov ho) -> hGcon hd = inv3 (hGcov hd) ->
  getM ho hd = Ok (metric_of (hGcov ho) (hGcov hd)).
Proof.
  intros (So & Sd & Po & Pd) Io Id. unfold getM, ratio, metric_of. rewrite Io, Id.
  rewrite (det3_shellG _ So), (det3_shellG _ Sd).
  destruct (Req_EM_T (det2 (hGcov ho)) 0) as [Z|Z]; [lra|].
  destruct (Rle_dec 0 _) as [L|L]; [reflexivity|]. exfalso. apply L. apply Rlt_le, Rdiv_lt_0_compat; assumption.
Qed.

Lemma dirC_in_plane r : in_plane (dirC r).
Proof. unfold in_plane, shell_shape, dirC. destruct r as [|[|[|r]]]; repeat split; reflexivity. Qed.
Lemma mscal_in_plane c H : in_plane H -> in_plane (mscal c H).
Proof. intros ((A & B & C & D & E) & F). unfold in_plane, shell_shape, mscal. rewrite A, B, C, D, E, F. repeat split; ring. Qed.

Lemma halve_shift C r t : (r < 3)%nat -> halve (shift C r t) = shift (halve C) r (match r with 2%nat => t / 2 | _ => t end).
Proof.
  intro H. extensionality i. unfold halve, shift. destruct r as [|[|[|?]]]; try lia; destruct i as [|[|[|?]]]; cbn; field.
Qed.

Lemma div3 a b : (a < 3)%nat -> ((a + 3 * b) / 3 = b /\ (a + 3 * b) mod 3 = a)%nat.
Proof. intro H. split; [symmetry; apply (Nat.div_unique _ 3 b a); lia|symmetry; apply (Nat.mod_unique _ 3 b a); lia]. Qed.
Lemma div3c a b : (a < 3)%nat -> (b < 3)%nat -> (Nat.div (a + 3 * b) 3 = b /\ Nat.modulo (a + 3 * b) 3 = a)%nat.
Proof. intros Ha Hb. apply div3. exact Ha. Qed.

Lemma halve_components hd : halve (Cvoight hd) = components (half_shear (hGcov hd)).
Proof. extensionality i. unfold halve, Cvoight, components, half_shear. destruct i as [|[|[|?]]]; unfold Rdiv; ring. Qed.

Lemma scaled_derive (f : R -> R) d : is_derive f 0 d -> is_derive (fun t => f (t / 2)) 0 (d / 2).
Proof.
  intro H. evar_last.
  - apply (is_derive_comp f (fun t => t / 2) 0 d (/ 2)).
    + replace (0 / 2) with 0 by field. exact H.
    + auto_derive; [exact I|field].
  - unfold scal; cbn; unfold mult; cbn. field.
Qed.

Section Differences.
  Variables (close : mat -> mat -> bool) (eps epsm : R) (eig : mat -> vec * (nat -> vec)).
  Lemma differences D comp imp w q z m (M : vec -> mat) :
    let hd := pd q (z * pT q) in let x := components (half_shear (hGcov hd)) in
    exact D -> closed_form comp w = false -> getM (po q (z * pT q)) hd = Ok m ->
    (exists e, 0 < e /\ forall y, near e x y -> eval_matrix_C eps epsm eig comp imp w q y z = Ok (M y)) ->
    exists v, dC_pt D close eps epsm eig comp imp w q z = Ok v /\
      forall r a b d, (r < 3)%nat -> (a < 3)%nat -> (b < 3)%nat -> is_derive (fun t => M (shift x r t) a b) 0 d ->
        v (r + 3 * (a + 3 * b))%nat = match r with 2%nat => d / 2 | _ => d end.
  Proof.
    cbv zeta. intros ED CF EM (e & Pe & EE). set (hd := pd q (z * pT q)) in *. set (x := components (half_shear (hGcov hd))) in *.
    unfold dC_pt. fold hd. rewrite EM. cbn [obind]. rewrite CF.
    destruct (ED (Cfun eps epsm eig comp imp w q z) (Cvoight hd) (fun y c => M (halve y) (Nat.modulo c 3) (Nat.div c 3))) as (v & V1 & V2).
    { exists e. split; [exact Pe|]. intros y NY. unfold Cfun. rewrite EE; [reflexivity|].
      intros i Hi. specialize (NY i Hi). unfold x. rewrite <- halve_components.
      assert (K : halve y i - halve (Cvoight hd) i = match i with 0%nat | 1%nat => 1 | _ => / 2 end * (y i - Cvoight hd i)).
      { unfold halve. destruct i as [|[|?]]; ring. }
      rewrite K, Rabs_mult. pose proof (Rabs_pos (y i - Cvoight hd i)).
      destruct i as [|[|?]]; [rewrite Rabs_R1; lra|rewrite Rabs_R1; lra|]. rewrite (Rabs_pos_eq (/ 2)) by lra. lra. }
    exists v. split; [exact V1|]. intros r a b d Hr Ha Hb HD.
    apply V2; [exact Hr|lia|].
    assert (E : forall t, M (halve (shift (Cvoight hd) r t)) (Nat.modulo (a + 3 * b) 3) (Nat.div (a + 3 * b) 3)
                        = (fun t => M (shift x r t) a b) (match r with 2%nat => t / 2 | _ => t end)).
    { intro t. rewrite halve_shift by exact Hr. destruct (div3c a b Ha Hb) as (-> & ->). unfold x. rewrite halve_components. reflexivity. }
    apply (is_derive_ext (fun t => (fun t => M (shift x r t) a b) (match r with 2%nat => t / 2 | _ => t end))).
    { intro t. symmetry. apply E. }
    destruct r as [|[|[|?]]]; try lia; try exact HD. apply (scaled_derive (fun t => M (shift x 2 t) a b)), HD.
  Qed.
End Differences.

(* the contract is met by the operator that returns the derivatives of Coquelicot *)
Definition derive_op : deriv_op := fun f x =>
  Ok (fun i => Derive (fun t => match f (shift x (Nat.modulo i 3) t) with Ok v => v (Nat.div i 3) | _ => 0 end) 0).
Lemma derive_op_exact : exact derive_op.
Proof.
  intros f x F (e & Pe & EE). eexists. split; [reflexivity|]. intros r c l Hr Hc HD. cbv beta.
  destruct (div3 r c Hr) as (-> & ->). apply is_derive_unique. eapply is_derive_ext_loc; [|exact HD].
  exists (mkposreal e Pe). intros t Ht. cbn in Ht. unfold ball, AbsRing_ball, abs, minus, plus, opp in Ht; cbn in Ht.
  rewrite EE; [reflexivity|]. intros i Hi. unfold shift. destruct (Nat.eqb i r).
  - replace (x i + t - x i) with (t + - 0) by ring. exact Ht.
  - replace (x i - x i) with 0 by ring. rewrite Rabs_R0. exact Pe.
Qed.

(* ---------- batches ---------- *)
Lemma obind_ok {A B} (x : A) (f : A -> outcome B) : obind (Ok x) f = f x.
Proof. reflexivity. Qed.

Section BatchProofs.
  Variables (D : pdata -> R -> outcome (nat -> R)) (v : pdata -> R -> nat -> R) (P : nat -> pdata) (z : nat -> nat -> R).
  Hypothesis DV : forall q t, D q t = Ok (v q t).

  Lemma nth_ok st k q : nth_error st k = Some q -> nth_pt st k = Ok q.
  Proof. intro H. unfold nth_pt. rewrite H. reflexivity. Qed.

  (* as long as column k of the stored data stays what it is, the loops are those of BatchModel *)
  Lemma dcol_inner fd n m k q : forall js st s, nth_error st k = Some q -> (fd = true -> k = 0%nat /\ P k = q) ->
    exists st', dcol fd D P z n m k js st s = obind (inner n (n * m) k (fun k j => v q (z j k)) js s) (fun s' => Ok (st', s')) /\
      nth_error st' k = Some q /\ (fd = false -> st' = st).
  Proof.
    induction js as [|j js IH]; intros st s E F; cbn [dcol inner].
    - exists st. repeat split; assumption.
    - rewrite (nth_ok st k q E), obind_ok, DV, obind_ok.
      destruct (write (n * m) (colIdx n k j) (v q (z j k)) s) as [s1| |] eqn:W; cbn [obind].
      + destruct (IH (if fd then [P k] else st) s1) as (st' & A & B & C); [|exact F|].
        { destruct fd; [|exact E]. destruct (F eq_refl) as (-> & ->). reflexivity. }
        exists st'. split; [exact A|]. split; [exact B|]. intros ->. apply C. reflexivity.
      + exists st. repeat split; assumption.
      + exists st. repeat split; assumption.
  Qed.
  (* dcol may replace the data; without differences it does not *)
  Lemma dcol_plain n m k q js st s : nth_error st k = Some q ->
    dcol false D P z n m k js st s = obind (inner n (n * m) k (fun k j => v q (z j k)) js s) (fun s' => Ok (st, s')).
  Proof.
    intro E. destruct (dcol_inner false n m k q js st s E) as (st' & A & _ & B); [discriminate|]. rewrite (B eq_refl) in A. exact A.
  Qed.
  Lemma inner_ext {A} n alloc k (F F' : nat -> nat -> A) : (forall j, F k j = F' k j) -> forall js s, inner n alloc k F js s = inner n alloc k F' js s.
  Proof.
    intros H. induction js as [|j js IH]; intro s; cbn [inner]; [reflexivity|]. rewrite H.
    destruct (write _ _ _ _); [apply IH|reflexivity|reflexivity].
  Qed.

  Lemma drow_plain n m : forall ks st s, (forall k, In k ks -> nth_error st k = Some (P k)) ->
    drow false D P z n m ks st s = outer n m (n * m) (fun k j => v (P k) (z j k)) ks s.
  Proof.
    induction ks as [|k ks IH]; intros st s E; cbn [drow outer]; [reflexivity|].
    rewrite (nth_ok st k (P k)) by (apply E; left; reflexivity). rewrite obind_ok.
    rewrite (dcol_plain n m k (P k)) by (apply E; left; reflexivity).
    rewrite (inner_ext n (n * m) k (fun k0 j => v (P k) (z j k0)) (fun k0 j => v (P k0) (z j k0))) by reflexivity.
    destruct (inner n (n * m) k _ _ s) as [s1| |]; cbn [obind fst snd]; try reflexivity.
    apply IH. intros. apply E. right. assumption.
  Qed.
  Lemma nth_map_seq n k : (k < n)%nat -> nth_error (map P (seq 0 n)) k = Some (P k).
  Proof.
    intro H. rewrite (map_nth_error P k (seq 0 n) (d := k)); [reflexivity|].
    rewrite (nth_error_nth' _ 0%nat) by (rewrite seq_length; exact H). rewrite seq_nth by exact H. reflexivity.
  Qed.
  Lemma batch_plain n m : dmatrix_batch false D P z n m = eval3D_full n m (fun k j => v (P k) (z j k)).
  Proof. apply drow_plain. intros k H. apply in_seq in H. apply nth_map_seq. lia. Qed.

  Lemma batch_single fd m : dmatrix_batch fd D P z 1 m = eval3D_full 1 m (fun k j => v (P k) (z j k)).
  Proof.
    unfold dmatrix_batch, eval3D_full, batch. cbn [seq map drow outer].
    rewrite (nth_ok [P 0%nat] 0 (P 0%nat)) by reflexivity. rewrite obind_ok.
    destruct (dcol_inner fd 1 m 0 (P 0%nat) (seq 0 m) [P 0%nat] empty) as (st' & A & _ & _); [reflexivity|split; reflexivity|].
    rewrite A, (inner_ext 1 (1 * m) 0 (fun k0 j => v (P 0%nat) (z j k0)) (fun k0 j => v (P k0) (z j k0))) by reflexivity.
    clear A. destruct (inner 1 (1 * m) 0 (fun k j => v (P k) (z j k)) (seq 0 m) empty); reflexivity.
  Qed.

  Lemma dcol_fd_last n m k : forall js st s r, dcol true D P z n m k js st s = Ok r -> js <> [] -> fst r = [P k].
  Proof.
    induction js as [|j js IH]; intros st s r E N; [congruence|]. cbn [dcol] in E.
    destruct (nth_pt st k) as [q| |]; cbn [obind] in E; try discriminate. rewrite DV in E. cbn [obind] in E.
    destruct (write _ _ _ s) as [s1| |]; cbn [obind] in E; try discriminate.
    destruct js as [|j' js]; [cbn [dcol] in E; injection E as <-; reflexivity|]. apply (IH _ _ _ E). discriminate.
  Qed.
  Lemma batch_ub n m : (2 <= n)%nat -> (1 <= m)%nat -> dmatrix_batch true D P z n m = UB.
  Proof.
    intros Hn Hm. unfold dmatrix_batch. destruct n as [|[|n]]; try lia. set (N := S (S n)).
    change (seq 0 N) with (0 :: 1 :: seq 2 n)%nat. cbn [map drow]. rewrite (nth_ok _ 0 (P 0%nat)) by reflexivity. rewrite obind_ok.
    destruct (dcol_inner true N m 0 (P 0%nat) (seq 0 m) (P 0%nat :: P 1%nat :: map P (seq 2 n)) empty) as (st' & A & _ & _);
      [reflexivity|split; reflexivity|].
    rewrite A. destruct (inner_ok N (N * m) 0 (fun k j => v (P 0%nat) (z j k)) (seq 0 m) empty) as (s1 & E1 & _).
    { intros j Hj. apply in_seq in Hj. unfold colIdx, N. nia. } { unfold N. lia. }
    rewrite E1 in *. cbn [obind] in *.
    assert (L : fst (st', s1) = [P 0%nat]). { eapply dcol_fd_last; [exact A|]. destruct m; [lia|discriminate]. }
    cbn [fst] in L. cbn [fst snd drow]. rewrite L. reflexivity.
  Qed.
End BatchProofs.

(* ---------- linear material ---------- *)
Lemma Svoigt_ext E nu A S S' r : (forall i j, (i < 2)%nat -> (j < 2)%nat -> S i j = S' i j) -> Svoigt E nu A S r = Svoigt E nu A S' r.
Proof. intro H. unfold Svoigt, Sij. rewrite !H by lia. reflexivity. Qed.

Lemma lin_C_generic E nu q z : let ho := po q (z * pT q) in let hd := pd q (z * pT q) in
  plane_metric (hGcov hd) -> (exists m, getM ho hd = Ok m) ->
  same vec3eq (lin_vector_C false E nu KGeneric q (components (hGcov hd)) z) (lin_vector E nu KGeneric q z).
Proof.
  cbv zeta. intros P (m & EM). unfold lin_vector_C, lin_vector. rewrite EM. cbn [andb obind same]. intros r _.
  apply Svoigt_ext. intros i j _ _. unfold E_members, halfC_lin, halfC. cbn. rewrite (G_of_components _ P). reflexivity.
Qed.
Lemma lin_C_membrane debug E nu q : let ho := po q (0 * pT q) in let hd := pd q (0 * pT q) in
  plane_metric (hGcov hd) -> (forall i j, (i < 2)%nat -> (j < 2)%nat -> hAcov hd i j = hGcov hd i j) -> (exists m, getM ho hd = Ok m) ->
  same vec3eq (lin_vector_C debug E nu KMembrane q (components (hGcov hd)) 0) (lin_vector E nu KMembrane q 0).
Proof.
  cbv zeta. intros P A (m & EM). unfold lin_vector_C, lin_vector. rewrite EM.
  destruct (Req_EM_T 0 0) as [_|N]; [|congruence]. rewrite andb_false_r. cbn [obind same]. intros r _.
  apply Svoigt_ext. intros i j Hi Hj. unfold E_members, halfC_lin, halfC. cbn. rewrite (G_of_components _ P), A by assumption. reflexivity.
Qed.

Lemma getM_some ho hd : 0 < det3 (hGcov ho) -> 0 < det3 (hGcov hd) -> exists m, getM ho hd = Ok m.
Proof.
  intros A B. unfold getM, ratio. destruct (Req_EM_T _ 0) as [Z|Z]; [lra|].
  destruct (Rle_dec 0 _) as [L|L]; [eexists; reflexivity|]. exfalso. apply L. apply Rlt_le, Rdiv_lt_0_compat; assumption.
Qed.
