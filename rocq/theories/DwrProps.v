From Coq Require Import Reals Lra Lia List Arith Psatz FunctionalExtensionality.
From Coquelicot Require Import Coquelicot.
From Verif Require Import Tensor LinearSpec PrincipalModel PrincipalSpec KinModel KinSpec KinAsm KinProofs KinStiff KinMore KinProps DwrModel DwrSpec DwrProofs.
Import ListNotations.
Open Scope R_scope.

(* ------------------------------------------------------------------ C61 *)
(* the strain quantities are the Kirchhoff-Love strains *)
Theorem C61_strain_quantities : forall s l ori def a, (a < 3)%nat ->
  goal_q s l ori def GMembraneStrain a = mem_strain ori def a /\
  (regular ori -> regular def -> goal_q s l ori def GFlexuralStrain a = bend_strain ori def a).
Proof. intros. split. apply Em_mem; assumption. intros. apply Ef_bend; assumption. Qed.
Print Assumptions C61_strain_quantities.

(* displacement, membrane strain and flexural strain: domain, boundary and point goals *)
Theorem C61_strain_dual : forall s g comp n pts (path : R -> gpoint -> jet) def prim y,
  g = GDisplacement \/ g = GMembraneStrain \/ g = GFlexuralStrain -> (comp < 3)%nat \/ comp = 9%nat ->
  (s = Boundary -> g = GFlexuralStrain -> comp <> 9%nat) ->
  (forall p, In p pts -> regular (def p) /\ leaves n y p (fun t => path t p) (def p)) ->
  (g = GDisplacement -> comp = 9%nat -> forall p a, In p pts -> (a < 3)%nat -> j0 (prim p) a = j0 (def p) a - j0 (gori p) a) ->
  exists Jf b, (forall t, computeGoal s g comp pts (path t) = Ok (Jf t)) /\ assembleDual s g comp pts def prim = Ok b /\ gradient_along n Jf b y.
Proof. exact strain_goals. Qed.
Print Assumptions C61_strain_dual.

(* membrane / flexural stress, membrane force and flexural moment of a material whose tangents are the derivatives of its stresses *)
Theorem C61_stress_dual : forall s g comp n pts (path : R -> gpoint -> jet) def prim y,
  (comp < 3)%nat \/ comp = 9%nat -> (s <> Interior -> g = GMembraneForce -> comp = 9%nat) ->
  (forall p, In p pts -> regular (def p) /\ leaves n y p (fun t => path t p) (def p) /\ stress_contract g (glaw p)) -> pts <> [] ->
  exists Jf b, (forall t, computeGoal s g comp pts (path t) = Ok (Jf t)) /\ assembleDual s g comp pts def prim = Ok b /\ gradient_along n Jf b y.
Proof. exact stress_goals. Qed.
Print Assumptions C61_stress_dual.

(* principal stretches, strains and stresses: the rotation of the principal directions does not contribute *)
Theorem C61_principal_dual : forall s g comp n pts (path : R -> gpoint -> jet) def prim y,
  (comp < 2)%nat \/ comp = 9%nat -> g = GStretch \/ g = GPStrain \/ g = GPStress ->
  (s = Point -> g <> GStretch /\ (g = GPStress -> comp <> 9%nat)) ->
  (forall p, In p pts -> regular (def p) /\ leaves n y p (fun t => path t p) (def p) /\ principal_contract g p (fun t => path t p) (def p)) ->
  exists Jf b, (forall t, computeGoal s g comp pts (path t) = Ok (Jf t)) /\ assembleDual s g comp pts def prim = Ok b /\ gradient_along n Jf b y.
Proof. exact principal_goals. Qed.
Print Assumptions C61_principal_dual.

(* ------------------------------------------------------------------ witnesses *)
(* three basis functions with a unit first derivative, a unit second derivative and a unit mixed derivative at the point *)
Definition tbas (i : nat) : sjet :=
  match i with 0%nat => mksjet 0 1 0 0 0 0 | 1%nat => mksjet 0 0 1 0 0 0 | _ => mksjet 0 0 0 0 0 1 end.
Definition tdir (a b c : vec) : coefs := fun i => match i with 0%nat => a | 1%nat => b | _ => c end.
Definition pj (a b c : vec) : jet := mkjet vzero a b vzero vzero c.
Definition I3 (s : R) : mat := fun i j => if Nat.eqb i j then s else 0.
(* a linear law: N = 2 Em + Ef, M = Em + 3 Ef, S0 = 2 Em, S1 = 3 Ef *)
Definition tlaw (fr : jet -> nat -> vec) (ori : jet) : law :=
  mklaw (fun e f => vadd (vscal 2 e) f) (fun e f => vadd e (vscal 3 f)) (fun e _ => vscal 2 e) (fun _ f => vscal 3 f)
        (fun _ _ => I3 2) (fun _ _ => I3 1) (fun _ _ => I3 1) (fun _ _ => I3 3) (fun _ _ => I3 2) (fun _ _ => I3 3)
        (fun c => transformation (jcol ori) (fr c)) (fun c => transformation (jcol ori) (fr c))
        (fun c r => dot3 (fr c r) (mvec3 (Bten (smat (vscal 2 (Em ori c))) (jcol ori)) (fr c r))).
Definition cfr : nat -> vec := fun r => match r with 0%nat => e1 | _ => e2 end.
Definition tpt (w : R) (ori : jet) (fr : jet -> nat -> vec) : gpoint := mkg w tbas ori (tlaw fr ori).

Ltac tj := cbv [tbas tdir pj tpt gw gbas gori glaw fieldjet jadd jscal bvar jzero vecFun vadd vscal vsub vzero vv e1 e2 e3 j0 j1 j2 j11 j22 j12 s0 s1 s2 s11 s22 s12 jsec jcol Nat.eqb].
Lemma is_derive_scal_l_ : forall k t, is_derive (fun t : R => t * k) t k.
Proof. intros. auto_derive; auto. ring. Qed.
Lemma tleaves : forall w ori fr (a b c : R -> vec) da db dc, is_dvec a 0 da -> is_dvec b 0 db -> is_dvec c 0 dc ->
  leaves 3 (tdir da db dc) (tpt w ori fr) (fun t => pj (a t) (b t) (c t)) (pj (a 0) (b 0) (c 0)).
Proof.
  intros w ori fr a b c da db dc A B C. unfold leaves. split. reflexivity.
  assert (Z : is_dvec (fun _ => vzero) 0 vzero) by (intros i Hi; exact (d_const 0 0)).
  refine (conj _ (conj _ (conj _ _))).
  - intros i Hi. evar_last. apply (Z i Hi). idx3 i Hi; tj; ring.
  - intros i Hi. evar_last. apply (A i Hi). idx3 i Hi; tj; ring.
  - intros i Hi. evar_last. apply (B i Hi). idx3 i Hi; tj; ring.
  - intros k i Hi. destruct k as [|[|k]].
    + evar_last. apply (Z i Hi). idx3 i Hi; tj; ring.
    + evar_last. apply (Z i Hi). idx3 i Hi; tj; ring.
    + evar_last. apply (C i Hi). idx3 i Hi; tj; ring.
Qed.
Lemma line_d : forall (a b : vec), is_dvec (fun t => vadd a (vscal t b)) 0 b.
Proof. intros a b i Hi. unfold vadd, vscal. auto_derive; auto. ring. Qed.

(* ------------------------------------------------------------------ C61: examples *)
Definition ori0 : jet := pj e1 e2 vzero.
(* a stretched, sheared and twisted configuration leaving in a direction that changes every strain component *)
Definition pathA (t : R) : jet := pj (vadd (vv 2 0 0) (vscal t (vv 1 1 0))) (vadd (vv 0 1 0) (vscal t (vv 1 0 1))) (vadd e3 (vscal t e3)).
Definition dirA : coefs := tdir (vv 1 1 0) (vv 1 0 1) e3.
Definition ptA : gpoint := tpt 2 ori0 (fun _ => cfr).
Lemma pathA_ok : regular (pathA 0) /\ leaves 3 dirA ptA pathA (pathA 0).
Proof. split. unfold regular, pathA. tj. cbv [dot3 sum3 cross3]. lra. apply tleaves; apply line_d. Qed.
Example C61_strain_dual_ex : forall s g comp, g = GMembraneStrain \/ g = GFlexuralStrain -> (comp < 3)%nat ->
  exists Jf b, (forall t, computeGoal s g comp [ptA] (fun _ => pathA t) = Ok (Jf t)) /\
    assembleDual s g comp [ptA] (fun _ => pathA 0) (fun _ => jzero) = Ok b /\ gradient_along 3 Jf b dirA.
Proof.
  intros s g comp Hg Hc. apply (C61_strain_dual s g comp 3 [ptA] (fun t _ => pathA t) (fun _ => pathA 0)).
  right; exact Hg. left; exact Hc. intros; lia. intros p [<-|[]]. exact pathA_ok. intros; destruct Hg; congruence.
Qed.
(* and the derivative is not zero: component 12 of the membrane strain *)
Example C61_strain_dual_nontrivial : exists b, assembleDual Interior GMembraneStrain 2 [ptA] (fun _ => pathA 0) (fun _ => jzero) = Ok b /\
  rsum 3 (fun i => sum3 (fun d => b i d * dirA i d)) = 6.
Proof. eexists. split. reflexivity. cbv [rsum psum sum3 pathA dirA ptA dual_dens dual_q Em_der]. tj. cbv [dot3 sum3]. cbn. lra. Qed.
Lemma I3_tan : forall k1 k2 (N : vec -> vec -> vec), (forall e f, N e f = vadd (vscal k1 e) (vscal k2 f)) ->
  has_tangents N (fun _ _ => I3 k1) (fun _ _ => I3 k2).
Proof.
  intros k1 k2 N H e f de df He Hf a Ha. apply (is_derive_ext (fun t => k1 * e t a + k2 * f t a)). intro t. rewrite H. reflexivity.
  evar_last. apply (d_plus (fun t => k1 * e t a) (fun t => k2 * f t a)). apply d_cmul. apply He; assumption. apply d_cmul. apply Hf; assumption.
  idx3 a Ha; unfold I3, sum3; cbn [Nat.eqb]; ring.
Qed.
Lemma I3_sym : forall k, symm3 (I3 k).
Proof. intros k a b Ha Hb. idx3 a Ha; idx3 b Hb; reflexivity. Qed.
Lemma I3_0 : (fun _ _ : vec => mzero) = (fun _ _ => I3 0).
Proof. extensionality e; extensionality f; extensionality a; extensionality b. unfold mzero, I3. destruct (Nat.eqb a b); reflexivity. Qed.
Lemma tlaw_contract : forall fr ori g, g = GMembraneStress \/ g = GMembraneForce \/ g = GFlexuralStress \/ g = GFlexuralMoment -> stress_contract g (tlaw fr ori).
Proof.
  intros fr ori g [->|[->|[->| ->]]]; cbn [stress_contract tlaw lS0 lA0 lN lA lB lS1 lD0 lM lC lD].
  - split. rewrite I3_0. apply I3_tan. intros. extensionality a. unfold vadd, vscal. ring. intros; apply I3_sym.
  - exists (fun _ _ => I3 1). split. apply I3_tan. intros. extensionality a. unfold vadd, vscal. ring. split. intros; apply I3_sym.
    intros e f a b Ha Hb. apply I3_sym; assumption.
  - split. rewrite I3_0. apply I3_tan. intros. extensionality a. unfold vadd, vscal. ring. intros; apply I3_sym.
  - exists (fun _ _ => I3 1). split. apply I3_tan. intros. extensionality a. unfold vadd, vscal. ring. split. intros; apply I3_sym.
    intros e f a b Ha Hb. apply I3_sym; assumption.
Qed.
Example C61_stress_dual_ex : forall s g, g = GMembraneStress \/ g = GMembraneForce \/ g = GFlexuralStress \/ g = GFlexuralMoment ->
  exists Jf b, (forall t, computeGoal s g 9 [ptA] (fun _ => pathA t) = Ok (Jf t)) /\
    assembleDual s g 9 [ptA] (fun _ => pathA 0) (fun _ => jzero) = Ok b /\ gradient_along 3 Jf b dirA.
Proof.
  intros s g Hg. apply (C61_stress_dual s g 9 3 [ptA] (fun t _ => pathA t) (fun _ => pathA 0)); auto.
  - intros p [<-|[]]. destruct pathA_ok as (P & L). refine (conj P (conj L _)). apply tlaw_contract; assumption.
  - discriminate.
Qed.

(* rotating principal directions: fr (tangents) = ((c,s),(-s,c)) for the tangents (2c,-s), (2s,c) *)
Definition rfr (c : jet) : nat -> vec := fun r => match r with 0%nat => vv (j2 c 1%nat) (j2 c 0%nat / 2) 0 | _ => vv (- (j2 c 0%nat / 2)) (j2 c 1%nat) 0 end.
Definition cc (t : R) := (3 * cos t - 4 * sin t) / 5.
Definition ss (t : R) := (4 * cos t + 3 * sin t) / 5.
Lemma cs1 : forall t, cc t * cc t + ss t * ss t = 1.
Proof. intro t. unfold cc, ss. pose proof (sin2_cos2 t) as H. unfold Rsqr in H. nra. Qed.
Lemma cc_d : forall t, is_derive cc t (- ss t). Proof. intro t. unfold cc, ss. auto_derive; auto. field. Qed.
Lemma ss_d : forall t, is_derive ss t (cc t). Proof. intro t. unfold cc, ss. auto_derive; auto. field. Qed.
Lemma cc0 : cc 0 = 3 / 5. Proof. unfold cc. rewrite cos_0, sin_0. field. Qed.
Lemma ss0 : ss 0 = 4 / 5. Proof. unfold ss. rewrite cos_0, sin_0. field. Qed.
(* k: length of the first undeformed tangent *)
Definition pathR (k t : R) : jet := pj (vv (k * (2 * cc t)) (k * - ss t) 0) (vv (2 * ss t) (cc t) 0) vzero.
Definition oriR (k : R) : jet := pj (vv k 0 0) e2 vzero.
Definition dirR (k : R) : coefs := tdir (vv (k * (2 * - ss 0)) (k * - cc 0) 0) (vv (2 * cc 0) (- ss 0) 0) vzero.
Definition ptR (k : R) : gpoint := tpt 1 (oriR k) rfr.
Lemma vv_d : forall f g h t a b c, is_derive f t a -> is_derive g t b -> is_derive h t c -> is_dvec (fun s => vv (f s) (g s) (h s)) t (vv a b c).
Proof. intros f g h t a b c A B C i Hi. idx3 i Hi; assumption. Qed.
Lemma pathR_ok : forall k, 0 < k -> regular (pathR k 0) /\ leaves 3 (dirR k) (ptR k) (pathR k) (pathR k 0).
Proof.
  intros k Hk. split.
  - unfold regular, pathR. tj. rewrite cc0, ss0. cbv [dot3 sum3 cross3]. nra.
  - apply tleaves.
    + apply vv_d. apply d_cmul. apply d_cmul. apply cc_d. apply d_cmul. apply (d_opp ss). apply ss_d. exact (d_const 0 0).
    + apply vv_d. apply d_cmul. apply ss_d. apply cc_d. exact (d_const 0 0).
    + exact (fun i _ => d_const 0 0).
Qed.
Ltac rj := cbv [pathR oriR rfr]; tj; cbv [dot3 sum3 cross3 mvec3 Bten sum2 met delta Nat.eqb jcol pj j1 j2]; try rewrite cc0, ss0.
Lemma frameR : forall k, frame_path (oriR k) (fun t => rfr (pathR k t)).
Proof.
  intro k. refine (conj _ (conj _ (conj _ _))).
  - intros t r Hr. idx2 r Hr; rj; pose proof (cs1 t); field_simplify; nra.
  - intro t. rj. field.
  - intros t r Hr. idx2 r Hr; rj; field.
  - exists (fun r => match r with 0%nat => vv (- ss 0) (cc 0) 0 | _ => vv (- cc 0) (- ss 0) 0 end).
    assert (A : is_derive (fun t => 2 * ss t / 2) 0 (cc 0)).
    { apply (is_derive_ext ss). intro t. change (@eq R (ss t) (2 * ss t / 2)). field. apply ss_d. }
    intros r Hr. idx2 r Hr; apply vv_d; try exact (d_const 0 0).
    + apply cc_d. + exact A. + apply (d_opp (fun t => 2 * ss t / 2)). exact A. + apply cc_d.
Qed.
Definition hR (k : R) : nat -> vec := fun r => match r with 0%nat => vv (/ k) 0 0 | _ => e2 end.
Lemma dualR : forall k, 0 < k -> dual_basis (oriR k) (hR k).
Proof. intros k Hk. split. intros i j Hi Hj. idx2 i Hi; idx2 j Hj; unfold hR; rj; field; lra. intros i Hi. idx2 i Hi; unfold hR; rj; field; lra. Qed.
(* at every time the directions are the principal directions, with squared principal stretches 4 and 1 *)
Definition muR (r : nat) : R := match r with 0%nat => 4 | _ => 1 end.
Lemma eigenR : forall k t, 0 < k -> eigen_pair (met (pathR k t)) (hR k) (rfr (pathR k t)) muR.
Proof.
  intros k t Hk r a Hr Ha.
  transitivity (muR r * rfr (pathR k t) r a * (cc t * cc t + ss t * ss t)); [|rewrite cs1; ring].
  idx2 r Hr; idx3 a Ha; unfold hR, muR; rj; field; lra.
Qed.
(* hypotheses of C61_principal_dual for the orthonormal parametrisation (k = 1) with rotating principal directions *)
Lemma principalR : principal_contract GStretch (ptR 1) (pathR 1) (pathR 1 0) /\ principal_contract GPStrain (ptR 1) (pathR 1) (pathR 1 0).
Proof.
  assert (P : orthonormal (gori (ptR 1)) /\ (exists h, dual_basis (gori (ptR 1)) h /\ eigen_pair (met (pathR 1 0)) h (rfr (pathR 1 0)) muR)).
  { split. unfold orthonormal, ptR. rj. lra. exists (hR 1). split. apply dualR; lra. apply eigenR; lra. }
  destruct P as (P & Q).
  split; exists (fun t => rfr (pathR 1 t)), muR; (split; [exact (frameR 1)|]); refine (conj P (conj Q _)); reflexivity.
Qed.
Example C61_principal_dual_ex : forall g comp, g = GStretch \/ g = GPStrain -> (comp < 2)%nat \/ comp = 9%nat ->
  exists Jf b, (forall t, computeGoal Interior g comp [ptR 1] (fun _ => pathR 1 t) = Ok (Jf t)) /\
    assembleDual Interior g comp [ptR 1] (fun _ => pathR 1 0) (fun _ => jzero) = Ok b /\ gradient_along 3 Jf b (dirR 1).
Proof.
  intros g comp Hg Hc. apply (C61_principal_dual Interior g comp 3 [ptR 1] (fun t _ => pathR 1 t) (fun _ => pathR 1 0)); auto.
  tauto. intros; discriminate.
  intros p [<-|[]]. destruct (pathR_ok 1 ltac:(lra)) as (P & L). refine (conj P (conj L _)). destruct Hg as [-> | ->]; apply principalR.
Qed.
Definition pathD (t : R) : jet := pj (vadd (vv 2 0 0) (vscal t e1)) (vadd e2 (vscal t vzero)) (vadd vzero (vscal t vzero)).
Lemma pathD_ok : regular (pathD 0) /\ leaves 3 (tdir e1 vzero vzero) ptA pathD (pathD 0).
Proof. split. unfold regular, pathD. tj. cbv [dot3 sum3 cross3]. lra. apply tleaves; apply line_d. Qed.
Example C61_principal_stress_ex : forall s comp, (comp < 2)%nat ->
  exists Jf b, (forall t, computeGoal s GPStress comp [ptA] (fun _ => pathD t) = Ok (Jf t)) /\
    assembleDual s GPStress comp [ptA] (fun _ => pathD 0) (fun _ => jzero) = Ok b /\ gradient_along 3 Jf b (tdir e1 vzero vzero).
Proof.
  intros s comp Hc. apply (C61_principal_dual s GPStress comp 3 [ptA] (fun t _ => pathD t) (fun _ => pathD 0)); auto.
  intros _. split. discriminate. intros; lia.
  intros p [<-|[]]. destruct pathD_ok as (P & L). refine (conj P (conj L _)).
  exists (fun _ => cfr), (fun r => match r with 0%nat => 3 | _ => 0 end). split; [|refine (conj _ (conj _ (conj _ _)))].
  - refine (conj _ (conj _ (conj _ _))); [intros t r Hr; idx2 r Hr|intro t|intros t r Hr; idx2 r Hr|]; try (cbv [cfr ptA ori0]; tj; cbv [dot3 sum3 cross3]; ring).
    exists (fun _ => vzero). intros r Hr i Hi. idx2 r Hr; apply d_const.
  - apply tlaw_contract. left; reflexivity.
  - intros r a Hr Ha. idx2 r Hr; idx3 a Ha; cbv [mvec3 Bten sum2 sum3 smat ptA tpt tlaw lS0 glaw gori ori0 pathD Em Em_der cfr]; tj; cbv [dot3 sum3]; lra.
  - reflexivity.
  - intros t r Hr. reflexivity.
Qed.

(* ------------------------------------------------------------------ C61: violations *)
(* boundary norm of the flexural strain: the shear entry is doubled once more *)
Definition pathT (t : R) : jet := pj (vadd e1 (vscal t vzero)) (vadd e2 (vscal t vzero)) (vadd e3 (vscal t e3)).
Lemma pathT_ok : regular (pathT 0) /\ leaves 3 (tdir vzero vzero e3) ptA pathT (pathT 0).
Proof. split. unfold regular, pathT. tj. cbv [dot3 sum3 cross3]. lra. apply tleaves; apply line_d. Qed.
Lemma unormal_flat : forall c, j1 c = e1 -> j2 c = e2 -> unormal c = vv 0 0 1.
Proof.
  intros c A B. unfold unormal. rewrite A, B.
  assert (E : dot3 (cross3 e1 e2) (cross3 e1 e2) = 1) by (cbv [dot3 sum3 cross3 e1 e2 vv]; lra).
  rewrite normalize_pos by (rewrite E; lra). unfold norm3. rewrite E, sqrt_1. extensionality i.
  cbv [cross3 e1 e2 vv]. destruct i as [|[|i]]; field.
Qed.
Lemma pathT_flat : forall t, j1 (pathT t) = e1 /\ j2 (pathT t) = e2 /\ j12 (pathT t) = vv 0 0 (1 + t).
Proof. intro t. repeat split; extensionality i; destruct i as [|[|i]]; cbv [pathT pj j1 j2 j12 vadd vscal vzero e1 e2 e3 vv]; ring. Qed.
Theorem C61_boundary_flexural_norm_refuted : exists n pts (path : R -> gpoint -> jet) def prim y Jf b,
  (forall p, In p pts -> regular (def p) /\ leaves n y p (fun t => path t p) (def p)) /\
  (forall t, computeGoal Boundary GFlexuralStrain 9 pts (path t) = Ok (Jf t)) /\
  assembleDual Boundary GFlexuralStrain 9 pts def prim = Ok b /\ ~ gradient_along n Jf b y.
Proof.
  exists 3%nat, [ptA], (fun t _ => pathT t), (fun _ => pathT 0), (fun _ => jzero), (tdir vzero vzero e3), (fun t => 2 * (4 * ((1 + t) * (1 + t)))).
  eexists. split. intros p [<-|[]]. exact pathT_ok. split; [|split; [reflexivity|]].
  - intro t. destruct (pathT_flat t) as (A & B & C). unfold computeGoal, goal_status. cbn [Nat.eqb orb psum]. f_equal.
    unfold goal_dens, goal_q. cbv zeta. cbn [Nat.eqb]. unfold Ef, mult2, deriv2_map. rewrite !unormal_flat; try assumption; try reflexivity.
    cbn [gw ptA tpt gori]. unfold dot3 at 1, sum3. unfold deriv2_map. unfold jsec. rewrite C. cbv [ori0 pathT pj j11 j22 j12 vadd vscal vzero e1 e2 e3 vv dot3 sum3]. ring.
  - intro G. unfold gradient_along in G.
    assert (D : is_derive (fun t => 2 * (4 * ((1 + t) * (1 + t)))) 0 16) by (auto_derive; auto; ring).
    pose proof (der_unique _ _ _ _ G D) as E. clear G D. revert E. unfold psum.
    assert (Z : forall i d, (i < 2)%nat -> tdir vzero vzero e3 i d = 0) by (intros i d Hi; idx2 i Hi; reflexivity).
    unfold rsum, sum3. rewrite !(Z 0%nat), !(Z 1%nat) by lia.
    replace (tdir vzero vzero e3 2%nat 0%nat) with 0 by reflexivity. replace (tdir vzero vzero e3 2%nat 1%nat) with 0 by reflexivity.
    replace (tdir vzero vzero e3 2%nat 2%nat) with 1 by reflexivity. unfold dual_dens. cbn [Nat.eqb].
    unfold dual_q. cbv zeta. destruct (pathT_flat 0) as (A & B & C).
    assert (EQ : forall a, (a < 3)%nat -> Ef_der_dof (pathT 0) 2 (gbas ptA 2%nat) a = match a with 2%nat => -2 | _ => 0 end).
    { intros a Ha. unfold Ef_der_dof, mult2, deriv2_space, deriv2_map. rewrite (unormal_flat (pathT 0)) by assumption.
      assert (V : forall i, var1 (pathT 0) (bvar 2 (gbas ptA 2%nat)) i = 0).
      { intro i. assert (M : forall i, m_var (pathT 0) (bvar 2 (gbas ptA 2%nat)) i = 0).
        { intro k. unfold m_var. assert (N : cross3 (j1 (bvar 2 (gbas ptA 2%nat))) (j2 (pathT 0)) k - cross3 (j2 (bvar 2 (gbas ptA 2%nat))) (j1 (pathT 0)) k = 0)
            by (cbv [cross3 ptA]; tj; destruct k as [|[|k]]; ring). rewrite N. unfold Rdiv. ring. }
        unfold var1, outer_apply, sum3. rewrite !M. ring. }
      unfold dot3, sum3. rewrite !V. idx3 a Ha; cbv [gbas ptA tpt tbas ssec s11 s22 s12 vv]; ring. }
    assert (F : Ef (gori ptA) (pathT 0) 2%nat = -2).
    { unfold Ef, mult2, deriv2_map. rewrite !unormal_flat; try assumption; try reflexivity. unfold jsec. rewrite C. cbv [gori ptA tpt ori0 pj j12 vzero dot3 sum3 vv]. ring. }
    assert (K : dot3 (mult2 (Ef_der_dof (pathT 0) 2 (gbas ptA 2%nat))) (Ef (gori ptA) (pathT 0)) = 8).
    { unfold dot3, sum3, mult2 at 1 2 3. rewrite !EQ by lia. rewrite F. ring. }
    rewrite K. replace (gw ptA) with 2 by reflexivity. intro E. ring_simplify in E. lra.
Qed.
Print Assumptions C61_boundary_flexural_norm_refuted.

(* component 12 of the stretch in the principal frame is identically zero, its dual load is not *)
Theorem C61_stretch_component_refuted : exists n pts (path : R -> gpoint -> jet) def prim y Jf b,
  (forall p, In p pts -> regular (def p) /\ leaves n y p (fun t => path t p) (def p) /\ principal_contract GStretch p (fun t => path t p) (def p)) /\
  (forall t, computeGoal Interior GStretch 2 pts (path t) = Ok (Jf t)) /\
  assembleDual Interior GStretch 2 pts def prim = Ok b /\ ~ gradient_along n Jf b y.
Proof.
  exists 3%nat, [ptR 1], (fun t _ => pathR 1 t), (fun _ => pathR 1 0), (fun _ => jzero), (dirR 1), (fun _ => 0).
  eexists. split; [|split; [|split; [reflexivity|]]].
  - intros p [<-|[]]. destruct (pathR_ok 1 ltac:(lra)) as (P & L). refine (conj P (conj L _)). apply principalR.
  - intro t. unfold computeGoal, goal_status. cbn [Nat.eqb Nat.ltb Nat.leb goal_dim orb psum]. f_equal.
    cbv [goal_dens goal_q Nat.eqb ptR tpt tlaw glaw gw gori lT applyT mvec3 transformation Cm m12 Em_der pathR oriR rfr]. tj. cbv [dot3 sum3]. field.
  - intro G. pose proof (der_unique _ _ _ _ G (d_const 0 0)) as E. revert E. cbv [rsum sum3 psum dual_dens dual_q Nat.eqb ptR tpt tlaw glaw gw gori gbas lT applyT mvec3 transformation m12 Em_der pathR oriR rfr dirR].
    tj. cbv [dot3 sum3]. rewrite cc0, ss0. lra.
Qed.
Print Assumptions C61_stretch_component_refuted.

(* parametrisations that are not orthonormal: the squared stretch and its dual load disagree *)
Theorem C61_stretch_scaled_refuted : exists n pts (path : R -> gpoint -> jet) def prim y Jf b,
  (forall p, In p pts -> regular (def p) /\ leaves n y p (fun t => path t p) (def p) /\
     exists fr mu h, frame_path (gori p) fr /\ dual_basis (gori p) h /\ (forall t, eigen_pair (met (path t p)) h (fr t) mu) /\
       forall t, lT (glaw p) (path t p) = transformation (jcol (gori p)) (fr t)) /\
  (forall t, computeGoal Interior GStretch 0 pts (path t) = Ok (Jf t)) /\
  assembleDual Interior GStretch 0 pts def prim = Ok b /\ ~ gradient_along n Jf b y.
Proof.
  exists 3%nat, [ptR 2], (fun t _ => pathR 2 t), (fun _ => pathR 2 0), (fun _ => jzero), (dirR 2).
  exists (fun t => 64 * (cc t * cc t) * (cc t * cc t) + 41 * (cc t * cc t) * (ss t * ss t) + 4 * (ss t * ss t) * (ss t * ss t)).
  eexists. split; [|split; [|split; [reflexivity|]]].
  - intros p [<-|[]]. destruct (pathR_ok 2 ltac:(lra)) as (P & L). refine (conj P (conj L _)).
    exists (fun t => rfr (pathR 2 t)), muR, (hR 2). refine (conj (frameR 2) (conj (dualR 2 ltac:(lra)) (conj _ (fun _ => eq_refl)))).
    intro t. apply eigenR; lra.
  - intro t. unfold computeGoal, goal_status. cbn [Nat.eqb Nat.ltb Nat.leb goal_dim orb psum]. f_equal.
    cbv [goal_dens goal_q Nat.eqb ptR tpt tlaw glaw gw gori lT applyT mvec3 transformation Cm m12 Em_der pathR oriR rfr]. tj. cbv [dot3 sum3]. field.
  - intro G.
    assert (D : is_derive (fun t => 64 * (cc t * cc t) * (cc t * cc t) + 41 * (cc t * cc t) * (ss t * ss t) + 4 * (ss t * ss t) * (ss t * ss t)) 0 (- (31464 / 625))).
    { unfold cc, ss. auto_derive; auto. rewrite cos_0, sin_0. lra. }
    pose proof (der_unique _ _ _ _ G D) as E. revert E. cbv [rsum sum3 psum dual_dens dual_q Nat.eqb ptR tpt tlaw glaw gw gori gbas lT applyT mvec3 transformation m12 Em_der pathR oriR rfr dirR].
    tj. cbv [dot3 sum3]. rewrite cc0, ss0. lra.
Qed.
Print Assumptions C61_stretch_scaled_refuted.

(* The flexural stress at the mid-surface of the hyperelastic materials: eval3D_vector ignores the requested output, so S1 = S0 depends on
   the membrane strain, while the dual load differentiates along the bending strain *)
Definition hlaw : law := let l := tlaw (fun _ => cfr) ori0 in
  mklaw (lN l) (lM l) (lS0 l) (lS0 l) (lA l) (lB l) (lC l) (lD l) (lA0 l) (lD0 l) (lT l) (lTp l) (lP l).
Definition ptH : gpoint := mkg 1 tbas ori0 hlaw.
Theorem C61_flexural_stress_hyperelastic_refuted : exists n pts (path : R -> gpoint -> jet) def prim y Jf b,
  (forall p, In p pts -> regular (def p) /\ leaves n y p (fun t => path t p) (def p) /\
     stress_contract GMembraneStress (glaw p) /\ lS1 (glaw p) = lS0 (glaw p)) /\
  (forall t, computeGoal Interior GFlexuralStress 0 pts (path t) = Ok (Jf t)) /\
  assembleDual Interior GFlexuralStress 0 pts def prim = Ok b /\ ~ gradient_along n Jf b y.
Proof.
  exists 3%nat, [ptH], (fun t _ => pathD t), (fun _ => pathD 0), (fun _ => jzero), (tdir e1 vzero vzero), (fun t => (2 + t) * (2 + t) - 1).
  eexists. split; [|split; [|split; [reflexivity|]]].
  - intros p [<-|[]]. destruct pathD_ok as (P & L). refine (conj P (conj L (conj _ eq_refl))).
    apply (tlaw_contract (fun _ => cfr) ori0 GMembraneStress). left; reflexivity.
  - intro t. unfold computeGoal, goal_status. cbn [Nat.eqb Nat.ltb Nat.leb goal_dim orb psum]. f_equal.
    cbv [goal_dens goal_q Nat.eqb ptH hlaw tlaw glaw gw gori lS1 lS0 Em Em_der pathD ori0]. tj. cbv [dot3 sum3]. field.
  - intro G. assert (D : is_derive (fun t => (2 + t) * (2 + t) - 1) 0 4) by (auto_derive; auto; ring).
    pose proof (der_unique _ _ _ _ G D) as E. clear G D. revert E.
    assert (Q : forall a, (a < 3)%nat -> Ef_der_dof (pathD 0) 0 (gbas ptH 0%nat) a = 0).
    { intros a Ha. unfold Ef_der_dof, mult2, deriv2_space, deriv2_map. idx3 a Ha; cbv [ptH pathD]; tj; cbv [ssec s11 s22 s12 dot3 sum3]; ring. }
    assert (Y : forall i d, tdir e1 vzero vzero i d = if (Nat.eqb i 0 && Nat.eqb d 0)%bool then 1 else 0).
    { intros i d. destruct i as [|[|i]]; cbn [tdir]. destruct d as [|[|d]]; reflexivity. reflexivity. reflexivity. }
    unfold rsum, sum3. rewrite !Y. cbn [Nat.eqb andb psum]. unfold dual_dens at 1. cbn [Nat.eqb dual_q]. cbv zeta. unfold rowmat at 1, sum3. rewrite !Q by lia. lra.
Qed.
Print Assumptions C61_flexural_stress_hyperelastic_refuted.

(* the point version of one stretch component returns the displacement; the dual load is that of the stretch *)
Theorem C61_point_stretch_refuted : exists n pts (path : R -> gpoint -> jet) def prim y Jf b,
  (forall p, In p pts -> regular (def p) /\ leaves n y p (fun t => path t p) (def p)) /\
  (forall t, computeGoal Point GStretch 0 pts (path t) = Ok (Jf t)) /\
  (forall t p, In p pts -> Jf t = gw p * (j0 (path t p) 0%nat - j0 (gori p) 0%nat)) /\
  assembleDual Point GStretch 0 pts def prim = Ok b /\ ~ gradient_along n Jf b y.
Proof.
  exists 3%nat, [ptA], (fun t _ => pathD t), (fun _ => pathD 0), (fun _ => jzero), (tdir e1 vzero vzero), (fun _ => 0).
  eexists. split; [|split; [|split; [|split; [reflexivity|]]]].
  - intros p [<-|[]]. exact pathD_ok.
  - intro t. unfold computeGoal, goal_status. cbn [Nat.eqb Nat.ltb Nat.leb goal_dim orb psum]. f_equal.
    cbv [goal_dens Nat.eqb pathD ptA ori0]. tj. ring.
  - intros t p [<-|[]]. cbv [pathD ptA ori0]. tj. ring.
  - intro G. pose proof (der_unique _ _ _ _ G (d_const 0 0)) as E. revert E.
    cbv [rsum sum3 psum dual_dens dual_q Nat.eqb ptA tpt tlaw glaw gw gori gbas lT applyT mvec3 transformation m12 Em_der pathD ori0 cfr]. tj. cbv [dot3 sum3 lT transformation m12]. lra.
Qed.
Print Assumptions C61_point_stretch_refuted.

(* in general: the stretch goal of one component at points is the weighted sum of the displacements of the points *)
Theorem C61_point_stretch_is_displacement : forall pts (def : gpoint -> jet) comp J, (comp < 3)%nat ->
  computeGoal Point GStretch comp pts def = Ok J ->
  J = fold_right (fun p s => gw p * vsub (j0 (def p)) (j0 (gori p)) comp + s) 0 pts.
Proof.
  intros pts def comp J Hc H. unfold computeGoal, goal_status, goal_dim in H.
  assert (N9 : Nat.eqb comp 9 = false) by (apply Nat.eqb_neq; lia). assert (L3 : Nat.ltb comp 3 = true) by (apply Nat.ltb_lt; lia).
  rewrite N9, L3 in H. cbn [orb] in H. injection H as <-. unfold goal_dens. rewrite N9.
  induction pts as [|p pts IH]; simpl; [reflexivity|]. rewrite IH. reflexivity.
Qed.
Print Assumptions C61_point_stretch_is_displacement.

(* which components exist: two for the principal stresses, three for every other quantity, and 9 for the squared norm *)
Theorem C61_components : forall s g comp pts def, (exists v, computeGoal s g comp pts def = Ok v) <->
  comp = 9%nat \/ (comp < match g with GPStress => 2 | _ => 3 end)%nat.
Proof.
  intros s g comp pts def. unfold computeGoal, goal_status.
  destruct (Nat.eqb_spec comp 9) as [E|E]; [cbn [orb]; split; [intros _; left; exact E|intros _; eexists; reflexivity]|].
  cbn [orb]. destruct (Nat.ltb comp (goal_dim g)) eqn:L.
  - apply Nat.ltb_lt in L. split; [intros _; right; destruct g; exact L|intros _; eexists; reflexivity].
  - apply Nat.ltb_ge in L. split; [intros (v & D); discriminate|]. intros [H|H]; [contradiction|]. exfalso. destruct g; cbn in L, H; lia.
Qed.
Print Assumptions C61_components.
(* requests that are not answered although the goal itself can be computed *)
Theorem C61_unanswered : forall pts def prim comp, (comp < 3)%nat ->
  (exists v, computeGoal Boundary GMembraneForce comp pts def = Ok v) /\ assembleDual Boundary GMembraneForce comp pts def prim = Throw /\
  (exists v, computeGoal Point GMembraneForce comp pts def = Ok v) /\ assembleDual Point GMembraneForce comp pts def prim = UB /\
  (exists v, computeGoal Point GPStress 9 pts def = Ok v) /\ assembleDual Point GPStress 9 pts def prim = UB.
Proof.
  intros pts def prim comp Hc. idx3 comp Hc; (split; [eexists; reflexivity|]); (split; [reflexivity|]); (split; [eexists; reflexivity|]); (split; [reflexivity|]);
  (split; [eexists; reflexivity|reflexivity]).
Qed.
Print Assumptions C61_unanswered.

(* ------------------------------------------------------------------ C106 *)
(* the transformation with the dual (contravariant) basis of the undeformed tangents gives the squared principal stretches ... *)
Theorem C106_stretch_dual_basis : forall def h fr mu r, (r < 2)%nat -> eigen_pair (met def) h fr mu ->
  (forall i, (i < 2)%nat -> dot3 (fr i) (fr i) = 1) -> applyT (transformation h fr) (Cm def) r = mu r.
Proof.
  intros def h fr mu r Hr E U. rewrite (applyT_voigt h fr (met def)); [|apply met_sym|lia|apply Cm_voigt].
  assert (Q : tensor_on (met def) h fr r r = mu r).
  { rewrite ton_quad. unfold dot3, sum3. rewrite !(E r) by lia. pose proof (U r Hr) as V. unfold dot3, sum3 in V.
    transitivity (mu r * (fr r 0%nat * fr r 0%nat + fr r 1%nat * fr r 1%nat + fr r 2%nat * fr r 2%nat)). ring. rewrite V. ring. }
  idx2 r Hr; exact Q.
Qed.
Print Assumptions C106_stretch_dual_basis.
(* ... the one used by the code does so for orthonormal undeformed tangents ... *)
Theorem C106_stretch_orthonormal : forall ori def h gcon fr mu r, (r < 2)%nat -> orthonormal ori -> dual_basis ori h -> eigen_pair (met def) h fr mu ->
  (forall i, (i < 2)%nat -> dot3 (fr i) (fr i) = 1) -> applyT (spec2con (jcol ori) gcon fr) (Cm def) r = mu r.
Proof. intros ori def h gcon fr mu r Hr O D E U. unfold spec2con. apply C106_stretch_dual_basis; try assumption. apply (stretch_eigen ori def h); assumption. Qed.
Print Assumptions C106_stretch_orthonormal.
(* ... and not otherwise, not even without deformation *)
Theorem C106_stretch_refuted : exists ori h fr, regular ori /\ dual_basis ori h /\ eigen_pair (met ori) h fr (fun _ => 1) /\
  (forall i, (i < 2)%nat -> dot3 (fr i) (fr i) = 1) /\ applyT (spec2con (jcol ori) h fr) (Cm ori) 0%nat = 16.
Proof.
  exists (oriR 2), (hR 2), cfr. repeat split.
  - unfold regular. rj. lra.
  - apply dualR; lra.
  - apply dualR; lra.
  - intros r a Hr Ha. idx2 r Hr; idx3 a Ha; unfold hR, cfr; rj; field.
  - intros i Hi. idx2 i Hi; unfold cfr; rj; ring.
  - cbv [applyT mvec3 spec2con transformation Cm m12 Em_der oriR cfr]. tj. cbv [dot3 sum3]. lra.
Qed.
Print Assumptions C106_stretch_refuted.
(* for contravariant components (the stresses) the covariant basis is the right one: the transformation of eval3D_spec2cov gives the components
   f_r . S f_s of the tensor S = sum S^kl g_k (x) g_l in the spectral directions f, for any tangents *)
Theorem C106_stress_components : forall (g h f : nat -> vec) (X : mat) (x : vec) r, symmetric 2 X -> (r < 3)%nat -> (forall a, (a < 3)%nat -> x a = voigt3 X a) ->
  applyT (spec2cov g h f) x r = voigt3 (fun i j => dot3 (f i) (mvec3 (fun a b => sum2 (fun k => sum2 (fun l => X k l * g k a * g l b))) (f j))) r.
Proof.
  intros g h f X x r S Hr E. unfold spec2cov. rewrite (applyT_voigt g f X) by assumption.
  idx3 r Hr; unfold voigt3, tensor_on, mvec3, dot3, sum3, sum2; ring.
Qed.
Print Assumptions C106_stress_components.
Example C106_ex_stress : applyT (spec2cov (fun i => match i with 0%nat => vv 2 0 0 | _ => vv 1 1 0 end) (fun _ => vzero) (fun i => match i with 0%nat => vv 1 0 0 | _ => vv 0 1 0 end)) (vv 3 5 7) 0%nat = 45.
Proof. cbv [applyT mvec3 spec2cov transformation dot3 sum3 vv]. ring. Qed.
Example C106_ex : regular (pathR 1 0) /\ orthonormal (oriR 1) /\ dual_basis (oriR 1) (hR 1) /\ eigen_pair (met (pathR 1 0)) (hR 1) (rfr (pathR 1 0)) muR.
Proof. split. apply (pathR_ok 1); lra. split. unfold orthonormal. rj. lra. split. apply dualR; lra. apply eigenR; lra. Qed.
