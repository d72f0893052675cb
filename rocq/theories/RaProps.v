(* C135: the assembled shell does not depend on its parametrisation. *)
From Coq Require Import Reals Lra Lia Arith List Permutation FunctionalExtensionality.
From Verif Require Import Tensor MetricModel MetricSpec MetricProofs LinearModel LinearSpec IntegrateModel NonlinearModel SpectralModel Newton33Model PrincipalModel SizeModel PtModel ReparSpec ReparTens ReparGeo.
From Verif Require Import KinModel KinSpec KinAsm KinStiff HypModel RaModel RaSpec RaKin RaProofs LinearProofs.
Import ListNotations.
Open Scope R_scope.

(* hyperelastic materials: internal force and stiffness, entry by entry, for every load state; every quadrature point has its own
   derivatives P, K of the parameter change *)
Theorem C135_hyperelastic_force : forall close eps epsm eig comp imp w n x pts pts' i d, (d < 3)%nat ->
  Forall2 (fun q q' => exists P K, same_point P K q q' /\ layers_ok n x q /\ same_test close P n x q q') pts pts' ->
  let force := aforce (hyper_res close eps epsm eig comp imp w) n in
  forall v, force pts' x i d = Ok v <-> force pts x i d = Ok v.
Proof.
  intros close eps epsm eig comp imp w n x pts pts' i d Hd H. apply ok_eq, aforce_rep; [exact Hd|].
  induction H as [|q q' l l' (P & K & S & L & T) H IH]; constructor; [|exact IH]. exists P, K. split; [exact S|]. split; [apply L|]. apply (hyper_res_rel close eps epsm eig comp imp w P K); assumption.
Qed.
Print Assumptions C135_hyperelastic_force.

Theorem C135_hyperelastic_stiffness : forall close eps epsm eig comp imp w n x pts pts' i d j e, (d < 3)%nat -> (e < 3)%nat ->
  Forall2 (fun q q' => exists P K, same_point P K q q' /\ layers_ok n x q /\ same_test close P n x q q') pts pts' ->
  let stiff := astiff (hyper_res close eps epsm eig comp imp w) (hyper_tan eps epsm eig comp imp w) n in
  forall v, stiff pts' x i d j e = Ok v <-> stiff pts x i d j e = Ok v.
Proof.
  intros close eps epsm eig comp imp w n x pts pts' i d j e Hd He H. apply ok_eq, astiff_rep; [exact Hd|exact He|].
  induction H as [|q q' l l' (P & K & S & L & T) H IH]; constructor; [|exact IH]. exists P, K. split; [exact S|]. split; [apply L|].
  split; [apply (hyper_res_rel close eps epsm eig comp imp w P K); assumption|apply (hyper_tan_rel eps epsm eig comp imp w P K); assumption].
Qed.
Print Assumptions C135_hyperelastic_stiffness.

(* the linear material on a surface: the values exist and are the same *)
Theorem C135_linear : forall n x pts pts' i d j e, (d < 3)%nat -> (e < 3)%nat ->
  Forall2 (fun q q' => exists P K, same_point P K q q' /\ KinSpec.regular (aori q) /\ KinSpec.regular (adef n q x)) pts pts' ->
  (exists v, aforce lin_res n pts x i d = Ok v /\ aforce lin_res n pts' x i d = Ok v) /\
  (exists v, astiff lin_res lin_tan n pts x i d j e = Ok v /\ astiff lin_res lin_tan n pts' x i d j e = Ok v).
Proof.
  intros n x pts pts' i d j e Hd He H.
  assert (F : okrel eq (aforce lin_res n pts x i d) (aforce lin_res n pts' x i d)).
  { apply aforce_rep; [exact Hd|]. induction H as [|q q' l l' (P & K & S & Ro & Rd) H IH]; constructor; [|exact IH]. exists P, K. split; [exact S|]. split; [exact Rd|]. apply (lin_res_rel P K); assumption. }
  assert (G : okrel eq (astiff lin_res lin_tan n pts x i d j e) (astiff lin_res lin_tan n pts' x i d j e)).
  { clear F. apply astiff_rep; [exact Hd|exact He|]. induction H as [|q q' l l' (P & K & S & Ro & Rd) H IH]; constructor; [|exact IH].
    exists P, K. split; [exact S|]. split; [exact Rd|]. split; [apply (lin_res_rel P K); assumption|apply (lin_tan_rel P K); assumption]. }
  assert (O1 : exists v, aforce lin_res n pts x i d = Ok v).
  { clear F G. induction H as [|q q' l l' (P & K & S & Ro & Rd) H IH]; cbn [aforce]; [eexists; reflexivity|]. cbv zeta. unfold lin_res at 1, apt. cbv zeta.
    rewrite !lin_vec_eq by assumption. cbn [obind]. destruct IH as (v & ->). cbn [obind]. eexists; reflexivity. }
  assert (O2 : exists v, astiff lin_res lin_tan n pts x i d j e = Ok v).
  { clear F G O1. induction H as [|q q' l l' (P & K & S & Ro & Rd) H IH]; cbn [astiff]; [eexists; reflexivity|]. cbv zeta. unfold lin_res at 1, lin_tan at 1, apt. cbv zeta.
    rewrite !lin_vec_eq, lin_mat_eq by assumption. cbn [obind]. destruct IH as (v & ->). cbn [obind]. eexists; reflexivity. }
  destruct O1 as (v1 & E1), O2 as (v2 & E2). rewrite E1 in F |- *. rewrite E2 in G |- *. split; [exists v1|exists v2]; (split; [reflexivity|]).
  - destruct (aforce lin_res n pts' x i d); cbn [okrel] in F; [rewrite F; reflexivity|contradiction|contradiction].
  - destruct (astiff lin_res lin_tan n pts' x i d j e); cbn [okrel] in G; [rewrite G; reflexivity|contradiction|contradiction].
Qed.
Print Assumptions C135_linear.

(* mass and foundation are unchanged; a pressure acts on the other side if the parameters turn the normal over *)
Theorem C135_loads : forall rho k p sg n x pts pts' i d j e,
  Forall2 (fun q q' => exists P K, same_point P K q q' /\ ReparSpec.side P = sg /\ KinSpec.regular (adef n q x)) pts pts' ->
  amass rho pts' i d j e = amass rho pts i d j e /\ afound k n pts' x i d = afound k n pts x i d /\ apress p n pts' x i d = sg * apress p n pts x i d.
Proof.
  intros rho k p sg n x pts pts' i d j e H. unfold amass, afound, apress. split; [|split].
  - rewrite <- (Rmult_1_l (asum pts _)). apply asum_rep. induction H as [|q q' l l' (P & K & S & _ & R) H IH]; constructor; [|exact IH].
    split; [apply (w_rep P K); exact S|]. destruct S as (_ & _ & B & _). rewrite Rmult_1_l. unfold Kmass. rewrite !B, !bvar_rep. reflexivity.
  - rewrite <- (Rmult_1_l (asum pts _)). apply asum_rep. induction H as [|q q' l l' (P & K & S & _ & R) H IH]; constructor; [|exact IH].
    split; [apply (w_rep P K); exact S|]. rewrite (adef_rep P K n q q' x S). destruct S as (_ & _ & B & O & _). rewrite Rmult_1_l. unfold Ffound. rewrite !B, !bvar_rep, O. reflexivity.
  - apply asum_rep. induction H as [|q q' l l' (P & K & S & E & R) H IH]; constructor; [|exact IH].
    split; [apply (w_rep P K); exact S|]. rewrite (adef_rep P K n q q' x S). destruct S as (DP & _ & B & O & _). unfold Fpress. rewrite !B, !bvar_rep. unfold dot3, sum3. rewrite !(nor_rep P K DP) by exact R. rewrite <- E. cbn [jrepar j0]. ring.
Qed.
Print Assumptions C135_loads.

(* planar patches with hyperelastic materials *)
Theorem C135_planar : forall close eps epsm eig comp imp w n x pts pts' i d j e,
  Forall2 (fun q q' => exists P K, same_point2 P K q q' /\ planar_ok n x q /\ same_test2 close n x q q') pts pts' ->
  let N := plane_res close eps epsm eig comp imp w in let A := plane_tan eps epsm eig comp imp w in
  (forall v, pforce N n pts' x i d = Ok v <-> pforce N n pts x i d = Ok v) /\
  (forall v, pstiff N A n pts' x i d j e = Ok v <-> pstiff N A n pts x i d j e = Ok v).
Proof.
  intros close eps epsm eig comp imp w n x pts pts' i d j e H N A. split; apply ok_eq; [apply pforce_rep|apply pstiff_rep].
  - induction H as [|q q' l l' (P & K & S & L & T) H IH]; constructor; [|exact IH]. exists P, K. split; [exact S|]. apply (plane_res_rel close eps epsm eig comp imp w P K); assumption.
  - induction H as [|q q' l l' (P & K & S & L & T) H IH]; constructor; [|exact IH]. exists P, K. split; [exact S|].
    split; [apply (plane_res_rel close eps epsm eig comp imp w P K); assumption|apply (plane_tan_rel eps epsm eig comp imp w P K); assumption].
Qed.
Print Assumptions C135_planar.

(* a plate, one function with slope 1, a symmetric two-point rule; the same plate in skew parameters that turn the normal over *)
Definition ex1 : vec := fun i => match i with 0%nat => 1 | _ => 0 end.
Definition ex2 : vec := fun i => match i with 1%nat => 1 | _ => 0 end.
Definition exo : jet := mkjet vzero ex1 ex2 vzero vzero vzero.
Definition exb : nat -> sjet := fun _ => mksjet 1 1 0 0 0 0.
Definition exq : apoint := mkap 1 exb exo [(/ 2, - / 4); (/ 2, / 4)] 1 (mkPar 1 0 0).
Definition exP : mat := fun i j => match i, j with 0%nat, 0%nat => 1 | 0%nat, _ => 3 | _, 0%nat => 2 | _, _ => 1 end.
Definition exK : nat -> nat -> R := fun a r => INR a + INR r.
Definition exq' : apoint := mkap (/ 5) (fun i => srepar exP exK (exb i)) (jrepar exP exK exo) [(/ 2, - / 4); (/ 2, / 4)] 1 (mkPar 1 0 0).
Definition exx : coefs := fun j d => match d with 0%nat => 1 | _ => 0 end.
Lemma ex_side : ReparSpec.side exP = -1.
Proof. unfold ReparSpec.side. destruct (Rlt_dec 0 (det2 exP)) as [X|X]; [unfold det2, exP in X; lra|reflexivity]. Qed.
Lemma ex_point : same_point exP exK exq exq'.
Proof.
  unfold same_point. rewrite ex_side. cbn [exq exq' aw abas aori arule athick apar].
  assert (D : det2 exP = -5) by (unfold det2, exP; lra). rewrite D. split; [lra|]. split; [rewrite Rabs_left by lra; lra|]. split; [reflexivity|]. split; [reflexivity|]. split; [|split; reflexivity].
  cbn [map fst snd]. replace (-1 * - / 4) with (/ 4) by lra. replace (-1 * / 4) with (- / 4) by lra. apply perm_swap.
Qed.
Lemma ex_def : adef 1 exq exx = mkjet (vadd vzero (j0 (fieldjet 1 exb exx))) (fun i => 2 * ex1 i) ex2 vzero vzero vzero.
Proof.
  unfold adef, jadd. cbn [exq aori abas exo j0 j1 j2 j11 j22 j12]. f_equal; extensionality i; unfold exb, exx, vadd, vscal, vzero; cbn; unfold vecFun, vadd, vscal, vzero, ex1, ex2, bvar; cbn;
    destruct i as [|[|[|i]]]; cbn; lra.
Qed.
Lemma ex_reg : KinSpec.regular (aori exq) /\ KinSpec.regular (adef 1 exq exx).
Proof. rewrite ex_def. unfold KinSpec.regular, dot3, sum3, cross3. cbn [exq aori exo j1 j2]. unfold ex1, ex2. cbn. lra. Qed.
Lemma flat_B c i j : j11 c = vzero -> j22 c = vzero -> j12 c = vzero -> Bcov (sgeo c) i j = 0.
Proof.
  intros A B C. assert (Z : forall k, jsec c k = vzero) by (intros [|[|k]]; cbn [jsec]; assumption).
  unfold Bcov, dot3, sum3, sgeo. cbn [der2]. destruct i as [|[|i]], j as [|[|j]]; cbn [Nat.eqb]; rewrite ?Z; unfold vzero; ring.
Qed.
Lemma flat_det c z : KinSpec.regular c -> j11 c = vzero -> j22 c = vzero -> j12 c = vzero -> det3 (Gcov (sgeo c) z) <> 0.
Proof.
  intros R A B C. pose proof (reg_geo c R) as G. rewrite (det_Gcov_curvature _ z G). pose proof (det2_Acov_pos _ G) as D.
  assert (M : forall i j, mixedB (sgeo c) i j = 0) by (intros; unfold mixedB; rewrite ?flat_B by assumption; ring).
  unfold det2 at 2. rewrite !M. replace ((1 - z * (0 + 0) + z * z * (0 * 0 - 0 * 0)) ^ 2) with 1 by ring. lra.
Qed.
Example ex_C135 : forall eps epsm eig v,
  let close := fun _ _ : mat => false in
  ReparSpec.side exP = -1 /\
  (aforce (hyper_res close eps epsm eig true Spectral (OG [1; 0; 2; 3])) 1 [exq'] exx 0 0 = Ok v <->
   aforce (hyper_res close eps epsm eig true Spectral (OG [1; 0; 2; 3])) 1 [exq] exx 0 0 = Ok v) /\
  aforce lin_res 1 [exq] exx 0 0 = Ok 3 /\ aforce lin_res 1 [exq'] exx 0 0 = Ok 3.
Proof.
  intros eps epsm eig v close. destruct ex_reg as (Ro & Rd). split; [exact ex_side|]. split.
  - apply C135_hyperelastic_force; [lia|]. constructor; [|constructor]. exists exP, exK. split; [exact ex_point|]. split; [|intros w z _; reflexivity].
    split; [exact Ro|]. split; [exact Rd|]. intros w z _. split; apply flat_det; try assumption; rewrite ?ex_def; reflexivity.
  - assert (V : aforce lin_res 1 [exq] exx 0 0 = Ok 3).
    { cbn [aforce]. cbv zeta. unfold lin_res, apt. cbv zeta. rewrite !lin_vec_eq by assumption. cbn [obind]. f_equal. cbn [fst snd].
      rewrite (Ef_dof_ext _ 0%nat) by lia. rewrite ex_def. 
      assert (M : measure (aori exq) = 1).
      { unfold measure, norm3. replace (dot3 _ _) with 1; [apply sqrt_1|]. unfold dot3, sum3, cross3. cbn. ring. }
      rewrite M. cbn [exq aw apar athick aori abas pE pnu].
      set (d := mkjet _ _ _ _ _ _).
      assert (B : forall a, Svoigt 1 0 (Acon (sgeo exo)) (E_members KBending (half3 (sgeo exo) 0) (half3 (sgeo d) 0)) a = 0).
      { intro a. unfold Svoigt, Sij. unfold E_members. cbn [half3 hBcov]. rewrite !flat_B by reflexivity. destruct a as [|[|a]]; ring. }
      unfold dot3 at 2. unfold sum3 at 1. rewrite !B.
      assert (A : forall i j, (i < 2)%nat -> (j < 2)%nat -> Acon (sgeo exo) i j = delta i j).
      { intros i j Hi Hj. destruct i as [|[|i]]; try lia; destruct j as [|[|j]]; try lia; unfold Acon, inv2, det2, Acov, delta, dot3, sum3, sgeo, exo; cbn; field. }
      assert (F : fz 1 0 = 1) by (unfold fz, multiplyZ; cbn; field). rewrite F.
      assert (ED : Em_der d (bvar 0 (exb 0%nat)) 0%nat = 2 /\ Em_der d (bvar 0 (exb 0%nat)) 1%nat = 0 /\ Em_der d (bvar 0 (exb 0%nat)) 2%nat = 0).
      { unfold Em_der, d, exb, bvar, dot3, sum3, ex1, ex2, vecFun. cbn. repeat split; ring. }
      destruct ED as (E0 & E1 & E2). unfold dot3, sum3. rewrite E0, E1, E2.
      assert (SV : Svoigt 1 0 (Acon (sgeo exo)) (E_members KMembrane (half3 (sgeo exo) 0) (half3 (sgeo d) 0)) 0%nat = 3 / 2).
      { cbn [Svoigt]. unfold Sij, Cijkl. rewrite !A by lia. unfold E_members. cbn [half3 hAcov]. unfold Acov, dot3, sum3, sgeo, exo, d, delta, ex1, ex2, Cconstant, mu_of, lambda_of. cbn. field. }
      rewrite SV. field. }
    split; [exact V|].
    destruct (C135_linear 1 exx [exq] [exq'] 0 0 0 0 ltac:(lia) ltac:(lia)) as ((u & U1 & U2) & _).
    + constructor; [|constructor]. exists exP, exK. split; [exact ex_point|]. split; assumption.
    + rewrite V in U1. injection U1 as <-. exact U2.
Qed.

(* planar patches with the linear material: the same square in parameters twice as fine has 256 times the stiffness *)
Definition dblP : mat := fun i j => if Nat.eqb i j then 2 else 0.
Definition exq2 : apoint := mkap (/ 4) (fun i => srepar dblP (fun _ _ => 0) (exb i)) (jrepar dblP (fun _ _ => 0) exo) [(/ 2, - / 4); (/ 2, / 4)] 1 (mkPar 1 0 0).
Theorem C135_planar_linear_refuted : exists q q' P K, same_point2 P K q q' /\ planar_ok 1 (fun _ _ => 0) q /\
  exists v, v <> 0 /\ pstiff plin_res plin_tan 1 [q] (fun _ _ => 0) 0 0 0 0 = Ok v /\ pstiff plin_res plin_tan 1 [q'] (fun _ _ => 0) 0 0 0 0 = Ok (256 * v).
Proof.
  exists exq, exq2, dblP, (fun _ _ => 0).
  assert (D : det2 dblP = 4) by (unfold det2, dblP; cbn; ring).
  assert (Z : forall q, adef 1 q (fun _ _ => 0) = aori q).
  { intro q. unfold adef. destruct (aori q) as [a0 a1 a2 a3 a4 a5]. unfold jadd. cbn [j0 j1 j2 j11 j22 j12]. f_equal; extensionality k; cbn; unfold vadd, vscal, vzero; ring. }
  assert (D1 : det3 (Gcov2 (sgeo2 exo)) = 1) by (unfold det3, Gcov2, Acov2, sgeo2, exo, sum2, ex1, ex2; cbn; ring).
  assert (D2 : det3 (Gcov2 (sgeo2 (jrepar dblP (fun _ _ => 0) exo))) = 16) by (unfold det3, Gcov2, Acov2, sgeo2, jrepar, exo, sum2, dblP, ex1, ex2; cbn; ring).
  split; [|split].
  - unfold same_point2. cbn [exq exq2 aw abas aori arule athick apar]. rewrite D, Rabs_right by lra. repeat split; lra.
  - unfold planar_ok. rewrite Z. cbn [exq aori]. rewrite D1. lra.
  - exists 1. split; [lra|].
    assert (G : forall c z z', det3 (Gcov2 (sgeo2 c)) <> 0 -> exists m, getM (half2 (sgeo2 c) z) (half2 (sgeo2 c) z') = Ok m).
    { intros c z z' H. unfold getM, ratio. cbn [half2 hGcov]. cbv zeta. destruct (Req_EM_T (det3 (Gcov2 (sgeo2 c))) 0); [contradiction|].
      replace (det3 (Gcov2 (sgeo2 c)) / det3 (Gcov2 (sgeo2 c))) with 1 by (field; assumption). destruct (Rle_dec 0 1); [|lra]. cbn [obind]. eexists; reflexivity. }
    assert (V : forall q, det3 (Gcov2 (sgeo2 (aori q))) <> 0 -> pstiff plin_res plin_tan 1 [q] (fun _ _ => 0) 0 0 0 0
      = Ok (aw q * measure (aori q) * (fz (athick q) 0 * dot3 (rowmat (Em_der (aori q) (bvar 0 (abas q 0%nat))) (voigt (Cijkl (pE (apar q)) (pnu (apar q)) (Acov2 (sgeo2 (aori q)))))) (Em_der (aori q) (bvar 0 (abas q 0%nat)))))).
    { intros q H. cbn [pstiff]. cbv zeta. rewrite Z. unfold plin_res, plin_tan, lin_vector, lin_matrix, apt2. cbn [planar_pt po pd pT].
      destruct (G (aori q) (0 * athick q) (0 * athick q) H) as (m & ->). cbn [obind]. f_equal.
      assert (S : forall a, Svoigt (pE (apar q)) (pnu (apar q)) (Acov2 (sgeo2 (aori q))) (E_members KMembrane (half2 (sgeo2 (aori q)) (0 * athick q)) (half2 (sgeo2 (aori q)) (0 * athick q))) a = 0).
      { intro a. unfold Svoigt, Sij, E_members. destruct a as [|[|a]]; ring. }
      cbn [half2 hAcon]. change (Acon2_member (sgeo2 (aori q))) with (Acov2 (sgeo2 (aori q))). unfold Kstiff_mem, flatdot. rewrite !S. unfold dot3, rowmat, sum3. ring. }
    assert (M1 : measure exo = 1).
    { unfold measure, norm3. replace (dot3 _ _) with 1; [apply sqrt_1|]. unfold dot3, sum3, cross3. cbn. ring. }
    assert (M2 : measure (jrepar dblP (fun _ _ => 0) exo) = 4) by (rewrite msr, D, Rabs_right, M1 by lra; ring).
    assert (F : fz 1 0 = 1) by (unfold fz, multiplyZ; cbn; field).
    split; rewrite V; cbn [exq exq2 aw abas aori arule athick apar pE pnu]; rewrite ?D1, ?D2, ?M1, ?M2, ?F; try lra; f_equal;
      unfold dot3, rowmat, sum3; cbn [voigt]; unfold Cijkl, Acov2, Em_der, bvar, srepar, srow, jrepar, exo, exb, sgeo2, ex1, ex2, dblP, Cconstant, mu_of, lambda_of, dot3, sum3, sum2, vecFun; cbn; field.
Qed.
Print Assumptions C135_planar_linear_refuted.

(* ... while its stress resultants are its matrix times the membrane strains *)
Theorem C135_planar_linear_law : forall q def N C, plin_res q def = Ok N -> plin_tan q def = Ok C -> 
  j1 (aori q) 2%nat = 0 -> j2 (aori q) 2%nat = 0 -> j1 def 2%nat = 0 -> j2 def 2%nat = 0 ->
  forall a, (a < 3)%nat -> N a = sum3 (fun b => C a b * mem_strain (aori q) def b).
Proof.
  intros q def N C HN HC A1 A2 D1 D2 a Ha. unfold plin_res, lin_vector, apt2 in HN. unfold plin_tan, lin_matrix, apt2 in HC. cbn [planar_pt po pd pT] in HN, HC.
  destruct (getM _ _); cbn [obind] in HN, HC; try discriminate. injection HN as <-. injection HC as <-.
  cbn [half2 hAcon]. rewrite LinearProofs.Svoigt_matrix by (try assumption; intros i j Hi Hj; idx2 i Hi; idx2 j Hj; cbn; unfold Acon2_member, Acov2, sgeo2, sum2; cbn; ring).
  set (V := voigt _). unfold mvec3, sum3, mem_strain, E_members, half2. cbn [hAcov]. unfold Acov2, sgeo2, sum2, dot3, sum3. cbn. rewrite A1, A2, D1, D2. field.
Qed.
Print Assumptions C135_planar_linear_law.
Definition exwide : jet := mkjet vzero (fun k => 2 * j1 exo k) (j2 exo) (j11 exo) (j22 exo) (j12 exo).
Definition exthick : apoint := mkap 1 exb exo [(/ 2, - / 4); (/ 2, / 4)] 2 (mkPar 1 0 0).
Example ex_C135_planar_linear_law : exists N C, plin_res exthick exwide = Ok N /\ plin_tan exthick exwide = Ok C /\ mem_strain exo exwide 0%nat = 3 / 2 /\ C 0%nat 0%nat = 2 /\ N 0%nat = 3.
Proof.
  assert (D1 : det3 (Gcov2 (sgeo2 exo)) = 1) by (unfold det3, Gcov2, Acov2, sgeo2, exo, sum2, ex1, ex2; cbn; ring).
  assert (D2 : det3 (Gcov2 (sgeo2 exwide)) = 4) by (unfold det3, Gcov2, Acov2, sgeo2, exwide, exo, sum2, ex1, ex2; cbn; ring).
  assert (G : exists m, getM (half2 (sgeo2 exo) (0 * 2)) (half2 (sgeo2 exwide) (0 * 2)) = Ok m).
  { unfold getM, ratio. cbn [half2 hGcov]. cbv zeta. rewrite D1, D2. destruct (Req_EM_T 1 0); [lra|]. destruct (Rle_dec 0 (4 / 1)); [|lra]. cbn [obind]. eexists; reflexivity. }
  destruct G as (m & G). assert (F : fz 2 0 = 2) by (unfold fz, multiplyZ; cbn; field).
  unfold plin_res, plin_tan, lin_vector, lin_matrix, apt2, exthick. cbn [aori athick apar planar_pt po pd pT pE pnu]. rewrite G. cbn [obind].
  eexists. eexists. split; [reflexivity|]. split; [reflexivity|]. rewrite F.
  assert (M : mem_strain exo exwide 0%nat = 3 / 2) by (unfold mem_strain, exwide, exo, ex1, ex2, dot3, sum3; cbn; field).
  split; [exact M|]. cbn [half2 hAcon]. unfold Svoigt, Sij, voigt, Cijkl, Cconstant, lambda_of, mu_of, E_members, half2. cbn [hAcov]. unfold Acon2_member, Acov2, sgeo2, sum2, exwide, exo, ex1, ex2. cbn. split; field.
Qed.
