(* Property theorems C130: what the stress and matrix evaluations of a compressible or incompressible hyperelastic shell return, the
   agreement of two implementations, and states in which they are guaranteed to answer.  Further theorems of C116, C117. *)
From Coq Require Import Reals List Lra Lia Arith Bool FunctionalExtensionality.
From Coquelicot Require Import Coquelicot.
From Verif Require Import Tensor MetricModel MetricSpec MetricProofs LinearModel NonlinearModel NonlinearSpec NonlinearProofs EnergyProofs SpectralModel
  Newton33Model Newton33Spec PlaneStressProofs PrincipalModel SizeModel StretchModel PtModel PtSpec PtProofs PSConvSpec PSConvProofs PSConvProps.
Open Scope R_scope.

Lemma shell_adm go gd s : 0 < det2 (Gcov go s) -> 0 < det2 (Gcov gd s) -> adm (Gcov go s) (Gcov gd s).
Proof.
  intros A B. destruct (Gcov_plane go s) as [P _]. destruct (Gcov_plane gd s) as [Q _]. exact (conj P (conj Q (conj A B))).
Qed.
Lemma shell_getM go gd s : 0 < det2 (Gcov go s) -> 0 < det2 (Gcov gd s) -> getM (half3 go s) (half3 gd s) = Ok (metric_of (Gcov go s) (Gcov gd s)).
Proof.
  intros A B. destruct (shell_adm go gd s A B) as (S1 & S2 & _). unfold getM, ratio. cbn [half3 hGcov hGcon]. 
  rewrite !det3_shellG by assumption. destruct (Req_EM_T _ 0) as [Z|Z]; [lra|]. destruct (Rle_dec 0 _) as [L|L].
  - cbn [obind]. unfold metric_of, Gcon. rewrite !det3_shellG by assumption. reflexivity.
  - exfalso. apply L. apply Rlt_le, Rdiv_lt_0_compat; assumption.
Qed.
(* C130: compressible laws.  Both implementations solve for the thickness first and return the stress and the condensed tensor there. *)
Theorem C130_compressible : forall close eps epsm eig imp l go gd t p z, imp = Analytical \/ imp = Generalized ->
  0 < det2 (Gcov go (z * t)) -> 0 < det2 (Gcov gd (z * t)) -> let m := metric_of (Gcov go (z * t)) (Gcov gd (z * t)) in
  let c33 := c33_of eps (fun c => S_comp l p m c 2%nat 2%nat) (fun c => C3D l p m c 2%nat 2%nat 2%nat 2%nat) (J0 m) in
  eval_stress close eps epsm eig true imp (L l) (shell_pt go gd t p) z =
    match c33 with Ok c => Ok (stress_out (close (inv3 (Gcov go (z * t))) (inv3 (Gcov gd (z * t)))) (S_comp l p m c)) | Throw => Throw | UB => UB end /\
  eval_matrix eps epsm eig true imp (L l) (shell_pt go gd t p) z =
    match c33 with Ok c => Ok (matrix_out (condense (C3D l p m c))) | Throw => Throw | UB => UB end.
Proof.
  intros close eps epsm eig imp l go gd t p z HI A B m c33.
  assert (ES : forall c, S_comp_gen l p m c = S_comp l p m c) by (intro; extensionality i; extensionality j; apply gen_S_comp).
  assert (EC : forall c, C3D_gen l p m c = C3D l p m c) by (intro; extensionality i; extensionality j; extensionality k; extensionality k'; apply gen_C3D).
  unfold eval_stress, eval_matrix, stress_pt, matrix_pt, stress_comp, matrix_comp, c33_pt. cbn [shell_pt po pd pT pp].
  rewrite shell_getM by assumption. cbn [obind half3 hGcon hgcon]. fold m. fold (Gcon go (z * t)) (Gcon gd (z * t)).
  destruct HI as [-> | ->]; unfold S_c, C_c, C3333_c.
  - fold c33. destruct c33; cbn [obind]; split; reflexivity.
  - replace (c33_of eps (fun c => S_comp_gen l p m c 2%nat 2%nat) (fun c => C3D_gen l p m c 2%nat 2%nat 2%nat 2%nat) (J0 m)) with c33.
    2:{ unfold c33. f_equal; extensionality c; [rewrite ES|rewrite EC]; reflexivity. }
    destruct c33; cbn [obind]; rewrite ?ES, ?EC; split; reflexivity.
Qed.
Print Assumptions C130_compressible.
(* incompressible laws: no iteration, never fails *)
Theorem C130_incompressible : forall close eps epsm eig imp l go gd t p z, imp = Analytical \/ (imp = Generalized /\ l <> NHe) ->
  0 < det2 (Gcov go (z * t)) -> 0 < det2 (Gcov gd (z * t)) -> let m := metric_of (Gcov go (z * t)) (Gcov gd (z * t)) in
  same vec3eq (eval_stress close eps epsm eig false imp (L l) (shell_pt go gd t p) z)
    (Ok (stress_out (close (inv3 (Gcov go (z * t))) (inv3 (Gcov gd (z * t)))) (S_inc l p m))) /\
  same mat3eq (eval_matrix eps epsm eig false imp (L l) (shell_pt go gd t p) z) (Ok (matrix_out (C_inc l p m))).
Proof.
  intros close eps epsm eig imp l go gd t p z HI A B m. pose proof (shell_adm go gd (z * t) A B) as AD.
  unfold eval_stress, eval_matrix, stress_pt, matrix_pt, stress_inc, matrix_inc. cbn [shell_pt po pd pT pp].
  rewrite shell_getM by assumption. cbn [obind half3 hGcon hgcon same]. fold m. fold (Gcon go (z * t)) (Gcon gd (z * t)).
  destruct HI as [-> | [-> NW]]; unfold S_i, C_i; split; intros i; intros.
  - reflexivity.
  - reflexivity.
  - unfold stress_out. destruct (close _ _); [reflexivity|]. destruct i as [|[|i]]; apply (gen_S_inc_adm l p _ _ _ _ NW AD); lia.
  - apply (matrix_out_in). intros a b c d Ha Hb Hc Hd. apply gen_C_inc_adm; assumption.
Qed.
Print Assumptions C130_incompressible.
Lemma c33_law_eq eps l p m : c33_law eps l p m = c33_of eps (fun c => S_comp l p m c 2%nat 2%nat) (fun c => C3D l p m c 2%nat 2%nat 2%nat 2%nat) (J0 m).
Proof. reflexivity. Qed.
Lemma match_ok {A B} (x : outcome A) (f : A -> B) (y : outcome B) c : y = match x with Ok a => Ok (f a) | Throw => Throw | UB => UB end -> x = Ok c -> y = Ok (f c).
Proof. intros -> ->. reflexivity. Qed.
(* In moderate states a compressible material answers: stress and matrix are those of a thickness component below and within 5e-10 of
   the one with zero transverse stress. *)
Theorem C130_answers : forall close eps epsm eig imp l go gd t p z, imp = Analytical \/ imp = Generalized -> good_par l p -> 0 <= eps <= tol / 2 ->
  0 < det2 (Gcov go (z * t)) -> 0 < det2 (Gcov gd (z * t)) -> 0 < Gcov go (z * t) 0%nat 0%nat -> 0 < Gcov gd (z * t) 0%nat 0%nat ->
  let m := metric_of (Gcov go (z * t)) (Gcov gd (z * t)) in moderate (traceCt m) (J0 m) ->
  exists r c, 0 < r /\ S_comp l p m r 2%nat 2%nat = 0 /\ r - 5 / 10000000000 < c <= r /\
    eval_stress close eps epsm eig true imp (L l) (shell_pt go gd t p) z =
      Ok (stress_out (close (inv3 (Gcov go (z * t))) (inv3 (Gcov gd (z * t)))) (S_comp l p m c)) /\
    eval_matrix eps epsm eig true imp (L l) (shell_pt go gd t p) z = Ok (matrix_out (condense (C3D l p m c))).
Proof.
  intros close eps epsm eig imp l go gd t p z HI GP HE A B PO PG m M.
  destruct (C129_returns l p (Gcov go (z * t)) (Gcov gd (z * t)) eps (shell_adm go gd _ A B) PO PG GP M HE) as (r & c & (Pr & Z & _) & E & D).
  fold m in E, Z. exists r, c. split; [exact Pr|]. split; [exact Z|]. split; [exact D|].
  destruct (C130_compressible close eps epsm eig imp l go gd t p z HI A B) as [E1 E2]. fold m in E1, E2.
  rewrite c33_law_eq in E. split; [exact (match_ok _ _ _ _ E1 E)|exact (match_ok _ _ _ _ E2 E)].
Qed.
Print Assumptions C130_answers.

(* C117: a prescribed tensor with negative determinant is rejected by every law and implementation *)
Theorem C117_indefinite : forall close eps epsm eig comp imp w go gd t p C z, 0 < det2 (Gcov go (z * t)) -> C 0%nat * C 1%nat - C 2%nat * C 2%nat < 0 ->
  eval_stress_C close eps epsm eig comp imp w (shell_pt go gd t p) C z = Throw /\ eval_matrix_C eps epsm eig comp imp w (shell_pt go gd t p) C z = Throw.
Proof.
  intros close eps epsm eig comp imp w go gd t p C z A N.
  assert (E : getM (half3 go (z * t)) (halfC C) = Throw).
  { unfold getM, ratio. cbn [half3 halfC hGcov hGcon]. destruct (Gcov_plane go (z * t)) as [P _]. rewrite (det3_shellG _ P).
    replace (det3 (G_of C)) with (C 0%nat * C 1%nat - C 2%nat * C 2%nat) by (unfold det3, G_of; ring).
    destruct (Req_EM_T _ 0) as [Z|Z]; [lra|]. destruct (Rle_dec 0 _) as [L|L]; [|reflexivity]. exfalso.
    assert (0 < / det2 (Gcov go (z * t))) by (apply Rinv_0_lt_compat; exact A).
    assert ((C 0%nat * C 1%nat - C 2%nat * C 2%nat) / det2 (Gcov go (z * t)) < 0 / det2 (Gcov go (z * t))) by (apply Rmult_lt_compat_r; assumption). unfold Rdiv in *. lra. }
  unfold eval_stress_C, eval_matrix_C, stress_pt, matrix_pt, stress_comp, matrix_comp, stress_inc, matrix_inc, c33_pt. cbn [shell_pt po pd pT pp].
  destruct comp; rewrite E; split; reflexivity.
Qed.
Print Assumptions C117_indefinite.
(* C117: ... and where the undeformed metric is singular the volume change of a regular one is not defined *)
Theorem C117_degenerate : forall close eps epsm eig comp imp w go gd t p C z, det2 (Gcov go (z * t)) = 0 -> C 0%nat * C 1%nat - C 2%nat * C 2%nat <> 0 ->
  eval_stress_C close eps epsm eig comp imp w (shell_pt go gd t p) C z = UB /\ eval_matrix_C eps epsm eig comp imp w (shell_pt go gd t p) C z = UB.
Proof.
  intros close eps epsm eig comp imp w go gd t p C z A N.
  assert (E : getM (half3 go (z * t)) (halfC C) = UB).
  { unfold getM, ratio. cbn [half3 halfC hGcov hGcon]. destruct (Gcov_plane go (z * t)) as [P _]. rewrite (det3_shellG _ P).
    replace (det3 (G_of C)) with (C 0%nat * C 1%nat - C 2%nat * C 2%nat) by (unfold det3, G_of; ring).
    destruct (Req_EM_T _ 0) as [Z|Z]; [|contradiction]. destruct (Req_EM_T _ 0) as [Y|Y]; [contradiction|reflexivity]. }
  unfold eval_stress_C, eval_matrix_C, stress_pt, matrix_pt, stress_comp, matrix_comp, stress_inc, matrix_inc, c33_pt. cbn [shell_pt po pd pT pp].
  destruct comp; rewrite E; split; reflexivity.
Qed.
Print Assumptions C117_degenerate.
(* the collapsed edge of a triangular patch, mid-surface *)
Example ex_C117_degenerate : det2 (Gcov (mkGeo (fun i c => match i, c with 0%nat, 0%nat => 1 | _, _ => 0 end) (fun _ _ => 0)) (0 * / 10)) = 0.
Proof. unfold det2. cbn [Gcov]. rewrite !Rmult_0_l, !Rmult_0_r, !Rmult_0_l. unfold Acov, dot3, sum3. cbn. ring. Qed.
(* C116: the mid-surface contravariant basis kept for planar elements is dual to the tangents; the one kept for shells is the tangents *)
Theorem C116_contravariant_basis : forall (g : geo2) (s : geo) z i j, jac2 g <> 0 -> (i < 2)%nat -> (j < 2)%nat ->
  hacon (half2 g z) i 0%nat * tang2 g j 0%nat + hacon (half2 g z) i 1%nat * tang2 g j 1%nat = delta i j /\ hacon (half3 s z) i = tang s i.
Proof.
  intros g s z i j J Hi Hj. split; [|reflexivity]. cbn [half2 hacon]. unfold acon2, inv2, Acov2.
  assert (D : det2 (fun i j => sum2 (fun c => tang2 g i c * tang2 g j c)) = jac2 g * jac2 g) by (unfold det2, sum2, jac2; ring).
  assert (N : jac2 g * jac2 g <> 0) by (apply Rmult_integral_contrapositive_currified; assumption).
  destruct i as [|[|]]; [| |lia]; destruct j as [|[|]]; try lia; unfold delta; cbn [Nat.eqb]; fold (Acov2 g); unfold Acov2; rewrite D; unfold sum2, jac2 in *; field; intro Z; apply J; nra.
Qed.
Print Assumptions C116_contravariant_basis.
(* C117: the stress of a linear material at one height of a shell, for the three groups of outputs *)
Theorem C117_linear_stress : forall E nu k go gd t p z, 0 < det2 (Gcov go (z * t)) -> 0 < det2 (Gcov gd (z * t)) ->
  lin_vector E nu k (shell_pt go gd t p) z = Ok (Svoigt E nu (Acon go) (fun i j => match k with
    | KMembrane => (Acov gd i j - Acov go i j) / 2
    | KBending => Bcov go i j - Bcov gd i j
    | KGeneric => (Gcov gd (z * t) i j - Gcov go (z * t) i j) / 2 end)).
Proof.
  intros E nu k go gd t p z A B. unfold lin_vector. cbn [shell_pt po pd pT pp]. rewrite shell_getM by assumption. cbn [obind]. f_equal.
  cbn [half3 hAcon]. f_equal. extensionality i. extensionality j. unfold E_members. cbn [half3 hAcov hBcov hGcov]. destruct k; field.
Qed.
Print Assumptions C117_linear_stress.
(* ... and its stiffness, which is that of the midsurface at every height *)
Theorem C117_linear_matrix : forall E nu go gd t p z, 0 < det2 (Gcov go (z * t)) -> 0 < det2 (Gcov gd (z * t)) ->
  lin_matrix E nu (shell_pt go gd t p) z = Ok (voigt (Cijkl E nu (Acon go))).
Proof. intros E nu go gd t p z A B. unfold lin_matrix. cbn [shell_pt po pd pT pp]. rewrite shell_getM by assumption. reflexivity. Qed.
Print Assumptions C117_linear_matrix.

(* ---------- examples ---------- *)
Definition base2 : geo2 := mkGeo2 (fun i c => if Nat.eqb i c then 1 else 0).
Definition pulled2 : geo2 := mkGeo2 (fun i c => match i, c with 0%nat, 0%nat => 41 / 40 | 1%nat, 1%nat => 1 | _, _ => 0 end).
Example pulled_plate : let go := flat base2 (fun _ _ => 0) in let gd := flat pulled2 (fun _ _ => 0) in let m := metric_of (Gcov go (/ 2 * / 10)) (Gcov gd (/ 2 * / 10)) in
  0 < det2 (Gcov go (/ 2 * / 10)) /\ 0 < det2 (Gcov gd (/ 2 * / 10)) /\ 0 < Gcov go (/ 2 * / 10) 0%nat 0%nat /\ 0 < Gcov gd (/ 2 * / 10) 0%nat 0%nat /\
  moderate (traceCt m) (J0 m) /\ good_par MR (mkPar 1 (/ 4) 2) /\ 0 <= 0 <= tol / 2.
Proof.
  cbv zeta. rewrite !flat_Gcov.
  assert (EJ : J0 (metric_of (Gcov2 base2) (Gcov2 pulled2)) = 1681 / 1600) by (unfold metric_of, det3, Gcov2, Acov2, sum2, base2, pulled2; cbn; field).
  assert (ET : traceCt (metric_of (Gcov2 base2) (Gcov2 pulled2)) = 3281 / 1600) by (unfold traceCt, metric_of, inv3, det3, Gcov2, Acov2, sum2, base2, pulled2; cbn; field).
  refine (conj _ (conj _ (conj _ (conj _ (conj _ (conj _ _)))))).
  - unfold det2, Gcov2, Acov2, sum2, base2; cbn; lra.
  - unfold det2, Gcov2, Acov2, sum2, pulled2; cbn; lra.
  - unfold Gcov2, Acov2, sum2, base2; cbn; lra.
  - unfold Gcov2, Acov2, sum2, pulled2; cbn; lra.
  - rewrite EJ, ET. unfold moderate. intros x y Hx Hy. assert (I : / (1681 / 1600) = 1600 / 1681) by field. rewrite I in Hx, Hy.
    destruct Hx as [Hx|[Hx|[Hx|Hx]]]; destruct Hy as [Hy|[Hy|[Hy|Hy]]]; rewrite Hx, Hy; lra.
  - unfold good_par, mu, mu_of, bulk; cbn; lra.
  - unfold tol. lra.
Qed.
Example indefinite_ex : 0 < det2 (Gcov (flat base2 (fun _ _ => 0)) 0) /\ (fun i => match i with 2%nat => 2 | _ => 1 end : R) 0%nat * 1 - 2 * 2 < 0.
Proof. rewrite flat_Gcov. unfold det2, Gcov2, Acov2, sum2, base2; cbn; lra. Qed.
