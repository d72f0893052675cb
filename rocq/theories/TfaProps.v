(* C140: reported wrinkles and the accuracy of the stress for an approximate angle *)
From Coq Require Import Reals Lra Lia List Psatz Classical.
From Coquelicot Require Import Coquelicot.
From Verif Require Import Tensor TFTModel TFTSpec TFTProofs TFTRoot TFTBranch TFTWrinkle TFTImplicit TFTBranchProps KinModel KinSpec TfrModel TfrSpec TfrProofs TfrProps TfaModel TfaSpec TfaProofs.
Open Scope R_scope.

(* The reported angle and amount describe the reported strain and stress: the strain is the deformation's plus g n(x)n,
   the stress is the inner stress of that strain and has no component along n. *)
Theorem C140_reported : forall mult C E tf theta th, posdef3 C -> tft_theta C E tf theta = Ok (Some th) ->
  exists g X S, tft_gamma C E tf theta = Ok (Some g) /\ tft_strain mult C E tf theta = Ok X /\ tft_stress mult C E tf theta = Ok S /\
    (forall i, (i < 3)%nat -> X i = E i + g * dyad th i) /\ (forall i, (i < 3)%nat -> S i = inner_stress C X i) /\
    along (stress_tensor S) (wdir th) (wdir th) = 0.
Proof.
  intros mult C E tf theta th HP H. apply report_ok in H. destruct H as (-> & T).
  exists (gamma th C (inner_stress C E)), (compute_E th C (inner_stress C E) E), (compute_S th C (inner_stress C E)).
  split; [apply report_ok; split; [reflexivity|rewrite T; reflexivity]|].
  split; [unfold tft_strain, strain_at; rewrite dispatch_wrinkled, T; reflexivity|].
  split; [unfold tft_stress, stress_at; rewrite dispatch_wrinkled, T; reflexivity|].
  split; [intros i Hi; unfold compute_E; rewrite dyad_n1; reflexivity|].
  split.
  - intros i Hi. rewrite approx_S. unfold inner_stress at 1 4, plus3, compute_E, sum3. rewrite !dyad_n1. reflexivity.
  - apply no_normal_stress. assert (X := posdef_D C th HP). lra.
Qed.
Print Assumptions C140_reported.
(* no angle is reported exactly for the taut and slack points *)
Theorem C140_not_reported : forall C E tf theta, (exists r, tft_theta C E tf theta = Ok r) ->
  (tft_theta C E tf theta = Ok None <-> tf = 1 \/ tf = -1) /\ (tft_theta C E tf theta = Ok None <-> tft_gamma C E tf theta = Ok None).
Proof.
  intros C E tf theta (r & H). unfold tft_gamma, tft_theta, report in *. destruct (Req_EM_T tf 1); [tauto|]. destruct (Req_EM_T tf (-1)); [tauto|].
  destruct (Req_EM_T tf 0); [|discriminate]. destruct (theta C (inner_stress C E) E); try discriminate. cbn. split; split; try discriminate. intros [q|q]; lra.
Qed.
Print Assumptions C140_not_reported.

(* where no angle is reported the strain is that of the deformation, times the slack multiplier at slack points; the stress belongs to it *)
Theorem C140_taut_or_slack : forall mult C E tf theta, tft_theta C E tf theta = Ok None -> exists k X S, ((tf = 1 /\ k = 1) \/ (tf = -1 /\ k = mult)) /\
  tft_strain mult C E tf theta = Ok X /\ tft_stress mult C E tf theta = Ok S /\ forall i, (i < 3)%nat -> X i = k * E i /\ S i = inner_stress C X i.
Proof.
  intros mult C E tf theta H. unfold tft_theta, report in H. unfold tft_strain, tft_stress, strain_at, stress_at, dispatch.
  destruct (Req_EM_T tf 1) as [T|T].
  - exists 1, E, (inner_stress C E). split; [left; split; [exact T|reflexivity]|]. split; [reflexivity|]. split; [reflexivity|]. intros i _. split; [ring|reflexivity].
  - destruct (Req_EM_T tf (-1)) as [T'|T'].
    + exists mult, (smul mult E), (smul mult (inner_stress C E)). split; [right; split; [exact T'|reflexivity]|]. split; [reflexivity|]. split; [reflexivity|].
      intros i _. unfold smul, inner_stress, sum3. split; ring.
    + destruct (Req_EM_T tf 0); [|discriminate]. destruct (theta C (inner_stress C E) E); discriminate.
Qed.
Print Assumptions C140_taut_or_slack.
Example ex_C140_taut_or_slack : exists X S, tft_theta (fun i j => if Nat.eqb i j then 2 else 0) (fun _ => -3) (-1) (fun _ _ _ => Throw) = Ok None /\
  tft_strain (/ 3) (fun i j => if Nat.eqb i j then 2 else 0) (fun _ => -3) (-1) (fun _ _ _ => Throw) = Ok X /\
  tft_stress (/ 3) (fun i j => if Nat.eqb i j then 2 else 0) (fun _ => -3) (-1) (fun _ _ _ => Throw) = Ok S /\ X 0%nat = -1 /\ S 0%nat = -2.
Proof.
  unfold tft_theta, report, tft_strain, tft_stress, strain_at, stress_at, dispatch. destruct (Req_EM_T (-1) 1); [lra|]. destruct (Req_EM_T (-1) (-1)); [|lra].
  eexists. eexists. split; [reflexivity|]. split; [reflexivity|]. split; [reflexivity|]. unfold smul, inner_stress, sum3. cbn. split; field.
Qed.

(* The angle need not solve the wrinkling equation: if the reported amount is not negative and the reported stress is tensile along m, the
   distance to the exact stress is bounded by the reported values alone; whatever the exact state is. *)
Theorem C140_accuracy : forall mult C E tf theta th g S lam tf' th' theta', sym3 C -> posdef3 C -> 0 < lam -> stiff lam C ->
  tft_theta C E tf theta = Ok (Some th) -> tft_gamma C E tf theta = Ok (Some g) -> tft_stress mult C E tf theta = Ok S ->
  0 <= g -> 0 < tension_of S th ->
  describes C E tf' th' -> (tf' = 0 -> theta' C (inner_stress C E) E = Ok th') ->
  exists S' D, tft_stress 0 C E tf' theta' = Ok S' /\ (forall i, (i < 3)%nat -> S' i - S i = inner_stress C D i) /\
    inner_energy C D <= error_bound lam S th g /\
    lam * (D 0%nat * D 0%nat + D 1%nat * D 1%nat + D 2%nat * D 2%nat / 2) <= 2 * error_bound lam S th g.
Proof.
  intros mult C E tf theta th g S lam tf' th' theta' HS HP HL HF HT HG HSt G T D TH.
  apply report_ok in HT. destruct HT as (-> & HT). unfold tft_gamma in HG. rewrite HT in HG. apply report_ok in HG. destruct HG as (_ & HG). cbn in HG. injection HG as <-.
  unfold tft_stress, stress_at in HSt. rewrite dispatch_wrinkled, HT in HSt. cbn in HSt. injection HSt as <-.
  destruct (stress_returned 0 C E tf' th' theta' D TH) as (S' & K & SE). assert (KK := describes_kkt _ _ _ _ HS HP D).
  set (P := fun i => gamma th C (inner_stress C E) * dyad th i). set (Ps := wrinkle_strain C E tf' th') in *.
  assert (A : forall i, compute_S th C (inner_stress C E) i = inner_stress C (plus3 E P) i) by (intro i; apply approx_S).
  assert (TE : tension_of (compute_S th C (inner_stress C E)) th = tension_of (inner_stress C (plus3 E P)) th) by (unfold tension_of, along, sum2, stress_tensor; rewrite !A; reflexivity).
  assert (SE2 : shear_of (compute_S th C (inner_stress C E)) th = shear_of (inner_stress C (plus3 E P)) th) by (unfold shear_of, along, sum2, stress_tensor; rewrite !A; reflexivity).
  assert (EB : error_bound lam (compute_S th C (inner_stress C E)) th (gamma th C (inner_stress C E)) = error_bound lam (inner_stress C (plus3 E P)) th (gamma th C (inner_stress C E)))
    by (unfold error_bound, misfit; rewrite TE, SE2; reflexivity).
  rewrite TE in T. destruct (approx_bound C E Ps th lam HS HP HL HF KK G T) as (B & _). fold P in B.
  exists S', (minus3 (plus3 E Ps) (plus3 E P)). split; [exact K|]. split; [|split].
  - intros i Hi. rewrite (SE i Hi), A. destruct (Req_EM_T tf' (-1)); unfold inner_stress, minus3, sum3; ring.
  - rewrite EB. exact B.
  - rewrite EB. eapply Rle_trans; [apply HF|]. unfold inner_energy in B. lra.
Qed.
Print Assumptions C140_accuracy.

(* the energy of the reported strain is within the bound of the relaxed energy *)
Theorem C140_energy : forall mult C E tf theta th g S X lam w, sym3 C -> posdef3 C -> 0 < lam -> stiff lam C ->
  tft_theta C E tf theta = Ok (Some th) -> tft_gamma C E tf theta = Ok (Some g) -> tft_stress mult C E tf theta = Ok S -> tft_strain mult C E tf theta = Ok X ->
  0 <= g -> 0 < tension_of S th -> relaxed C E w -> w <= inner_energy C X <= w + 2 * error_bound lam S th g.
Proof.
  intros mult C E tf theta th g S X lam w HS HP HL HF HT HG HSt HX G T RW.
  apply report_ok in HT. destruct HT as (-> & HT). unfold tft_gamma in HG. rewrite HT in HG. apply report_ok in HG. destruct HG as (_ & HG). cbn in HG. injection HG as <-.
  unfold tft_stress, stress_at in HSt. rewrite dispatch_wrinkled, HT in HSt. cbn in HSt. injection HSt as <-.
  unfold tft_strain, strain_at in HX. rewrite dispatch_wrinkled, HT in HX. cbn in HX. injection HX as <-.
  destruct (state_exists C E HS HP) as (tf' & th' & D). assert (KK := describes_kkt _ _ _ _ HS HP D).
  rewrite (relaxed_unique C E _ _ RW (kkt_relaxed _ _ _ HS HP KK)).
  set (P := fun i => gamma th C (inner_stress C E) * dyad th i). set (Ps := wrinkle_strain C E tf' th') in *.
  assert (A : forall i, compute_S th C (inner_stress C E) i = inner_stress C (plus3 E P) i) by (intro i; apply approx_S).
  assert (TE : tension_of (compute_S th C (inner_stress C E)) th = tension_of (inner_stress C (plus3 E P)) th) by (unfold tension_of, along, sum2, stress_tensor; rewrite !A; reflexivity).
  assert (SE2 : shear_of (compute_S th C (inner_stress C E)) th = shear_of (inner_stress C (plus3 E P)) th) by (unfold shear_of, along, sum2, stress_tensor; rewrite !A; reflexivity).
  assert (EB : error_bound lam (compute_S th C (inner_stress C E)) th (gamma th C (inner_stress C E)) = error_bound lam (inner_stress C (plus3 E P)) th (gamma th C (inner_stress C E)))
    by (unfold error_bound, misfit; rewrite TE, SE2; reflexivity).
  rewrite TE in T. destruct (approx_bound C E Ps th lam HS HP HL HF KK G T) as (_ & B). fold P in B.
  assert (EX : inner_energy C (compute_E th C (inner_stress C E) E) = inner_energy C (plus3 E P)).
  { unfold inner_energy, sum3, compute_E, plus3, P. rewrite !dyad_n1. reflexivity. }
  rewrite EX, EB. lra.
Qed.
Print Assumptions C140_energy.

(* the shear of the reported stress is the residual of the wrinkling equation; without residual the stress is exact *)
Theorem C140_residual : forall mult C E tf theta th S, tft_theta C E tf theta = Ok (Some th) -> tft_stress mult C E tf theta = Ok S ->
  shear_of S th = objf C (inner_stress C E) th.
Proof.
  intros mult C E tf theta th S HT HSt. apply report_ok in HT. destruct HT as (-> & HT).
  unfold tft_stress, stress_at in HSt. rewrite dispatch_wrinkled, HT in HSt. cbn in HSt. injection HSt as <-. apply shear_is_residual.
Qed.
Print Assumptions C140_residual.
Theorem C140_exact : forall mult C E tf theta th g S tf' th' theta' lam, sym3 C -> posdef3 C -> 0 < lam -> stiff lam C ->
  tft_theta C E tf theta = Ok (Some th) -> tft_gamma C E tf theta = Ok (Some g) -> tft_stress mult C E tf theta = Ok S ->
  0 <= g -> 0 < tension_of S th -> objf C (inner_stress C E) th = 0 ->
  describes C E tf' th' -> (tf' = 0 -> theta' C (inner_stress C E) E = Ok th') ->
  exists S', tft_stress 0 C E tf' theta' = Ok S' /\ forall i, (i < 3)%nat -> S' i = S i.
Proof.
  intros mult C E tf theta th g S tf' th' theta' lam HS HP HL HF HT HG HSt G T R D TH.
  destruct (C140_accuracy mult C E tf theta th g S lam tf' th' theta' HS HP HL HF HT HG HSt G T D TH) as (S' & Dv & K & SE & B & _).
  assert (Z := C140_residual mult C E tf theta th S HT HSt). exists S'. split; [exact K|].
  assert (B0 : error_bound lam S th g = 0) by (unfold error_bound, misfit; rewrite Z, R; field; lra). rewrite B0 in B.
  assert (DZ := energy_zero C Dv HP B). intros i Hi. specialize (SE i Hi). unfold inner_stress, sum3 in SE. rewrite !DZ in SE by lia. lra.
Qed.
Print Assumptions C140_exact.

(* A negative amount (an angle that was not checked): the wrinkling equation holds, but the stress is compressive. *)
Lemma iso3_stiff : stiff (70/91) iso3.
Proof.
  intro v. unfold sum3, iso3. assert (Q := Rle_0_sqr (v 0%nat + v 1%nat)). unfold Rsqr in Q. lra.
Qed.
Theorem C140_unchecked_refuted : exists C E theta th S, sym3 C /\ posdef3 C /\ tft_theta C E 0 theta = Ok (Some th) /\ tft_stress 0 C E 0 theta = Ok S /\
  objf C (inner_stress C E) th = 0 /\ ~ psd_stress S.
Proof.
  exists iso3, (v3 1 (-1) 0), (fun _ _ _ => Ok 0), 0, (compute_S 0 iso3 (inner_stress iso3 (v3 1 (-1) 0))).
  split; [exact iso3_sym|]. split; [exact iso3_posdef|]. split; [apply report_ok; auto|].
  split; [unfold tft_stress, stress_at; rewrite dispatch_wrinkled; reflexivity|]. split.
  - unfold objf, gamma, quad, dot3, mvec3, sum3, n1v, n2v, v3, inner_stress, iso3, sum3. rewrite cos_0, sin_0. field. 
  - intro H. specialize (H (PI / 2)). unfold along, sum2, wdir, stress_tensor in H. rewrite cos_PI2, sin_PI2 in H.
    unfold compute_S, gamma, quad, dot3, mvec3, sum3, n1v, v3, inner_stress, iso3, sum3 in H. rewrite cos_0, sin_0 in H.
    match type of H with 0 <= ?X => replace X with (-1) in H by field end. lra.
Qed.
Print Assumptions C140_unchecked_refuted.

(* An angle of about 73.7 degrees where 90 degrees is exact: the bound applies, and the residual is not zero. *)
Example C140_case : exists th g S, let C := iso3 in let E := v3 1 (-1) 0 in let theta := fun _ _ _ => Ok th in
  tft_theta C E 0 theta = Ok (Some th) /\ tft_gamma C E 0 theta = Ok (Some g) /\ tft_stress 0 C E 0 theta = Ok S /\
  0 <= g /\ 0 < tension_of S th /\ shear_of S th <> 0 /\ describes C E 0 (PI / 2) /\
  error_bound (70/91) S th g <= 3/10.
Proof.
  set (th := acos (7/25)).
  assert (Cc : cos th = 7/25) by (unfold th; apply cos_acos; lra).
  assert (Sc : sin th = 24/25).
  { unfold th. rewrite sin_acos by lra. replace (1 - (7/25)²) with ((24/25) * (24/25)) by (unfold Rsqr; field). apply sqrt_square. lra. }
  set (g := 7/10 * (527/625)). set (S := compute_S th iso3 (inner_stress iso3 (v3 1 (-1) 0))).
  assert (Gv : gamma th iso3 (inner_stress iso3 (v3 1 (-1) 0)) = g).
  { unfold g, gamma, quad, dot3, mvec3, sum3, n1v, v3, inner_stress, iso3, sum3. rewrite Cc, Sc. field. }
  assert (Sv : shear_of S th = - (336/625 * (10/13))).
  { unfold shear_of. unfold S. rewrite shear_is_residual. unfold objf. rewrite Gv. unfold g, quad, dot3, mvec3, sum3, n1v, n2v, v3, inner_stress, iso3, sum3. rewrite Cc, Sc. field. }
  assert (Tv : tension_of S th = 527/625).
  { unfold tension_of, along, sum2, tdir, stress_tensor, S, compute_S. rewrite Gv. unfold g, mvec3, sum3, n1v, v3, inner_stress, iso3, sum3. rewrite Cc, Sc. field. }
  exists th, g, S. cbv zeta. split; [apply report_ok; auto|]. split; [apply report_ok; split; [reflexivity|cbn [bindo]; rewrite Gv; reflexivity]|].
  split; [unfold tft_stress, stress_at; rewrite dispatch_wrinkled; reflexivity|].
  split; [unfold g; lra|]. split; [lra|]. split; [lra|]. split.
  - apply (is_wrinkled _ _ _ _ (7/10) 1); [reflexivity|]. split; [lra|]. split; [lra|].
    intros a b Ha Hb. destruct a as [|[|]]; [| |lia]; (destruct b as [|[|]]; [| |lia]); unfold stress_tensor, sum3, iso3, v3, dyad, wdir, tdir; rewrite ?cos_PI2, ?sin_PI2; field.
  - unfold error_bound, misfit. rewrite Sv, Tv. unfold g. lra.
Qed.
