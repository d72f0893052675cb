(* The stress of a membrane along any differentiable path of strains: derivative in the three states. *)
From Coq Require Import Reals Lra Lia List Psatz Classical FunctionalExtensionality.
From Coquelicot Require Import Coquelicot.
From Verif Require Import Tensor TFTModel TFTSpec TFTProofs TFTRoot TFTBranch TFTWrinkle TFTImplicit TFTBranchProps KinModel KinSpec TfrModel TfrSpec TfrProofs.
Import ListNotations.
Open Scope R_scope.

Lemma dv_cont (e : R -> vec) H : is_dvec e 0 H -> forall i, (i < 3)%nat -> continuous (fun t => e t i) 0.
Proof. intros D i Hi. apply (ex_derive_continuous (K := R_AbsRing) (V := R_NormedModule)). eexists. apply (D i Hi). Qed.
Lemma c_hooke C (e : R -> vec) : (forall i, (i < 3)%nat -> continuous (fun t => e t i) 0) -> forall i, continuous (fun t => hooke C (e t) i) 0.
Proof.
  intros K i. unfold hooke, sum3. apply c_plus; [apply c_plus|]; (apply c_mult; [apply continuous_const|apply K; lia]).
Qed.
Lemma d_hooke C (e : R -> vec) H : is_dvec e 0 H -> forall i, is_derive (fun t => hooke C (e t) i) 0 (sum3 (fun d => C i d * H d)).
Proof.
  intros D i. assert (K := d_dotlin (C i) e H D).
  eapply is_derive_ext; [|evar_last; [exact (is_derive_plus (K := R_AbsRing) (V := R_NormedModule) _ _ _ _ _ K (is_derive_const (K := R_AbsRing) (V := R_NormedModule) (hooke C (e 0) i) 0))|]].
  - intro t. cbv beta. unfold plus; cbn. unfold hooke, dot3, minus3, sum3. ring.
  - unfold plus, zero; cbn. unfold dot3. ring.
Qed.

Section Path.
  Variables (C : mat) (e : R -> vec) (H : vec) (th0 : R).
  Hypotheses (HS : sym3 C) (HP : posdef3 C) (D : is_dvec e 0 H) (P0 : physical C (hooke C (e 0)) (e 0) th0).
  Let S t := hooke C (e t).

  Lemma path_phys th : continuous th 0 -> th 0 = th0 -> locally 0 (fun t => objf C (S t) (th t) = 0) ->
    locally 0 (fun t => physical C (S t) (e t) (th t)).
  Proof.
    intros Ct T0 Rt. destruct P0 as (_ & N & M). assert (CE := dv_cont e H D). assert (CS := c_hooke C e CE).
    assert (A : locally 0 (fun t => 0 < - dot3 (n1v (th t)) (S t))).
    { apply (pos_near (fun t => - dot3 (n1v (th t)) (S t))).
      - apply (continuous_opp (K := R_AbsRing) (V := R_NormedModule)). unfold dot3, sum3, S.
        apply c_plus; [apply c_plus|]; (apply c_mult; [apply c_comp_n1; exact Ct|apply CS]).
      - rewrite T0. rewrite along_nn in N. unfold S. lra. }
    assert (B : locally 0 (fun t => 0 < along (strain_tensor (e t)) (tdir (th t)) (tdir (th t)))).
    { apply (filter_imp (fun t => 0 < n1v (th t) 1%nat * e t 0%nat + n1v (th t) 0%nat * e t 1%nat - n1v (th t) 2%nat * e t 2%nat * / 2)).
      { intros t K. rewrite along_mm_n1. exact K. }
      apply (pos_near (fun t => n1v (th t) 1%nat * e t 0%nat + n1v (th t) 0%nat * e t 1%nat - n1v (th t) 2%nat * e t 2%nat * / 2)).
      - apply c_minus; [apply c_plus|apply c_mult; [|apply continuous_const]]; (apply c_mult; [apply c_comp_n1; exact Ct|apply CE; lia]).
      - rewrite T0. rewrite along_mm_n1 in M. exact M. }
    generalize (filter_and _ _ Rt (filter_and _ _ A B)). apply filter_imp. intros t (R1 & A1 & B1).
    split; [exact R1|]. split; [rewrite along_nn; lra|exact B1].
  Qed.

  (* a differentiable choice of the angle *)
  Lemma path_branch : exists thb, thb 0 = th0 /\ ex_derive thb 0 /\ locally 0 (fun t => objf C (S t) (thb t) = 0) /\ locally 0 (fun t => physical C (S t) (e t) (thb t)).
  Proof.
    destruct P0 as (R0 & N0 & M0).
    destruct (physical_state th0 C (hooke C (e 0)) (e 0) HS HP (fun i _ => eq_refl) R0 N0 M0) as (_ & _ & F0).
    assert (D0 := posdef_D C th0 HP). assert (CE := dv_cont e H D). assert (CS := c_hooke C e CE). assert (DS := d_hooke C e H D).
    destruct (angle_branch (fun _ => C) S) with (x0 := th0) as (thb & d & Pd & T0 & Ctb & Rtb & _).
    { intros; apply continuous_const. } { intros i Hi. apply CS. } { exact HS. } { lra. } { exact R0. } { unfold S; lra. }
    assert (RL : locally 0 (fun t => objf C (S t) (thb t) = 0)).
    { exists (mkposreal d Pd). intros t Ht. apply Rtb. unfold ball in Ht; cbn in Ht; unfold AbsRing_ball in Ht; cbn in Ht.
      unfold abs, minus, plus, opp in Ht; cbn in Ht. rewrite Ropp_0, Rplus_0_r in Ht. exact Ht. }
    exists thb. split; [exact T0|]. split; [|split; [exact RL|exact (path_phys thb Ctb T0 RL)]].
    apply (angle_smooth (fun _ => C) S).
    - intros; apply continuous_const.
    - intros; apply ex_derive_const.
    - intros k Hk. eexists. apply DS.
    - exact HS. - rewrite T0; lra. - rewrite T0; unfold S; lra. - exact Ctb. - exact RL.
  Qed.

  Lemma path_response : locally 0 (fun t => exists th, physical C (S t) (e t) th) /\
    forall th, locally 0 (fun t => physical C (S t) (e t) (th t)) ->
    forall i, (i < 3)%nat -> is_derive (fun t => compute_S (th t) C (S t) i) 0
      (sum3 (fun j => (compute_C_lin th0 C (hooke C (e 0)) i j - coupling_term th0 C (hooke C (e 0)) i j) * H j)).
  Proof.
    assert (HL : forall t i, (i < 3)%nat -> S t i = sum3 (fun j => C i j * e t j)) by (intros; reflexivity).
    assert (DS := d_hooke C e H D). assert (D0 := posdef_D C th0 HP).
    destruct path_branch as (thb & T0 & DB & RL & PB).
    split; [revert PB; apply filter_imp; intros t Q; eexists; exact Q|].
    destruct P0 as (R0 & N0 & M0).
    destruct (physical_state th0 C (hooke C (e 0)) (e 0) HS HP (fun i _ => eq_refl) R0 N0 M0) as (_ & _ & F0).
    intros th PT i Hi.
    assert (HPth : path objroot C (fun _ _ _ => 0) H thb (fun _ => C) S).
    { constructor.
      - reflexivity.
      - intros. evar_last; [apply (is_derive_const (K := R_AbsRing) (V := R_NormedModule))|].
        unfold sum3. change (@zero R_NormedModule) with 0. ring.
      - intros k Hk. apply DS.
      - exact DB.
      - exact RL. }
    destruct DB as [dth Hth].
    destruct (rates_match C _ H thb _ _ dth HS HPth Hth) as [_ K]; [rewrite T0; lra|rewrite T0; unfold S; lra|].
    eapply is_derive_ext_loc; [|evar_last; [exact (K i Hi)|]].
    - cbv beta. generalize (filter_and _ _ PB PT). apply filter_imp. intros t (Q1 & Q2).
      destruct (wrinkling_unique C (S t) (e t) (thb t) (th t) HS HP (HL t) Q1 Q2) as (G & N). apply compute_S_dir; assumption.
    - assert (Q : forall j, C i j + mmul3 C (dn1_gen (thb 0) C (S 0) (fun _ _ _ => 0)) i j + gamma (thb 0) C (S 0) * dCN1 (thb 0) (fun _ _ _ => 0) i j
         = compute_C_lin th0 C (hooke C (e 0)) i j - coupling_term th0 C (hooke C (e 0)) i j).
      { intro j. rewrite T0. change (S 0) with (hooke C (e 0)). unfold mmul3 at 1, sum3 at 1. rewrite !dn1_gen_zero.
        unfold compute_C_lin, coupling_term, dn1_lin, dTdE_lin, dgammadT, mmul3, mvec3, dCN1, sum3. ring. }
      unfold sum3. rewrite !Q. reflexivity.
  Qed.
End Path.

(* ---------------- openness of the taut and slack states ---------------- *)
Lemma pd_entries (X : mat) : X 0%nat 1%nat = X 1%nat 0%nat ->
  ((forall a, 0 < along X (wdir a) (wdir a)) <-> 0 < X 0%nat 0%nat /\ 0 < X 0%nat 0%nat * X 1%nat 1%nat - X 0%nat 1%nat * X 0%nat 1%nat).
Proof.
  intro Y. split.
  - intro H. assert (A := H 0). unfold along, sum2, wdir in A. rewrite sin_0, cos_0 in A.
    assert (A' : 0 < X 0%nat 0%nat) by lra. split; [exact A'|].
    destruct (angle_of (- X 0%nat 1%nat) (X 0%nat 0%nat)) as (th & g & _ & G & Q1 & Q2 & Q3).
    assert (B := H th). unfold along, sum2, wdir in B. rewrite <- Y in B.
    assert (G' : 0 < g). { destruct (Req_dec g 0) as [Z|Z]; [|lra]. rewrite Z in Q2. nra. }
    assert (K : 0 < g * (cos th * X 0%nat 0%nat * cos th + cos th * X 0%nat 1%nat * sin th + (sin th * X 0%nat 1%nat * cos th + sin th * X 1%nat 1%nat * sin th))) by (apply Rmult_lt_0_compat; lra).
    replace (g * (cos th * X 0%nat 0%nat * cos th + cos th * X 0%nat 1%nat * sin th + (sin th * X 0%nat 1%nat * cos th + sin th * X 1%nat 1%nat * sin th)))
      with (g * (cos th * cos th) * X 0%nat 0%nat + 2 * (g * (cos th * sin th)) * X 0%nat 1%nat + g * (sin th * sin th) * X 1%nat 1%nat) in K by ring.
    rewrite <- Q1, <- Q2, <- Q3 in K. apply (Rmult_lt_reg_l (X 0%nat 0%nat)); [exact A'|]. nra.
  - intros (A & B) th. unfold along, sum2, wdir. rewrite <- Y. assert (K := cs2 th).
    apply (Rmult_lt_reg_l (X 0%nat 0%nat)); [exact A|]. rewrite Rmult_0_r.
    set (c := cos th) in *. set (s := sin th) in *.
    replace (X 0%nat 0%nat * (c * X 0%nat 0%nat * c + c * X 0%nat 1%nat * s + (s * X 0%nat 1%nat * c + s * X 1%nat 1%nat * s)))
      with (Rsqr (X 0%nat 0%nat * c + X 0%nat 1%nat * s) + (X 0%nat 0%nat * X 1%nat 1%nat - X 0%nat 1%nat * X 0%nat 1%nat) * (s * s)) by (unfold Rsqr; ring).
    destruct (Req_dec s 0) as [Z|Z].
    + rewrite Z. assert (c <> 0) by (intro; nra). unfold Rsqr. assert (0 < c * c) by nra.
      match goal with |- 0 < ?x => replace x with ((X 0%nat 0%nat * X 0%nat 0%nat) * (c * c)) by ring end. apply Rmult_lt_0_compat; [apply Rmult_lt_0_compat; exact A|assumption].
    + assert (0 < s * s) by nra. assert (Q := Rle_0_sqr (X 0%nat 0%nat * c + X 0%nat 1%nat * s)). nra.
Qed.
Lemma taut_open C e H : is_dvec e 0 H -> pos_stress (hooke C (e 0)) -> locally 0 (fun t => pos_stress (hooke C (e t))).
Proof.
  intros D T. assert (CS := c_hooke C e (dv_cont e H D)).
  apply (pd_entries _ (stress_sym _)) in T. cbn [stress_tensor] in T. destruct T as (A & B).
  assert (LA := pos_near (fun t => hooke C (e t) 0%nat) (CS 0%nat) A).
  assert (LB : locally 0 (fun t => 0 < hooke C (e t) 0%nat * hooke C (e t) 1%nat - hooke C (e t) 2%nat * hooke C (e t) 2%nat)).
  { apply (pos_near (fun t => hooke C (e t) 0%nat * hooke C (e t) 1%nat - hooke C (e t) 2%nat * hooke C (e t) 2%nat)); [|exact B].
    apply c_minus; apply c_mult; apply CS. }
  generalize (filter_and _ _ LA LB). apply filter_imp. intros t (Q1 & Q2). exact (proj2 (pd_entries _ (stress_sym (hooke C (e t)))) (conj Q1 Q2)).
Qed.
Lemma neg_strain_opp E : neg_strain E <-> forall a, 0 < along (strain_tensor (fun i => - E i)) (wdir a) (wdir a).
Proof.
  assert (K : forall a, along (strain_tensor (fun i => - E i)) (wdir a) (wdir a) = - along (strain_tensor E) (wdir a) (wdir a)) by (intro; unfold along, sum2, strain_tensor; field).
  split; intros X a; specialize (X a); rewrite K in *; lra.
Qed.
Lemma slack_open e H : is_dvec e 0 H -> neg_strain (e 0) -> locally 0 (fun t => neg_strain (e t)).
Proof.
  intros D T. assert (CE := dv_cont e H D).
  destruct (proj1 (pd_entries _ (strain_sym (fun i => - e 0 i))) (proj1 (neg_strain_opp (e 0)) T)) as (A & B). cbn [strain_tensor] in A, B.
  assert (CO : forall i, (i < 3)%nat -> continuous (fun t => - e t i) 0) by (intros; apply (continuous_opp (K := R_AbsRing) (V := R_NormedModule)); apply CE; assumption).
  assert (LA := pos_near (fun t => - e t 0%nat) (CO 0%nat ltac:(lia)) A).
  assert (LB : locally 0 (fun t => 0 < - e t 0%nat * - e t 1%nat - (- e t 2%nat * / 2) * (- e t 2%nat * / 2))).
  { apply (pos_near (fun t => - e t 0%nat * - e t 1%nat - (- e t 2%nat * / 2) * (- e t 2%nat * / 2))); [|exact B].
    apply c_minus; apply c_mult; try apply c_mult; try apply CO; try lia; apply continuous_const. }
  generalize (filter_and _ _ LA LB). apply filter_imp. intros t (Q1 & Q2). apply (proj2 (neg_strain_opp (e t))). exact (proj2 (pd_entries _ (strain_sym (fun i => - e t i))) (conj Q1 Q2)).
Qed.

(* ---------------- the states exclude each other ---------------- *)
Lemma no_state_both C E : posdef3 C -> psd_stress (hooke C E) -> psd_strain (fun i => - E i) -> forall i, (i < 3)%nat -> E i = 0.
Proof.
  intros HP A B. apply (energy_zero C E HP). assert (K := psd_dot _ _ A B).
  replace (inner_energy C E) with (- / 2 * dot3 (hooke C E) (fun i => - E i)); [lra|]. unfold inner_energy, dot3, hooke, sum3. field.
Qed.
Lemma taut_only C E tf th : sym3 C -> posdef3 C -> pos_stress (hooke C E) -> describes C E tf th -> tf = 1.
Proof.
  intros HS HP T [A _|A B|g s A W]; [exact A| |]; exfalso.
  - assert (Z := no_state_both C E HP (fun a => Rlt_le _ _ (T a)) B). specialize (T 0). unfold along, sum2, stress_tensor, hooke, sum3 in T. rewrite !Z in T by lia. lra.
  - assert (Q : physical C (hooke C E) E th) by (apply (state_iff C E th HS HP); eauto).
    destruct Q as (_ & N & _). specialize (T th). lra.
Qed.
Lemma slack_only C E tf th : sym3 C -> posdef3 C -> neg_strain E -> describes C E tf th -> tf = -1.
Proof.
  intros HS HP T [A B|A B|g s A W]; [|exact A|]; exfalso.
  - assert (PS : psd_strain (fun i => - E i)) by (intro a; assert (X := proj1 (neg_strain_opp E) T a); lra).
    assert (Z := no_state_both C E HP B PS). specialize (T 0). unfold along, sum2, strain_tensor in T. rewrite !Z in T by lia. lra.
  - assert (Q : physical C (hooke C E) E th) by (apply (state_iff C E th HS HP); eauto).
    destruct Q as (_ & _ & M). specialize (T (th + PI / 2)).
    replace (along (strain_tensor E) (wdir (th + PI / 2)) (wdir (th + PI / 2))) with (along (strain_tensor E) (tdir th) (tdir th)) in T; [lra|].
    unfold along, sum2, wdir, tdir. rewrite cos_plus, sin_plus, cos_PI2, sin_PI2. ring.
Qed.
Lemma wrinkled_only C E tf th x g s : sym3 C -> posdef3 C -> wrinkled_state C E x g s -> describes C E tf th -> tf = 0.
Proof.
  intros HS HP W D. assert (Q : physical C (hooke C E) E x) by (apply (state_iff C E x HS HP); eauto). destruct Q as (_ & N & M).
  destruct D as [A B|A B|g' s' A W']; [| |exact A]; exfalso.
  - specialize (B x). change (0 <= along (stress_tensor (hooke C E)) (wdir x) (wdir x)) in B. lra.
  - specialize (B (x + PI / 2)).
    replace (along (strain_tensor (fun i => - E i)) (wdir (x + PI / 2)) (wdir (x + PI / 2))) with (- along (strain_tensor E) (tdir x) (tdir x)) in B; [lra|].
    unfold along, sum2, wdir, tdir, strain_tensor. rewrite cos_plus, sin_plus, cos_PI2, sin_PI2. field.
Qed.

(* ---------------- the returned stress ---------------- *)
Definition oval (o : outcome vec) : vec := match o with Ok v => v | _ => fun _ => 0 end.
(* at every strain the tension field value is right, and the search finds the wrinkling direction when asked *)
Definition answers (C : mat) (tf : vec -> R) (theta : mat -> vec -> vec -> outcome R) : Prop :=
  forall E, exists th, describes C E (tf E) th /\ (tf E = 0 -> theta C (inner_stress C E) E = Ok th).
(* a strain away from the transitions, with the derivative of the stress there *)
Inductive strict (mult : R) (C : mat) (E : vec) (T : mat) : Prop :=
| st_taut : pos_stress (fun i => sum3 (fun j => C i j * E j)) -> (forall i j, T i j = C i j) -> strict mult C E T
| st_slack : neg_strain E -> (forall i j, T i j = mult * C i j) -> strict mult C E T
| st_wrinkled : forall th g s, wrinkled_state C E th g s ->
    (forall i j, T i j = compute_C_lin th C (inner_stress C E) i j - coupling_term th C (inner_stress C E) i j) -> strict mult C E T.

Section Returned.
  Variables (mult : R) (C : mat) (tf : vec -> R) (theta : mat -> vec -> vec -> outcome R) (e : R -> vec) (H : vec).
  Hypotheses (HS : sym3 C) (HP : posdef3 C) (AN : answers C tf theta) (D : is_dvec e 0 H).
  Let ret t := oval (tft_stress mult C (e t) (tf (e t)) theta).

  Lemma ret_taut t : pos_stress (hooke C (e t)) -> forall i, (i < 3)%nat -> ret t i = hooke C (e t) i.
  Proof.
    intros T i Hi. destruct (AN (e t)) as (th & DS & TH). assert (Q := taut_only C (e t) _ _ HS HP T DS). unfold ret, tft_stress, stress_at. rewrite Q.
    rewrite dispatch_taut. reflexivity.
  Qed.
  Lemma ret_slack t : neg_strain (e t) -> forall i, (i < 3)%nat -> ret t i = mult * hooke C (e t) i.
  Proof.
    intros T i Hi. destruct (AN (e t)) as (th & DS & TH). assert (Q := slack_only C (e t) _ _ HS HP T DS). unfold ret, tft_stress, stress_at. rewrite Q.
    rewrite dispatch_slack. cbn. unfold smul. change (inner_stress C (e t) i) with (hooke C (e t) i). ring.
  Qed.
  Lemma ret_wrinkled t x : physical C (hooke C (e t)) (e t) x -> forall i, (i < 3)%nat -> ret t i = compute_S x C (hooke C (e t)) i.
  Proof.
    intros PH i Hi. destruct (AN (e t)) as (th & DS & TH). destruct (proj1 (proj1 (state_iff C (e t) x HS HP)) PH) as (g & s & W).
    assert (Q := wrinkled_only C (e t) _ _ x g s HS HP W DS). unfold ret, tft_stress, stress_at. rewrite Q.
    rewrite dispatch_wrinkled. cbn [bindo]. rewrite (TH Q). cbn [bindo oval].
    destruct DS as [A _|A _|g' s' A W']; [lra|lra|].
    assert (PH' : physical C (hooke C (e t)) (e t) th) by (apply (state_iff C (e t) th HS HP); eauto).
    destruct (wrinkling_unique C (hooke C (e t)) (e t) th x HS HP (fun _ _ => eq_refl) PH' PH) as (G & N). apply compute_S_dir; assumption.
  Qed.

  Lemma ret_derive T : strict mult C (e 0) T -> forall i, (i < 3)%nat -> is_derive (fun t => ret t i) 0 (sum3 (fun j => T i j * H j)).
  Proof.
    intros ST i Hi. destruct ST as [P TT|P TT|th g s W TT].
    - apply (is_derive_ext_loc (fun t => hooke C (e t) i)).
      + assert (L := taut_open C e H D P). revert L. apply filter_imp. intros t K. symmetry. apply ret_taut; assumption.
      + evar_last; [apply d_hooke, D|]. unfold sum3. rewrite !TT. reflexivity.
    - apply (is_derive_ext_loc (fun t => mult * hooke C (e t) i)).
      + assert (L := slack_open e H D P). revert L. apply filter_imp. intros t K. symmetry. apply ret_slack; assumption.
      + evar_last; [apply (is_derive_scal (fun t => hooke C (e t) i)); apply d_hooke, D|]. unfold sum3. rewrite !TT. cbv beta. ring.
    - assert (P0 : physical C (hooke C (e 0)) (e 0) th) by (apply (state_iff C (e 0) th HS HP); eauto).
      destruct (path_response C e H th HS HP D P0) as (EX & DR).
      assert (CH : exists f, forall t, (exists x, physical C (hooke C (e t)) (e t) x) -> physical C (hooke C (e t)) (e t) (f t)).
      { exists (fun t => match theta C (inner_stress C (e t)) (e t) with Ok x => x | _ => 0 end).
        intros t (x & PH). destruct (AN (e t)) as (y & DS & TH).
        destruct (proj1 (proj1 (state_iff C (e t) x HS HP)) PH) as (g' & s' & W').
        assert (Q := wrinkled_only C (e t) _ _ x g' s' HS HP W' DS). rewrite (TH Q). destruct DS as [A _|A _|g2 s2 A W2]; [lra|lra|]. apply (state_iff C (e t) y HS HP). eauto. }
      destruct CH as (f & F).
      apply (is_derive_ext_loc (fun t => compute_S (f t) C (hooke C (e t)) i)).
      + revert EX. apply filter_imp. intros t K. symmetry. apply ret_wrinkled; [apply F, K|exact Hi].
      + evar_last; [apply DR; [revert EX; apply filter_imp; intros t K; apply F, K|exact Hi]|]. unfold sum3. rewrite !TT. reflexivity.
  Qed.
End Returned.
