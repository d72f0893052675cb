(* The wrinkling equation as a sum of products: branches of wrinkling angles along deformation paths. *)
From Coq Require Import Reals Lra Lia List Psatz.
From Coquelicot Require Import Coquelicot.
From Verif Require Import Tensor TFTModel TFTSpec TFTProofs TFTBranch TFTWrinkle.
Import ListNotations.
Open Scope R_scope.

Definition wb (i j k : nat) (x : R) : R := n2v x i * n1v x j * n1v x k - n1v x i * n2v x j * n1v x k.
Definition wb' (i j k : nat) (x : R) : R :=
  n3v x i * n1v x j * n1v x k + n2v x i * (2 * n2v x j) * n1v x k + n2v x i * n1v x j * (2 * n2v x k)
  - (2 * n2v x i * n2v x j * n1v x k + n1v x i * n3v x j * n1v x k + n1v x i * n2v x j * (2 * n2v x k)).
Definition wterms (Ct : R -> mat) (St : R -> vec) : list term :=
  flat_map (fun i => flat_map (fun j => map (fun k => (fun t => St t i * Ct t j k, wb i j k, wb' i j k)) [0%nat; 1%nat; 2%nat]) [0%nat; 1%nat; 2%nat]) [0%nat; 1%nat; 2%nat].

Lemma d_n1 x i : is_derive (fun x => n1v x i) x (2 * n2v x i).
Proof. destruct i as [|[|i]]; unfold n1v, n2v, v3; auto_derive; try exact I; ring. Qed.
Lemma d_n2 x i : is_derive (fun x => n2v x i) x (n3v x i).
Proof. destruct i as [|[|i]]; unfold n2v, n3v, v3; auto_derive; try exact I; ring. Qed.
Lemma d_n3 x i : ex_derive (fun x => n3v x i) x.
Proof. destruct i as [|[|i]]; unfold n3v, v3; auto_derive; exact I. Qed.
Lemma c_n1 x i : continuous (fun x => n1v x i) x.
Proof. apply (ex_derive_continuous (K := R_AbsRing) (V := R_NormedModule)). eexists. apply d_n1. Qed.
Lemma c_n2 x i : continuous (fun x => n2v x i) x.
Proof. apply (ex_derive_continuous (K := R_AbsRing) (V := R_NormedModule)). eexists. apply d_n2. Qed.
Lemma c_n3 x i : continuous (fun x => n3v x i) x.
Proof. apply (ex_derive_continuous (K := R_AbsRing) (V := R_NormedModule)). apply d_n3. Qed.

Lemma wb_der i j k x : is_derive (wb i j k) x (wb' i j k x).
Proof.
  unfold wb. evar_last.
  - apply (is_derive_minus (K := R_AbsRing) (V := R_NormedModule) (fun x => n2v x i * n1v x j * n1v x k) (fun x => n1v x i * n2v x j * n1v x k)).
    + apply (der_mult (fun x => n2v x i * n1v x j) (fun x => n1v x k)); [apply (der_mult (fun x => n2v x i) (fun x => n1v x j)); [apply d_n2|apply d_n1]|apply d_n1].
    + apply (der_mult (fun x => n1v x i * n2v x j) (fun x => n1v x k)); [apply (der_mult (fun x => n1v x i) (fun x => n2v x j)); [apply d_n1|apply d_n2]|apply d_n1].
  - unfold minus, plus, opp; cbn. unfold wb'. ring.
Qed.
Lemma c_mult (f g : R -> R) x : continuous f x -> continuous g x -> continuous (fun x => f x * g x) x.
Proof. apply (continuous_mult (K := R_AbsRing)). Qed.
Lemma c_plus (f g : R -> R) x : continuous f x -> continuous g x -> continuous (fun x => f x + g x) x.
Proof. apply (continuous_plus (K := R_AbsRing) (V := R_NormedModule)). Qed.
Lemma c_minus (f g : R -> R) x : continuous f x -> continuous g x -> continuous (fun x => f x - g x) x.
Proof. apply (continuous_minus (K := R_AbsRing) (V := R_NormedModule)). Qed.
Ltac cont := repeat match goal with
  | |- continuous (fun x => _ - _) _ => apply c_minus
  | |- continuous (fun x => _ + _) _ => apply c_plus
  | |- continuous (fun x => _ * _) _ => apply c_mult
  | |- continuous (fun x => n1v x _) _ => apply c_n1
  | |- continuous (fun x => n2v x _) _ => apply c_n2
  | |- continuous (fun x => n3v x _) _ => apply c_n3
  | |- continuous (fun _ => ?c) _ => apply continuous_const
  end.
Lemma wb'_cont i j k x : continuous (wb' i j k) x.
Proof.
  unfold wb'. cont.
Qed.
Lemma wterms_in Ct St k : In k (wterms Ct St) -> exists a b c, (a < 3)%nat /\ (b < 3)%nat /\ (c < 3)%nat /\ k = (fun t => St t a * Ct t b c, wb a b c, wb' a b c).
Proof.
  intro H. unfold wterms in H. apply in_flat_map in H as (a & Ha & H). apply in_flat_map in H as (b & Hb & H). apply in_map_iff in H as (c & <- & Hc).
  exists a, b, c. cbn in Ha, Hb, Hc. repeat split; try lia.
Qed.
Lemma wterms_smooth Ct St k : In k (wterms Ct St) -> smooth k.
Proof. intro H. apply wterms_in in H as (a & b & c & _ & _ & _ & ->). split; intro x; [apply wb_der|apply wb'_cont]. Qed.
Lemma wterms_F Ct St t x : Fs (wterms Ct St) t x =
  dot3 (n2v x) (St t) * quad (n1v x) (Ct t) (n1v x) - dot3 (n1v x) (St t) * quad (n2v x) (Ct t) (n1v x).
Proof.
  unfold wterms. cbn [flat_map map app Fs]. unfold ta, tb. cbn [fst snd]. unfold wb. unfold quad, dot3, mvec3, sum3. ring.
Qed.
Lemma F_obj C S x : quad (n1v x) C (n1v x) <> 0 ->
  dot3 (n2v x) S * quad (n1v x) C (n1v x) - dot3 (n1v x) S * quad (n2v x) C (n1v x) = quad (n1v x) C (n1v x) * objf C S x.
Proof. intro D. unfold objf, gamma. field. exact D. Qed.
Lemma D_open C th0 : quad (n1v th0) C (n1v th0) <> 0 -> locally th0 (fun x => quad (n1v x) C (n1v x) <> 0).
Proof.
  intro D. assert (K : continuous (fun x => quad (n1v x) C (n1v x)) th0).
  { unfold quad, dot3, mvec3, sum3. cont. }
  apply (K (fun y => y <> 0)). assert (A : 0 < Rabs (quad (n1v th0) C (n1v th0))) by (apply Rabs_pos_lt, D).
  exists (mkposreal _ A). intros y B E. subst y. unfold ball in B; cbn in B; unfold AbsRing_ball in B; cbn in B.
  unfold abs, minus, plus, opp in B; cbn in B. rewrite Rplus_0_l, Rabs_Ropp in B. lra.
Qed.
Lemma wterms_G Ct St x : sym3 (Ct 0) -> quad (n1v x) (Ct 0) (n1v x) <> 0 -> objf (Ct 0) (St 0) x = 0 ->
  Gs (wterms Ct St) 0 x = quad (n1v x) (Ct 0) (n1v x) * dfdT x (Ct 0) (St 0).
Proof.
  intros HS D R0. assert (A := Fs_deriv (wterms Ct St) 0 x (wterms_smooth Ct St)). apply is_derive_unique in A. rewrite <- A.
  apply is_derive_unique. set (C := Ct 0) in *. set (S := St 0) in *.
  assert (X : exists l, is_derive (fun x => quad (n1v x) C (n1v x)) x l).
  { eexists. unfold quad, dot3, mvec3, sum3. repeat match goal with
    | |- is_derive (fun x => _ + _) _ _ => apply der_plus
    | |- is_derive (fun x => _ * _) _ _ => apply der_mult
    | |- is_derive (fun x => n1v x _) _ _ => apply d_n1
    | |- is_derive (fun _ => ?c) _ _ => apply (is_derive_const (K := R_AbsRing) (V := R_NormedModule)) end. }
  destruct X as (l & Dl). assert (B := dfdT_derivative x C S HS D). rewrite R0 in B.
  assert (M := der_mult _ _ _ _ _ Dl B). cbv beta in M. rewrite R0 in M.
  apply (is_derive_ext_loc (fun x => quad (n1v x) C (n1v x) * objf C S x)).
  - generalize (D_open C x D). apply filter_imp. intros y Dy. rewrite wterms_F. symmetry. apply (F_obj C S y Dy).
  - evar_last; [exact M|]. field. exact D.
Qed.

Section Path.
  Variables (Ct : R -> mat) (St : R -> vec).
  Hypotheses (CC : forall i j, (i < 3)%nat -> (j < 3)%nat -> continuous (fun t => Ct t i j) 0) (CS : forall i, (i < 3)%nat -> continuous (fun t => St t i) 0).
  Lemma D_joint x0 : continuous (fun p : R * R => quad (n1v (snd p)) (Ct (fst p)) (n1v (snd p))) (0, x0).
  Proof.
    assert (A : forall i, continuous (fun p : R * R => n1v (snd p) i) (0, x0)).
    { intro i. apply (continuous_comp snd (fun x => n1v x i)); [apply continuous_snd|apply c_n1]. }
    assert (B : forall i j, (i < 3)%nat -> (j < 3)%nat -> continuous (fun p : R * R => Ct (fst p) i j) (0, x0)).
    { intros i j Hi Hj. apply (continuous_comp fst (fun t => Ct t i j)); [apply continuous_fst|apply CC; assumption]. }
    unfold quad, dot3, mvec3, sum3.
    repeat match goal with
    | |- continuous (fun p => _ + _) _ => apply (continuous_plus (K := R_AbsRing) (V := R_NormedModule))
    | |- continuous (fun p => _ * _) _ => apply (continuous_mult (K := R_AbsRing)) end; first [apply A | apply B; lia].
  Qed.
  Lemma D_box x0 : quad (n1v x0) (Ct 0) (n1v x0) <> 0 ->
    exists d, 0 < d /\ forall t x, Rabs t < d -> Rabs (x - x0) < d -> quad (n1v x) (Ct t) (n1v x) <> 0.
  Proof.
    intro D. assert (A : 0 < Rabs (quad (n1v x0) (Ct 0) (n1v x0))) by (apply Rabs_pos_lt, D).
    assert (O : locally (quad (n1v x0) (Ct 0) (n1v x0)) (fun y => y <> 0)).
    { exists (mkposreal _ A). intros y B E. subst y. unfold ball in B; cbn in B; unfold AbsRing_ball in B; cbn in B.
      unfold abs, minus, plus, opp in B; cbn in B. rewrite Rplus_0_l, Rabs_Ropp in B. lra. }
    destruct (D_joint x0 _ O) as (d & B). exists d. split; [apply d|]. intros t y Ht Hy. apply (B (t, y)). split; cbn;
      unfold ball; cbn; unfold AbsRing_ball; cbn; unfold abs, minus, plus, opp; cbn; [rewrite Ropp_0, Rplus_0_r; exact Ht|exact Hy].
  Qed.
  Lemma wterms_cont k : In k (wterms Ct St) -> continuous (ta k) 0.
  Proof. intro H. apply wterms_in in H as (a & b & c & Ha & Hb & Hc & ->). unfold ta; cbn. apply c_mult; [apply CS, Ha|apply CC; assumption]. Qed.

  (* through a simple root passes one branch of roots *)
  Lemma angle_branch x0 : sym3 (Ct 0) -> quad (n1v x0) (Ct 0) (n1v x0) <> 0 -> objf (Ct 0) (St 0) x0 = 0 -> dfdT x0 (Ct 0) (St 0) <> 0 ->
    exists th d, 0 < d /\ th 0 = x0 /\ continuous th 0 /\ (forall t, Rabs t < d -> objf (Ct t) (St t) (th t) = 0) /\
      (forall t x, Rabs t < d -> Rabs (x - x0) < d -> objf (Ct t) (St t) x = 0 -> x = th t).
  Proof.
    intros HS D R0 N0. destruct (branch_exists (wterms Ct St) x0 wterms_cont (wterms_smooth Ct St)) as (th & d & Pd & T0 & Ct0 & Rt & Un).
    - rewrite wterms_F, F_obj, R0 by exact D. ring.
    - rewrite wterms_G by assumption. apply Rmult_integral_contrapositive_currified; assumption.
    - destruct (D_box x0 D) as (d' & Pd' & B).
      assert (CN : exists h, 0 < h /\ forall t, Rabs t < h -> Rabs (th t - x0) < d').
      { apply continuity_pt_filterlim in Ct0. destruct (Ct0 d' Pd') as (h & Ph & K). exists h. split; [exact Ph|]. intros t Ht.
        unfold dist, R_met in K. cbn in K. unfold R_dist in K. destruct (Req_dec 0 t) as [<-|NE]; [rewrite T0, Rminus_eq_0, Rabs_R0; exact Pd'|].
        rewrite T0 in K. apply K. split; [split; [exact I|exact NE]|]. rewrite Rminus_0_r. exact Ht. }
      destruct CN as (h & Ph & CN). exists th, (Rmin d (Rmin d' h)).
      assert (MM : forall t, Rabs t < Rmin d (Rmin d' h) -> Rabs t < d /\ Rabs t < d' /\ Rabs t < h).
      { intros t Ht. pose proof (Rmin_l d (Rmin d' h)). pose proof (Rmin_r d (Rmin d' h)). pose proof (Rmin_l d' h). pose proof (Rmin_r d' h). lra. }
      split; [repeat apply Rmin_pos; assumption|]. split; [exact T0|]. split; [exact Ct0|]. split.
      + intros t Ht. destruct (MM t Ht) as (A1 & A2 & A3). specialize (Rt t A1). assert (Dt := B t (th t) A2 (CN t A3)).
        rewrite wterms_F, F_obj in Rt by exact Dt. destruct (Rmult_integral _ _ Rt); [contradiction|assumption].
      + intros t x Ht Hx E. destruct (MM t Ht) as (A1 & A2 & _). destruct (MM _ Hx) as (B1 & B2 & _). apply Un; try assumption.
        rewrite wterms_F, F_obj, E by (apply B; assumption). ring.
  Qed.
  (* and every continuous choice of roots is differentiable there *)
  Lemma angle_smooth th : (forall i j, (i < 3)%nat -> (j < 3)%nat -> ex_derive (fun t => Ct t i j) 0) -> (forall i, (i < 3)%nat -> ex_derive (fun t => St t i) 0) ->
    sym3 (Ct 0) -> quad (n1v (th 0)) (Ct 0) (n1v (th 0)) <> 0 -> dfdT (th 0) (Ct 0) (St 0) <> 0 ->
    continuous th 0 -> locally 0 (fun t => objf (Ct t) (St t) (th t) = 0) -> ex_derive th 0.
  Proof.
    intros DC DS HS D N0 Cth Rt. apply (branch_smooth (wterms Ct St) th).
    - intros k H. apply wterms_in in H as (a & b & c & Ha & Hb & Hc & ->). unfold ta; cbn.
      destruct (DS a Ha) as (l1 & D1). destruct (DC b c Hb Hc) as (l2 & D2). eexists. apply (der_mult _ _ _ _ _ D1 D2).
    - apply wterms_smooth.
    - exact Cth.
    - destruct (D_box (th 0) D) as (d & Pd & B). apply continuity_pt_filterlim in Cth. destruct (Cth d Pd) as (h & Ph & K).
      assert (NB : locally 0 (fun t => quad (n1v (th t)) (Ct t) (n1v (th t)) <> 0)).
      { assert (M : 0 < Rmin d h) by (apply Rmin_pos; assumption). exists (mkposreal _ M). intros t Ht.
        unfold ball in Ht; cbn in Ht; unfold AbsRing_ball in Ht; cbn in Ht. unfold abs, minus, plus, opp in Ht; cbn in Ht. rewrite Ropp_0, Rplus_0_r in Ht.
        pose proof (Rmin_l d h). pose proof (Rmin_r d h). apply B; [lra|].
        unfold dist, R_met in K. cbn in K. unfold R_dist in K. destruct (Req_dec 0 t) as [<-|NE]; [rewrite Rminus_eq_0, Rabs_R0; exact Pd|].
        apply K. split; [split; [exact I|exact NE]|]. rewrite Rminus_0_r. lra. }
      generalize (filter_and _ _ Rt NB). apply filter_imp. intros t (E & Dt). rewrite wterms_F, F_obj, E by exact Dt. ring.
    - rewrite wterms_G; [apply Rmult_integral_contrapositive_currified; assumption|assumption|assumption|]. apply (locally_singleton _ _ Rt).
  Qed.
End Path.

(* ---------------- the wrinkled response of a linear inner material ---------------- *)
Definition lin_strain (E0 H : vec) (t : R) : vec := fun i => E0 i + t * H i.
Definition hooke (C : mat) (E : vec) : vec := fun i => sum3 (fun j => C i j * E j).

Lemma hooke_path C E0 H t i : lin_stress C (hooke C E0) H t i = hooke C (lin_strain E0 H t) i.
Proof. unfold lin_stress, hooke, lin_strain, sum3. ring. Qed.
Lemma objf_ext C S S' th : (forall i, (i < 3)%nat -> S i = S' i) -> objf C S th = objf C S' th.
Proof. intro H. unfold objf. rewrite (gamma_ext th C S S' H). unfold dot3, sum3. rewrite !H by lia. reflexivity. Qed.
Lemma compute_S_ext C S S' th i : (i < 3)%nat -> (forall i, (i < 3)%nat -> S i = S' i) -> compute_S th C S i = compute_S th C S' i.
Proof. intros Hi H. unfold compute_S. rewrite (gamma_ext th C S S' H), H by exact Hi. reflexivity. Qed.
Lemma compute_S_dir C S th th' : gamma th C S = gamma th' C S -> (forall i, (i < 3)%nat -> n1v th i = n1v th' i) -> forall i, compute_S th C S i = compute_S th' C S i.
Proof. intros G N i. unfold compute_S, mvec3, sum3. rewrite G, !N by lia. reflexivity. Qed.

Lemma pos_near (f : R -> R) : continuous f 0 -> 0 < f 0 -> locally 0 (fun t => 0 < f t).
Proof.
  intros K P. apply (K (fun y => 0 < y)). exists (mkposreal _ P). intros g B. unfold ball in B; cbn in B; unfold AbsRing_ball in B; cbn in B.
  unfold abs, minus, plus, opp in B; cbn in B. apply Rabs_def2 in B. lra.
Qed.
Lemma c_comp_n1 th i : continuous th 0 -> continuous (fun t => n1v (th t) i) 0.
Proof. intro K. apply (continuous_comp th (fun x => n1v x i)); [exact K|apply c_n1]. Qed.
Lemma c_lin (a b : R) : continuous (fun t => a + t * b) 0.
Proof. apply c_plus; [apply continuous_const|]. apply c_mult; [apply continuous_id|apply continuous_const]. Qed.
Lemma along_mm_n1 th E : along (strain_tensor E) (tdir th) (tdir th) = n1v th 1%nat * E 0%nat + n1v th 0%nat * E 1%nat - n1v th 2%nat * E 2%nat / 2.
Proof. unfold along, strain_tensor, sum2, tdir, n1v, v3. field. Qed.

Section Response.
  Variables (C : mat) (E0 H : vec) (th0 : R).
  Hypotheses (HS : sym3 C) (HP : posdef3 C) (P0 : physical C (hooke C E0) E0 th0).
  Let S t := lin_stress C (hooke C E0) H t.
  Let E t := lin_strain E0 H t.

  Lemma resp_phys th : continuous th 0 -> th 0 = th0 -> locally 0 (fun t => objf C (S t) (th t) = 0) ->
    locally 0 (fun t => physical C (S t) (E t) (th t)).
  Proof.
    intros Ct T0 Rt. destruct P0 as (_ & N & M).
    assert (A : locally 0 (fun t => 0 < - dot3 (n1v (th t)) (S t))).
    { apply (pos_near (fun t => - dot3 (n1v (th t)) (S t))).
      - apply (continuous_opp (K := R_AbsRing) (V := R_NormedModule)). unfold dot3, sum3, S, lin_stress.
        apply c_plus; [apply c_plus|]; (apply c_mult; [apply c_comp_n1; exact Ct|match goal with |- continuous (fun t => ?a + t * ?b) _ => apply (c_lin a b) end]).
      - rewrite T0. rewrite along_nn in N. replace (dot3 (n1v th0) (S 0)) with (dot3 (n1v th0) (hooke C E0)); [lra|].
        unfold dot3, sum3, S. rewrite !S0_eq. reflexivity. }
    assert (B : locally 0 (fun t => 0 < along (strain_tensor (E t)) (tdir (th t)) (tdir (th t)))).
    { apply (filter_imp (fun t => 0 < n1v (th t) 1%nat * E t 0%nat + n1v (th t) 0%nat * E t 1%nat - n1v (th t) 2%nat * E t 2%nat * / 2)).
      { intros t K. rewrite along_mm_n1. exact K. }
      apply (pos_near (fun t => n1v (th t) 1%nat * E t 0%nat + n1v (th t) 0%nat * E t 1%nat - n1v (th t) 2%nat * E t 2%nat * / 2)).
      - unfold E, lin_strain. apply c_minus; [apply c_plus|apply c_mult; [|apply continuous_const]]; (apply c_mult; [apply c_comp_n1; exact Ct|match goal with |- continuous (fun t => ?a + t * ?b) _ => apply (c_lin a b) end]).
      - rewrite T0. rewrite along_mm_n1 in M. unfold E, lin_strain. rewrite !Rmult_0_l, !Rplus_0_r. exact M. }
    generalize (filter_and _ _ Rt (filter_and _ _ A B)). apply filter_imp. intros t (R1 & A1 & B1).
    split; [exact R1|]. split; [rewrite along_nn; lra|exact B1].
  Qed.

  Lemma response : locally 0 (fun t => exists th, physical C (S t) (E t) th) /\
    forall th, locally 0 (fun t => physical C (S t) (E t) (th t)) ->
    forall i, (i < 3)%nat -> is_derive (fun t => compute_S (th t) C (S t) i) 0
      (sum3 (fun j => (compute_C_lin th0 C (hooke C E0) i j - coupling_term th0 C (hooke C E0) i j) * H j)).
  Proof.
    assert (HL : forall t i, (i < 3)%nat -> S t i = sum3 (fun j => C i j * E t j)). { intros t i _. apply hooke_path. }
    destruct P0 as (R0 & N0 & M0).
    destruct (physical_state th0 C (hooke C E0) E0 HS HP (fun i _ => eq_refl) R0 N0 M0) as (_ & _ & F0).
    assert (D0 := posdef_D C th0 HP).
    assert (EX : forall i, (i < 3)%nat -> S 0 i = hooke C E0 i) by (intros; unfold S; apply S0_eq).
    destruct (angle_branch (fun _ => C) S) with (x0 := th0) as (thb & d & Pd & T0 & Ctb & Rtb & _).
    { intros; apply continuous_const. } { intros i Hi. unfold S, lin_stress. apply c_lin. } { exact HS. } { lra. }
    { rewrite (objf_ext C _ _ th0 EX). exact R0. } { rewrite (dfdT_ext th0 C _ _ EX). lra. }
    assert (RL : locally 0 (fun t => objf C (S t) (thb t) = 0)).
    { exists (mkposreal d Pd). intros t Ht. apply Rtb. unfold ball in Ht; cbn in Ht; unfold AbsRing_ball in Ht; cbn in Ht.
      unfold abs, minus, plus, opp in Ht; cbn in Ht. rewrite Ropp_0, Rplus_0_r in Ht. exact Ht. }
    assert (PB := resp_phys thb Ctb T0 RL).
    split; [revert PB; apply filter_imp; intros t Q; eexists; exact Q|].
    intros th PT i Hi.
    assert (DB : ex_derive thb 0).
    { apply (angle_smooth (fun _ => C) S).
      - intros; apply continuous_const. 
      - intros; apply ex_derive_const.
      - intros k Hk. unfold S, lin_stress. auto_derive. exact I.
      - exact HS. - rewrite T0; lra. - rewrite T0, (dfdT_ext th0 C _ _ EX); lra. - exact Ctb. - exact RL. }
    assert (K := lin_tangent C (hooke C E0) H thb HS DB RL ltac:(rewrite T0; lra) ltac:(rewrite T0; lra) i Hi). rewrite T0 in K.
    eapply is_derive_ext_loc; [|exact K]. cbv beta. generalize (filter_and _ _ PB PT). apply filter_imp. intros t (Q1 & Q2).
    destruct (wrinkling_unique C (S t) (E t) (thb t) (th t) HS HP (HL t) Q1 Q2) as (G & N). apply compute_S_dir; assumption.
  Qed.
End Response.
