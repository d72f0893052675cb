(* C125: linear problems with weakly imposed displacements and weakly coupled patches. *)
From Coq Require Import Reals Lra Lia List Bool Classical.
From Coquelicot Require Import Coquelicot.
From Verif Require Import Tensor KinModel KinSpec KinAsm KinProofs KinStiff KinMore KinLoads KinProps DwrProofs EstProofs LinModel LinSpec LinProofs LinProps PenaltyProofs WeakModel WeakSpec WeakProofs.
Import ListNotations.
Open Scope R_scope.

(* ---------------------------------------------------------------- without penalties: existence *)
Lemma K_pd n fr pts : sound pts -> supported n fr pts -> posdef n fr (Klmat n pts).
Proof.
  intros S SU x Fx Nx. destruct (C123_semidefinite n pts x S) as ([L|E] & Z). exact L.
  exfalso. apply Nx, SU. exact Fx. apply Z. symmetry. exact E.
Qed.
Theorem C123_solvable : forall n fr pts, sound pts -> (uniquely_solvable n fr (Klmat n pts) <-> supported n fr pts).
Proof.
  intros n fr pts S. split.
  - intros U x Fx SF. apply NNPP. intro N. apply (kernel_not_unique n fr (Klmat n pts) x Fx N); [|exact U].
    intros i d Hi Hd _. apply (C123_null_space n pts x S); assumption.
  - intro SU. apply posdef_unique. exact (KSY n pts S). apply K_pd; assumption.
Qed.
Print Assumptions C123_solvable.
(* a motion that is left free: some loads have no solution *)
Theorem C123_unsupported_load : forall n fr pts x, sound pts -> admissible n fr x -> ~ is_null n x -> (forall q, In q pts -> strain_free n q x) ->
  exists f, forall y, ~ solves n fr (Klmat n pts) f (fun _ _ => 0) y.
Proof.
  intros n fr pts x S Fx Nx SF. exists x. intros y (Py & Ry).
  assert (E : ddot n x (dapply n (Klmat n pts) y) = ddot n x x) by (apply (rows_weak n fr _ y x); assumption).
  rewrite (KSY n pts S) in E. rewrite (ddot_ext n y _ (fun _ _ => 0)) in E by (intros; apply (C123_null_space n pts x S); assumption).
  rewrite ddot_zero_r in E. apply Nx. intros i d Hi Hd.
  assert (T : forall m g, (forall i, (i < m)%nat -> 0 <= g i) -> rsum m g = 0 -> forall i, (i < m)%nat -> g i = 0).
  { intros m g P Z k Hk. assert (Q := rsum_term m g k P Hk). assert (P' := P k Hk). lra. }
  assert (Q := T n (fun i => sum3 (fun d => x i d * x i d)) ltac:(intros; unfold sum3; nra) (eq_sym E) i Hi). cbv beta in Q. unfold sum3 in Q.
  destruct d as [|[|[|d]]]; [nra|nra|nra|lia].
Qed.
Print Assumptions C123_unsupported_load.

(* ---------------------------------------------------------------- the weak condition of the code *)
(* the assembled form: the penalty is subtracted *)
Theorem C125_form : forall n pts t wpts x,
  dquad n (Kweak n pts t wpts) x = dquad n (Klmat n pts) x - t * psum wpts (fun q => ww q * wal q * dot3 (wval n q x) (wval n q x)).
Proof.
  intros. rewrite Kweak_tot, Ktot_form, psum_map. replace (- t) with (-1 * t) by ring. rewrite Rmult_assoc. 
  rewrite (psum_e _ wpts (fun a => pw (pp_of a) * sum3 (fun c => ddot n (pl (pp_of a) c) x * ddot n (pl (pp_of a) c) x)) (fun q => ww q * wal q * dot3 (wval n q x) (wval n q x))). ring.
  intros q _. unfold dot3, sum3. rewrite <- !wval_ddot. reflexivity.
Qed.
Print Assumptions C125_form.

Lemma psys_quad n pts l t x : dquad n (Ktot n pts l t) x = ddot n x (psys n (dapply n (Klmat n pts)) (3 * length l) (fun k => pw (nth (k / 3) l p0)) (fun k => pl (nth (k / 3) l p0) (k mod 3)%nat) t x).
Proof. apply ddot_ext. intros. apply Ktot_psys. Qed.

(* with strong supports: positive definite up to a critical value of the option, singular there, indefinite beyond *)
Theorem C125_critical_penalty : forall n fr pts wpts, sound pts -> supported n fr pts -> wsound wpts ->
  (exists x q, admissible n fr x /\ In q wpts /\ ~ vanishes (wval n q x)) ->
  exists s, 0 < s /\
    (forall t, t < s -> posdef n fr (Kweak n pts t wpts) /\ uniquely_solvable n fr (Kweak n pts t wpts)) /\
    ~ uniquely_solvable n fr (Kweak n pts s wpts) /\
    (forall t, s < t -> exists x, admissible n fr x /\ dquad n (Kweak n pts t wpts) x < 0).
Proof.
  intros n fr pts wpts S SU WS (x0 & q0 & F0 & I0 & N0).
  assert (PW := pp_pos wpts WS).
  destruct (critical n fr (dapply n (Klmat n pts)) (KSY n pts S) (K_pd n fr pts S SU) _ _ (fun k => pl (nth (k / 3) (map pp_of wpts) p0) (k mod 3)%nat) (W (map pp_of wpts) PW)) as (s & SP & LT & (x & Fx & Nx & Rx) & GT).
  { exists x0. split. exact F0. intro Z. apply N0. apply (pp_zero n wpts x0); [|exact I0]. apply pen_zero_iff in Z; [exact Z|exact PW]. }
  exists s. split; [exact SP|]. rewrite ?Kweak_tot. split; [|split].
  - intros t Ht. assert (P : posdef n fr (Kweak n pts t wpts)).
    { intros y Fy Ny. rewrite Kweak_tot, psys_quad. apply LT; assumption. }
    split. exact P. apply posdef_unique. rewrite Kweak_tot. apply Ktot_sym. exact S. exact P.
  - apply (kernel_not_unique n fr _ x Fx Nx). eapply rows_ext; [|exact Rx]. intros. symmetry. apply Ktot_psys.
  - intros t Ht. destruct (GT t Ht) as (y & Fy & Ny). exists y. split. exact Fy. rewrite Kweak_tot, psys_quad. exact Ny.
Qed.
Print Assumptions C125_critical_penalty.

(* held by the weak condition alone: indefinite for every positive option value, and the energy has no minimum *)
Theorem C125_floating_refuted : forall n fr pts wpts x q, sound pts -> wsound wpts -> admissible n fr x ->
  (forall p, In p pts -> strain_free n p x) -> In q wpts -> ~ vanishes (wval n q x) ->
  forall t, 0 < t -> dquad n (Kweak n pts t wpts) x < 0 /\
    forall f b, exists y, admissible n fr y /\ potential n (Kweak n pts t wpts) f y < b.
Proof.
  intros n fr pts wpts x q S WS Fx SF I NV t Ht.
  assert (Q : dquad n (Kweak n pts t wpts) x < 0).
  { rewrite C125_form. rewrite (proj2 (proj2 (C123_semidefinite n pts x S)) SF).
    assert (P : 0 <= psum wpts (fun q => ww q * wal q * dot3 (wval n q x) (wval n q x))).
    { apply EstProofs.psum_nonneg. intros p J. destruct (WS p J). apply Rmult_le_pos. nra. apply dot_nonneg. }
    assert (N : psum wpts (fun q => ww q * wal q * dot3 (wval n q x) (wval n q x)) <> 0).
    { intro Z. apply NV. intros c Hc. assert (E := psum_nonneg_zero wpts (fun q => ww q * wal q * dot3 (wval n q x) (wval n q x))).
      assert (E' := E ltac:(intros p J; destruct (WS p J); apply Rmult_le_pos; [nra|apply dot_nonneg]) Z q I). cbv beta in E'.
      destruct (WS q I) as (A & B). assert (D : dot3 (wval n q x) (wval n q x) = 0).
      { apply Rmult_integral in E'. destruct E' as [E'|E']; [nra|exact E']. }
      unfold dot3, sum3 in D. destruct c as [|[|[|c]]]; [nra|nra|nra|lia]. }
    nra. }
  split. exact Q. intros f b. set (a := dquad n (Kweak n pts t wpts) x) in *. set (g := ddot n f x).
  assert (V : forall r, potential n (Kweak n pts t wpts) f (cscal r x) = / 2 * (r * r) * a - r * g).
  { intro r. unfold potential, dquad. rewrite (ddot_ext n (cscal r x) _ (cscal r (dapply n (Kweak n pts t wpts) x))) by (intros; apply dapply_scal).
    rewrite ddot_scal_l, !ddot_scal_r. unfold a, g, dquad. ring. }
  pose (r := 1 + 2 * (Rabs g + Rabs b + 1) / - a). exists (cscal r x). split. apply Fr_scal. exact Fx. rewrite V.
  assert (G := Rabs_pos g). assert (B := Rabs_pos b). assert (A : 0 < - a) by lra.
  assert (R1 : r * - a = - a + 2 * (Rabs g + Rabs b + 1)) by (unfold r; field; lra).
  assert (R0 : 1 <= r). { unfold r. assert (0 <= 2 * (Rabs g + Rabs b + 1) / - a) by (apply Rmult_le_pos; [lra|left; apply Rinv_0_lt_compat; exact A]). lra. }
  assert (GB : - g <= Rabs g) by (rewrite <- Rabs_Ropp; apply Rle_abs). assert (BB : - b <= Rabs b) by (rewrite <- Rabs_Ropp; apply Rle_abs).
  replace (/ 2 * (r * r) * a - r * g) with (- (r * (r * - a / 2 + g))) by field. rewrite R1.
  assert (Z : Rabs b + 1 <= (- a + 2 * (Rabs g + Rabs b + 1)) / 2 + g) by lra. nra.
Qed.
Print Assumptions C125_floating_refuted.

(* options of large absolute value, of either sign: one solution, whose values on the weak sides are of the order of 1/t from the prescribed ones *)
Theorem C125_large_penalty : forall n fr pts wpts, sound pts -> wsound wpts -> supported_weakly n fr pts wpts ->
  exists t0, 1 < t0 /\ (forall t, t0 < Rabs t -> uniquely_solvable n fr (Kweak n pts t wpts)) /\
  forall f g, (forall q c, In q wpts -> (c < 3)%nat -> wval n q g c = wg q c) ->
    exists C, 0 <= C /\ forall t x, t0 < Rabs t -> solves n fr (Kweak n pts t wpts) (cadd f (Fwd t wpts)) g x ->
      forall q c, In q wpts -> (c < 3)%nat -> Rabs (wval n q x c - wg q c) <= C / Rabs t.
Proof.
  intros n fr pts wpts S WS SU. assert (PW := pp_pos wpts WS).
  destruct (gen_large n fr pts (map pp_of wpts) S PW) as (t0 & T0 & INJ & LIM).
  { intros x Fx SF Z. apply SU. exact Fx. exact SF. apply pp_zero. exact Z. }
  exists t0. split; [exact T0|]. split.
  - intros t Ht. rewrite Kweak_tot. apply solvable_unique. apply Ktot_sym; exact S. apply INJ. rewrite Rabs_Ropp. exact Ht.
  - intros f g HG. destruct (LIM (fun i d => f i d - dapply n (Klmat n pts) g i d)) as (C & C0 & H). exists C. split; [exact C0|].
    intros t x Ht (Px & Rx) q c I Hc.
    assert (E : wval n q x c - wg q c = ddot n (pl (pp_of q) c) (csub x g)).
    { rewrite <- (HG q c I Hc), !wval_ddot. rewrite (ddot_ext n _ (csub x g) (cadd x (cscal (-1) g))) by (intros; unfold csub, cadd, cscal; ring).
      rewrite ddot_add, ddot_scal_r. ring. }
    rewrite E. rewrite <- (Rabs_Ropp t). apply H.
    + rewrite Rabs_Ropp. exact Ht.
    + intros i d Hi Hd F. unfold csub. rewrite (Px i d Hi Hd F). ring.
    + intros i d Hi Hd F. rewrite dapply_sub, <- Kweak_tot, (Rx i d Hi Hd F). unfold cadd.
      assert (EG : dapply n (Kweak n pts t wpts) g i d = dapply n (Klmat n pts) g i d + Fwd t wpts i d); [|rewrite EG; ring].
      unfold Kweak. transitivity (dapply n (Klmat n pts) g i d + dapply n (Kwd t wpts) g i d).
      { unfold dapply. rewrite <- rsum_plus. apply rsum_ext. intros. unfold sum3. ring. }
      f_equal. unfold Fwd. rewrite (psum_e _ wpts _ (fun q => ww q * Kweakdir (t * wal q) (bvar d (wbas q i)) (fieldjet n (wbas q) g))).
      * rewrite (psum_field _ wpts n (fun q v => ww q * Kweakdir (t * wal q) (bvar d (wbas q i)) v) wbas g).
        { reflexivity. }
        { intros p _. apply linj_scal. split; intros; unfold Kweakdir; cbn [j0 jadd jscal]; [rewrite dot_add|rewrite dot_scal]; ring. }
      * intros p J. f_equal. unfold Fweakdir_lin3, Kweakdir. f_equal. f_equal. unfold dot3, sum3. unfold wval in HG. rewrite !(HG p) by (assumption || lia). reflexivity.
    + apply in_map, I.
    + exact Hc.
Qed.
Print Assumptions C125_large_penalty.

(* a negative option value is the usual penalty method: positive definite for every size *)
Theorem C125_negative_option : forall n fr pts wpts t, sound pts -> wsound wpts -> supported_weakly n fr pts wpts -> t < 0 ->
  posdef n fr (Kweak n pts t wpts) /\ uniquely_solvable n fr (Kweak n pts t wpts).
Proof.
  intros n fr pts wpts t S WS SU T. assert (P : posdef n fr (Kweak n pts t wpts)).
  { intros x Fx Nx. rewrite C125_form. destruct (C123_semidefinite n pts x S) as (A & Z).
    assert (B : 0 <= psum wpts (fun q => ww q * wal q * dot3 (wval n q x) (wval n q x))).
    { apply EstProofs.psum_nonneg. intros p J. destruct (WS p J). apply Rmult_le_pos. nra. apply dot_nonneg. }
    destruct (Req_dec (dquad n (Klmat n pts) x) 0) as [E|E]; [|nra].
    destruct (Req_dec (psum wpts (fun q => ww q * wal q * dot3 (wval n q x) (wval n q x))) 0) as [E'|E']; [|nra].
    exfalso. apply Nx, SU. exact Fx. apply Z. exact E. intros q I c Hc.
    assert (E1 := psum_nonneg_zero wpts (fun q => ww q * wal q * dot3 (wval n q x) (wval n q x))).
    assert (E2 := E1 ltac:(intros p J; destruct (WS p J); apply Rmult_le_pos; [nra|apply dot_nonneg]) E' q I). cbv beta in E2.
    destruct (WS q I) as (A1 & B1). assert (D : dot3 (wval n q x) (wval n q x) = 0).
    { apply Rmult_integral in E2. destruct E2 as [E2|E2]; [nra|exact E2]. }
    unfold dot3, sum3 in D. destruct c as [|[|[|c]]]; [nra|nra|nra|lia]. }
  split. exact P. apply posdef_unique; [|exact P]. rewrite Kweak_tot. apply Ktot_sym. exact S.
Qed.
Print Assumptions C125_negative_option.

(* ---------------------------------------------------------------- coupled patches *)
Lemma ipos n ipts x : isound ipts -> 0 <= psum ipts (fun q => iw q * ial q * dot3 (jump n q x) (jump n q x)) /\
  (psum ipts (fun q => iw q * ial q * dot3 (jump n q x) (jump n q x)) = 0 <-> forall q, In q ipts -> vanishes (jump n q x)).
Proof.
  intro IS. assert (NN : forall p, In p ipts -> 0 <= iw p * ial p * dot3 (jump n p x) (jump n p x)).
  { intros p J. destruct (IS p J). apply Rmult_le_pos. nra. apply dot_nonneg. }
  split. apply EstProofs.psum_nonneg. exact NN. split.
  - intros Z q I c Hc. assert (E := psum_nonneg_zero ipts _ NN Z q I). destruct (IS q I) as (A & B).
    assert (D : dot3 (jump n q x) (jump n q x) = 0). { apply Rmult_integral in E. destruct E as [E|E]; [nra|exact E]. }
    unfold dot3, sum3 in D. destruct c as [|[|[|c]]]; [nra|nra|nra|lia].
  - intro V. transitivity (psum ipts (fun _ => 0)). apply psum_e. intros q I. unfold dot3, sum3. rewrite !(V q I) by lia. ring.
    clear. induction ipts; cbn; lra.
Qed.
Theorem C125_coupling_form : forall n pts t ipts x,
  dquad n (Kcoup n pts t ipts) x = dquad n (Klmat n pts) x + t * psum ipts (fun q => iw q * ial q * dot3 (jump n q x) (jump n q x)).
Proof.
  intros. rewrite Kcoup_tot, Ktot_form, psum_map. f_equal. f_equal. apply psum_e. intros q _. unfold dot3, sum3. rewrite <- !jump_ddot. reflexivity.
Qed.
Print Assumptions C125_coupling_form.
(* the coupling takes away exactly the motions that tear the patches apart, for every positive option value *)
Theorem C125_coupling_solvable : forall n fr pts ipts t, sound pts -> isound ipts -> 0 < t ->
  (forall x, 0 <= dquad n (Kcoup n pts t ipts) x) /\
  (uniquely_solvable n fr (Kcoup n pts t ipts) <-> supported_coupled n fr pts ipts).
Proof.
  intros n fr pts ipts t S IS T.
  assert (NN : forall x, 0 <= dquad n (Kcoup n pts t ipts) x).
  { intro x. rewrite C125_coupling_form. destruct (C123_semidefinite n pts x S) as (A & _). destruct (ipos n ipts x IS) as (B & _). nra. }
  split; [exact NN|]. split.
  - intros U x Fx SF JZ. apply NNPP. intro N. apply (kernel_not_unique n fr (Kcoup n pts t ipts) x Fx N); [|exact U]. apply rows_weak. intros y Fy.
    rewrite ddot_zero_r. assert (CS := cs_semi n fr (dapply n (Kcoup n pts t ipts))).
    assert (Q := CS ltac:(rewrite Kcoup_tot; apply Ktot_sym; exact S) ltac:(intros z _; exact (NN z)) y x Fy Fx).
    assert (Z : dquad n (Kcoup n pts t ipts) x = 0).
    { rewrite C125_coupling_form, (proj2 (proj2 (C123_semidefinite n pts x S)) SF), (proj2 (proj2 (ipos n ipts x IS)) JZ). ring. }
    unfold dquad in Z. rewrite Z in Q. nra.
  - intro SU. apply posdef_unique. rewrite Kcoup_tot; apply Ktot_sym; exact S. intros x Fx Nx. destruct (NN x) as [L|E]. exact L.
    exfalso. rewrite C125_coupling_form in E. destruct (C123_semidefinite n pts x S) as (A & ZA). destruct (ipos n ipts x IS) as (B & ZB).
    apply Nx, SU. exact Fx. apply ZA. nra. apply ZB. nra.
Qed.
Print Assumptions C125_coupling_solvable.
(* the tear of the solution is of the order of 1/t *)
Theorem C125_coupling_limit : forall n fr pts ipts, sound pts -> isound ipts -> supported_coupled n fr pts ipts ->
  exists t0, 1 < t0 /\ forall f g, (forall q, In q ipts -> vanishes (jump n q g)) ->
    exists C, 0 <= C /\ forall t x, t0 < t -> solves n fr (Kcoup n pts t ipts) f g x ->
      forall q c, In q ipts -> (c < 3)%nat -> Rabs (jump n q x c) <= C / t.
Proof.
  intros n fr pts ipts S IS SU. assert (PW := pi_pos ipts IS).
  destruct (gen_large n fr pts (map pi_of ipts) S PW) as (t0 & T0 & INJ & LIM).
  { intros x Fx SF Z. apply SU. exact Fx. exact SF. apply pi_zero. exact Z. }
  exists t0. split; [exact T0|]. intros f g HG. destruct (LIM (fun i d => f i d - dapply n (Klmat n pts) g i d)) as (C & C0 & H). exists C. split; [exact C0|].
  intros t x Ht (Px & Rx) q c I Hc. assert (TA : Rabs t = t) by (apply Rabs_pos_eq; lra).
  assert (E : jump n q x c = ddot n (pl (pi_of q) c) (csub x g)).
  { rewrite (ddot_ext n _ (csub x g) (cadd x (cscal (-1) g))) by (intros; unfold csub, cadd, cscal; ring).
    rewrite ddot_add, ddot_scal_r, <- !jump_ddot, (HG q I c Hc). ring. }
  rewrite E, <- TA. apply H.
  - rewrite TA. exact Ht.
  - intros i d Hi Hd F. unfold csub. rewrite (Px i d Hi Hd F). ring.
  - intros i d Hi Hd F. rewrite dapply_sub, <- Kcoup_tot, (Rx i d Hi Hd F).
    assert (EG : dapply n (Kcoup n pts t ipts) g i d = dapply n (Klmat n pts) g i d); [|rewrite EG; reflexivity].
    rewrite Kcoup_tot, Ktot_psys. unfold psys. rewrite (rsum_zero _ _) ; [ring|].
    intros k Hk. assert (IN : In (nth (k / 3) (map pi_of ipts) p0) (map pi_of ipts)) by (apply nth_In; apply Nat.div_lt_upper_bound; lia).
    apply in_map_iff in IN. destruct IN as (p & EP & IP). rewrite <- EP, <- jump_ddot, (HG p IP) by (apply Nat.mod_upper_bound; lia). ring.
  - apply in_map, I.
  - exact Hc.
Qed.
Print Assumptions C125_coupling_limit.

(* ---------------------------------------------------------------- examples *)
Definition wpt : wpoint := mkw 1 1 (fun i => match i with 0%nat => mksjet 1 0 0 0 0 0 | _ => mksjet 1 0 0 0 0 0 end) (fun c => if Nat.eqb c 0 then 5 else 0).
Definition ipt : ipoint := mki 1 1 (fun i => match i with 0%nat => mksjet 1 0 0 0 0 0 | _ => mksjet 0 0 0 0 0 0 end) (fun i => match i with 1%nat => mksjet 1 0 0 0 0 0 | _ => mksjet 0 0 0 0 0 0 end).
Definition both : frees := fun i d => Nat.eqb d 0.
Definition second : frees := fun i d => (Nat.eqb i 1 && Nat.eqb d 0)%bool.
Lemma both_quad x : admissible 2 both x -> dquad 2 (Klmat 2 [lpt]) x = 8 * (x 0%nat 0%nat * x 0%nat 0%nat).
Proof.
  intro Fx. pose (y := cadd (cscal (x 0%nat 0%nat) pull) (cscal (x 1%nat 0%nat) shift)).
  assert (E : forall i d, (i < 2)%nat -> (d < 3)%nat -> x i d = y i d).
  { intros i d Hi Hd. unfold y, cadd, cscal, pull, shift. destruct d as [|d].
    - destruct i as [|[|i]]; [| |lia]; cbn; ring.
    - rewrite (Fx i (S d) Hi Hd eq_refl). destruct i as [|[|i]]; cbn; ring. }
  assert (Q : dquad 2 (Klmat 2 [lpt]) x = dquad 2 (Klmat 2 [lpt]) y).
  { unfold dquad. rewrite (ddot_ext_l 2 _ x y E). apply ddot_ext. intros i d Hi Hd. unfold dapply, rsum, sum3. rewrite !E by lia. reflexivity. }
  rewrite Q. destruct ex_C123 as (S & P & _ & SF & _). unfold y. unfold dquad. rewrite (op_lin_r 2 _ (KSY 2 [lpt] S)), !ddot_add_l, !ddot_scal_l.
  assert (Z : forall z, ddot 2 z (dapply 2 (Klmat 2 [lpt]) shift) = 0).
  { intro z. rewrite (ddot_ext 2 z _ (fun _ _ => 0)). apply ddot_zero_r. intros i d Hi Hd. apply (C123_null_space 2 [lpt] shift S); assumption. }
  rewrite !Z. assert (C : ddot 2 shift (dapply 2 (Klmat 2 [lpt]) (cscal (x 0%nat 0%nat) pull)) = 0).
  { rewrite (KSY 2 [lpt] S). apply Z. }
  rewrite C. unfold dquad in P.
  rewrite (ddot_ext 2 pull _ (cscal (x 0%nat 0%nat) (dapply 2 (Klmat 2 [lpt]) pull))) by (intros; apply dapply_scal). rewrite ddot_scal_r, P. ring.
Qed.
Lemma held_both x : admissible 2 held x -> admissible 2 both x.
Proof. intros H i d Hi Hd E. apply H; try assumption. unfold held, both in *. rewrite E, andb_false_r. reflexivity. Qed.
Example ex_C125 : sound [lpt] /\ supported 2 held [lpt] /\ wsound [wpt] /\ admissible 2 held pull /\ ~ vanishes (wval 2 wpt pull)
  /\ dquad 2 (Kweak 2 [lpt] 8 [wpt]) pull = 0 /\ dquad 2 (Kweak 2 [lpt] 9 [wpt]) pull = -1 /\ dquad 2 (Kweak 2 [lpt] 7 [wpt]) pull = 1.
Proof.
  assert (S := lpt_sound). split; [exact S|]. split.
  - intros x Fx SF. assert (Z := proj2 (proj2 (C123_semidefinite 2 [lpt] x S)) SF). rewrite (both_quad x (held_both x Fx)) in Z.
    intros i d Hi Hd. destruct (held i d) eqn:E; [|apply Fx; assumption].
    unfold held in E. apply andb_prop in E. destruct E as (A & B). apply Nat.eqb_eq in A, B. subst. nra.
  - split. { intros q [<-|[]]. cbn. lra. }
    split. { intros i d _ _ F. unfold pull. unfold held in F. rewrite F. reflexivity. }
    assert (V : forall c, wval 2 wpt pull c = if Nat.eqb c 0 then 1 else 0).
    { intro c. unfold wval. cbn. unfold vadd, vscal, vecFun, vzero, pull. cbn. destruct c as [|[|[|c]]]; cbn; ring. }
    split. { intro N. assert (Q := N 0%nat ltac:(lia)). rewrite V in Q. cbn in Q. lra. }
    assert (P : admissible 2 both pull). { apply held_both. intros i d _ _ F. unfold pull. unfold held in F. rewrite F. reflexivity. }
    rewrite !C125_form, (both_quad pull P). cbn [psum ww wal wpt]. unfold dot3, sum3. rewrite !V. cbn. unfold pull. cbn. lra.
Qed.
Example ex_C125_floating : sound [lpt] /\ wsound [wpt] /\ admissible 2 second shift /\ (forall p, In p [lpt] -> strain_free 2 p shift) /\ ~ vanishes (wval 2 wpt shift).
Proof.
  split; [exact lpt_sound|]. split. { intros q [<-|[]]. cbn. lra. }
  split. { intros i d _ _ F. unfold shift. unfold second in F. rewrite F. reflexivity. }
  split. { apply ex_C123. }
  intro N. assert (Q := N 0%nat ltac:(lia)). unfold wval in Q. cbn in Q. unfold vadd, vscal, vecFun, vzero, shift in Q. cbn in Q. lra.
Qed.
Example ex_C125_large : sound [lpt] /\ wsound [wpt] /\ supported_weakly 2 both [lpt] [wpt] /\ ~ supported 2 both [lpt]
  /\ (forall q c, In q [wpt] -> (c < 3)%nat -> wval 2 q (fun i d => 5 * shift i d) c = wg q c).
Proof.
  assert (S := lpt_sound). split; [exact S|]. split. { intros q [<-|[]]. cbn. lra. } split; [|split].
  - intros x Fx SF V. assert (Z := proj2 (proj2 (C123_semidefinite 2 [lpt] x S)) SF). rewrite (both_quad x Fx) in Z. assert (X : x 0%nat 0%nat = 0) by nra.
    assert (Q := V wpt (or_introl eq_refl) 0%nat ltac:(lia)). unfold wval in Q. cbn in Q. unfold vadd, vscal, vecFun, vzero in Q. cbn in Q.
    intros i d Hi Hd. destruct d as [|d]; [|apply Fx; [assumption|assumption|reflexivity]]. destruct i as [|[|i]]; [exact X|lra|lia].
  - intro SU. assert (Q := SU shift). assert (N : is_null 2 shift).
    { apply Q. intros i d _ _ F. unfold shift. unfold both in F. rewrite F, andb_false_r. reflexivity. apply ex_C123. }
    assert (Z := N 1%nat 0%nat ltac:(lia) ltac:(lia)). unfold shift in Z. cbn in Z. lra.
  - intros q c [<-|[]] Hc. unfold wval. cbn. unfold vadd, vscal, vecFun, vzero, shift. cbn. destruct c as [|[|[|c]]]; cbn; ring.
Qed.
Example ex_C125_coupling : isound [ipt] /\ supported_coupled 2 both [lpt] [ipt] /\ ~ supported 2 both [lpt] /\ (forall q, In q [ipt] -> vanishes (jump 2 q (fun i d => pull i d + shift i d))).
Proof.
  assert (S := lpt_sound). split. { intros q [<-|[]]. cbn. lra. } split; [|split].
  - intros x Fx SF V. assert (Z := proj2 (proj2 (C123_semidefinite 2 [lpt] x S)) SF). rewrite (both_quad x Fx) in Z. assert (X : x 0%nat 0%nat = 0) by nra.
    assert (Q := V ipt (or_introl eq_refl) 0%nat ltac:(lia)). unfold jump in Q. cbn in Q. unfold vadd, vscal, vecFun, vzero in Q. cbn in Q.
    intros i d Hi Hd. destruct d as [|d]; [|apply Fx; [assumption|assumption|reflexivity]]. destruct i as [|[|i]]; [exact X|lra|lia].
  - apply ex_C125_large.
  - intros q [<-|[]] c Hc. unfold jump. cbn. unfold vadd, vscal, vecFun, vzero, shift, pull. cbn. destruct c as [|[|[|c]]]; cbn; ring.
Qed.
