(* One-dimensional implicit functions for sums of products a(t) b(x): existence, uniqueness and differentiability of root branches. *)
From Coq Require Import Reals Lra Lia List.
From Coquelicot Require Import Coquelicot.
Import ListNotations.
Open Scope R_scope.

(* Caratheodory's form of the derivative *)
Lemma cara_fwd (f : R -> R) (x l : R) : is_derive f x l -> exists q : R -> R, continuous q x /\ q x = l /\ forall y, f y = f x + (y - x) * q y.
Proof.
  intro H. exists (fun y => if Req_EM_T y x then l else (f y - f x) / (y - x)).
  split; [|split].
  - apply continuity_pt_filterlim. apply is_derive_Reals in H. intros eps Heps. destruct (H eps Heps) as (d & Hd).
    exists d. split; [apply d|]. intros y (_ & Hy). unfold dist, R_met, R_dist in *. cbn in *. unfold R_dist in *.
    destruct (Req_EM_T x x); [|congruence]. destruct (Req_EM_T y x) as [->|N]; [rewrite Rminus_eq_0, Rabs_R0; exact Heps|].
    specialize (Hd (y - x) ltac:(lra) Hy). replace (x + (y - x)) with y in Hd by ring. exact Hd.
  - destruct (Req_EM_T x x); congruence.
  - intro y. destruct (Req_EM_T y x) as [->|N]; [ring|]. field. lra.
Qed.
Lemma cara_bwd (f : R -> R) (x : R) (q : R -> R) : continuous q x -> locally x (fun y => f y = f x + (y - x) * q y) -> is_derive f x (q x).
Proof.
  intros C (d & H). apply is_derive_Reals. intros eps Heps. apply continuity_pt_filterlim in C. destruct (C eps Heps) as (d' & D' & C').
  assert (M : 0 < Rmin d d') by (apply Rmin_pos; [apply d|exact D']). exists (mkposreal _ M). intros h Hh Hl. cbn in Hl.
  assert (B : Rabs h < d /\ Rabs h < d'). { split; eapply Rlt_le_trans; try exact Hl; [apply Rmin_l|apply Rmin_r]. }
  rewrite (H (x + h)).
  2:{ unfold ball; cbn; unfold AbsRing_ball; cbn. unfold abs, minus, plus, opp; cbn. replace (x + h + - x) with h by ring. apply B. }
  replace ((f x + (x + h - x) * q (x + h) - f x) / h - q x) with (q (x + h) - q x) by (field; exact Hh).
  assert (Q := C' (x + h)). unfold dist, R_met, R_dist, D_x, no_cond in Q. cbn in Q. unfold R_dist in Q. apply Q.
  split; [split; [exact I|lra]|]. replace (x + h - x) with h by ring. apply B.
Qed.

Definition term := ((R -> R) * (R -> R) * (R -> R))%type.
Definition ta (k : term) (t : R) : R := fst (fst k) t.
Definition tb (k : term) (x : R) : R := snd (fst k) x.
Definition tb' (k : term) (x : R) : R := snd k x.
Fixpoint Fs (L : list term) (t x : R) : R := match L with [] => 0 | k :: L' => ta k t * tb k x + Fs L' t x end.
Fixpoint Gs (L : list term) (t x : R) : R := match L with [] => 0 | k :: L' => ta k t * tb' k x + Gs L' t x end.
Definition smooth (k : term) : Prop := (forall x, is_derive (tb k) x (tb' k x)) /\ (forall x, continuous (tb' k) x).

Lemma Fs_deriv L t x : (forall k, In k L -> smooth k) -> is_derive (fun x => Fs L t x) x (Gs L t x).
Proof.
  induction L as [|k L IH]; intro H; cbn [Fs Gs]; [apply @is_derive_const|].
  apply (is_derive_plus (K := R_AbsRing) (V := R_NormedModule) (fun x => ta k t * tb k x) (fun x => Fs L t x)).
  - apply is_derive_scal. apply H. left; reflexivity.
  - apply IH. intros; apply H; right; assumption.
Qed.
Lemma Fs_cont L x : (forall k, In k L -> continuous (ta k) 0) -> continuous (fun t => Fs L t x) 0.
Proof.
  induction L as [|k L IH]; intro H; cbn [Fs]; [apply continuous_const|].
  apply (continuous_plus (K := R_AbsRing) (V := R_NormedModule) (fun t => ta k t * tb k x)).
  - apply (continuous_mult (K := R_AbsRing) (ta k) (fun _ => tb k x)); [apply H; left; reflexivity|apply continuous_const].
  - apply IH. intros; apply H; right; assumption.
Qed.
Lemma Gs_joint L x : (forall k, In k L -> continuous (ta k) 0) -> (forall k, In k L -> smooth k) ->
  continuous (fun p : R * R => Gs L (fst p) (snd p)) (0, x).
Proof.
  induction L as [|k L IH]; intros H S; cbn [Gs]; [apply continuous_const|].
  apply (continuous_plus (K := R_AbsRing) (V := R_NormedModule) (fun p : R * R => ta k (fst p) * tb' k (snd p))).
  - apply (continuous_mult (K := R_AbsRing) (fun p : R * R => ta k (fst p)) (fun p : R * R => tb' k (snd p))).
    + apply (continuous_comp fst (ta k)); [apply continuous_fst|]. apply H; left; reflexivity.
    + apply (continuous_comp snd (tb' k)); [apply continuous_snd|]. apply S; left; reflexivity.
  - apply IH; intros; [apply H|apply S]; right; assumption.
Qed.
Lemma Gs_box L x : (forall k, In k L -> continuous (ta k) 0) -> (forall k, In k L -> smooth k) -> 0 < Gs L 0 x ->
  exists d, 0 < d /\ forall t y, Rabs t < d -> Rabs (y - x) < d -> 0 < Gs L t y.
Proof.
  intros H S P. pose proof (Gs_joint L x H S) as C.
  assert (O : locally (Gs L 0 x) (fun g => 0 < g)).
  { exists (mkposreal _ P). intros g B. unfold ball in B; cbn in B; unfold AbsRing_ball in B; cbn in B.
    unfold abs, minus, plus, opp in B; cbn in B. apply Rabs_def2 in B. lra. }
  destruct (C _ O) as (d & B). exists d. split; [apply d|]. intros t y Ht Hy. apply (B (t, y)). split; cbn;
    unfold ball; cbn; unfold AbsRing_ball; cbn; unfold abs, minus, plus, opp; cbn; [rewrite Ropp_0, Rplus_0_r; exact Ht|exact Hy].
Qed.
Lemma near0 (f : R -> R) : continuous f 0 -> 0 < f 0 -> exists e, 0 < e /\ forall t, Rabs t < e -> 0 < f t.
Proof.
  intros C P.
  assert (O : locally (f 0) (fun g => 0 < g)).
  { exists (mkposreal _ P). intros g B. unfold ball in B; cbn in B; unfold AbsRing_ball in B; cbn in B.
    unfold abs, minus, plus, opp in B; cbn in B. apply Rabs_def2 in B. lra. }
  destruct (C _ O) as (d & B). exists d. split; [apply d|]. intros t Ht. apply B.
  unfold ball; cbn; unfold AbsRing_ball; cbn; unfold abs, minus, plus, opp; cbn. rewrite Ropp_0, Rplus_0_r. exact Ht.
Qed.

Section Pos.
  Variables (L : list term) (x0 : R).
  Hypotheses (Ha : forall k, In k L -> continuous (ta k) 0) (Hb : forall k, In k L -> smooth k)
             (R0 : Fs L 0 x0 = 0) (P0 : 0 < Gs L 0 x0).

  Lemma mono d : (forall t y, Rabs t < d -> Rabs (y - x0) < d -> 0 < Gs L t y) ->
    forall t x y, Rabs t < d -> Rabs (x - x0) < d -> Rabs (y - x0) < d -> x < y -> Fs L t x < Fs L t y.
  Proof.
    intros B t x y Ht Hx Hy XY. destruct (MVT_gen (fun x => Fs L t x) x y (fun x => Gs L t x)) as (c & Hc & E).
    - intros; apply Fs_deriv, Hb.
    - intros z _. apply derivable_continuous_pt. exists (Gs L t z). apply is_derive_Reals, Fs_deriv, Hb.
    - rewrite Rmin_left, Rmax_right in Hc by lra.
      assert (0 < Gs L t c). { apply B; [exact Ht|]. apply Rabs_def2 in Hx. apply Rabs_def2 in Hy. apply Rabs_def1; lra. }
      assert (0 < Gs L t c * (y - x)) by (apply Rmult_lt_0_compat; lra). lra.
  Qed.

  Lemma branch_pos : exists th d, 0 < d /\ th 0 = x0 /\ continuous th 0 /\
    (forall t, Rabs t < d -> Fs L t (th t) = 0) /\
    (forall t x, Rabs t < d -> Rabs (x - x0) < d -> Fs L t x = 0 -> x = th t).
  Proof.
    destruct (Gs_box L x0 Ha Hb P0) as (d & Pd & B). pose proof (mono d B) as M.
    (* sign change on every small interval *)
    assert (SG : forall e, 0 < e < d -> exists h, 0 < h /\ forall t, Rabs t < h -> Fs L t (x0 - e) < 0 /\ 0 < Fs L t (x0 + e)).
    { intros e He.
      assert (S1 : Fs L 0 (x0 - e) < 0). { apply (Rlt_le_trans _ (Fs L 0 x0)); [|lra]. apply M; try (rewrite Rabs_R0; lra); try (apply Rabs_def1; lra); lra. }
      assert (S2 : 0 < Fs L 0 (x0 + e)). { apply (Rle_lt_trans _ (Fs L 0 x0)); [lra|]. apply M; try (rewrite Rabs_R0; lra); try (apply Rabs_def1; lra); lra. }
      destruct (near0 (fun t => - Fs L t (x0 - e))) as (h1 & P1 & N1).
      { apply (continuous_opp (K := R_AbsRing) (V := R_NormedModule)). apply Fs_cont, Ha. } { lra. }
      destruct (near0 (fun t => Fs L t (x0 + e)) (Fs_cont L _ Ha) S2) as (h2 & P2 & N2).
      exists (Rmin h1 h2). split; [apply Rmin_pos; assumption|]. intros t Ht.
      specialize (N1 t (Rlt_le_trans _ _ _ Ht (Rmin_l _ _))). specialize (N2 t (Rlt_le_trans _ _ _ Ht (Rmin_r _ _))). cbv beta in N1. lra. }
    assert (CT : forall t, continuity (fun x => Fs L t x)).
    { intros t z. apply derivable_continuous_pt. exists (Gs L t z). apply is_derive_Reals, Fs_deriv, Hb. }
    set (e := d / 2).
    set (th := fun t => match Rlt_dec (Fs L t (x0 - e)) 0, Rlt_dec 0 (Fs L t (x0 + e)) with
               | left p, left q => match Rlt_dec (x0 - e) (x0 + e) with left r => proj1_sig (IVT _ _ _ (CT t) r p q) | _ => x0 end
               | _, _ => x0 end).
    destruct (SG e ltac:(unfold e; lra)) as (h & Ph & Sh).
    assert (TH : forall t, Rabs t < h -> x0 - e <= th t <= x0 + e /\ Fs L t (th t) = 0).
    { intros t Ht. destruct (Sh t Ht) as (p & q). unfold th. destruct (Rlt_dec (Fs L t (x0 - e)) 0); [|lra]. destruct (Rlt_dec 0 (Fs L t (x0 + e))); [|lra].
      destruct (Rlt_dec (x0 - e) (x0 + e)); [|unfold e in *; lra]. destruct (IVT _ _ _ _ _ _ _) as (z & Hz & E). cbn. split; assumption. }
    assert (UN : forall t x y, Rabs t < d -> Rabs (x - x0) < d -> Rabs (y - x0) < d -> Fs L t x = 0 -> Fs L t y = 0 -> x = y).
    { intros t x y Ht Hx Hy Ex Ey. destruct (Rtotal_order x y) as [Q|[Q|Q]]; [|exact Q|].
      - pose proof (M t x y Ht Hx Hy Q). lra.
      - pose proof (M t y x Ht Hy Hx Q). lra. }
    assert (T0 : th 0 = x0).
    { destruct (TH 0) as (Q & E); [rewrite Rabs_R0; exact Ph|]. apply (UN 0); try assumption; try (rewrite Rabs_R0; lra).
      - apply Rabs_def1; unfold e in *; lra. - rewrite Rminus_eq_0, Rabs_R0. exact Pd. }
    exists th, (Rmin h e). assert (Me : 0 < Rmin h e) by (apply Rmin_pos; [exact Ph|unfold e; lra]).
    assert (Hm : forall t, Rabs t < Rmin h e -> Rabs t < h /\ Rabs t < d).
    { intros t Ht. split; [apply (Rlt_le_trans _ _ _ Ht (Rmin_l _ _))|]. pose proof (Rlt_le_trans _ _ _ Ht (Rmin_r _ _)). unfold e in *; lra. }
    split; [exact Me|]. split; [exact T0|]. split; [|split].
    - apply continuity_pt_filterlim. intros eps Heps. set (e' := Rmin (eps / 2) e).
      assert (E' : 0 < e' < d). { split; [apply Rmin_pos; unfold e; lra|]. pose proof (Rmin_r (eps / 2) e). unfold e', e in *. lra. }
      destruct (SG e' E') as (h' & Ph' & Sh'). exists (Rmin h' (Rmin h e)). split; [apply Rmin_pos; assumption|].
      intros t (_ & Ht). unfold dist, R_met in *. cbn in *. unfold R_dist in *. rewrite Rminus_0_r in Ht. rewrite T0.
      assert (Q1 := Rlt_le_trans _ _ _ Ht (Rmin_l _ _)). assert (Q2 := Hm t (Rlt_le_trans _ _ _ Ht (Rmin_r _ _))).
      destruct (Sh' t Q1) as (p & q). assert (r : x0 - e' < x0 + e') by lra.
      destruct (IVT _ _ _ (CT t) r p q) as (z & Hz & Ez). destruct (TH t (proj1 Q2)) as (Qt & Et).
      assert (z = th t). { apply (UN t); try assumption; [apply Q2| |]; apply Rabs_def1; unfold e in *; lra. }
      subst z. apply Rle_lt_trans with e'; [apply Rabs_le; lra|]. unfold e'. pose proof (Rmin_l (eps / 2) e). lra.
    - intros t Ht. apply TH, Hm, Ht.
    - intros t x Ht Hx Ex. destruct (Hm t Ht) as (A & A'). destruct (TH t A) as (Qt & Et). apply (UN t); try assumption.
      + apply (Rlt_le_trans _ _ _ Hx). pose proof (Rmin_r h e). unfold e in *; lra.
      + apply Rabs_def1; unfold e in *; lra.
  Qed.
End Pos.

Definition tneg (k : term) : term := (fun t => - ta k t, tb k, tb' k).
Lemma Fs_neg L t x : Fs (map tneg L) t x = - Fs L t x.
Proof. induction L as [|k L IH]; cbn; [ring|]. rewrite IH. unfold ta, tb at 1. cbn. unfold tneg, tb, ta; cbn. ring. Qed.
Lemma Gs_neg L t x : Gs (map tneg L) t x = - Gs L t x.
Proof. induction L as [|k L IH]; cbn; [ring|]. rewrite IH. unfold tneg, tb', ta; cbn. ring. Qed.

(* existence and local uniqueness of the branch through a simple root *)
Lemma branch_exists L x0 : (forall k, In k L -> continuous (ta k) 0) -> (forall k, In k L -> smooth k) -> Fs L 0 x0 = 0 -> Gs L 0 x0 <> 0 ->
  exists th d, 0 < d /\ th 0 = x0 /\ continuous th 0 /\ (forall t, Rabs t < d -> Fs L t (th t) = 0) /\
    (forall t x, Rabs t < d -> Rabs (x - x0) < d -> Fs L t x = 0 -> x = th t).
Proof.
  intros Ha Hb R0 N0. destruct (Rtotal_order (Gs L 0 x0) 0) as [Q|[Q|Q]]; [|contradiction|apply branch_pos; assumption].
  destruct (branch_pos (map tneg L) x0) as (th & d & Pd & T0 & Ct & Rt & Un).
  - intros k' I. apply in_map_iff in I as (k & <- & I). apply (continuous_opp (K := R_AbsRing) (V := R_NormedModule) (ta k)), Ha, I.
  - intros k' I. apply in_map_iff in I as (k & <- & I). destruct (Hb k I) as (A & B). split; [exact A|exact B].
  - rewrite Fs_neg, R0. ring.
  - rewrite Gs_neg. lra.
  - exists th, d. split; [exact Pd|]. split; [exact T0|]. split; [exact Ct|]. split.
    + intros t Ht. specialize (Rt t Ht). rewrite Fs_neg in Rt. lra.
    + intros t x Ht Hx E. apply Un; try assumption. rewrite Fs_neg, E. ring.
Qed.

(* a continuous choice of roots through a simple root is differentiable *)
Lemma branch_smooth L th : (forall k, In k L -> ex_derive (ta k) 0) -> (forall k, In k L -> smooth k) -> continuous th 0 ->
  locally 0 (fun t => Fs L t (th t) = 0) -> Gs L 0 (th 0) <> 0 -> ex_derive th 0.
Proof.
  intros Ha Hb Ct Rt N0.
  (* t-increment *)
  assert (P : exists p : R -> R, continuous p 0 /\ forall t, Fs L t (th t) = Fs L 0 (th t) + t * p t).
  { clear Rt N0. induction L as [|k L IH]; [exists (fun _ => 0); split; [apply continuous_const|intro; cbn; ring]|].
    destruct IH as (p & Cp & Ep); [intros; apply Ha; right; assumption|intros; apply Hb; right; assumption|].
    destruct (Ha k (or_introl eq_refl)) as (l & D). destruct (cara_fwd _ _ _ D) as (q & Cq & _ & Eq).
    exists (fun t => q t * tb k (th t) + p t). split.
    - apply (continuous_plus (K := R_AbsRing) (V := R_NormedModule) (fun t => q t * tb k (th t)) p); [|exact Cp].
      apply (continuous_mult (K := R_AbsRing) q (fun t => tb k (th t))); [exact Cq|]. apply (continuous_comp th (tb k)); [exact Ct|].
      apply (ex_derive_continuous (K := R_AbsRing) (V := R_NormedModule) (tb k)). exists (tb' k (th 0)). apply (Hb k (or_introl eq_refl)).
    - intro t. cbn [Fs]. rewrite Ep, (Eq t). rewrite Rminus_0_r. ring. }
  destruct P as (p & Cp & Ep).
  destruct (cara_fwd (fun x => Fs L 0 x) (th 0) _ (Fs_deriv L 0 (th 0) Hb)) as (q & Cq & Eq0 & Eq).
  assert (CQ : continuous (fun t => q (th t)) 0) by (apply (continuous_comp th q); assumption).
  assert (F0 : Fs L 0 (th 0) = 0) by (apply (locally_singleton _ _ Rt)).
  assert (NZ : locally 0 (fun t => q (th t) <> 0)).
  { apply (CQ (fun y => y <> 0)). rewrite Eq0. assert (A : 0 < Rabs (Gs L 0 (th 0))) by (apply Rabs_pos_lt, N0).
    exists (mkposreal _ A). intros y B E. subst y. unfold ball in B; cbn in B; unfold AbsRing_ball in B; cbn in B.
    unfold abs, minus, plus, opp in B; cbn in B. rewrite Rplus_0_l, Rabs_Ropp in B. lra. }
  exists ((fun t => - p t / q (th t)) 0). apply (cara_bwd th 0 (fun t => - p t / q (th t))).
  - apply (continuous_mult (K := R_AbsRing) (fun t => - p t) (fun t => / q (th t))).
    + apply (continuous_opp (K := R_AbsRing) (V := R_NormedModule)), Cp.
    + apply continuous_Rinv_comp; [exact CQ|]. rewrite Eq0. exact N0.
  - generalize (filter_and _ _ Rt NZ). apply filter_imp. intros t (E & N). rewrite Ep, (Eq (th t)), F0 in E. rewrite Rminus_0_r.
    apply (Rmult_eq_reg_l (q (th t))); [|exact N]. replace (q (th t) * (th 0 + t * (- p t / q (th t)))) with (q (th t) * th 0 - t * p t) by (field; exact N). lra.
Qed.
