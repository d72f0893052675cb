From Coq Require Import Reals Lra Lia List Arith Permutation Psatz.
From Verif Require Import Tensor IndicatorModel IndicatorSpec IndicatorProofs.
Import ListNotations.
Open Scope R_scope.

(* ------------------------------------------------------------------ C59 *)
Definition contained (l : pload) (patches : list (list elem)) : Prop := exists el, In el (concat patches) /\ in_box (lpt l) el.

(* whatever the number of threads and the order of the critical sections: no exception, and every element containing the point receives
   lval * (number of patches from its own to the last) / (sum of these numbers); the other elements receive nothing *)
Theorem C59_shares : forall nt patches l errs o, (0 < nt)%nat -> length errs = total_elems patches -> applyElWise nt patches l errs o ->
  exists errs', o = Ok errs' /\ length errs' = length errs /\
    forall e, (e < length errs)%nat -> nth e errs' 0 = nth e errs 0 + lval l * (INR (shares (lpt l) patches e) / INR (all_shares (lpt l) patches)).
Proof. exact elwise_exact. Qed.
Print Assumptions C59_shares.
Theorem C59_schedule_independent : forall nt nt' patches l errs o o', (0 < nt)%nat -> (0 < nt')%nat -> length errs = total_elems patches ->
  applyElWise nt patches l errs o -> applyElWise nt' patches l errs o' -> o = o'.
Proof.
  intros nt nt' patches l errs o o' H1 H2 HL A B.
  destruct (elwise_exact _ _ _ _ _ H1 HL A) as (a & -> & La & Va). destruct (elwise_exact _ _ _ _ _ H2 HL B) as (b & -> & Lb & Vb).
  f_equal. apply list_eq_nth. congruence. intros e He. rewrite Va, Vb by (rewrite <- ?La; assumption). reflexivity.
Qed.
Print Assumptions C59_schedule_independent.
Theorem C59_element_in_no_box : forall nt patches l errs errs' e, (0 < nt)%nat -> length errs = total_elems patches ->
  applyElWise nt patches l errs (Ok errs') -> (e < length errs)%nat -> ~ in_box (lpt l) (nth e (concat patches) dflt) -> nth e errs' 0 = nth e errs 0.
Proof.
  intros nt patches l errs errs' e H1 HL A He N. destruct (elwise_exact _ _ _ _ _ H1 HL A) as (a & E & La & Va). injection E as <-. rewrite Va by assumption.
  assert (Z : shares (lpt l) patches e = 0%nat).
  { destruct (shares (lpt l) patches e) eqn:S; [reflexivity|]. exfalso. apply N. apply contains_box. apply shares_pos_in. lia. }
  unfold share. rewrite Z. cbn [INR]. unfold Rdiv. ring.
Qed.
Print Assumptions C59_element_in_no_box.
(* all loads: the sum over the elements grows by what the total receives *)
Theorem C59_sum : forall nt patches ls errs o, (0 < nt)%nat -> length errs = total_elems patches -> (forall l, In l ls -> contained l patches) ->
  applyAll nt patches ls errs o -> exists errs', o = Ok errs' /\ length errs' = length errs /\ list_sum errs' = applyTotal ls (list_sum errs).
Proof.
  intros nt patches ls errs o Hn HL HC H. revert HL HC. induction H as [errs|l r errs errs' o A B IH|l r errs A]; intros HL HC.
  - exists errs. repeat split.
  - destruct (elwise_exact _ _ _ _ _ Hn HL A) as (a & E & La & Va). injection E as <-.
    destruct IH as (e' & -> & L' & S'). congruence. intros; apply HC; right; assumption.
    exists e'. split. reflexivity. split. congruence. rewrite S'. unfold applyTotal. cbn [fold_left].
    rewrite (elwise_sum nt patches l errs errs' Hn HL A). reflexivity. apply HC. left; reflexivity.
  - exfalso. destruct (elwise_exact _ _ _ _ _ Hn HL A) as (a & E & _). discriminate.
Qed.
Print Assumptions C59_sum.
(* one patch: equal shares *)
Theorem C59_single_patch : forall nt es l errs errs' e, (0 < nt)%nat -> length errs = length es -> applyElWise nt [es] l errs (Ok errs') ->
  (e < length errs)%nat -> in_box (lpt l) (nth e es dflt) ->
  nth e errs' 0 = nth e errs 0 + lval l / INR (length (filter (contains (lpt l)) es)).
Proof.
  intros nt es l errs errs' e Hn HL A He HB.
  assert (T : total_elems [es] = length es) by (unfold total_elems; cbn; rewrite app_nil_r; reflexivity).
  destruct (elwise_exact nt [es] l errs _ Hn ltac:(congruence) A) as (a & E & La & Va). injection E as <-. rewrite Va by assumption.
  assert (S : forall k, shares (lpt l) [es] k = if Nat.ltb k (length es) then (if contains (lpt l) (nth k es dflt) then 1 else 0)%nat else 0%nat) by reflexivity.
  assert (S1 : shares (lpt l) [es] e = 1%nat).
  { rewrite S. rewrite (proj2 (Nat.ltb_lt e (length es))) by congruence. rewrite (proj2 (contains_box _ _) HB). reflexivity. }
  assert (AS : all_shares (lpt l) [es] = length (filter (contains (lpt l)) es)).
  { unfold all_shares. rewrite T. change (fold_right Nat.add 0%nat) with nsum.
    rewrite (nsum_ext _ _ _ (fun k => if contains (lpt l) (nth k es dflt) then 1 else 0)%nat).
    - clear. induction es; cbn. reflexivity. rewrite <- seq_shift, map_map. destruct (contains (lpt l) a); cbn [length]; rewrite <- IHes; reflexivity.
    - intros k Hk. apply in_seq in Hk. rewrite S. rewrite (proj2 (Nat.ltb_lt k (length es))) by lia. reflexivity. }
  unfold share. rewrite S1, AS. cbn [INR]. unfold Rdiv. ring.
Qed.
Print Assumptions C59_single_patch.
(* a load outside every element box is added to the total error only *)
Theorem C59_outside : forall nt patches l errs errs', (0 < nt)%nat -> length errs = total_elems patches -> applyElWise nt patches l errs (Ok errs') ->
  ~ contained l patches -> errs' = errs.
Proof.
  intros nt patches l errs errs' Hn HL A N. destruct (elwise_exact _ _ _ _ _ Hn HL A) as (a & E & La & Va). injection E as <-.
  apply list_eq_nth. assumption. intros e He. rewrite Va by congruence.
  unfold share. rewrite all_shares_zero. cbn [INR]. unfold Rdiv. ring. intros el I B. apply N. exists el. split; assumption.
Qed.
Print Assumptions C59_outside.
(* schedules exist for every number of threads *)
Theorem C59_schedule_exists : forall nt patches l errs, exists o, applyElWise nt patches l errs o.
Proof. intros. eexists. apply aew. apply interleaves_concat. Qed.
Print Assumptions C59_schedule_exists.

(* two patches with one element each, both parametrised over the unit square; a load at (1/2,1/2) of either patch *)
Definition usq : elem := mkelem (0, 0) (1, 1).
Definition half_load (v : R) : pload := mkload (1 / 2, 1 / 2) v.
Lemma usq_in : in_box (1 / 2, 1 / 2) usq. Proof. unfold in_box. cbn. lra. Qed.
Lemma usq_c : contains (1 / 2, 1 / 2) usq = true. Proof. apply contains_box, usq_in. Qed.
(* shares proportional to the number of following patches: equality, and confinement to the patch of the load, fail *)
Theorem C59_equal_shares_refuted : exists patches l errs, contained l patches /\ length errs = total_elems patches /\
  forall nt o, (0 < nt)%nat -> applyElWise nt patches l errs o -> o = Ok [2; 1].
Proof.
  exists [[usq]; [usq]], (half_load 3), [0; 0]. split. exists usq. split. left; reflexivity. exact usq_in. split. reflexivity.
  intros nt o Hn A. destruct (elwise_exact nt [[usq]; [usq]] _ [0; 0] _ Hn eq_refl A) as (a & -> & La & Va). f_equal. apply list_eq_nth. exact La.
  assert (S0 : shares (1 / 2, 1 / 2) [[usq]; [usq]] 0 = 2%nat) by (cbn [shares length Nat.ltb Nat.leb nth]; rewrite usq_c; reflexivity).
  assert (S1 : shares (1 / 2, 1 / 2) [[usq]; [usq]] 1 = 1%nat) by (cbn [shares length Nat.ltb Nat.leb nth Nat.sub]; rewrite usq_c; reflexivity).
  assert (AS : all_shares (1 / 2, 1 / 2) [[usq]; [usq]] = 3%nat) by (unfold all_shares; change (total_elems [[usq]; [usq]]) with 2%nat; cbn [seq map fold_right]; rewrite S0, S1; reflexivity).
  intros e He. rewrite La in He. cbn in He. rewrite Va by exact He. unfold share, half_load. cbn [lpt lval]. rewrite AS.
  destruct e as [|[|e]]; [rewrite S0|rewrite S1|lia]; cbn; lra.
Qed.
Print Assumptions C59_equal_shares_refuted.
(* hypotheses of the theorems: two loads on two patches of two elements, one of them on a common edge *)
Definition wpatch : list elem := [mkelem (0, 0) (1 / 2, 1); mkelem (1 / 2, 0) (1, 1)].
Definition wloads : list pload := [half_load 3; mkload (1 / 4, 1 / 4) (-1)].
Example C59_ex : (forall l, In l wloads -> contained l [wpatch; wpatch]) /\ total_elems [wpatch; wpatch] = 4%nat /\
  forall nt, (0 < nt)%nat -> exists errs', applyAll nt [wpatch; wpatch] wloads [1; 2; 3; 4] (Ok errs') /\ list_sum errs' = 12.
Proof.
  assert (HC : forall l, In l wloads -> contained l [wpatch; wpatch]).
  { intros l [<-|[<-|[]]]; exists (mkelem (0, 0) (1 / 2, 1)); (split; [left; reflexivity|unfold in_box; cbn; lra]). }
  split. exact HC. split. reflexivity. intros nt Hn.
  destruct (C59_schedule_exists nt [wpatch; wpatch] (half_load 3) [1; 2; 3; 4]) as (o & A).
  destruct (C59_shares nt [wpatch; wpatch] _ [1; 2; 3; 4] o Hn eq_refl A) as (e1 & -> & L1 & _).
  destruct (C59_schedule_exists nt [wpatch; wpatch] (mkload (1 / 4, 1 / 4) (-1)) e1) as (o & B).
  destruct (C59_shares nt [wpatch; wpatch] _ e1 o Hn L1 B) as (e2 & -> & L2 & _).
  assert (All : applyAll nt [wpatch; wpatch] wloads [1; 2; 3; 4] (Ok e2)) by (eapply aa_cons; [exact A|]; eapply aa_cons; [exact B|constructor]).
  exists e2. split. exact All. destruct (C59_sum nt [wpatch; wpatch] wloads [1; 2; 3; 4] _ Hn eq_refl HC All) as (e' & E & _ & S). injection E as <-. rewrite S. cbn. lra.
Qed.

(* ------------------------------------------------------------------ C60 *)
Lemma fdiv_some : forall a b, b <> 0 -> fdiv a b = Some (a / b).
Proof. intros a b H. unfold fdiv. destruct (Req_EM_T b 0); [contradiction|reflexivity]. Qed.
Lemma abs_nz : forall t, t <> 0 -> Rabs t <> 0. Proof. intros. apply Rabs_no_R0. assumption. Qed.
Lemma sum_abs : forall l, Rabs (list_sum l) <= list_sum (map Rabs l).
Proof. induction l; cbn. rewrite Rabs_R0. lra. eapply Rle_trans. apply Rabs_triang. unfold list_sum in IHl. apply Rplus_le_compat_l. exact IHl. Qed.
Lemma sum_abs_pos : forall l, (forall x, In x l -> 0 <= x) -> list_sum (map Rabs l) = list_sum l.
Proof. induction l; intros H; cbn. reflexivity. rewrite Rabs_right by (apply Rle_ge, H; left; reflexivity). f_equal. apply IHl. intros; apply H; right; assumption. Qed.
Lemma sum_nn : forall l, (forall x, In x l -> 0 <= x) -> 0 <= list_sum l.
Proof. induction l; intros H; cbn. lra. pose proof (H a (or_introl eq_refl)). assert (0 <= list_sum l) by (apply IHl; intros; apply H; right; assumption). unfold list_sum in *. lra. Qed.
Lemma sum_div : forall l c, list_sum (map (fun x => x / c) l) = list_sum l / c.
Proof. induction l; intros; cbn. unfold Rdiv; ring. unfold list_sum in *. rewrite IHl. unfold Rdiv. ring. Qed.

(* with a non-zero total, the normalised indicators are numbers, non-negative, |e_i| / |total|; if the total is the sum of the contributions
   they sum to at least one, and to exactly one when all contributions have the sign of a non-negative total *)
Theorem C60_normalised : forall errs tot, tot <> 0 -> exists v, are_numbers (h_errors true errs tot) v /\ are_numbers (h_absErrors true errs tot) v /\
  length v = length errs /\ (forall i, (i < length errs)%nat -> nth i v 0 = Rabs (nth i errs 0) / Rabs tot /\ 0 <= nth i v 0) /\
  (tot = list_sum errs -> 1 <= list_sum v) /\ (tot = list_sum errs -> (forall x, In x errs -> 0 <= x) -> list_sum v = 1).
Proof.
  intros errs tot Ht. exists (map (fun e => Rabs e / Rabs tot) errs). pose proof (Rabs_pos_lt tot Ht) as P.
  split; [|split; [|split; [|split; [|split]]]].
  - unfold are_numbers, h_errors. rewrite map_map. apply map_ext. intro a. apply fdiv_some, abs_nz, Ht.
  - unfold are_numbers, h_absErrors. rewrite map_map. apply map_ext. intro a. apply fdiv_some, abs_nz, Ht.
  - apply map_length.
  - intros i Hi. assert (E : nth i (map (fun e => Rabs e / Rabs tot) errs) 0 = Rabs (nth i errs 0) / Rabs tot).
    { rewrite (nth_indep _ 0 (Rabs 0 / Rabs tot)) by (rewrite map_length; exact Hi). apply (map_nth (fun e => Rabs e / Rabs tot)). }
    split. exact E. rewrite E. apply Rmult_le_pos. apply Rabs_pos. left. apply Rinv_0_lt_compat, P.
  - intros E. rewrite <- (map_map Rabs (fun x => x / Rabs tot)), sum_div. apply Rmult_le_reg_r with (Rabs tot). exact P.
    unfold Rdiv. rewrite Rmult_assoc, Rinv_l by lra. rewrite Rmult_1_l, Rmult_1_r. rewrite E. apply sum_abs.
  - intros E N. rewrite <- (map_map Rabs (fun x => x / Rabs tot)), sum_div, (sum_abs_pos errs N), <- E.
    rewrite (Rabs_right tot). unfold Rdiv. apply Rinv_r; assumption. rewrite E. apply Rle_ge, sum_nn, N.
Qed.
Print Assumptions C60_normalised.
Theorem C60_squared : forall errs tot, tot <> 0 -> exists v, are_numbers (h_sqErrors true (map (fun e => e * e) errs) tot) v /\
  forall i, (i < length errs)%nat -> nth i v 0 = (Rabs (nth i errs 0) / Rabs tot) * (Rabs (nth i errs 0) / Rabs tot).
Proof.
  intros errs tot Ht. exists (map (fun e => Rabs (e * e) / (tot * tot)) errs). split.
  - unfold are_numbers, h_sqErrors. rewrite !map_map. apply map_ext. intro a. apply fdiv_some. nra.
  - intros i Hi. rewrite (nth_indep _ 0 (Rabs (0 * 0) / (tot * tot))) by (rewrite map_length; exact Hi).
    rewrite (map_nth (fun e => Rabs (e * e) / (tot * tot))). rewrite Rabs_mult.
    assert (T : tot * tot = Rabs tot * Rabs tot) by (rewrite <- Rabs_mult, Rabs_right; [reflexivity|nra]). rewrite T. field. apply abs_nz, Ht.
Qed.
Print Assumptions C60_squared.
(* raw indicators are returned as computed, absolute ones without their sign *)
Theorem C60_raw : forall errs tot, are_numbers (h_errors false errs tot) errs /\ are_numbers (h_absErrors false errs tot) (map Rabs errs) /\
  are_numbers (h_sqErrors false errs tot) errs.
Proof. intros. unfold are_numbers. cbn. rewrite map_map. repeat split. Qed.
Print Assumptions C60_raw.
(* a vanishing total error: no normalised indicator is a number *)
Theorem C60_zero_total : forall errs i, (i < length errs)%nat -> nth i (h_errors true errs 0) (Some 0) = None /\
  nth i (h_absErrors true errs 0) (Some 0) = None /\ nth i (h_sqErrors true errs 0) (Some 0) = None.
Proof.
  assert (Z : fdiv 0 (Rabs 0) = None /\ fdiv 0 (0 * 0) = None /\ forall a, fdiv a (Rabs 0) = None /\ fdiv a (0 * 0) = None).
  { unfold fdiv. rewrite Rabs_R0, Rmult_0_l. destruct (Req_EM_T 0 0); [auto|contradiction]. }
  destruct Z as (_ & _ & Z).
  intros errs i Hi. unfold h_errors, h_absErrors, h_sqErrors.
  rewrite !(nth_indep _ (Some 0) None) by (rewrite map_length; exact Hi).
  assert (A : forall (f : R -> option R), (forall a, f a = None) -> nth i (map f errs) None = None).
  { intros f F. clear - F. revert i. induction errs; intros [|i]; cbn; auto. }
  split; [|split]; apply A; intro a; apply Z.
Qed.
Print Assumptions C60_zero_total.
(* cancelling contributions: the normalised indicators may sum to more than one *)
Theorem C60_sum_one_refuted : exists errs tot v, tot = list_sum errs /\ tot <> 0 /\ are_numbers (h_errors true errs tot) v /\ list_sum v = 5.
Proof.
  exists [3; -2], 1, [3; 2]. split. cbn; lra. split. lra. split. unfold are_numbers, h_errors. cbn [map].
  rewrite !fdiv_some by (rewrite Rabs_R1; lra). rewrite Rabs_R1. rewrite (Rabs_right 3) by lra. rewrite (Rabs_left (-2)) by lra. repeat f_equal; lra. cbn. lra.
Qed.
Print Assumptions C60_sum_one_refuted.
Example C60_ex : exists errs tot, tot <> 0 /\ tot = list_sum errs /\ (forall x, In x errs -> 0 <= x) /\ errs = [1; 3].
Proof. exists [1; 3], 4. split. lra. split. cbn; lra. split. intros x [<-|[<-|[]]]; lra. reflexivity. Qed.
