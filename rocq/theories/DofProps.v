(* Properties C43-C46: interface bookkeeping, solution vectors, boundary forces, point loads. *)
From Coq Require Import Reals List Arith ZArith Lia Lra Bool Permutation FunctionalExtensionality.
From Verif Require Import Tensor DofModel DofSpec DofProofs KinModel KinSpec KinAsm KinProofs KinStiff KinLoads KinMore KinProps.
Import ListNotations.
Open Scope nat_scope.

(* which setter is called with which list *)
Definition add_call (I : Type) (a : ikind * list I) (s : ifcs I) : ifcs I :=
  match fst a with
  | KStrongC0 => addStrongC0 _ (snd a) s | KStrongC1 => addStrongC1 _ (snd a) s
  | KWeakC0 => addWeakC0 _ (snd a) s | KWeakC1 => addWeakC1 _ (snd a) s | KUncoupled => addUncoupled _ (snd a) s
  end.
Definition contents (I : Type) (s : ifcs I) (k : ikind) : list I :=
  match k with KStrongC0 => strongC0 _ s | KStrongC1 => strongC1 _ s | KWeakC0 => weakC0 _ s | KWeakC1 => weakC1 _ s | KUncoupled => uncoupled _ s end.
Lemma last_passed_snoc : forall I (h : list (ikind * list I)) k0 l k,
  last_passed (h ++ [(k0, l)]) k = if ikind_eqb k0 k then Some l else last_passed h k.
Proof.
  induction h as [|[k1 l1] h IH]; intros; cbn; [destruct (ikind_eqb k0 k); reflexivity|].
  rewrite IH. destruct (ikind_eqb k0 k); [reflexivity|]. reflexivity.
Qed.
(* ================================================================ C43 *)
Section Eq.
Variable I : Type.
Variable eqb : I -> I -> bool.
Definition is_equality : Prop := forall x y, eqb x y = true <-> x = y.
Definition in_some (s : ifcs I) (x : I) : Prop :=
  In x (strongC0 _ s) \/ In x (strongC1 _ s) \/ In x (weakC0 _ s) \/ In x (weakC1 _ s) \/ In x (uncoupled _ s).
End Eq.
Arguments in_some {I}. Arguments is_equality {I}.

Lemma asg : forall I eqb, is_equality eqb -> forall s (x : I), assigned I eqb s x = true <-> in_some s x.
Proof. intros I eqb E s x. apply assigned_In; intros; apply E; auto. Qed.
Lemma asg_f : forall I eqb, is_equality eqb -> forall s (x : I), assigned I eqb s x = false <-> ~ in_some s x.
Proof. intros I eqb E s x. rewrite <- (asg I eqb E). destruct (assigned I eqb s x); split; congruence. Qed.

(* default continuity 0 or 1: exactly the unassigned interfaces of the topology are appended, once each, to the weak C0 / weak C1 list *)
Theorem C43_default_assignment : forall I eqb, is_equality eqb -> forall dft topo (s : ifcs I), dft = 0%Z \/ dft = 1%Z ->
  exists l s', initInterfaces I eqb dft topo s = Some s' /\
    strongC0 _ s' = strongC0 _ s /\ strongC1 _ s' = strongC1 _ s /\ uncoupled _ s' = uncoupled _ s /\
    weakC0 _ s' = weakC0 _ s ++ (if Z.eqb dft 0 then l else []) /\ weakC1 _ s' = weakC1 _ s ++ (if Z.eqb dft 1 then l else []) /\
    NoDup l /\ (forall x, In x l <-> In x topo /\ ~ in_some s x) /\ (forall x, In x topo -> in_some s' x).
Proof.
  intros I eqb E dft topo s H. assert (R1 : forall x, eqb x x = true) by (intro; apply E; reflexivity). assert (R2 : forall x y, eqb x y = true -> x = y) by (intros; apply E; assumption).
  destruct (init_spec I eqb R1 R2 dft topo s) as (_ & S0 & S1 & _).
  destruct H as [->| ->]; [destruct (S0 eq_refl) as (l & El & Nl & Ml)|destruct (S1 eq_refl) as (l & El & Nl & Ml)]; exists l; eexists; (split; [exact El|]); cbn; rewrite ?app_nil_r;
  repeat (split; [first [reflexivity|exact Nl]|]); (split; [intro x; rewrite Ml, (asg_f I eqb E); tauto|]);
  intros x Hx; (destruct (assigned I eqb s x) eqn:A; [apply (asg I eqb E) in A; unfold in_some in *; cbn; rewrite ?in_app_iff; tauto|]);
  unfold in_some; cbn; rewrite ?in_app_iff; (assert (In x l) by (apply Ml; tauto)); tauto.
Qed.
Print Assumptions C43_default_assignment.

Theorem C43_other_defaults : forall I eqb, is_equality eqb -> forall dft topo (s : ifcs I),
  (dft = (-1)%Z -> initInterfaces I eqb dft topo s = Some s) /\
  (dft <> (-1)%Z -> dft <> 0%Z -> dft <> 1%Z -> (initInterfaces I eqb dft topo s = Some s <-> (forall x, In x topo -> in_some s x)) /\
     (initInterfaces I eqb dft topo s = None <-> (exists x, In x topo /\ ~ in_some s x))).
Proof.
  intros I eqb E dft topo s. assert (R1 : forall x, eqb x x = true) by (intro; apply E; reflexivity). assert (R2 : forall x y, eqb x y = true -> x = y) by (intros; apply E; assumption).
  destruct (init_spec I eqb R1 R2 dft topo s) as (S0 & _ & _ & S1). split; [exact S0|]. intros N1 N2 N3. rewrite S1 by assumption.
  destruct (forallb (assigned I eqb s) topo) eqn:F.
  - rewrite forallb_forall in F. split; [split; [intros _ x Hx; apply (asg I eqb E), F, Hx|reflexivity]|]. split; [discriminate|].
    intros (x & Hx & Nx). exfalso. apply Nx, (asg I eqb E), F, Hx.
  - assert (Q : exists x, In x topo /\ ~ in_some s x).
    { clear S0 S1. induction topo as [|a r IH]; [discriminate|]. cbn in F. apply andb_false_iff in F. destruct F as [F|F].
      - exists a. split; [left; reflexivity|]. apply (asg_f I eqb E), F.
      - destruct (IH F) as (x & Hx & Nx). exists x. split; [right; exact Hx|exact Nx]. }
    split; [|tauto]. split; [discriminate|]. destruct Q as (x & Hx & Nx). intro H. exfalso. apply Nx, H, Hx.
Qed.
Print Assumptions C43_other_defaults.

Theorem C43_idempotent : forall I eqb, is_equality eqb -> forall dft topo (s s' : ifcs I), initInterfaces I eqb dft topo s = Some s' -> initInterfaces I eqb dft topo s' = Some s'.
Proof.
  intros I eqb E dft topo s s' H. destruct (Z.eq_dec dft (-1)) as [->|N1]; [apply (proj1 (C43_other_defaults I eqb E (-1)%Z topo s') eq_refl)|].
  destruct (Z.eq_dec dft 0) as [->|N2]; [|destruct (Z.eq_dec dft 1) as [->|N3]].
  3: { destruct (C43_other_defaults I eqb E dft topo s) as [_ K]. specialize (K N1 N2 N3). assert (s' = s). { destruct (proj2 K) as [_ K2]. 
       assert (R1 : forall x, eqb x x = true) by (intro; apply E; reflexivity). assert (R2 : forall x y, eqb x y = true -> x = y) by (intros; apply E; assumption).
       destruct (init_spec I eqb R1 R2 dft topo s) as (_ & _ & _ & S1). rewrite S1 in H by assumption. destruct (forallb _ _); congruence. } subst s'. exact H. }
  all: assert (R1 : forall x, eqb x x = true) by (intro; apply E; reflexivity); assert (R2 : forall x y, eqb x y = true -> x = y) by (intros; apply E; assumption).
  - destruct (C43_default_assignment I eqb E 0%Z topo s ltac:(auto)) as (l & t & Et & _ & _ & _ & _ & _ & _ & _ & A); rewrite Et in H; injection H as H; subst t.
    destruct (init_spec I eqb R1 R2 0 topo s') as (_ & S0 & _). destruct (S0 eq_refl) as (l' & El & Nl & Ml). assert (l' = []). { destruct l' as [|x l']; [reflexivity|]. destruct (proj1 (Ml x) (or_introl eq_refl)) as [Hx Fx]. apply (asg_f I eqb E) in Fx. exfalso. apply Fx, A, Hx. }
    subst l'. rewrite El, app_nil_r. destruct s'; reflexivity.
  - destruct (C43_default_assignment I eqb E 1%Z topo s ltac:(auto)) as (l & t & Et & _ & _ & _ & _ & _ & _ & _ & A); rewrite Et in H; injection H as H; subst t.
    destruct (init_spec I eqb R1 R2 1 topo s') as (_ & _ & S0 & _). destruct (S0 eq_refl) as (l' & El & Nl & Ml). assert (l' = []). { destruct l' as [|x l']; [reflexivity|]. destruct (proj1 (Ml x) (or_introl eq_refl)) as [Hx Fx]. apply (asg_f I eqb E) in Fx. exfalso. apply Fx, A, Hx. }
    subst l'. rewrite El, app_nil_r. destruct s'; reflexivity.
Qed.
Print Assumptions C43_idempotent.

(* the add functions replace their container, and do not look at the others *)
Theorem C43_add_refuted : exists (s : ifcs nat) l1 l2 x, In x l1 /\ ~ In x (weakC0 _ (addWeakC0 _ l2 (addWeakC0 _ l1 s))) /\
  (exists s', initInterfaces nat Nat.eqb 0 [x] s = Some s' /\ let t := addStrongC0 _ [x] s' in In x (strongC0 _ t) /\ In x (weakC0 _ t)).
Proof.
  exists (mkifcs nat [] [] [] [] []), [1], [2], 1. split; [left; reflexivity|]. split; [cbn; lia|]. eexists. split; [reflexivity|]. cbn. auto.
Qed.
Print Assumptions C43_add_refuted.
(* the containers hold exactly what the user passed last for the kind in question *)
Theorem C43_user_lists : forall I (h : list (ikind * list I)) s,
  (forall k, contents I (fold_left (fun t a => add_call I a t) h s) k = match last_passed h k with Some l => l | None => contents I s k end).
Proof.
  intros I h. induction h as [|[k0 l] h IH] using rev_ind; intros s k; [reflexivity|].
  rewrite fold_left_app, last_passed_snoc. cbn [fold_left]. specialize (IH s k). revert IH. set (t := fold_left _ h s). intro IH.
  destruct k0, k; cbn; try reflexivity; exact IH.
Qed.
Print Assumptions C43_user_lists.
Example ex_C43_lists : let s := fold_left (fun t a => add_call nat a t) [(KStrongC0, [1]); (KWeakC1, [2]); (KStrongC0, [3; 4]); (KUncoupled, [])] (mkifcs nat [] [5] [6] [] [7]) in
  s = mkifcs nat [3; 4] [5] [6] [2] [].
Proof. reflexivity. Qed.
Example ex_C43 : is_equality Nat.eqb /\ initInterfaces nat Nat.eqb 1 [1; 2; 3; 2] (mkifcs nat [3] [] [] [7] []) = Some (mkifcs nat [3] [] [] [7; 1; 2] []).
Proof. split; [intros x y; apply Nat.eqb_eq|reflexivity]. Qed.

(* ================================================================ C44 *)
Theorem C44_round_trip : forall m d np g x i, covers m d np -> i < m_free m ->
  constructSolutionVector m d np (constructMultiPatch m g x) i = Some (x i).
Proof.
  intros m d np g x i C H. apply csv_some; [exact H| |apply C; exact H]. intros p k c _ E. unfold constructMultiPatch, is_free. rewrite E. apply Nat.ltb_lt in H. rewrite H. reflexivity.
Qed.
Print Assumptions C44_round_trip.

(* a field that respects couplings and prescribed values is recovered, coefficient by coefficient *)
Theorem C44_field_recovered : forall m d np g u y, coupled m d np u -> prescribed m d np g u ->
  (forall i, i < m_free m -> constructSolutionVector m d np u i = Some (y i)) ->
  forall p k c, slot m d np p k c -> constructMultiPatch m g y p k c = u p k c.
Proof.
  intros m d np g u y C P H p k c S. unfold constructMultiPatch, is_free, bindex. destruct (Nat.ltb_spec (m_index m k p c) (m_free m)) as [F|F].
  - assert (E : constructSolutionVector m d np u (m_index m k p c) = Some (u p k c)).
    { apply csv_some; [exact F| |exists p, k, c; auto]. intros p' k' c' S' E. apply C; assumption. }
    rewrite H in E by exact F. injection E as E. exact E.
  - symmetry. apply P; assumption.
Qed.
Print Assumptions C44_field_recovered.

(* the constructed displacement always respects both, whatever the solution vector *)
Theorem C44_constructed_field : forall m d np g x, coupled m d np (constructMultiPatch m g x) /\ prescribed m d np g (constructMultiPatch m g x).
Proof.
  intros. split.
  - intros p k c p' k' c' _ _ E. unfold constructMultiPatch. rewrite E. reflexivity.
  - intros p k c _ H. unfold constructMultiPatch, is_free. destruct (Nat.ltb_spec (m_index m k p c) (m_free m)); [lia|reflexivity].
Qed.
Print Assumptions C44_constructed_field.

(* a field without all patches leaves entries uninitialised *)
Theorem C44_missing_patch_indeterminate : forall m d np u i, i < m_free m -> (forall p k c, slot m d np p k c -> m_index m k p c <> i) ->
  constructSolutionVector m d np u i = None.
Proof. exact csv_none. Qed.
Print Assumptions C44_missing_patch_indeterminate.

(* mapped (smooth multi-patch) bases: all patches share the global functions; the constructed coefficients are right ... *)
Theorem C44_mapped_coefficients : forall m d np g x i c, np <> 0 -> c < d -> (forall p, p < np -> i < m_size m p c) ->
  (forall p, p < np -> m_index m i p c = m_index m i 0 c) ->
  mapped_cc m d np g x i c = if Nat.ltb (m_index m i 0 c) (m_free m) then x (m_index m i 0 c) else g (m_index m i 0 c - m_free m).
Proof. exact mapped_row. Qed.
Print Assumptions C44_mapped_coefficients.
(* the constructed displacement is the extraction of these coefficients, for every extraction that reads only the coefficients of the space *)
Theorem C44_mapped_construction : forall m d np n to_local g x, np <> 0 ->
  (forall p c, p < np -> c < d -> m_size m p c = n) -> (forall i p c, i < n -> p < np -> c < d -> m_index m i p c = m_index m i 0 c) ->
  (forall u v, (forall i c, i < n -> c < d -> u i c = v i c) -> to_local u = to_local v) ->
  constructMapped m d np to_local g x = to_local (fun i c => if Nat.ltb (m_index m i 0 c) (m_free m) then x (m_index m i 0 c) else g (m_index m i 0 c - m_free m)).
Proof.
  intros m d np n to_local g x N Sz Ix L. unfold constructMapped. apply L. intros i c Hi Hc. apply mapped_row; [exact N|exact Hc| |].
  - intros p Hp. rewrite Sz by assumption. exact Hi.
  - intros p Hp. apply Ix; assumption.
Qed.
Print Assumptions C44_mapped_construction.
Example ex_C44_mapped : constructMapped (mkmap (fun _ _ => 2) (fun k _ _ => k) 1) 1 2 (fun cc p k c => (cc 0%nat c - cc 1%nat c)%R) (fun _ => 5%R) (fun _ => 3%R) 1 0 0 = (3 - 5)%R.
Proof. reflexivity. Qed.
(* ... but the way back reads the patch coefficients as if they were the global ones *)
Theorem C44_mapped_round_trip_refuted : exists m d np to_local g x i, covers m d np /\ i < m_free m /\
  constructSolutionVector m d np (constructMapped m d np to_local g x) i <> Some (x i).
Proof.
  exists (mkmap (fun _ _ => 1) (fun k _ _ => k) 1), 1, 1, (fun cc _ k c => (2 * cc k c)%R), (fun _ => 0%R), (fun _ => 1%R), 0.
  split; [|split].
  - intros i H. exists 0, 0, 0. unfold slot. cbn in *. lia.
  - cbn. lia.
  - cbn. intro H. injection H as H.
    unfold constructMapped, mapped_cc in H. cbn in H. lra.
Qed.
Print Assumptions C44_mapped_round_trip_refuted.
(* fields that break the coupling are not recovered: the last patch wins *)
Theorem C44_uncoupled_field_refuted : exists m d np u y p k c, covers m d np /\ (forall i, i < m_free m -> constructSolutionVector m d np u i = Some (y i)) /\
  slot m d np p k c /\ constructMultiPatch m (fun _ => 0%R) y p k c <> u p k c.
Proof.
  exists (mkmap (fun _ _ => 1) (fun _ _ _ => 0) 1), 1, 2, (fun p _ _ => INR p), (fun _ => 1%R), 0, 0, 0. split; [|split; [|split]].
  - intros i H. exists 0, 0, 0. unfold slot. cbn in *. lia.
  - intros i H. assert (i = 0) by (cbn in H; lia). subst i. cbn. reflexivity.
  - unfold slot. cbn. lia.
  - cbn. lra.
Qed.
Print Assumptions C44_uncoupled_field_refuted.
(* updateMultiPatch does not update: its result does not depend on the geometry passed in *)
Theorem C44_update_ignores_geometry : forall pt m g x mp p k c, updateMultiPatch pt m g x mp p k c = (pt p k c + constructMultiPatch m g x p k c)%R.
Proof. reflexivity. Qed.
Print Assumptions C44_update_ignores_geometry.
Theorem C44_update_refuted : exists pt m g x mp, updateMultiPatch pt m g x mp 0 0 0 <> (mp 0%nat 0%nat 0%nat + constructMultiPatch m g x 0%nat 0%nat 0%nat)%R.
Proof. exists (fun _ _ _ => 0%R), (mkmap (fun _ _ => 1) (fun k _ _ => k) 1), (fun _ => 0%R), (fun _ => 0%R), (fun _ _ _ => 1%R). unfold updateMultiPatch, constructSolution, constructMultiPatch, is_free. cbn. lra. Qed.
Print Assumptions C44_update_refuted.

(* two patches with two functions each, one shared, one eliminated *)
Definition two := mkmap (fun _ _ => 2) (fun k p _ => match p, k with 0, 0 => 2 | 0, _ => 0 | _, 0 => 0 | _, _ => 1 end) 2.
Example ex_C44 : covers two 1 2 /\ (let u := constructMultiPatch two (fun _ => 5%R) (fun i => INR i) in u 0 0 0 = 5%R /\ u 0 1 0 = u 1 0 0 /\ u 1 1 0 = 1%R) /\
  constructSolutionVector two 1 1 (fun _ _ _ => 0%R) 1 = None.
Proof.
  split; [|split].
  - intros i H. cbn in H. destruct i as [|[|i]]; [exists 0, 1, 0|exists 1, 1, 0|lia]; unfold slot; cbn; lia.
  - cbn. repeat split; reflexivity.
  - apply csv_none; [cbn; lia|]. intros p k c (H1 & H2 & H3). cbn in *. destruct p as [|p]; [|lia]. destruct k; lia.
Qed.

(* ================================================================ C45 *)
Open Scope R_scope.
(* the reported force is the sum over the set of numbers on the sides: each counted once, any order of iteration *)
Theorem C45_sum_over_set : forall m rhs sides c order, NoDup order -> (forall i, In i order <-> on_sides m c sides i) ->
  boundaryForce m rhs sides c = boundaryForce_order order rhs.
Proof.
  intros m rhs sides c order N H. destruct (side_set_ok m c sides) as [N1 M1]. unfold boundaryForce, boundaryForce_order. rewrite !order_sum. f_equal.
  apply lsum_perm, NoDup_Permutation; [exact N1|exact N|]. intro i. rewrite M1, H. tauto.
Qed.
Print Assumptions C45_sum_over_set.
Theorem C45_sides_as_a_set : forall m rhs sides sides' c, (forall b, In b sides <-> In b sides') -> boundaryForce m rhs sides c = boundaryForce m rhs sides' c.
Proof.
  intros m rhs sides sides' c H. destruct (side_set_ok m c sides') as [N1 M1]. apply (C45_sum_over_set m rhs sides c (side_set m c sides') N1).
  intro i. rewrite M1. unfold on_sides. split; intros (b & k & Hb & Q); exists b, k; (split; [apply H; exact Hb|exact Q]).
Qed.
Print Assumptions C45_sides_as_a_set.
Theorem C45_disjoint_sides_add : forall m rhs s1 s2 c, (forall i, on_sides m c s1 i -> on_sides m c s2 i -> False) ->
  boundaryForce m rhs (s1 ++ s2) c = boundaryForce m rhs s1 c + boundaryForce m rhs s2 c.
Proof.
  intros m rhs s1 s2 c D. destruct (side_set_ok m c s1) as [N1 M1]. destruct (side_set_ok m c s2) as [N2 M2].
  rewrite (C45_sum_over_set m rhs (s1 ++ s2) c (side_set m c s1 ++ side_set m c s2)).
  - unfold boundaryForce, boundaryForce_order. rewrite !order_sum, lsum_app. ring.
  - assert (Q : forall l, NoDup l -> (forall i, In i l -> on_sides m c s1 i) -> NoDup (l ++ side_set m c s2)).
    { induction l as [|a l IH]; intros Nl Hl; [exact N2|]. inversion Nl; subst. cbn. constructor; [|apply IH; [assumption|intros; apply Hl; right; assumption]].
      rewrite in_app_iff. intros [Q|Q]; [contradiction|]. apply M2 in Q. apply (D a); [apply Hl; left; reflexivity|exact Q]. }
    apply Q; [exact N1|]. intros i Hi. apply M1. exact Hi.
  - intro i. rewrite in_app_iff, M1, M2. unfold on_sides. split.
    + intros [(b & k & Hb & Q)|(b & k & Hb & Q)]; exists b, k; rewrite in_app_iff; tauto.
    + intros (b & k & Hb & Q). rewrite in_app_iff in Hb. destruct Hb as [Hb|Hb]; [left|right]; exists b, k; tauto.
Qed.
Print Assumptions C45_disjoint_sides_add.

(* global equilibrium.  The unconstrained space has n functions i with numbers num i c; the vector is minus the internal force at the
   deformed configuration x; the functions form a partition of unity.  If the internal force of the functions away from the sides balances
   the external load f there, the reported force is the resultant of that load (the action on the support, not the reaction). *)
Theorem C45_global_equilibrium : forall m rhs sides c n pts x (num : nat -> nat -> nat) (f : nat -> R) (onb : nat -> bool), (c < 3)%nat ->
  (forall i j, (i < n)%nat -> (j < n)%nat -> num i c = num j c -> i = j) ->
  (forall q, In q pts -> regular (qdef n q x)) ->
  (forall q, In q pts -> rsum n (fun i => s0 (qbas q i)) = 1 /\ rsum n (fun i => s1 (qbas q i)) = 0 /\ rsum n (fun i => s2 (qbas q i)) = 0 /\
     rsum n (fun i => s11 (qbas q i)) = 0 /\ rsum n (fun i => s22 (qbas q i)) = 0 /\ rsum n (fun i => s12 (qbas q i)) = 0) ->
  (forall i, (i < n)%nat -> rhs (num i c) = - Fvec n pts x i c) ->
  (forall a, on_sides m c sides a <-> exists i, (i < n)%nat /\ onb i = true /\ a = num i c) ->
  (forall i, (i < n)%nat -> onb i = false -> Fvec n pts x i c = f i) ->
  boundaryForce m rhs sides c = rsum n (fun i => if onb i then 0 else f i).
Proof.
  intros m rhs sides c n pts x num f onb Hc Inj Reg PU Hr Hs Hf.
  (* translations do no work *)
  assert (T : rsum n (fun i => Fvec n pts x i c) = 0).
  { set (y := fun (_ : nat) (e : nat) => if Nat.eqb e c then 1 else 0).
    rewrite <- (force_moment_balance n pts x y vzero (fun e => if Nat.eqb e c then 1 else 0) Reg).
    - apply rsum_ext. intros i Hi. unfold sum3, y. destruct c as [|[|[|c]]]; [| | |lia]; cbn [Nat.eqb]; ring.
    - intros q Hq. destruct (PU q Hq) as (P0 & P1 & P2 & P3 & P4 & P5).
      assert (K : forall k bas, fieldjet k bas y = mkjet (vecFun c (rsum k (fun i => s0 (bas i)))) (vecFun c (rsum k (fun i => s1 (bas i)))) (vecFun c (rsum k (fun i => s2 (bas i))))
         (vecFun c (rsum k (fun i => s11 (bas i)))) (vecFun c (rsum k (fun i => s22 (bas i)))) (vecFun c (rsum k (fun i => s12 (bas i))))).
      { intros k bas. induction k; cbn [fieldjet rsum].
        - unfold jzero. f_equal; extensionality e; unfold vzero, vecFun; destruct (Nat.eqb e c); reflexivity.
        - rewrite IHk. unfold jadd, jscal, bvar, y. cbn [j0 j1 j2 j11 j22 j12]. f_equal; extensionality e; unfold vadd, vscal, vecFun; destruct c as [|[|[|c]]]; try lia; destruct e as [|[|[|e]]]; cbn [Nat.eqb]; ring. }
      rewrite K, P0, P1, P2, P3, P4, P5. unfold rigid. f_equal; extensionality e; unfold vecFun, vadd, vzero, cross3; destruct (Nat.eqb e c); destruct e as [|[|e]]; ring. }
  rewrite (C45_sum_over_set m rhs sides c (map (fun i => num i c) (filter onb (seq 0 n)))).
  - unfold boundaryForce_order. rewrite order_sum.
    assert (Q : forall k, (k <= n)%nat -> lsum rhs (map (fun i => num i c) (filter onb (seq 0 k))) = rsum k (fun i => if onb i then - Fvec n pts x i c else 0)).
    { induction k; intro Hk; [reflexivity|]. rewrite seq_S, filter_app, map_app, lsum_app, IHk by lia. cbn [rsum]. f_equal. cbn [filter]. rewrite Nat.add_0_l. destruct (onb k); unfold lsum; cbn [map fold_right]; [rewrite Hr by lia; ring|reflexivity]. }
    rewrite Q by lia.
    assert (Z : forall k, (k <= n)%nat -> rsum k (fun i => if onb i then - Fvec n pts x i c else 0) = rsum k (fun i => if onb i then 0 else f i) - rsum k (fun i => Fvec n pts x i c)).
    { induction k; intro Hk; cbn [rsum]; [ring|]. rewrite IHk by lia. destruct (onb k) eqn:O; [ring|]. rewrite (Hf k ltac:(lia) O). ring. }
    rewrite Z, T by lia. ring.
  - assert (Q : forall k, (k <= n)%nat -> NoDup (map (fun i => num i c) (filter onb (seq 0 k)))).
    { intros k Hk. assert (N : NoDup (filter onb (seq 0 k))) by (apply NoDup_filter, seq_NoDup).
      assert (B : forall i, In i (filter onb (seq 0 k)) -> (i < n)%nat) by (intros i Hi; apply filter_In in Hi; destruct Hi as [Hi _]; apply in_seq in Hi; lia).
      induction (filter onb (seq 0 k)) as [|a l IH]; cbn; [constructor|]. inversion N; subst. constructor; [|apply IH; [assumption|intros; apply B; right; assumption]].
      rewrite in_map_iff. intros (i & E & Hi). apply Inj in E; [subst i; contradiction|apply B; right; exact Hi|apply B; left; reflexivity]. }
    apply Q. lia.
  - intro a. rewrite in_map_iff, Hs. split.
    + intros (i & E & Hi). apply filter_In in Hi. destruct Hi as [Hi O]. apply in_seq in Hi. exists i. repeat split; [lia|exact O|auto].
    + intros (i & Hi & O & E). exists i. split; [auto|]. apply filter_In. split; [apply in_seq; lia|exact O].
Qed.
Print Assumptions C45_global_equilibrium.

(* two sides of one patch share a corner function *)
Example ex_C45 : let m := mkmap (fun _ _ => 4%nat) (fun k _ c => k + 4 * c)%nat 12 in
  let rhs := fun i => INR i in
  let west := mkps 0 [0; 2]%nat in let south := mkps 0 [0; 1]%nat in
  boundaryForce m rhs [west; south; west] 1 = 4 + 6 + 5 /\ on_sides m 1 [west; south] 4.
Proof.
  cbn. split; [ring|]. exists (mkps 0 [0; 2]%nat), 0%nat. cbn. auto.
Qed.

(* a strip with two functions, pulled at the free end by 7: the reported force at the clamped end is 7 *)
Example ex_C45_equilibrium : let bas := fun i => match i with 0%nat => mksjet (1/2) (-1) 0 0 0 0 | _ => mksjet (1/2) 1 0 0 0 0 end in
  let pts := [mkq 1 bas (tjet e1 e2) (fun _ _ => vv 7 0 0) (fun _ _ => vzero) (fun _ _ _ _ => 0) (fun _ _ _ _ => 0) (fun _ _ _ _ => 0) (fun _ _ _ _ => 0)] in
  let m := mkmap (fun _ _ => 2%nat) (fun k _ c => k + 2 * c)%nat 6 in
  boundaryForce m (fun a => - Fvec 2 pts (fun _ _ => 0) a 0) [mkps 0 [0%nat]] 0 = 7.
Proof.
  intros bas pts m.
  assert (D : forall i, Fvec 2 pts (fun _ _ => 0) i 0 = match i with 0%nat => -7 | _ => 7 end).
  { intro i. unfold Fvec, pts. cbn [psum qw qN qM qbas]. rewrite !qdef_zero. cbn [qori].
    assert (Z : forall f, dot3 vzero f = 0) by (intro f; unfold dot3, sum3, vzero; ring). rewrite Z.
    destruct i; unfold Em_der, bvar, bas; cbn [j1 j2 tjet s1 s2]; unfold dot3, sum3, vecFun, vv, e1, e2, vv; cbn [Nat.eqb]; ring. }
  rewrite (C45_global_equilibrium m _ [mkps 0 [0%nat]] 0 2 pts (fun _ _ => 0) (fun i _ => i) (fun _ => 7) (fun i => Nat.eqb i 0)).
  - cbn [rsum Nat.eqb]. ring.
  - lia.
  - auto.
  - intros q [<-|[]]. rewrite qdef_zero. cbn [qori]. unfold regular. jd.
  - intros q [<-|[]]. cbn [qbas rsum]. unfold bas. cbn [s0 s1 s2 s11 s22 s12]. repeat split; lra.
  - reflexivity.
  - intro a. unfold on_sides. split.
    + intros (b & k & [<-|[]] & [<-|[]] & E). exists 0%nat. cbn in E. repeat split; [lia|auto].
    + intros (i & Hi & O & ->). apply Nat.eqb_eq in O. subst i. exists (mkps 0 [0%nat]), 0%nat. cbn. auto.
  - intros i Hi O. rewrite D. destruct i; [discriminate|reflexivity].
Qed.

(* ================================================================ C46 *)
(* the loads add, to every virtual displacement, exactly the work of the loads at their points *)
Theorem C46_virtual_work : forall m d ls rhs x,
  nsum (m_free m) (fun i => x i * applyLoads m d ls rhs i) = nsum (m_free m) (fun i => x i * rhs i) + lsum (work m d x) ls.
Proof. intros. apply loads_work. Qed.
Print Assumptions C46_virtual_work.
(* entries of functions that are not active at a loaded point, and entries beyond the free ones, do not change *)
Theorem C46_only_active_entries : forall m d ls rhs i,
  (forall l kb j, In l ls -> In kb (l_act l) -> (j < d)%nat -> l_val l j <> 0 -> m_index m (fst kb) (l_patch l) j <> i) \/ (m_free m <= i)%nat ->
  applyLoads m d ls rhs i = rhs i.
Proof.
  intros m d ls rhs i [H|H]; [|apply loads_elim; exact H]. destruct (Nat.lt_ge_cases i (m_free m)) as [F|F]; [|apply loads_elim; exact F].
  rewrite loads_entry by exact F. rewrite lsum_zero; [ring|]. intros l Hl. apply nsum_zero. intros j Hj. destruct (Req_EM_T (l_val l j) 0) as [E|E]; [rewrite E; ring|].
  unfold at_point. rewrite lsum_zero; [ring|]. intros kb Hk. cbv zeta. destruct (Nat.ltb _ _); [|ring]. destruct (Nat.eqb_spec (m_index m (fst kb) (l_patch l) j) i) as [Q|Q]; [|ring].
  exfalso. apply (H l kb j Hl Hk Hj E Q).
Qed.
Print Assumptions C46_only_active_entries.
(* the entries of component j sum to the load, if the active functions sum to one and none of them is eliminated *)
Theorem C46_total_load : forall m d l rhs j (comp : nat -> bool), (j < d)%nat ->
  lsum snd (l_act l) = 1 ->
  (forall kb, In kb (l_act l) -> (m_index m (fst kb) (l_patch l) j < m_free m)%nat /\ comp (m_index m (fst kb) (l_patch l) j) = true) ->
  (forall kb j', In kb (l_act l) -> (j' < d)%nat -> j' <> j -> comp (m_index m (fst kb) (l_patch l) j') = false) ->
  nsum (m_free m) (fun i => (if comp i then 1 else 0) * (applyLoad m d l rhs i - rhs i)) = l_val l j.
Proof.
  intros m d l rhs j comp Hj PU H1 H2.
  assert (E : nsum (m_free m) (fun i => (if comp i then 1 else 0) * (applyLoad m d l rhs i - rhs i)) = work m d (fun i => if comp i then 1 else 0) l).
  { assert (W := load_work m d (fun i => if comp i then 1 else 0) l rhs).
    assert (Q : nsum (m_free m) (fun i => (if comp i then 1 else 0) * (applyLoad m d l rhs i - rhs i)) + nsum (m_free m) (fun i => (if comp i then 1 else 0) * rhs i) = nsum (m_free m) (fun i => (if comp i then 1 else 0) * applyLoad m d l rhs i)).
    { rewrite <- nsum_plus. apply nsum_ext. intros. ring. }
    lra. }
  rewrite E. unfold work. rewrite (nsum_single d _ j Hj).
  - unfold at_point. rewrite (lsum_ext _ _ snd); [rewrite PU; ring|]. intros kb Hk. destruct (H1 kb Hk) as [A B]. cbv zeta. apply Nat.ltb_lt in A. rewrite A, B. ring.
  - intros j' Hj' N. unfold at_point. rewrite lsum_zero; [ring|]. intros kb Hk. cbv zeta. rewrite (H2 kb j' Hk Hj' N). destruct (Nat.ltb _ _); ring.
Qed.
Print Assumptions C46_total_load.
Theorem C46_order_irrelevant : forall m d ls ls' rhs i, Permutation ls ls' -> applyLoads m d ls rhs i = applyLoads m d ls' rhs i.
Proof.
  intros m d ls ls' rhs i P. destruct (Nat.lt_ge_cases i (m_free m)) as [F|F].
  - rewrite !loads_entry by exact F. f_equal. apply lsum_perm. exact P.
  - rewrite !loads_elim by exact F. reflexivity.
Qed.
Print Assumptions C46_order_irrelevant.
Theorem C46_superposition : forall m d l1 l2 rhs i, applyLoads m d (l1 ++ l2) rhs i - rhs i = (applyLoads m d l1 rhs i - rhs i) + (applyLoads m d l2 rhs i - rhs i).
Proof.
  intros m d l1 l2 rhs i. destruct (Nat.lt_ge_cases i (m_free m)) as [F|F].
  - rewrite !loads_entry by exact F. rewrite lsum_app. ring.
  - rewrite !loads_elim by exact F. ring.
Qed.
Print Assumptions C46_superposition.
(* an eliminated active function: part of the load is lost *)
Theorem C46_load_on_fixed_function_lost : exists m l, lsum snd (l_act l) = 1 /\ l_val l 0 = 1 /\
  nsum (m_free m) (fun i => applyLoad m 1 l (fun _ => 0) i) = / 4.
Proof.
  exists (mkmap (fun _ _ => 2%nat) (fun k _ _ => k) 1), (mkpl 0 (fun _ => 1) [(0%nat, /4); (1%nat, 3/4)]). split; [unfold lsum; cbn; lra|]. split; [reflexivity|].
  unfold applyLoad. cbn. destruct (Req_EM_T 1 0); [lra|]. cbn. lra.
Qed.
Print Assumptions C46_load_on_fixed_function_lost.
Example ex_C46 : let m := mkmap (fun _ _ => 2%nat) (fun k _ c => k + 2 * c)%nat 4 in
  let l := mkpl 0 (fun j => match j with 0%nat => 3 | _ => 0 end) [(0%nat, /4); (1%nat, 3/4)] in
  lsum snd (l_act l) = 1 /\ (forall kb, In kb (l_act l) -> (m_index m (fst kb) (l_patch l) 0 < m_free m)%nat /\ Nat.ltb (m_index m (fst kb) (l_patch l) 0) 2 = true) /\
  (forall kb j', In kb (l_act l) -> (j' < 2)%nat -> j' <> 0%nat -> Nat.ltb (m_index m (fst kb) (l_patch l) j') 2 = false).
Proof.
  cbv zeta. split; [unfold lsum; cbn; lra|]. split.
  - intros kb [<-|[<-|[]]]; cbn; lia || (split; [lia|reflexivity]).
  - intros kb j' [<-|[<-|[]]] H N; cbn in *; assert (j' = 1)%nat by lia; subst; reflexivity.
Qed.
