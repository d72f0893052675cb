From Coq Require Import Reals Lra Lia List Arith Bool FunctionalExtensionality.
From Coquelicot Require Import Coquelicot.
From Verif Require Import Tensor SizeModel PrincipalModel KinModel KinSpec KinAsm KinProofs KinStiff KinMore DwrModel DwrSpec DwrProofs DofModel DofSpec DofProofs GoalPtModel GoalPtSpec.
Import ListNotations.
Open Scope R_scope.

Lemma loop_o_ind {S} (I : nat -> S -> Prop) : forall n (body : nat -> S -> outcome S) s, I 0%nat s ->
  (forall k t, (k < n)%nat -> I k t -> exists t', body k t = Ok t' /\ I (Datatypes.S k) t') -> exists t, loop_o n body s = Ok t /\ I n t.
Proof.
  induction n; intros body s H0 H; cbn [loop_o]; [eauto|]. destruct (IHn body s H0) as (t & -> & It); [intros; apply H; [lia|assumption]|]. cbn [obind]. apply H; [lia|exact It].
Qed.

Section Scatter.
  Variables (m : mapper) (acts : list nat) (rows : nat) (tmp : nat -> R) (x : nat -> R).
  Hypothesis R3 : (3 * length acts <= rows)%nat.
  Let f j i := if Nat.ltb (m_index m (nth i acts 0%nat) 0 j) (m_free m) then x (m_index m (nth i acts 0%nat) 0 j) * tmp (i + j * length acts)%nat else 0.
  Lemma scatter_sum r0 : exists r, scatter m acts rows tmp r0 = Ok r /\
    nsum (m_free m) (fun g => x g * r g) = nsum (m_free m) (fun g => x g * r0 g) + nsum 3 (fun j => nsum (length acts) (f j)).
  Proof.
    unfold scatter.
    apply (loop_o_ind (fun j r => nsum (m_free m) (fun g => x g * r g) = nsum (m_free m) (fun g => x g * r0 g) + nsum j (fun j => nsum (length acts) (f j)))).
    { cbn [nsum]. ring. }
    intros j r Hj H. cbn [nsum].
    destruct (loop_o_ind (fun i r => nsum (m_free m) (fun g => x g * r g) = nsum (m_free m) (fun g => x g * r0 g) + nsum j (fun j => nsum (length acts) (f j)) + nsum i (f j))
      (length acts) (fun i r => let g := m_index m (nth i acts 0%nat) 0 j in
        if is_free m g then (if Nat.ltb (i + j * length acts) rows then Ok (write r g (r g + tmp (i + j * length acts)%nat)) else UB) else Ok r) r) as (t & E & It).
    { cbn [nsum]. rewrite H. ring. }
    2:{ exists t. split; [exact E|]. rewrite It. ring. }
    intros i t Hi Ht. cbn [nsum]. cbv zeta. unfold is_free, f at 3. destruct (Nat.ltb_spec (m_index m (nth i acts 0%nat) 0 j) (m_free m)) as [F|F].
    - rewrite (proj2 (Nat.ltb_lt _ _)) by nia. eexists. split; [reflexivity|]. rewrite nsum_write by exact F. rewrite Ht. ring.
    - eexists. split; [reflexivity|]. rewrite Ht. ring.
  Qed.
  Lemma scatter_other r0 g : (forall i c, In i acts -> (c < 3)%nat -> m_index m i 0 c <> g) \/ (m_free m <= g)%nat ->
    exists r, scatter m acts rows tmp r0 = Ok r /\ r g = r0 g.
  Proof.
    intro N. unfold scatter. apply (loop_o_ind (fun _ r => r g = r0 g)); [reflexivity|]. intros j r Hj H.
    apply (loop_o_ind (fun _ r => r g = r0 g)); [exact H|]. intros i t Hi Ht. cbv zeta. unfold is_free.
    destruct (Nat.ltb_spec (m_index m (nth i acts 0%nat) 0 j) (m_free m)) as [F|F].
    - rewrite (proj2 (Nat.ltb_lt _ _)) by nia. eexists. split; [reflexivity|]. rewrite write_other; [exact Ht|]. intro E. destruct N as [N|N]; [|lia].
      apply (N (nth i acts 0%nat) j); [apply nth_In; exact Hi|exact Hj|auto].
    - eauto.
  Qed.
End Scatter.

Lemma nsum_rsum n f : nsum n f = rsum n f. Proof. induction n; cbn; [reflexivity|]. rewrite IHn. reflexivity. Qed.
Lemma nsum_lsum l (f : nat -> R) : nsum (length l) (fun i => f (nth i l 0%nat)) = lsum f l.
Proof.
  induction l using rev_ind; [reflexivity|]. rewrite app_length. cbn [length]. rewrite Nat.add_1_r. cbn [nsum]. rewrite lsum_app. cbn [lsum fold_right].
  rewrite app_nth2 by lia. rewrite Nat.sub_diag. cbn [nth].
  rewrite <- IHl. rewrite (nsum_ext _ _ (fun i => f (nth i l 0%nat))) by (intros i Hi; rewrite app_nth1 by exact Hi; reflexivity). ring.
Qed.

(* a degree of freedom whose function vanishes at the point does not enter *)
Lemma dof_zero g comp def prim p a d : (d < 3)%nat -> gbas p a = mksjet 0 0 0 0 0 0 -> dof_value g comp def prim p a d = 0.
Proof.
  intros Hd Z. unfold dof_value. rewrite Z.
  destruct (dual_dens_lin Point (glaw p) (gori p) (def p) (prim p) g comp) as (_ & S).
  assert (E : bvar d (mksjet 0 0 0 0 0 0) = jscal 0 (bvar d (mksjet 0 0 0 0 0 0))).
  { unfold bvar, jscal, vecFun, vscal. cbn. f_equal; extensionality i; destruct (Nat.eqb i d); ring. }
  rewrite (Ef_dof_ext _ _ _ Hd). rewrite E. rewrite S. ring.
Qed.

Lemma lsum_inactive n l (f : nat -> R) : NoDup l -> (forall i, In i l -> (i < n)%nat) -> (forall i, (i < n)%nat -> ~ In i l -> f i = 0) -> lsum f l = nsum n f.
Proof.
  revert l f. induction n; intros l f N L Z.
  - destruct l as [|a l]; [reflexivity|]. specialize (L a (or_introl eq_refl)). lia.
  - cbn [nsum]. destruct (in_dec Nat.eq_dec n l) as [I|I].
    + apply in_split in I. destruct I as (l1 & l2 & ->). rewrite lsum_app. cbn [lsum fold_right].
      assert (N' := NoDup_remove_1 _ _ _ N). assert (NI := NoDup_remove_2 _ _ _ N).
      rewrite <- (IHn (l1 ++ l2) f); [rewrite lsum_app; unfold lsum; ring|exact N'| |].
      * intros i Hi. assert (i < S n)%nat by (apply L; rewrite in_app_iff in *; cbn; tauto). assert (i <> n) by (intros ->; contradiction). lia.
      * intros i Hi Hn. apply Z; [lia|]. intro J. apply Hn. rewrite in_app_iff in *. cbn in J. destruct J as [J|[J|J]]; [tauto|lia|tauto].
    + rewrite (Z n) by (auto; lia). rewrite <- (IHn l f); [ring|exact N| |intros; apply Z; [lia|assumption]].
      intros i Hi. specialize (L i Hi). assert (i <> n) by (intros ->; contradiction). lia.
Qed.

Definition spans (g : goal) (comp : nat) : Prop := g = GMembraneForce -> comp = 9%nat.
Lemma spans_rows g comp acts : spans g comp -> tmp_rows g comp acts = (3 * length acts)%nat.
Proof. intro H. destruct g; try reflexivity. rewrite (H eq_refl). reflexivity. Qed.
Lemma spans_tmp g comp def prim q i j : spans g comp -> (i < length (ev_act q))%nat ->
  tmp_of g comp def prim q (i + j * length (ev_act q)) = dof_value g comp def prim (ev_pt q) (nth i (ev_act q) 0%nat) j.
Proof.
  intros H Hi. unfold tmp_of. cbv zeta. rewrite Nat.mod_add, Nat.mod_small, Nat.div_add, Nat.div_small by lia. cbn [Nat.add].
  destruct g; try reflexivity. rewrite (H eq_refl). reflexivity.
Qed.

Lemma point_pair m n g comp def prim q x r0 : spans g comp -> local_basis n q ->
  exists r, scatter m (ev_act q) (tmp_rows g comp (ev_act q)) (tmp_of g comp def prim q) r0 = Ok r /\
    nsum (m_free m) (fun i => x i * r i) = nsum (m_free m) (fun i => x i * r0 i)
      + rsum n (fun i => sum3 (fun c => dof_value g comp def prim (ev_pt q) i c * free_coefs m x i c)).
Proof.
  intros S (N & L & Z). rewrite (spans_rows _ _ _ S).
  destruct (scatter_sum m (ev_act q) (3 * length (ev_act q)) (tmp_of g comp def prim q) x (le_n _) r0) as (r & E & H).
  exists r. split; [exact E|]. rewrite H. f_equal.
  assert (K : forall j, (j < 3)%nat -> nsum (length (ev_act q)) (fun i => if Nat.ltb (m_index m (nth i (ev_act q) 0%nat) 0 j) (m_free m)
      then x (m_index m (nth i (ev_act q) 0%nat) 0 j) * tmp_of g comp def prim q (i + j * length (ev_act q)) else 0)
    = rsum n (fun i => dof_value g comp def prim (ev_pt q) i j * free_coefs m x i j)).
  { intros j Hj. transitivity (nsum n (fun i => dof_value g comp def prim (ev_pt q) i j * free_coefs m x i j)); [|apply nsum_rsum]. rewrite <- (lsum_inactive n (ev_act q)) by (try assumption; intros i Hi Hn; rewrite dof_zero by auto; ring).
    rewrite <- nsum_lsum. apply nsum_ext. intros i Hi. rewrite spans_tmp by assumption. unfold free_coefs. destruct (Nat.ltb _ _); ring. }
  cbn [nsum]. rewrite !K by lia. change rsum with nsum. rewrite Rplus_0_l, <- !nsum_plus. apply nsum_ext. intros i Hi. unfold sum3. ring.
Qed.
Lemma rsum_plus' n f g : rsum n (fun i => f i + g i) = rsum n f + rsum n g. Proof. change rsum with nsum. apply nsum_plus. Qed.

Lemma loop_pair m n g comp def prim x : spans g comp -> forall pts r0, (forall q, In q pts -> local_basis n q) ->
  exists r, point_loop m g comp def prim pts r0 = Ok r /\
    nsum (m_free m) (fun i => x i * r i) = nsum (m_free m) (fun i => x i * r0 i)
      + rsum n (fun i => sum3 (fun c => psum (map ev_pt pts) (fun p => dof_value g comp def prim p i c) * free_coefs m x i c)).
Proof.
  intro S. induction pts as [|q pts IH]; intros r0 H.
  - exists r0. split; [reflexivity|]. cbn [map psum]. change rsum with nsum. rewrite (nsum_zero n); [ring|]. intros. unfold sum3. ring.
  - cbn [point_loop]. destruct (point_pair m n g comp def prim q x r0 S (H q (or_introl eq_refl))) as (r1 & -> & E1). cbn [obind].
    destruct (IH r1 (fun q' h => H q' (or_intror h))) as (r & -> & E). exists r. split; [reflexivity|]. rewrite E, E1. rewrite Rplus_assoc, <- rsum_plus'. f_equal.
    change rsum with nsum. apply nsum_ext. intros i Hi. cbn [map psum]. unfold sum3. ring.
Qed.

Lemma loop_other m g comp def prim i : spans g comp -> forall pts r0, ~ touched m pts i \/ (m_free m <= i)%nat ->
  exists r, point_loop m g comp def prim pts r0 = Ok r /\ r i = r0 i.
Proof.
  intro S. induction pts as [|q pts IH]; intros r0 H; [exists r0; auto|]. cbn [point_loop]. rewrite (spans_rows _ _ _ S).
  destruct (scatter_other m (ev_act q) (3 * length (ev_act q)) (tmp_of g comp def prim q) (le_n _) r0 i) as (r1 & -> & E1).
  { destruct H as [H|H]; [left|right; exact H]. intros a c Ha Hc E. apply H. exists q, a, c. cbn. auto. }
  cbn [obind]. destruct (IH r1) as (r & -> & E). { destruct H as [H|H]; [left|right; exact H]. intros (q' & a & c & A & B). apply H. exists q', a, c. cbn. tauto. }
  exists r. split; [reflexivity|]. congruence.
Qed.

(* entries, independent of the basis *)
Lemma loop_entry m g comp def prim : spans g comp -> exists F, forall pts r0, exists r, point_loop m g comp def prim pts r0 = Ok r /\
  forall i, (i < m_free m)%nat -> r i = r0 i + lsum (fun q => F q i) pts.
Proof.
  intro S.
  assert (Q : forall q, exists h, forall r0, exists r, scatter m (ev_act q) (tmp_rows g comp (ev_act q)) (tmp_of g comp def prim q) r0 = Ok r /\ forall i, (i < m_free m)%nat -> r i = r0 i + h i).
  { intro q. rewrite (spans_rows _ _ _ S).
    exists (fun i => nsum 3 (fun j => nsum (length (ev_act q)) (fun k => if Nat.ltb (m_index m (nth k (ev_act q) 0%nat) 0 j) (m_free m)
       then (if Nat.eqb (m_index m (nth k (ev_act q) 0%nat) 0 j) i then 1 else 0) * tmp_of g comp def prim q (k + j * length (ev_act q)) else 0))).
    intro r0. destruct (scatter_sum m (ev_act q) (3 * length (ev_act q)) (tmp_of g comp def prim q) (fun _ => 0) (le_n _) r0) as (r & E & _). exists r. split; [exact E|].
    intros i Hi. destruct (scatter_sum m (ev_act q) (3 * length (ev_act q)) (tmp_of g comp def prim q) (fun k => if Nat.eqb k i then 1 else 0) (le_n _) r0) as (r' & E' & H).
    rewrite E in E'. injection E' as <-. rewrite !nsum_delta in H by exact Hi. exact H. }
  assert (C : exists F : evalpt -> nat -> R, forall q r0, exists r, scatter m (ev_act q) (tmp_rows g comp (ev_act q)) (tmp_of g comp def prim q) r0 = Ok r /\ forall i, (i < m_free m)%nat -> r i = r0 i + F q i).
  { exists (fun q i => match scatter m (ev_act q) (tmp_rows g comp (ev_act q)) (tmp_of g comp def prim q) (fun _ => 0) with Ok r => r i | _ => 0 end).
    intros q r0. destruct (Q q) as (h & Hh). destruct (Hh r0) as (r & E & K). exists r. split; [exact E|]. intros i Hi. destruct (Hh (fun _ => 0)) as (r' & E' & K'). rewrite E'. rewrite K, K' by exact Hi. ring. }
  destruct C as (F & C). exists F. induction pts as [|q pts IH]; intro r0.
  - exists r0. split; [reflexivity|]. intros. cbn. ring.
  - cbn [point_loop]. destruct (C q r0) as (r1 & -> & E1). cbn [obind]. destruct (IH r1) as (r & -> & E). exists r. split; [reflexivity|]. intros i Hi. rewrite E, E1 by exact Hi. cbn [lsum fold_right]. unfold lsum. ring.
Qed.
