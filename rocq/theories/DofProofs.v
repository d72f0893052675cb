From Coq Require Import Reals List Arith ZArith Lia Lra Bool Permutation.
From Verif Require Import Tensor DofModel DofSpec.
Import ListNotations.
Open Scope nat_scope.

(* ---------------------------------------------------------------- loops and folds *)
Lemma loop_fold : forall S n (body : nat -> S -> S) s, loop n body s = fold_left (fun s k => body k s) (seq 0 n) s.
Proof.
  induction n; intros; [reflexivity|]. rewrite seq_S, fold_left_app. cbn. rewrite IHn. reflexivity.
Qed.
Lemma loop_ind : forall S (I : nat -> S -> Prop) n body s, I 0 s -> (forall k t, k < n -> I k t -> I (Datatypes.S k) (body k t)) -> I n (loop n body s).
Proof. induction n; intros; cbn; [assumption|]. apply H0; [lia|]. apply IHn; [assumption|]. intros; apply H0; [lia|assumption]. Qed.

(* ---------------------------------------------------------------- interfaces *)
Section Ifc.
Variable I : Type.
Variable eqb : I -> I -> bool.
Hypothesis eqb_refl : forall x, eqb x x = true.
Hypothesis eqb_ok : forall x y, eqb x y = true -> x = y.
Notation ifcs := (ifcs I). Notation has := (has I eqb). Notation assigned := (assigned I eqb). Notation initInterfaces := (initInterfaces I eqb).

Lemma has_In : forall c x, has c x = true <-> In x c.
Proof.
  intros. unfold DofModel.has. rewrite existsb_exists. split.
  - intros (y & H & E). apply eqb_ok in E. subst. exact H.
  - intro H. exists x. split; [exact H|apply eqb_refl].
Qed.
Lemma assigned_In : forall s x, assigned s x = true <-> In x (strongC0 _ s) \/ In x (strongC1 _ s) \/ In x (weakC0 _ s) \/ In x (weakC1 _ s) \/ In x (uncoupled _ s).
Proof. intros. unfold DofModel.assigned. rewrite !orb_true_iff, !has_In. tauto. Qed.

Lemma init_spec : forall dft topo s,
  (dft = (-1)%Z -> initInterfaces dft topo s = Some s) /\
  (dft = 0%Z -> exists l, initInterfaces dft topo s = Some (mkifcs _ (strongC0 _ s) (strongC1 _ s) (weakC0 _ s ++ l) (weakC1 _ s) (uncoupled _ s)) /\
      NoDup l /\ forall x, In x l <-> In x topo /\ assigned s x = false) /\
  (dft = 1%Z -> exists l, initInterfaces dft topo s = Some (mkifcs _ (strongC0 _ s) (strongC1 _ s) (weakC0 _ s) (weakC1 _ s ++ l) (uncoupled _ s)) /\
      NoDup l /\ forall x, In x l <-> In x topo /\ assigned s x = false) /\
  (dft <> (-1)%Z -> dft <> 0%Z -> dft <> 1%Z -> initInterfaces dft topo s = if forallb (assigned s) topo then Some s else None).
Proof.
  induction topo as [|x r IH]; intro s.
  - split; [reflexivity|]. split; [|split].
    + intros. exists []. split; [cbn; rewrite app_nil_r; destruct s; reflexivity|]. split; [constructor|]. cbn. tauto.
    + intros. exists []. split; [cbn; rewrite app_nil_r; destruct s; reflexivity|]. split; [constructor|]. cbn. tauto.
    + reflexivity.
  - cbn [DofModel.initInterfaces forallb]. destruct (assigned s x) eqn:A.
    + destruct (IH s) as (H1 & H2 & H3 & H4). split; [exact H1|]. split; [|split; [|intros; rewrite H4 by assumption; reflexivity]].
      * intro E. destruct (H2 E) as (l & El & Nl & Ml). exists l. split; [exact El|]. split; [exact Nl|]. intro y. rewrite Ml. cbn. split; [tauto|].
        intros [[Ey|Hy] Hf]; [subst y; congruence|tauto].
      * intro E. destruct (H3 E) as (l & El & Nl & Ml). exists l. split; [exact El|]. split; [exact Nl|]. intro y. rewrite Ml. cbn. split; [tauto|].
        intros [[Ey|Hy] Hf]; [subst y; congruence|tauto].
    + split; [|split; [|split]].
      * intros ->. cbn. apply IH. reflexivity.
      * intros ->. cbn [Z.eqb]. set (s1 := mkifcs _ (strongC0 _ s) (strongC1 _ s) (weakC0 _ s ++ [x]) (weakC1 _ s) (uncoupled _ s)).
        destruct (IH s1) as (_ & H2 & _). destruct (H2 eq_refl) as (l & El & Nl & Ml). exists (x :: l).
        assert (As1 : forall y, assigned s1 y = true <-> assigned s y = true \/ y = x).
        { intro y. rewrite !assigned_In. cbn. rewrite in_app_iff. cbn. intuition. }
        split; [rewrite El; cbn; rewrite <- app_assoc; reflexivity|]. split.
        -- constructor; [|exact Nl]. rewrite Ml. intros [_ Hf]. assert (assigned s1 x = true) by (apply As1; right; reflexivity). congruence.
        -- intro y. cbn. rewrite Ml. split.
           ++ intros [Ey|[Hy Hf]]; [subst y; tauto|]. split; [tauto|]. destruct (assigned s y) eqn:Q; [|reflexivity].
              assert (assigned s1 y = true) by (apply As1; left; exact Q). congruence.
           ++ intros [[Ey|Hy] Hf]; [tauto|]. destruct (assigned s1 y) eqn:Q; [|tauto]. apply As1 in Q. destruct Q as [Q|Q]; [congruence|left; congruence].
      * intros ->. cbn [Z.eqb]. set (s1 := mkifcs _ (strongC0 _ s) (strongC1 _ s) (weakC0 _ s) (weakC1 _ s ++ [x]) (uncoupled _ s)).
        destruct (IH s1) as (_ & _ & H2 & _). destruct (H2 eq_refl) as (l & El & Nl & Ml). exists (x :: l).
        assert (As1 : forall y, assigned s1 y = true <-> assigned s y = true \/ y = x).
        { intro y. rewrite !assigned_In. cbn. rewrite in_app_iff. cbn. intuition. }
        split; [rewrite El; cbn; rewrite <- app_assoc; reflexivity|]. split.
        -- constructor; [|exact Nl]. rewrite Ml. intros [_ Hf]. assert (assigned s1 x = true) by (apply As1; right; reflexivity). congruence.
        -- intro y. cbn. rewrite Ml. split.
           ++ intros [Ey|[Hy Hf]]; [subst y; tauto|]. split; [tauto|]. destruct (assigned s y) eqn:Q; [|reflexivity].
              assert (assigned s1 y = true) by (apply As1; left; exact Q). congruence.
           ++ intros [[Ey|Hy] Hf]; [tauto|]. destruct (assigned s1 y) eqn:Q; [|tauto]. apply As1 in Q. destruct Q as [Q|Q]; [congruence|left; congruence].
      * intros N1 N2 N3. destruct (Z.eqb_spec dft (-1)); [contradiction|]. destruct (Z.eqb_spec dft 0); [contradiction|]. destruct (Z.eqb_spec dft 1); [contradiction|]. reflexivity.
Qed.
End Ifc.

(* ---------------------------------------------------------------- solution vectors *)
Lemma write_same : forall A (f : nat -> A) i x, write f i x i = x.
Proof. intros. unfold write. rewrite Nat.eqb_refl. reflexivity. Qed.
Lemma write_other : forall A (f : nat -> A) i j x, j <> i -> write f i x j = f j.
Proof. intros. unfold write. destruct (Nat.eqb_spec j i); [contradiction|reflexivity]. Qed.

(* what the triple loop has written so far *)
Definition before (d : nat) (m : mapper) (p c k p' k' c' : nat) : Prop :=
  c' < d /\ k' < m_size m p' c' /\ (p' < p \/ (p' = p /\ (c' < c \/ (c' = c /\ k' < k)))).
Definition good (d : nat) (m : mapper) (i : nat) (v : R) p c k (res : nat -> option R) : Prop :=
    ((exists p' k' c', before d m p c k p' k' c' /\ m_index m k' p' c' = i) -> res i = Some v) /\
    ((forall p' k' c', before d m p c k p' k' c' -> m_index m k' p' c' <> i) -> res i = None).

Lemma good_iff : forall d m i v p c k p2 c2 k2 res, good d m i v p c k res ->
  (forall p' k' c', before d m p c k p' k' c' <-> before d m p2 c2 k2 p' k' c') -> good d m i v p2 c2 k2 res.
Proof.
  intros d m i v p c k p2 c2 k2 res [G1 G2] B. split.
  - intros (p' & k' & c' & H & E). apply G1. exists p', k', c'. split; [apply B; exact H|exact E].
  - intro H. apply G2. intros p' k' c' H'. apply H, B. exact H'.
Qed.

Lemma csv_good : forall m d np u i v, i < m_free m -> (forall p k c, slot m d np p k c -> m_index m k p c = i -> u p k c = v) ->
  good d m i v np 0 0 (constructSolutionVector m d np u).
Proof.
  intros m d np u i v Hi Rep. unfold constructSolutionVector.
  apply (loop_ind _ (fun p res => good d m i v p 0 0 res)).
  - split; [|reflexivity]. intros (p' & k' & c' & (_ & _ & H) & _). lia.
  - intros p res Hp G. apply (good_iff d m i v p d 0).
    + apply (loop_ind _ (fun c res => good d m i v p c 0 res)); [exact G|]. clear res G.
      intros c res Hc G. apply (good_iff d m i v p c (m_size m p c)).
      * apply (loop_ind _ (fun k res => good d m i v p c k res)); [exact G|]. clear res G.
        intros k res Hk [G1 G2]. unfold is_free. destruct (Nat.ltb_spec (m_index m k p c) (m_free m)) as [F|F].
        -- destruct (Nat.eq_dec i (m_index m k p c)) as [E|E].
           ++ unfold good. rewrite E, write_same. split.
              ** intros _. f_equal. apply Rep; [repeat split; assumption|symmetry; exact E].
              ** intro H. exfalso. apply (H p k c); [|reflexivity]. split; [exact Hc|]. split; [exact Hk|]. lia.
           ++ unfold good. rewrite write_other by exact E. split.
              ** intros (p' & k' & c' & (B1 & B2 & B3) & Ei). apply G1. exists p', k', c'. split; [|exact Ei]. split; [exact B1|]. split; [exact B2|].
                 assert (~ (p' = p /\ c' = c /\ k' = k)) by (intros (-> & -> & ->); congruence). lia.
              ** intro H. apply G2. intros p' k' c' (B1 & B2 & B3). apply H. split; [exact B1|]. split; [exact B2|]. lia.
        -- split.
           ++ intros (p' & k' & c' & (B1 & B2 & B3) & Ei). apply G1. exists p', k', c'. split; [|exact Ei]. split; [exact B1|]. split; [exact B2|].
              assert (~ (p' = p /\ c' = c /\ k' = k)) by (intros (-> & -> & ->); lia). lia.
           ++ intro H. apply G2. intros p' k' c' (B1 & B2 & B3). apply H. split; [exact B1|]. split; [exact B2|]. lia.
      * intros p' k' c'. unfold before. split.
        -- intros (B1 & B2 & B3). split; [exact B1|]. split; [exact B2|]. lia.
        -- intros (B1 & B2 & B3). split; [exact B1|]. split; [exact B2|].
           destruct B3 as [B3|(-> & [B3|(_ & B3)])]; [lia| |lia]. destruct (Nat.eq_dec c' c) as [->|Nc]; lia.
    + intros p' k' c'. unfold before. split; intros (B1 & B2 & B3); (split; [exact B1|]; split; [exact B2|]); lia.
Qed.
Lemma csv_some : forall m d np u v i, i < m_free m -> (forall p k c, slot m d np p k c -> m_index m k p c = i -> u p k c = v) ->
  (exists p k c, slot m d np p k c /\ m_index m k p c = i) -> constructSolutionVector m d np u i = Some v.
Proof.
  intros m d np u v i Hi Rep (p & k & c & (S1 & S2 & S3) & E). destruct (csv_good m d np u i v Hi Rep) as [G _]. apply G.
  exists p, k, c. split; [|exact E]. split; [exact S2|]. split; [exact S3|]. lia.
Qed.
Lemma csv_none : forall m d np u i, i < m_free m ->
  (forall p k c, slot m d np p k c -> m_index m k p c <> i) -> constructSolutionVector m d np u i = None.
Proof.
  intros m d np u i Hi H. destruct (csv_good m d np u i 0%R Hi) as [_ G]; [intros p k c Sl E; exfalso; apply (H p k c Sl E)|]. apply G.
  intros p k c (B1 & B2 & B3). apply H. repeat split; [lia|exact B1|exact B2].
Qed.
(* the rows filled by the mapped branch *)
Lemma mapped_row : forall m d np g x i c, np <> 0 -> c < d -> (forall p, p < np -> i < m_size m p c) ->
  (forall p, p < np -> m_index m i p c = m_index m i 0 c) -> mapped_cc m d np g x i c = constructMultiPatch m g x 0 i c.
Proof.
  intros m d np g x i c Hn Hc Hs Hi. unfold mapped_cc. set (v := constructMultiPatch m g x 0 i c).
  assert (Val : forall p, p < np -> (if is_free m (m_index m i p c) then x (m_index m i p c) else g (bindex m (m_index m i p c))) = v).
  { intros p Hp. unfold v, constructMultiPatch. rewrite (Hi p Hp). reflexivity. }
  clearbody v.
  apply (loop_ind _ (fun p cc => (p <> 0 -> cc i c = v))); [intro H; exfalso; apply H; reflexivity| |exact Hn].
  intros p cc0 Hp _ _.
  assert (Q : (fun n (cc : nat -> nat -> R) => c < n -> cc i c = v) d
     (loop d (fun c0 => loop (m_size m p c0) (fun i0 cc => write cc i0 (write (cc i0) c0 (if is_free m (m_index m i0 p c0) then x (m_index m i0 p c0) else g (bindex m (m_index m i0 p c0)))))) cc0)).
  { apply (loop_ind _ (fun n (cc : nat -> nat -> R) => c < n -> cc i c = v)); [lia|]. intros c0 cc Hc0 IH Lc.
    assert (Q2 : (fun n (t : nat -> nat -> R) => (c0 <> c -> t i c = cc i c) /\ (c0 = c -> i < n -> t i c = v)) (m_size m p c0)
       (loop (m_size m p c0) (fun i0 cc1 => write cc1 i0 (write (cc1 i0) c0 (if is_free m (m_index m i0 p c0) then x (m_index m i0 p c0) else g (bindex m (m_index m i0 p c0))))) cc)).
    { apply (loop_ind _ (fun n (t : nat -> nat -> R) => (c0 <> c -> t i c = cc i c) /\ (c0 = c -> i < n -> t i c = v))); [split; [reflexivity|lia]|].
      intros i0 t Hi0 [T1 T2]. split.
      - intro N. destruct (Nat.eq_dec i i0) as [<-|Ne]; [rewrite write_same, write_other by auto; auto|rewrite write_other by exact Ne; auto].
      - intros -> L. destruct (Nat.eq_dec i i0) as [<-|Ne]; [rewrite !write_same; apply Val; exact Hp|rewrite write_other by exact Ne; apply T2; [reflexivity|lia]]. }
    destruct Q2 as [Q2 Q3]. destruct (Nat.eq_dec c0 c) as [E|E]; [apply Q3; [exact E|rewrite E; apply Hs; exact Hp]|rewrite Q2 by exact E; apply IH; lia]. }
  apply Q. exact Hc.
Qed.

(* ---------------------------------------------------------------- point loads *)
Open Scope R_scope.
Lemma nsum_ext : forall n f g, (forall i, (i < n)%nat -> f i = g i) -> nsum n f = nsum n g.
Proof. induction n; intros; cbn; [reflexivity|]. rewrite (IHn f g), H by (intros; try apply H; lia). reflexivity. Qed.
Lemma nsum_plus : forall n f g, nsum n (fun i => f i + g i) = nsum n f + nsum n g.
Proof. induction n; intros; cbn; [ring|]. rewrite IHn. ring. Qed.
Lemma nsum_write : forall n (x r : nat -> R) g a, (g < n)%nat -> nsum n (fun i => x i * write r g (r g + a) i) = nsum n (fun i => x i * r i) + x g * a.
Proof.
  induction n; intros x r g a H; [lia|]. cbn. destruct (Nat.eq_dec g n) as [->|N].
  - rewrite write_same. rewrite (nsum_ext n _ (fun i => x i * r i)); [ring|]. intros i Hi. rewrite write_other by lia. reflexivity.
  - rewrite IHn by lia. rewrite write_other by lia. ring.
Qed.
Lemma load_comp_work : forall m x l j v acts r,
  nsum (m_free m) (fun i => x i * fold_left (fun r kb => let g := m_index m (fst kb) (l_patch l) j in if is_free m g then write r g (r g + snd kb * v) else r) acts r i)
  = nsum (m_free m) (fun i => x i * r i) + v * lsum (fun kb : nat * R => let i := m_index m (fst kb) (l_patch l) j in snd kb * if Nat.ltb i (m_free m) then x i else 0) acts.
Proof.
  intros m x l j v. induction acts as [|[k b] acts IH]; intro r; cbn [fold_left lsum fold_right]; [ring|].
  fold (lsum (fun kb : nat * R => let i := m_index m (fst kb) (l_patch l) j in snd kb * if Nat.ltb i (m_free m) then x i else 0) acts).
  rewrite IH. cbn [fst snd]. cbv zeta. unfold is_free. destruct (Nat.ltb_spec (m_index m k (l_patch l) j) (m_free m)).
  - rewrite nsum_write by assumption. ring.
  - ring.
Qed.
Lemma load_work : forall m d x l r, nsum (m_free m) (fun i => x i * applyLoad m d l r i) = nsum (m_free m) (fun i => x i * r i) + work m d x l.
Proof.
  intros m d x l r. unfold applyLoad, work. induction d; cbn [loop nsum]; [ring|].
  match goal with |- context [if Req_EM_T ?a 0 then ?t else _] => set (s := t) in *; destruct (Req_EM_T a 0) as [E|E] end.
  - rewrite IHd, E. ring.
  - rewrite load_comp_work, IHd. unfold at_point. ring.
Qed.
Lemma loads_work : forall m d x ls r, nsum (m_free m) (fun i => x i * applyLoads m d ls r i) = nsum (m_free m) (fun i => x i * r i) + lsum (work m d x) ls.
Proof.
  intros m d x ls. unfold applyLoads. induction ls as [|l ls IH]; intro r; cbn; [ring|]. rewrite IH, load_work. fold (lsum (work m d x) ls). ring.
Qed.
(* the work determines the entries of the free dofs *)
Lemma nsum_delta : forall n i (r : nat -> R), (i < n)%nat -> nsum n (fun k => (if Nat.eqb k i then 1 else 0) * r k) = r i.
Proof.
  induction n; intros i r H; [lia|]. cbn. destruct (Nat.eqb_spec n i) as [->|N].
  - rewrite (nsum_ext i _ (fun _ => 0)). { clear. assert (nsum i (fun _ : nat => 0) = 0) by (induction i; cbn; [reflexivity|rewrite IHi; ring]). rewrite H. ring. }
    intros k Hk. destruct (Nat.eqb_spec k i); [lia|ring].
  - rewrite IHn by lia. ring.
Qed.
Lemma loads_entry : forall m d ls r i, (i < m_free m)%nat ->
  applyLoads m d ls r i = r i + lsum (work m d (fun k => if Nat.eqb k i then 1 else 0)) ls.
Proof. intros m d ls r i H. rewrite <- (nsum_delta (m_free m) i (applyLoads m d ls r) H), loads_work, nsum_delta by exact H. reflexivity. Qed.
Lemma load_elim : forall m d l r i, (m_free m <= i)%nat -> applyLoad m d l r i = r i.
Proof.
  intros m d l r i H. unfold applyLoad. apply (loop_ind _ (fun _ s => s i = r i)); [reflexivity|]. intros j s _ E. destruct (Req_EM_T _ 0); [exact E|].
  assert (Q : forall acts s0, s0 i = r i -> fold_left (fun r0 kb => let g := m_index m (fst kb) (l_patch l) j in if is_free m g then write r0 g (r0 g + snd kb * l_val l j) else r0) acts s0 i = r i).
  { induction acts as [|kb acts IH]; intros s0 E0; cbn [fold_left]; [exact E0|]. apply IH. cbv zeta. unfold is_free. destruct (Nat.ltb_spec (m_index m (fst kb) (l_patch l) j) (m_free m)); [|exact E0]. rewrite write_other by lia. exact E0. }
  apply Q. exact E.
Qed.
Lemma loads_elim : forall m d ls r i, (m_free m <= i)%nat -> applyLoads m d ls r i = r i.
Proof. intros m d ls. unfold applyLoads. induction ls; intros r i H; cbn; [reflexivity|]. rewrite IHls by exact H. apply load_elim. exact H. Qed.
Lemma lsum_perm : forall A (f : A -> R) l l', Permutation l l' -> lsum f l = lsum f l'.
Proof. intros A f l l' P. induction P; unfold lsum in *; cbn; lra. Qed.
Lemma lsum_app : forall A (f : A -> R) l l', lsum f (l ++ l') = lsum f l + lsum f l'.
Proof. induction l; intros; [change (lsum f l' = 0 + lsum f l'); ring|]. change (f a + lsum f (l ++ l') = (f a + lsum f l) + lsum f l'). rewrite IHl. ring. Qed.
Lemma lsum_ext : forall A (f g : A -> R) l, (forall a, In a l -> f a = g a) -> lsum f l = lsum g l.
Proof. induction l; intros; cbn; [reflexivity|]. fold (lsum f l) (lsum g l). rewrite IHl, H by (intros; try apply H; cbn; auto). reflexivity. Qed.
Lemma lsum_zero : forall A (f : A -> R) l, (forall a, In a l -> f a = 0) -> lsum f l = 0.
Proof. intros. rewrite (lsum_ext _ f (fun _ => 0)) by assumption. induction l; cbn; [reflexivity|]. fold (lsum (fun _ : A => 0) l). rewrite IHl by (intros; apply H; cbn; auto). ring. Qed.
Lemma nsum_zero : forall n f, (forall i, (i < n)%nat -> f i = 0) -> nsum n f = 0.
Proof. induction n; intros; cbn; [reflexivity|]. rewrite IHn, H by (intros; try apply H; lia). ring. Qed.
Lemma nsum_single : forall n f j, (j < n)%nat -> (forall i, (i < n)%nat -> i <> j -> f i = 0) -> nsum n f = f j.
Proof.
  induction n; intros f j H E; [lia|]. cbn. destruct (Nat.eq_dec j n) as [->|N].
  - rewrite nsum_zero; [ring|]. intros; apply E; lia.
  - rewrite (IHn f j), (E n) by (intros; try apply E; lia). ring.
Qed.

(* ---------------------------------------------------------------- boundary force *)
Lemma insert_In : forall s i j, In j (insert s i) <-> In j s \/ j = i.
Proof.
  intros. unfold insert. destruct (existsb (Nat.eqb i) s) eqn:E.
  - apply existsb_exists in E. destruct E as (x & Hx & Ex). apply Nat.eqb_eq in Ex. subst x. split; [tauto|]. intros [H|H]; [exact H|subst; exact Hx].
  - rewrite in_app_iff. cbn. intuition.
Qed.
Lemma insert_NoDup : forall s i, NoDup s -> NoDup (insert s i).
Proof.
  intros. unfold insert. destruct (existsb (Nat.eqb i) s) eqn:E; [exact H|].
  apply (Permutation_NoDup (Permutation_cons_append s i)). constructor; [|exact H]. intro Q.
  assert (existsb (Nat.eqb i) s = true) by (apply existsb_exists; exists i; split; [exact Q|apply Nat.eqb_refl]). congruence.
Qed.
Lemma side_fold : forall m c b funs s, NoDup s ->
  NoDup (fold_left (fun s k => insert s (m_index m k (s_patch b) c)) funs s) /\
  forall i, In i (fold_left (fun s k => insert s (m_index m k (s_patch b) c)) funs s) <-> In i s \/ exists k, In k funs /\ m_index m k (s_patch b) c = i.
Proof.
  intros m c b. induction funs as [|k funs IH]; intros s N; cbn.
  - split; [exact N|]. intro i. split; [tauto|]. intros [H|(k & [] & _)]. exact H.
  - destruct (IH (insert s (m_index m k (s_patch b) c)) (insert_NoDup _ _ N)) as [N1 M1]. split; [exact N1|]. intro i. rewrite M1, insert_In. split.
    + intros [[H|H]|(k' & Hk & E)]; [tauto|right; exists k; auto|right; exists k'; auto].
    + intros [H|(k' & [E|Hk] & E')]; [tauto|subst k'; left; right; auto|right; exists k'; auto].
Qed.
Lemma sides_fold : forall m c sides s, NoDup s ->
  let r := fold_left (fun s b => fold_left (fun s k => insert s (m_index m k (s_patch b) c)) (s_funs b) s) sides s in
  NoDup r /\ forall i, In i r <-> In i s \/ on_sides m c sides i.
Proof.
  intros m c. induction sides as [|b sides IH]; intros s N; cbn.
  - split; [exact N|]. intro i. split; [tauto|]. intros [H|(b & k & [] & _)]. exact H.
  - destruct (side_fold m c b (s_funs b) s N) as [N1 M1]. destruct (IH _ N1) as [N2 M2]. split; [exact N2|]. intro i. rewrite M2, M1. unfold on_sides. split.
    + intros [[H|(k & Hk & E)]|(b' & k & Hb & Hk & E)]; [tauto|right; exists b, k; cbn; auto|right; exists b', k; cbn; auto].
    + intros [H|(b' & k & [Eb|Hb] & Hk & E)]; [tauto|subst b'; left; right; exists k; auto|right; exists b', k; auto].
Qed.
Lemma side_set_ok : forall m c sides, NoDup (side_set m c sides) /\ forall i, In i (side_set m c sides) <-> on_sides m c sides i.
Proof. intros. destruct (sides_fold m c sides [] (NoDup_nil _)) as [N M]. split; [exact N|]. intro i. unfold side_set. rewrite M. cbn. tauto. Qed.
Lemma order_sum : forall (rhs : nat -> R) l a, fold_left (fun F i => F + rhs i) l a = a + lsum rhs l.
Proof. induction l as [|b l IHl]; intros; [cbn; ring|]. cbn [fold_left]. rewrite IHl. change (a + rhs b + lsum rhs l = a + (rhs b + lsum rhs l)). ring. Qed.
Lemma lsum_nsum : forall (f : nat -> R) n l, NoDup l -> (forall i, In i l -> (i < n)%nat) ->
  lsum f l = nsum n (fun i => if existsb (Nat.eqb i) l then f i else 0).
Proof.
  intros f n l N H.
  assert (P : Permutation l (filter (fun i => existsb (Nat.eqb i) l) (seq 0 n))).
  { apply NoDup_Permutation; [exact N|apply NoDup_filter, seq_NoDup|]. intro i. rewrite filter_In, in_seq, existsb_exists. split.
    - intro Hi. split; [specialize (H i Hi); lia|]. exists i. split; [exact Hi|apply Nat.eqb_refl].
    - intros (_ & y & Hy & E). apply Nat.eqb_eq in E. subst y. exact Hy. }
  rewrite (lsum_perm _ f _ _ P).
  assert (Q : forall b : nat -> bool, lsum f (filter b (seq 0 n)) = nsum n (fun i => if b i then f i else 0)).
  { clear. intro b. induction n; [reflexivity|]. rewrite seq_S, filter_app, lsum_app, IHn. cbn [nsum]. f_equal. cbn [filter]. rewrite Nat.add_0_l.
    destruct (b n); unfold lsum; cbn [fold_right]; ring. }
  apply Q.
Qed.
