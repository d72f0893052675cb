From Coq Require Import Reals Lra Lia List Arith Permutation.
From Verif Require Import Tensor IndicatorModel IndicatorSpec.
Import ListNotations.
Open Scope R_scope.

Notation cnt := (count_occ Nat.eq_dec).

Lemma contains_box : forall p e, contains p e = true <-> in_box p e.
Proof.
  intros p e. unfold contains, in_box, leb.
  destruct (Rle_dec 0 (fst p - fst (elo e))); destruct (Rle_dec 0 (snd p - snd (elo e))); destruct (Rle_dec 0 (fst (eup e) - fst p)); destruct (Rle_dec 0 (snd (eup e) - snd p));
  cbn; split; intros; try discriminate; try reflexivity; try lra; exfalso; lra.
Qed.

(* ------------------------------------------------------------------ loop of one thread *)
Open Scope nat_scope.
Lemma steps_cnt : forall nt n j fuel i, 0 < nt -> n <= fuel + i ->
  cnt (steps fuel i nt n) j = if (Nat.leb i j && Nat.ltb j n && Nat.eqb ((j - i) mod nt) 0)%bool then 1 else 0.
Proof.
  intros nt n j fuel. induction fuel; intros i Hn Hf; cbn [steps].
  - destruct (Nat.leb i j) eqn:A; cbn [andb count_occ]; [|reflexivity]. apply Nat.leb_le in A. destruct (Nat.ltb j n) eqn:B; [apply Nat.ltb_lt in B; lia|reflexivity].
  - destruct (Nat.ltb i n) eqn:L.
    + apply Nat.ltb_lt in L. cbn [count_occ]. destruct (Nat.eq_dec i j) as [->|NE].
      * rewrite IHfuel by lia. rewrite (proj2 (Nat.leb_le j j)) by lia. rewrite (proj2 (Nat.ltb_lt j n) L).
        rewrite (proj2 (Nat.leb_gt (j + nt) j)) by lia. rewrite Nat.sub_diag, Nat.mod_0_l by lia. reflexivity.
      * rewrite IHfuel by lia. destruct (Nat.ltb j n) eqn:B; [|rewrite !Bool.andb_false_r; reflexivity]. rewrite !Bool.andb_true_r.
        destruct (Nat.leb i j) eqn:A.
        -- apply Nat.leb_le in A. destruct (Nat.leb (i + nt) j) eqn:C; cbn [andb].
           ++ apply Nat.leb_le in C. replace (j - i) with (j - (i + nt) + 1 * nt) by lia. rewrite Nat.mod_add by lia. reflexivity.
           ++ apply Nat.leb_gt in C. rewrite Nat.mod_small by lia. destruct (Nat.eqb (j - i) 0) eqn:D; [apply Nat.eqb_eq in D; lia|reflexivity].
        -- apply Nat.leb_gt in A. rewrite (proj2 (Nat.leb_gt (i + nt) j)) by lia. reflexivity.
    + apply Nat.ltb_ge in L. cbn [count_occ]. destruct (Nat.leb i j) eqn:A; cbn [andb]; [|reflexivity]. apply Nat.leb_le in A.
      destruct (Nat.ltb j n) eqn:B; [apply Nat.ltb_lt in B; lia|reflexivity].
Qed.
Definition nsum (l : list nat) : nat := fold_right Nat.add 0 l.
Lemma nsum_app : forall a b, nsum (a ++ b) = nsum a + nsum b.
Proof. induction a; intros; cbn. reflexivity. unfold nsum in *. rewrite IHa. lia. Qed.
Lemma nsum_ext : forall A (l : list A) f g, (forall x, In x l -> f x = g x) -> nsum (map f l) = nsum (map g l).
Proof. induction l; intros f g H; cbn. reflexivity. rewrite (H a) by (left; reflexivity). f_equal. apply IHl. intros; apply H; right; assumption. Qed.
Lemma nsum_plus : forall A (l : list A) f g, nsum (map (fun x => f x + g x) l) = nsum (map f l) + nsum (map g l).
Proof. induction l; intros; cbn. reflexivity. unfold nsum in *. rewrite IHl. lia. Qed.
Lemma nsum_scal : forall A (l : list A) k f, nsum (map (fun x => k * f x) l) = k * nsum (map f l).
Proof. induction l; intros; cbn. lia. unfold nsum in *. rewrite IHl. lia. Qed.
Lemma nsum_zero : forall A (l : list A), nsum (map (fun _ => 0) l) = 0.
Proof. induction l; cbn; auto. Qed.
Lemma nsum_one : forall m k a, nsum (map (fun t => if Nat.eqb t m then 1 else 0) (seq a k)) = if (Nat.leb a m && Nat.ltb m (a + k))%bool then 1 else 0.
Proof.
  intros m k. induction k; intros a; cbn [seq map nsum fold_right].
  - destruct (Nat.leb a m) eqn:A; cbn [andb]; [|reflexivity]. apply Nat.leb_le in A. destruct (Nat.ltb m (a + 0)) eqn:B; [apply Nat.ltb_lt in B; lia|reflexivity].
  - unfold nsum in IHk. rewrite IHk. destruct (Nat.eqb a m) eqn:E.
    + apply Nat.eqb_eq in E. subst. rewrite (proj2 (Nat.leb_gt (S m) m)) by lia. rewrite (proj2 (Nat.leb_le m m)), (proj2 (Nat.ltb_lt m (m + S k))) by lia. reflexivity.
    + apply Nat.eqb_neq in E. replace (S a + k) with (a + S k) by lia. destruct (Nat.leb a m) eqn:A.
      * apply Nat.leb_le in A. rewrite (proj2 (Nat.leb_le (S a) m)) by lia. reflexivity.
      * apply Nat.leb_gt in A. rewrite (proj2 (Nat.leb_gt (S a) m)) by lia. reflexivity.
Qed.
(* every element of a patch is visited by exactly one thread, once *)
Lemma steps_all : forall nt n j, 0 < nt -> nsum (map (fun tid => cnt (steps n tid nt n) j) (seq 0 nt)) = if Nat.ltb j n then 1 else 0.
Proof.
  intros nt n j Hn.
  rewrite (nsum_ext _ _ _ (fun t => (if Nat.ltb j n then 1 else 0) * (if Nat.eqb t (j mod nt) then 1 else 0))).
  - rewrite nsum_scal, nsum_one. cbn [Nat.leb andb]. rewrite (proj2 (Nat.ltb_lt (j mod nt) (0 + nt))) by (apply Nat.mod_upper_bound; lia). lia.
  - intros t Ht. apply in_seq in Ht. rewrite steps_cnt by lia. destruct (Nat.ltb j n); [|rewrite Bool.andb_false_r; reflexivity]. rewrite Bool.andb_true_r.
    destruct (Nat.leb t j) eqn:A.
    + apply Nat.leb_le in A. cbn [andb].
      assert (E : (j - t) mod nt = 0 <-> t = j mod nt).
      { split; intro H.
        - apply Nat.mod_divides in H; [|lia]. destruct H as (q & Hq). replace j with (t + q * nt) by lia. rewrite Nat.mod_add, Nat.mod_small by lia. reflexivity.
        - pose proof (Nat.div_mod j nt ltac:(lia)) as D. rewrite <- H in D. replace (j - t) with (j / nt * nt) by lia. apply Nat.mod_mul. lia. }
      destruct (Nat.eqb ((j - t) mod nt) 0) eqn:B; destruct (Nat.eqb t (j mod nt)) eqn:C; try reflexivity.
      * apply Nat.eqb_eq in B. apply Nat.eqb_neq in C. tauto.
      * apply Nat.eqb_neq in B. apply Nat.eqb_eq in C. tauto.
    + apply Nat.leb_gt in A. cbn [andb]. destruct (Nat.eqb t (j mod nt)) eqn:C; [|reflexivity]. apply Nat.eqb_eq in C.
      pose proof (Nat.mod_le j nt ltac:(lia)). lia.
Qed.
Lemma cnt_filter : forall f l x, cnt (filter f l) x = if f x then cnt l x else 0.
Proof.
  intros f l x. induction l; cbn [filter]. destruct (f x); reflexivity.
  destruct (f a) eqn:A; cbn [count_occ]; destruct (Nat.eq_dec a x) as [->|NE]; rewrite ?IHl, ?A; try reflexivity; destruct (f x) eqn:B; try congruence; reflexivity.
Qed.
Lemma cnt_map_add : forall pc l e, cnt (map (fun i => pc + i) l) e = if Nat.leb pc e then cnt l (e - pc) else 0.
Proof.
  intros pc l e. induction l; cbn [map count_occ]. destruct (Nat.leb pc e); reflexivity.
  rewrite IHl. destruct (Nat.leb pc e) eqn:A.
  - apply Nat.leb_le in A. destruct (Nat.eq_dec (pc + a) e); destruct (Nat.eq_dec a (e - pc)); try lia; reflexivity.
  - apply Nat.leb_gt in A. destruct (Nat.eq_dec (pc + a) e); [lia|reflexivity].
Qed.
Definition dflt : elem := mkelem (0%R, 0%R) (0%R, 0%R).
Lemma found_all : forall p nt pc es e, 0 < nt ->
  nsum (map (fun tid => cnt (found p tid nt pc es) e) (seq 0 nt)) =
  if (Nat.leb pc e && Nat.ltb (e - pc) (length es))%bool then (if contains p (nth (e - pc) es dflt) then 1 else 0) else 0.
Proof.
  intros p nt pc es e Hn. unfold found.
  rewrite (nsum_ext _ _ _ (fun t => (if Nat.leb pc e then (if contains p (nth (e - pc) es dflt) then 1 else 0) else 0) * cnt (steps (length es) t nt (length es)) (e - pc))).
  - rewrite nsum_scal, steps_all by assumption. destruct (Nat.leb pc e), (Nat.ltb (e - pc) (length es)), (contains p (nth (e - pc) es dflt)); reflexivity.
  - intros t _. rewrite cnt_map_add, cnt_filter. fold dflt. destruct (Nat.leb pc e); [|reflexivity]. destruct (contains p (nth (e - pc) es dflt)); lia.
Qed.
Lemma cnt_concat : forall ls e, cnt (concat ls) e = nsum (map (fun l => cnt l e) ls).
Proof. induction ls; intros; cbn. reflexivity. rewrite count_occ_app, IHls. reflexivity. Qed.
(* the private list is appended once for every patch from the one of the element on *)
Fixpoint wsum (p : R * R) (tid nt pc : nat) (patches : list (list elem)) (e : nat) : nat :=
  match patches with
  | [] => 0
  | es :: rest => length patches * cnt (found p tid nt pc es) e + wsum p tid nt (pc + length es) rest e
  end.
Lemma thread_cnt : forall p tid nt patches pc priv e,
  cnt (concat (thread_run p tid nt pc patches priv)) e = length patches * cnt priv e + wsum p tid nt pc patches e.
Proof.
  induction patches as [|es rest IH]; intros pc priv e; cbn [thread_run concat wsum]. reflexivity.
  cbv zeta. cbn [concat]. rewrite count_occ_app, IH, count_occ_app. cbn [length]. lia.
Qed.
Lemma wsum_all : forall p nt patches pc e, 0 < nt ->
  nsum (map (fun tid => wsum p tid nt pc patches e) (seq 0 nt)) = if Nat.leb pc e then shares p patches (e - pc) else 0.
Proof.
  intros p nt patches. induction patches as [|es rest IH]; intros pc e Hn; cbn [wsum].
  - rewrite nsum_zero. cbn [shares]. destruct (Nat.leb pc e); reflexivity.
  - rewrite (nsum_plus _ _ (fun t => length (es :: rest) * cnt (found p t nt pc es) e) (fun t => wsum p t nt (pc + length es) rest e)).
    rewrite nsum_scal, found_all, IH by assumption. cbn [shares]. fold dflt.
    destruct (Nat.leb pc e) eqn:A; cbn [andb].
    + apply Nat.leb_le in A. destruct (Nat.ltb (e - pc) (length es)) eqn:B.
      * apply Nat.ltb_lt in B. rewrite (proj2 (Nat.leb_gt (pc + length es) e)) by lia. destruct (contains p (nth (e - pc) es dflt)); lia.
      * apply Nat.ltb_ge in B. rewrite (proj2 (Nat.leb_le (pc + length es) e)) by lia. replace (e - (pc + length es)) with (e - pc - length es) by lia. lia.
    + apply Nat.leb_gt in A. rewrite (proj2 (Nat.leb_gt (pc + length es) e)) by lia. lia.
Qed.
Lemma interleaves_perm : forall A (ls : list (list A)) out, interleaves ls out -> Permutation out (concat ls).
Proof.
  intros A ls out H. induction H.
  - assert (E : concat ls = []).
    { induction ls; cbn. reflexivity. rewrite (H a) by (left; reflexivity). cbn. apply IHls. intros; apply H; right; assumption. }
    rewrite E. constructor.
  - rewrite concat_app in *. cbn [concat] in *. apply Permutation_trans with (x :: concat l1 ++ r ++ concat l2). constructor; assumption.
    change ((x :: r) ++ concat l2) with (x :: (r ++ concat l2)). apply Permutation_middle.
Qed.
Lemma perm_cnt : forall l l' e, Permutation l l' -> cnt l e = cnt l' e.
Proof. intros l l' e H. apply (Permutation_count_occ Nat.eq_dec). assumption. Qed.
Lemma perm_concat : forall A (l l' : list (list A)), Permutation l l' -> Permutation (concat l) (concat l').
Proof.
  intros A l l' H. induction H; cbn. constructor. apply Permutation_app_head; assumption.
  rewrite !app_assoc. apply Permutation_app_tail, Permutation_app_comm. eapply Permutation_trans; eassumption.
Qed.
Lemma nsum_map_map : forall A B (f : B -> nat) (g : A -> B) l, nsum (map f (map g l)) = nsum (map (fun x => f (g x)) l).
Proof. intros. rewrite map_map. reflexivity. Qed.
Lemma elements_cnt : forall p nt patches out e, 0 < nt -> interleaves (threads p nt patches) out -> cnt (concat out) e = shares p patches e.
Proof.
  intros p nt patches out e Hn H. apply interleaves_perm in H. apply perm_concat in H. rewrite (perm_cnt _ _ e H).
  rewrite cnt_concat. unfold threads.
  assert (E : forall ll, nsum (map (fun l => cnt l e) (concat ll)) = nsum (map (fun l => cnt (concat l) e) ll)).
  { induction ll; cbn. reflexivity. rewrite map_app, nsum_app, IHll, cnt_concat. reflexivity. }
  rewrite E, nsum_map_map. rewrite (nsum_ext _ _ _ (fun tid => wsum p tid nt 0 patches e)).
  - rewrite wsum_all by assumption. cbn [Nat.leb]. rewrite Nat.sub_0_r. reflexivity.
  - intros t _. rewrite thread_cnt. cbn [count_occ]. lia.
Qed.
Lemma shares_range : forall p patches e, 0 < shares p patches e -> e < total_elems patches.
Proof.
  induction patches as [|es rest IH]; intros e H; cbn [shares] in H. lia. unfold total_elems. cbn [concat]. rewrite app_length.
  destruct (Nat.ltb e (length es)) eqn:B. apply Nat.ltb_lt in B. lia. apply Nat.ltb_ge in B. apply IH in H. unfold total_elems in H. lia.
Qed.
Lemma length_cnt : forall N l, (forall x, In x l -> x < N) -> length l = nsum (map (cnt l) (seq 0 N)).
Proof.
  intros N. induction l; intros H; cbn [length].
  - transitivity (nsum (map (fun _ : nat => 0) (seq 0 N))). symmetry. apply nsum_zero. apply nsum_ext. reflexivity.
  - rewrite IHl by (intros; apply H; right; assumption).
    rewrite (nsum_ext _ (seq 0 N) (cnt (a :: l)) (fun x => (if Nat.eqb x a then 1 else 0) + cnt l x)).
    + rewrite nsum_plus, nsum_one. cbn [Nat.leb andb]. rewrite (proj2 (Nat.ltb_lt a (0 + N))) by (apply H; left; reflexivity). lia.
    + intros x _. cbn [count_occ]. destruct (Nat.eq_dec a x) as [->|NE]. rewrite Nat.eqb_refl. reflexivity. rewrite (proj2 (Nat.eqb_neq x a)) by congruence. reflexivity.
Qed.
Lemma elements_range : forall p nt patches out x, 0 < nt -> interleaves (threads p nt patches) out -> In x (concat out) -> x < total_elems patches.
Proof.
  intros p nt patches out x Hn H I. apply (count_occ_In Nat.eq_dec) in I. rewrite (elements_cnt p nt patches out x Hn H) in I. apply shares_range with p. lia.
Qed.
Lemma elements_length : forall p nt patches out, 0 < nt -> interleaves (threads p nt patches) out -> length (concat out) = all_shares p patches.
Proof.
  intros p nt patches out Hn H. rewrite (length_cnt (total_elems patches)).
  - unfold all_shares. apply nsum_ext. intros x _. apply (elements_cnt p nt); assumption.
  - intros x I. apply (elements_range p nt patches out x Hn H I).
Qed.

(* ------------------------------------------------------------------ distribution *)
Open Scope R_scope.
Lemma add_at_len : forall errs e v, length (add_at errs e v) = length errs.
Proof. induction errs; intros [|e] v; cbn; auto. Qed.
Lemma add_at_nth : forall errs e v k, (k < length errs)%nat -> nth k (add_at errs e v) 0 = nth k errs 0 + (if Nat.eqb e k then v else 0).
Proof.
  induction errs; intros e v k H; cbn in H. lia. destruct e, k; cbn; try ring. rewrite IHerrs by lia. reflexivity.
Qed.
Lemma fold_add_len : forall v els errs, length (fold_left (fun er e => add_at er e v) els errs) = length errs.
Proof. induction els; intros; cbn. reflexivity. rewrite IHels, add_at_len. reflexivity. Qed.
Lemma fold_add_nth : forall v els errs k, (k < length errs)%nat ->
  nth k (fold_left (fun er e => add_at er e v) els errs) 0 = nth k errs 0 + v * INR (cnt els k).
Proof.
  induction els; intros errs k H; cbn [fold_left]. cbn. ring.
  rewrite IHels by (rewrite add_at_len; assumption). rewrite add_at_nth by assumption. cbn [count_occ].
  destruct (Nat.eq_dec a k) as [->|NE]. rewrite Nat.eqb_refl, S_INR. ring. rewrite (proj2 (Nat.eqb_neq a k) NE). ring.
Qed.
Definition share (p : R * R) (patches : list (list elem)) (r : R) (e : nat) : R := r * (INR (shares p patches e) / INR (all_shares p patches)).
Lemma elwise_exact : forall nt patches l errs o, (0 < nt)%nat -> length errs = total_elems patches -> applyElWise nt patches l errs o ->
  exists errs', o = Ok errs' /\ length errs' = length errs /\
    forall e, (e < length errs)%nat -> nth e errs' 0 = nth e errs 0 + share (lpt l) patches (lval l) e.
Proof.
  intros nt patches l errs o Hn HL H. destruct H as [out HI].
  assert (F : forallb (fun e => Nat.ltb e (length errs)) (concat out) = true).
  { apply forallb_forall. intros x I. apply Nat.ltb_lt. rewrite HL. apply (elements_range (lpt l) nt patches out x Hn HI I). }
  rewrite F. eexists. split. reflexivity. unfold distribute. split. apply fold_add_len.
  intros e He. rewrite fold_add_nth by assumption. rewrite (elements_cnt (lpt l) nt patches out e Hn HI), (elements_length (lpt l) nt patches out Hn HI).
  unfold share, Rdiv. ring.
Qed.
Lemma list_eq_nth : forall (a b : list R), length a = length b -> (forall e, (e < length a)%nat -> nth e a 0 = nth e b 0) -> a = b.
Proof. intros a b L H. apply nth_ext with 0 0; assumption. Qed.
Lemma list_sum_seq : forall l, list_sum l = list_sum (map (fun e => nth e l 0) (seq 0 (length l))).
Proof.
  induction l; cbn. reflexivity. unfold list_sum in *. rewrite IHl at 1. rewrite <- seq_shift, map_map. reflexivity.
Qed.
Lemma list_sum_ext : forall A (l : list A) f g, (forall x, In x l -> f x = g x) -> list_sum (map f l) = list_sum (map g l).
Proof. induction l; intros f g H; cbn. reflexivity. rewrite (H a) by (left; reflexivity). f_equal. apply IHl. intros; apply H; right; assumption. Qed.
Lemma list_sum_plus : forall A (l : list A) f g, list_sum (map (fun x => f x + g x) l) = list_sum (map f l) + list_sum (map g l).
Proof. induction l; intros; cbn. ring. unfold list_sum in *. rewrite IHl. ring. Qed.
Lemma list_sum_scal : forall A (l : list A) c f, list_sum (map (fun x => c * f x) l) = c * list_sum (map f l).
Proof. induction l; intros; cbn. ring. unfold list_sum in *. rewrite IHl. ring. Qed.
Lemma list_sum_INR : forall A (l : list A) f, list_sum (map (fun x => INR (f x)) l) = INR (nsum (map f l)).
Proof. induction l; intros; cbn. reflexivity. unfold list_sum, nsum in *. rewrite IHl, plus_INR. reflexivity. Qed.
Lemma shares_nth : forall p patches e, (e < total_elems patches)%nat -> contains p (nth e (concat patches) dflt) = true -> (0 < shares p patches e)%nat.
Proof.
  induction patches as [|es rest IH]; intros e He H; unfold total_elems in He; cbn [concat] in *. cbn in He. lia.
  rewrite app_length in He. cbn [shares]. fold dflt. destruct (Nat.ltb e (length es)) eqn:B.
  - apply Nat.ltb_lt in B. rewrite app_nth1 in H by assumption. rewrite H. cbn [length]. lia.
  - apply Nat.ltb_ge in B. rewrite app_nth2 in H by lia. apply IH. unfold total_elems. lia. exact H.
Qed.
Lemma shares_pos_in : forall p patches e, (0 < shares p patches e)%nat -> contains p (nth e (concat patches) dflt) = true.
Proof.
  induction patches as [|es rest IH]; intros e H; cbn [shares] in H. lia. fold dflt in H. cbn [concat]. destruct (Nat.ltb e (length es)) eqn:B.
  - apply Nat.ltb_lt in B. rewrite app_nth1 by assumption. destruct (contains p (nth e es dflt)); [reflexivity|lia].
  - apply Nat.ltb_ge in B. rewrite app_nth2 by lia. apply IH. exact H.
Qed.
Lemma nsum_pos : forall A (l : list A) f x, In x l -> (0 < f x)%nat -> (0 < nsum (map f l))%nat.
Proof. induction l; intros f x I H; cbn. destruct I. destruct I as [->|I]. unfold nsum. lia. specialize (IHl f x I H). unfold nsum in *. lia. Qed.
Lemma all_shares_pos : forall p patches el, In el (concat patches) -> in_box p el -> (0 < all_shares p patches)%nat.
Proof.
  intros p patches el I B. destruct (In_nth _ _ dflt I) as (e & He & E). unfold all_shares. apply (nsum_pos _ _ _ e).
  apply in_seq. unfold total_elems. lia. apply shares_nth. exact He. rewrite E. apply contains_box. assumption.
Qed.
Lemma all_shares_zero : forall p patches, (forall el, In el (concat patches) -> ~ in_box p el) -> forall e, shares p patches e = 0%nat.
Proof.
  intros p patches H e. destruct (shares p patches e) eqn:S; [reflexivity|]. exfalso.
  assert (P : (0 < shares p patches e)%nat) by lia. pose proof (shares_range _ _ _ P) as L. apply shares_pos_in in P. apply contains_box in P.
  apply (H (nth e (concat patches) dflt)). apply nth_In. exact L. exact P.
Qed.
Lemma elwise_sum : forall nt patches l errs errs', (0 < nt)%nat -> length errs = total_elems patches -> applyElWise nt patches l errs (Ok errs') ->
  (exists el, In el (concat patches) /\ in_box (lpt l) el) -> list_sum errs' = list_sum errs + lval l.
Proof.
  intros nt patches l errs errs' Hn HL H (el & I & B). destruct (elwise_exact nt patches l errs _ Hn HL H) as (e' & E & L & V). injection E as <-.
  rewrite (list_sum_seq errs'), L. rewrite (list_sum_ext _ _ _ (fun e => nth e errs 0 + share (lpt l) patches (lval l) e)).
  - rewrite list_sum_plus, <- list_sum_seq. f_equal. unfold share.
    rewrite (list_sum_ext _ _ _ (fun e => lval l / INR (all_shares (lpt l) patches) * INR (shares (lpt l) patches e))).
    + rewrite list_sum_scal, list_sum_INR, HL. change (nsum (map (shares (lpt l) patches) (seq 0 (total_elems patches)))) with (all_shares (lpt l) patches).
      field. apply not_0_INR. pose proof (all_shares_pos _ _ _ I B). lia.
    + intros. unfold Rdiv. ring.
  - intros e He. apply in_seq in He. apply V. lia.
Qed.
(* a schedule exists: the threads one after the other *)
Lemma interleaves_cons : forall A (l : list (list A)) out, interleaves l out -> interleaves ([] :: l) out.
Proof.
  intros A l out H. induction H.
  - constructor. intros x [<-|I]. reflexivity. apply H; assumption.
  - exact (il_step ([] :: l1) x r l2 out IHinterleaves).
Qed.
Lemma interleaves_concat : forall A (ls : list (list A)), interleaves ls (concat ls).
Proof.
  induction ls as [|l ls IH]; cbn. constructor. intros l [].
  induction l; cbn. apply interleaves_cons; assumption. exact (il_step [] a l ls (l ++ concat ls) IHl).
Qed.
