From Coq Require Import List Arith Lia.
From Coq Require Import Reals Lra.
From Verif Require Import Tensor BatchModel BatchSpec PrincipalModel PrincipalSpec PrincipalProofs.
Import ListNotations.
Open Scope nat_scope.

Lemma idx_inj n k j k' j' : k < n -> k' < n -> j * n + k = j' * n + k' -> k = k' /\ j = j'.
Proof.
  intros Hk Hk' E.
  assert (j = j').
  { destruct (Nat.lt_trichotomy j j') as [H|[H|H]]; [|assumption|]; exfalso; nia. }
  subst. split; [lia|reflexivity].
Qed.

Lemma column_bij n m : column_bijection n m (colIdx n).
Proof.
  unfold column_bijection, colIdx. repeat split.
  - intros. nia.
  - intros c Hc. destruct n as [|n]; [lia|].
    exists (c mod S n), (c / S n). repeat split.
    + apply Nat.mod_upper_bound. lia.
    + apply Nat.div_lt_upper_bound; lia.
    + rewrite (Nat.div_mod c (S n)) at 3 by lia. lia.
  - now destruct (idx_inj n k j k' j').
  - now destruct (idx_inj n k j k' j').
Qed.

(* inner loop *)
Lemma inner_ok {A} n alloc k (F : nat -> nat -> A) : forall js s,
  (forall j, In j js -> colIdx n k j < alloc) -> k < n ->
  exists s', inner n alloc k F js s = Ok s' /\
   (forall j, In j js -> s' (colIdx n k j) = Some (F k j)) /\
   (forall c, (forall j, In j js -> c <> colIdx n k j) -> s' c = s c).
Proof.
  induction js as [|j js IH]; intros s Hb Hk; cbn [inner].
  - exists s. split; [reflexivity|split; [intros j []|reflexivity]].
  - unfold write. rewrite (proj2 (Nat.ltb_lt _ _)) by (apply Hb; left; reflexivity).
    destruct (IH (fun i => if Nat.eqb i (colIdx n k j) then Some (F k j) else s i)) as (s' & E & H1 & H2);
      [intros; apply Hb; right; assumption|assumption|].
    exists s'. split; [exact E|]. split.
    + intros j' [<-|Hin]; [|apply H1; assumption].
      destruct (in_dec Nat.eq_dec j js) as [Hi|Hi]; [apply H1; assumption|].
      rewrite H2; [now rewrite Nat.eqb_refl|]. intros j' Hj' Eq. apply Hi.
      destruct (idx_inj n k j k j' Hk Hk Eq) as [_ ->]. assumption.
    + intros c Hc. rewrite H2 by (intros; apply Hc; right; assumption).
      destruct (Nat.eqb_spec c (colIdx n k j)) as [->|]; [|reflexivity].
      exfalso. apply (Hc j); [left; reflexivity|reflexivity].
Qed.

Lemma outer_ok {A} n m alloc (F : nat -> nat -> A) : (forall k j, k < n -> j < m -> colIdx n k j < alloc) ->
  forall ks s, (forall k, In k ks -> k < n) ->
  exists s', outer n m alloc F ks s = Ok s' /\
   (forall k j, In k ks -> j < m -> s' (colIdx n k j) = Some (F k j)) /\
   (forall c, (forall k j, In k ks -> j < m -> c <> colIdx n k j) -> s' c = s c).
Proof.
  intros Hall. induction ks as [|k ks IH]; intros s Hks; cbn [outer].
  - exists s. split; [reflexivity|split; [intros k j []|reflexivity]].
  - assert (Hk : k < n) by (apply Hks; left; reflexivity).
    destruct (inner_ok n alloc k F (seq 0 m) s) as (s1 & E1 & A1 & B1);
      [intros j Hj; apply in_seq in Hj; apply Hall; lia|assumption|].
    rewrite E1. destruct (IH s1) as (s' & E & A2 & B2); [intros; apply Hks; right; assumption|].
    exists s'. split; [exact E|]. split.
    + intros k' j [<-|Hin] Hj; [|apply A2; assumption].
      destruct (in_dec Nat.eq_dec k ks) as [Hi|Hi]; [apply A2; assumption|].
      rewrite B2; [apply A1; apply in_seq; lia|].
      intros k' j' Hk' Hj' Eq. apply Hi.
      destruct (idx_inj n k j k' j' Hk ltac:(apply Hks; right; assumption) Eq) as [-> _]. assumption.
    + intros c Hc. rewrite B2 by (intros; apply Hc; [right|]; assumption).
      apply B1. intros j Hj. apply in_seq in Hj. apply Hc; [left; reflexivity|lia].
Qed.

Lemma batch_pointwise {A} n m (F : nat -> nat -> A) : exists r, eval3D_full n m F = Ok r /\ pointwise n m F r.
Proof.
  destruct (column_bij n m) as (Hin & Hsur & Hinj).
  destruct (outer_ok n m (n * m) F Hin (seq 0 n) empty) as (r & E & H1 & H2).
  { intros k Hk. apply in_seq in Hk. lia. }
  exists r. split; [exact E|]. split.
  - intros k j Hk Hj. apply H1; [apply in_seq; lia|assumption].
  - intro c. split; intro Hc.
    + destruct (Nat.lt_ge_cases c (n * m)) as [|Hge]; [assumption|]. exfalso. apply Hc.
      rewrite H2; [reflexivity|]. intros k j Hk Hj ->. apply in_seq in Hk.
      pose proof (Hin k j ltac:(lia) Hj). lia.
    + destruct (Hsur c Hc) as (k & j & Hk & Hj & <-). rewrite H1 by (try apply in_seq; lia). discriminate.
Qed.

Lemma inner_ub {A} n alloc k (F : nat -> nat -> A) : forall js s,
  (exists j, In j js /\ alloc <= colIdx n k j) -> inner n alloc k F js s = UB.
Proof.
  induction js as [|j js IH]; intros s (j' & Hj & Hb); [destruct Hj|]. cbn [inner]. unfold write.
  destruct (Nat.ltb_spec (colIdx n k j) alloc) as [H|H]; [|reflexivity].
  apply IH. destruct Hj as [->|Hj]; [lia|]. exists j'. split; assumption.
Qed.

Lemma short_ok {A} n m (F : nat -> nat -> A) : n = 0 \/ m <= 1 ->
  exists r, eval3D_short n m F = Ok r /\ pointwise n m F r.
Proof.
  intros H. destruct (batch_pointwise n m F) as (r & E & P). 
  destruct H as [->|H].
  - exists r. split; [exact E|exact P].
  - destruct m as [|[|m]]; [| |lia].
    + destruct (outer_ok n 0 n F ltac:(intros; lia) (seq 0 n) empty) as (r' & E' & H1 & H2).
      { intros k Hk. apply in_seq in Hk. lia. }
      exists r'. split; [exact E'|]. split; [intros; lia|]. intro c. rewrite H2 by (intros; lia).
      unfold empty. rewrite Nat.mul_0_r. split; [congruence|lia].
    + exists r. unfold eval3D_full in E. rewrite Nat.mul_1_r in E. split; [exact E|exact P].
Qed.

Lemma short_ub {A} n m (F : nat -> nat -> A) : n <> 0 -> 1 < m -> eval3D_short n m F = UB.
Proof.
  intros Hn Hm. unfold eval3D_short, batch. destruct n as [|n]; [congruence|]. cbn [seq outer].
  rewrite inner_ub; [reflexivity|]. exists 1. split; [apply in_seq; lia|]. unfold colIdx. lia.
Qed.

Lemma visit_last {G} (metric : nat -> nat -> G) n m g0 : 0 < n -> 0 < m ->
  visit metric m (seq 0 n) g0 = metric (n - 1) (m - 1).
Proof.
  intros Hn Hm.
  assert (I : forall k js j g, visit_inner metric k (js ++ [j]) g = metric k j).
  { intros k js j. induction js as [|a js IH]; intro g; cbn; [reflexivity|apply IH]. }
  assert (O : forall ks k g, visit metric m (ks ++ [k]) g = metric k (m - 1)).
  { intros ks k. induction ks as [|a ks IH]; intro g; cbn; [|apply IH].
    destruct m as [|m]; [lia|]. rewrite seq_S, I. f_equal. lia. }
  destruct n as [|n]; [lia|]. rewrite seq_S, O. f_equal. lia.
Qed.

Lemma two_pass_stale {G V W} (metric : nat -> nat -> G) (S : nat -> nat -> G -> V) (P : G -> V -> W) n m g0 :
  0 < n -> 0 < m ->
  exists r, eval3D_two_pass metric S P n m g0 = Ok r /\
    pointwise n m (fun k j => P (metric (n - 1) (m - 1)) (S k j (metric k j))) r.
Proof. intros Hn Hm. unfold eval3D_two_pass. rewrite visit_last by assumption. apply batch_pointwise. Qed.

Lemma two_pass_single {G V W} (metric : nat -> nat -> G) (S : nat -> nat -> G -> V) (P : G -> V -> W) g0 k j :
  exists r, eval3D_two_pass (fun _ _ => metric k j) (fun _ _ => S k j) P 1 1 g0 = Ok r /\ r 0 = Some (P (metric k j) (S k j (metric k j))).
Proof.
  destruct (two_pass_stale (fun _ _ => metric k j) (fun _ _ => S k j) P 1 1 g0) as (r & E & H & _); [lia|lia|].
  exists r. split; [exact E|]. apply (H 0 0); lia.
Qed.

Lemma refreshed_pointwise {G V W} (metric : nat -> nat -> G) (S : nat -> nat -> G -> V) (P : G -> V -> W) n m g0 :
  exists r, eval3D_refreshed metric S P n m g0 = Ok r /\ pointwise n m (fun k j => P (metric k j) (S k j (metric k j))) r.
Proof. apply batch_pointwise. Qed.

(* batch of two points whose reference bases differ by a factor two, same strain components *)
Definition basis_of (k j : nat) : nat -> vec := fun i c => if Nat.eqb k 0 then delta i c else (/ 2 * delta i c)%R.
Definition strain_of (k j : nat) (_ : nat -> vec) : mat := fun i l => (if (Nat.eqb i 0 && Nat.eqb l 0)%bool then 1 else 0)%R.
Lemma two_pass_refuted :
  exists (metric : nat -> nat -> nat -> vec) (S : nat -> nat -> (nat -> vec) -> mat),
    forall g0, exists r B, eval3D_two_pass metric S (fun g X => Bten X g) 2 1 g0 = Ok r /\ r 0 = Some B /\
    forall vals vecs vals' vecs', eigen_decomposition B vals vecs ->
      eigen_decomposition (Bten (S 0 0 (metric 0 0)) (metric 0 0)) vals' vecs' -> vals 2 <> vals' 2.
Proof.
  exists basis_of, strain_of. intro g0.
  eexists. eexists. split; [reflexivity|]. split; [reflexivity|].
  intros vals vecs vals' vecs' H H'.
  assert (E : vals 2 = (/ 4)%R).
  { apply (eig_rank1 (/4) _ vals vecs) in H; [exact H|lra|].
    intros a b Ha Hb. idx3 a Ha; idx3 b Hb; cbv [Bten strain_of basis_of sum2 delta Nat.eqb andb visit visit_inner seq]; lra. }
  assert (E' : vals' 2 = 1%R).
  { apply (eig_rank1 1 _ vals' vecs') in H'; [exact H'|lra|].
    intros a b Ha Hb. idx3 a Ha; idx3 b Hb; cbv [Bten strain_of basis_of sum2 delta Nat.eqb andb visit visit_inner seq]; lra. }
  rewrite E, E'. lra.
Qed.

Lemma two_pass_uniform {G V W} (metric : nat -> nat -> G) (S : nat -> nat -> G -> V) (P : G -> V -> W) n m g0 :
  (forall k j, k < n -> j < m -> metric k j = metric (n - 1) (m - 1)) ->
  exists r, eval3D_two_pass metric S P n m g0 = Ok r /\ pointwise n m (fun k j => P (metric k j) (S k j (metric k j))) r.
Proof.
  intros H. destruct n as [|n].
  { destruct (batch_pointwise 0 m (fun k j => P g0 (S k j (metric k j)))) as (r & E & _ & H2).
    exists r. split; [exact E|]. split; [intros; lia|exact H2]. }
  destruct m as [|m].
  { destruct (batch_pointwise (Datatypes.S n) 0 (fun k j => P (visit metric 0 (seq 0 (Datatypes.S n)) g0) (S k j (metric k j)))) as (r & E & _ & H2).
    exists r. split; [exact E|]. split; [intros; lia|exact H2]. }
  destruct (two_pass_stale metric S P (Datatypes.S n) (Datatypes.S m) g0) as (r & E & H1 & H2); [lia|lia|].
  exists r. split; [exact E|]. split; [|exact H2].
  intros k j Hk Hj. rewrite (H1 k j Hk Hj), (H k j Hk Hj). reflexivity.
Qed.
