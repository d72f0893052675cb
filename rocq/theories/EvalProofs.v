(* Lemmas about EvalModel *)
From Coq Require Import List Bool Arith Lia.
From Verif Require Import ConfigModel EvalModel EvalSpec.
Import ListNotations.
Open Scope nat_scope.

Section P.
Context {G : Type} (np : G -> nat) (inner : nat -> option nat).
Local Notation reaches := (reaches inner).
Local Notation construct := (construct np inner).
Local Notation run := (run np inner).
Local Notation mats := (mats np).

Definition touched (ms : list (option nat)) (n m : nat) : bool :=
  existsb (fun o => match o with Some w => reaches w m | None => false end) (firstn n ms).
(* what construction registers as undeformed geometry *)
Definition reg0 (c : ctor G) : option G :=
  match c with IntBoth _ g0 _ | IntBothOne _ g0 _ => Some g0 | EvalBoth _ _ g | EvalBothOne _ _ g => Some g | _ => None end.

Lemma pieces_spec (f : nat -> world G -> world G) (fu : option G) (fd : G) :
  (forall w s m, def (f w s) m = if reaches w m then Some fd else def s m) ->
  (forall w s m, und (f w s) m = if reaches w m then match fu with Some u => Some u | None => und s m end else und s m) ->
  forall ms n s s', pieces f ms n s = Val s' -> forall m,
    def s' m = (if touched ms n m then Some fd else def s m) /\
    und s' m = (if touched ms n m then match fu with Some u => Some u | None => und s m end else und s m).
Proof.
  intros Hd Hu ms n. revert ms. induction n as [|n IH]; intros ms s s' E m.
  - cbn in E. injection E as <-. unfold touched. rewrite firstn_O. auto.
  - destruct ms as [|[w|] ms]; try discriminate E. cbn in E. destruct (IH _ _ _ E m) as [A B]. rewrite A, B.
    unfold touched. rewrite firstn_cons. cbn [existsb]. rewrite Hd, Hu.
    destruct (reaches w m); cbn [orb]; destruct (existsb _ (firstn n ms)); destruct fu; auto.
Qed.

Lemma setters_both w (g0 g : G) (s : world G) m : def (int_both inner w g0 g s) m = (if reaches w m then Some g else def s m) /\
  und (int_both inner w g0 g s) m = (if reaches w m then Some g0 else und s m).
Proof. split; reflexivity. Qed.

Lemma both_one m g0 g s s' : construct (IntBothOne m g0 g) s = Val s' ->
  (np g = 0 /\ s' = s) \/ (np g = 1 /\ s' = int_both inner m g0 g s).
Proof.
  cbn. destruct (np g) as [|[|n]]; cbn.
  - intros [= <-]. auto.
  - intros [= <-]. auto.
  - discriminate.
Qed.

Lemma construct_spec c s s' : construct c s = Val s' -> forall m,
  def s' m = (if touched (mats c) (np (given c)) m then Some (given c) else def s m) /\
  und s' m = (if touched (mats c) (np (given c)) m then match reg0 c with Some u => Some u | None => und s m end else und s m).
Proof.
  intros E m. destruct c; cbn [construct mats given reg0] in *;
    try (eapply (pieces_spec _ None); [| |exact E]; intros w s0 k; cbn; destruct (reaches w k); reflexivity);
    try (eapply (pieces_spec _ (Some g0)); [| |exact E]; intros w s0 k; cbn; destruct (reaches w k); reflexivity);
    try (eapply (pieces_spec _ (Some g)); [| |exact E]; intros w s0 k; cbn; destruct (reaches w k); reflexivity).
  destruct (both_one _ _ _ _ _ E) as [[H ->]|[H ->]]; rewrite H; unfold touched; cbn; [auto|]. rewrite orb_false_r.
  destruct (reaches m0 m); auto.
Qed.

Lemma touched_uses c m : touched (mats c) (np (given c)) m = true <-> uses np inner c m.
Proof.
  unfold touched, uses. rewrite existsb_exists. split.
  - intros [[w|] [Hin Hr]]; [|discriminate]. apply In_nth_error in Hin. destruct Hin as [p Hp].
    assert (Hl : p < length (firstn (np (given c)) (mats c))) by (apply nth_error_Some; congruence). rewrite firstn_length in Hl.
    exists p, w. split; [lia|]. split.
    + rewrite <- Hp. symmetry. rewrite <- (firstn_skipn (np (given c)) (mats c)) at 2. rewrite nth_error_app1 by (rewrite firstn_length; lia). reflexivity.
    + unfold EvalModel.reaches in Hr. apply orb_true_iff in Hr. destruct Hr as [Hr|Hr]; [left; apply Nat.eqb_eq; exact Hr|right].
      destruct (inner w); [apply Nat.eqb_eq in Hr; subst; reflexivity|discriminate].
  - intros (p & w & Hp & Hn & Hr). exists (Some w). split.
    + apply (nth_error_In _ p). rewrite <- Hn. rewrite <- (firstn_skipn (np (given c)) (mats c)) at 2. rewrite nth_error_app1; [reflexivity|].
      rewrite firstn_length. assert (p < length (mats c)) by (apply nth_error_Some; congruence). lia.
    + unfold EvalModel.reaches. destruct Hr as [-> | ->]; rewrite Nat.eqb_refl; [reflexivity|apply orb_true_r].
Qed.

Lemma run_app a b : forall s, run (a ++ b) s = rbind (run a s) (fun s' => run b s').
Proof. induction a as [|c a IH]; intros s; cbn; [reflexivity|]. destruct (construct c s); cbn; auto. Qed.

(* constructions that leave the deformed geometry of m alone or register g again *)
Lemma run_keeps_def cs m g : (forall c, In c cs -> uses np inner c m -> given c = g) -> forall s s', run cs s = Val s' -> def s m = Some g -> def s' m = Some g.
Proof.
  induction cs as [|c cs IH]; intros H s s' E D; cbn in E.
  - injection E as <-. exact D.
  - destruct (construct c s) as [s1| | |] eqn:Ec; try discriminate E. apply (IH (fun c' Hc' => H c' (or_intror Hc')) s1 s' E).
    destruct (construct_spec c s s1 Ec m) as [A _]. rewrite A. destruct (touched _ _ m) eqn:Et; [|exact D].
    apply touched_uses in Et. rewrite (H c (or_introl eq_refl) Et). reflexivity.
Qed.
Lemma run_keeps_und cs m u : (forall c, In c cs -> uses np inner c m -> reg0 c = None \/ reg0 c = u) -> forall s s', run cs s = Val s' -> und s m = u -> und s' m = u.
Proof.
  induction cs as [|c cs IH]; intros H s s' E D; cbn in E.
  - injection E as <-. exact D.
  - destruct (construct c s) as [s1| | |] eqn:Ec; try discriminate E. apply (IH (fun c' Hc' => H c' (or_intror Hc')) s1 s' E).
    destruct (construct_spec c s s1 Ec m) as [_ A]. rewrite A. destruct (touched _ _ m) eqn:Et; [|exact D].
    apply touched_uses in Et. destruct (H c (or_introl eq_refl) Et) as [R|R]; rewrite R; [exact D|]. destruct u; [reflexivity|exact D].
Qed.

Lemma own_uses c p m : p < np (given c) -> nth_error (mats c) p = Some (Some m) -> uses np inner c m.
Proof. intros Hp Hn. exists p, m. auto. Qed.
End P.
