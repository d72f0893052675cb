(* Lemmas about the root finders, the angle selection, the dispatch loops and the explicit mode. *)
From Coq Require Import Reals Lra Lia List Bool Arith Psatz.
From Coquelicot Require Import Coquelicot.
From Verif Require Import Tensor BatchModel BatchSpec BatchProofs TFTModel TFTSpec.
Import ListNotations.
Open Scope R_scope.

(* ---------------- bisection ---------------- *)
Lemma bisect_x : forall f A B t n, snd (bisect f A B t n) = (B - A) / 2.
Proof. intros. unfold bisect. destruct (bisect_loop f t ((B - A) / 2) n A B). reflexivity. Qed.

Lemma bl_left : forall f t c a n, f c <> 0 -> f c * f a < 0 -> bisect_loop f t c n a c = (a, c).
Proof.
  intros f t c a n H1 H2. induction n as [|n IH]; [reflexivity|]. cbn.
  destruct (Rlt_dec t (Rabs (c - a))); [|reflexivity].
  destruct (Req_EM_T (f c) 0); [contradiction|]. destruct (Rlt_dec (f c * f a) 0); [exact IH|contradiction].
Qed.
Lemma bl_right : forall f t c b n, f c <> 0 -> bisect_loop f t c n c b = (c, b).
Proof.
  intros f t c b n H1. induction n as [|n IH]; [reflexivity|]. cbn.
  destruct (Rlt_dec t (Rabs (b - c))); [|reflexivity].
  destruct (Req_EM_T (f c) 0); [contradiction|].
  destruct (Rlt_dec (f c * f c) 0) as [L|L]; [|exact IH]. generalize (Rle_0_sqr (f c)). unfold Rsqr. lra.
Qed.

(* the reported success, in closed form: no iteration after the first changes anything *)
Lemma bisect_flag : forall f A B t n, t < Rabs (B - A) ->
  let c := (B - A) / 2 in
  fst (bisect f A B t (S n)) = true <->
    (f c <> 0 /\ f c * f A < 0 /\ Rabs (c - A) < t) \/ (f c <> 0 /\ 0 <= f c * f A /\ Rabs (B - c) < t).
Proof.
  intros f A B t n W c. unfold bisect. fold c. cbn [bisect_loop].
  destruct (Rlt_dec t (Rabs (B - A))) as [_|K]; [|contradiction].
  destruct (Req_EM_T (f c) 0) as [Z|Z].
  - destruct (Rlt_dec (Rabs (B - A)) t); cbn; split; intro Q; try discriminate; try lra; destruct Q as [Q|Q]; destruct Q; contradiction.
  - destruct (Rlt_dec (f c * f A) 0) as [L|L].
    + rewrite bl_left by assumption. destruct (Rlt_dec (Rabs (c - A)) t); cbn; split; intro Q; try discriminate; auto.
      destruct Q as [Q|Q]; [|lra]. destruct Q as (_ & _ & Q). contradiction.
    + rewrite bl_right by assumption. destruct (Rlt_dec (Rabs (B - c)) t); cbn; split; intro Q; try discriminate; auto.
      * right. repeat split; try assumption. lra.
      * destruct Q as [Q|Q]; [lra|]. destruct Q as (_ & _ & Q). contradiction.
Qed.
Lemma bisect_flag0 : forall f A B t, t < Rabs (B - A) -> fst (bisect f A B t 0) = false.
Proof. intros. unfold bisect. cbn. destruct (Rlt_dec (Rabs (B - A)) t); [lra|reflexivity]. Qed.
Lemma bisect_budget : forall f A B t n m, t < Rabs (B - A) -> bisect f A B t (S n) = bisect f A B t (S m).
Proof.
  intros f A B t n m W. generalize (bisect_flag f A B t n W) (bisect_flag f A B t m W). cbv zeta. intros F1 F2.
  rewrite (surjective_pairing (bisect f A B t (S n))), (surjective_pairing (bisect f A B t (S m))), !bisect_x. f_equal.
  apply eq_true_iff_eq. rewrite F1, F2. tauto.
Qed.

(* ---------------- Brent ---------------- *)
Ltac bcase := repeat match goal with
  | |- context [if Rlt_dec ?a ?b then _ else _] => destruct (Rlt_dec a b)
  | |- context [if Rle_dec ?a ?b then _ else _] => destruct (Rle_dec a b)
  | |- context [if Req_EM_T ?a ?b then _ else _] => destruct (Req_EM_T a b)
  end; cbn [andb orb].

Definition opposite (u v : R) : Prop := (0 < u /\ v <= 0) \/ (u <= 0 /\ 0 < v).

Section Claims.
  (* [claim x v]: v is an admissible value recorded for the point x *)
  Variables (f : R -> R) (claim : R -> R -> Prop).
  Hypothesis claim_f : forall x, claim x (f x).
  Definition binv (s : bst) : Prop := claim (sb s) (fb s) /\ claim (sc s) (fc s) /\ opposite (fb s) (fc s).

  Lemma swap_inv : forall s, binv s -> binv (brent_swap s).
  Proof.
    intros s (H1 & H2 & H3). unfold brent_swap. destruct (Rlt_dec (Rabs (fc s)) (Rabs (fb s))); [|repeat split; assumption].
    repeat split; cbn; try assumption. destruct H3; [right|left]; lra.
  Qed.
  Lemma move_inv : forall tol m ed s, binv s -> binv (brent_move f tol m ed s).
  Proof.
    intros tol m ed s (H1 & H2 & H3). unfold brent_move.
    set (sb' := if Rlt_dec tol (Rabs (snd ed)) then _ else _). clearbody sb'. cbv zeta.
    assert (CF := claim_f sb').
    bcase; (repeat split; cbn; [exact CF|assumption|]); destruct H3; unfold opposite; lra.
  Qed.
  Lemma loop_sound : forall eps t n s x, binv s -> brent_loop f eps t n s = Root x ->
    exists v, claim x v /\
      (v = 0 \/ exists c w, claim c w /\ opposite v w /\ Rabs (c - x) <= 2 * (2 * eps * Rabs x + t)).
  Proof.
    intros eps t n. induction n as [|n IH]; intros s x HI; cbn [brent_loop]; [discriminate|].
    assert (HS := swap_inv s HI). set (s1 := brent_swap s) in *. clearbody s1. destruct HS as (H1 & H2 & H3).
    destruct (Rle_dec (Rabs (brent_m s1)) (brent_tol eps t s1)) as [L|L]; cbn [orb].
    - intro E. injection E as <-. exists (fb s1). split; [exact H1|]. right. exists (sc s1), (fc s1).
      repeat split; try assumption. unfold brent_m, brent_tol in L. rewrite Rabs_mult in L.
      rewrite (Rabs_pos_eq (/ 2)) in L by lra. lra.
    - destruct (Req_EM_T (fb s1) 0) as [Z|Z].
      + intro E. injection E as <-. exists (fb s1). split; [exact H1|left; exact Z].
      + apply IH. apply move_inv. repeat split; assumption.
  Qed.
End Claims.

Lemma ivt_between : forall f x y, continuity f -> opposite (f x) (f y) -> exists r, f r = 0 /\ Rabs (x - r) <= Rabs (y - x).
Proof.
  intros f x y CO OP. assert (P : f x * f y <= 0).
  { destruct OP; destruct H; nra. }
  destruct (Rle_dec x y) as [L|L].
  - destruct (IVT_cor f x y CO L P) as (r & Hr & Z). exists r. split; [exact Z|].
    rewrite (Rabs_pos_eq (y - x)) by lra. apply Rabs_le. lra.
  - destruct (IVT_cor f y x CO ltac:(lra) ltac:(lra)) as (r & Hr & Z). exists r. split; [exact Z|].
    rewrite (Rabs_left1 (y - x)) by lra. apply Rabs_le. lra.
Qed.

Lemma brent_sound : forall f eps a b t n x, 0 <= eps -> 0 <= t -> continuity f -> f a < 0 -> 0 < f b ->
  brent f eps a b t n = Root x -> near_root f x (2 * (2 * eps * Rabs x + t)).
Proof.
  intros f eps a b t n x He Ht CO HA HB. unfold brent, brent_init.
  destruct (Rle_dec 0 (f a * f b)) as [K|K]; [discriminate|]. cbv zeta.
  destruct (Rlt_dec (f b) (f a)) as [L|L]; [lra|]. intro E.
  assert (I0 : binv (fun y v => v = f y) (BS a b a (f a) (f b) (f a) (b - a) (b - a))).
  { split; [reflexivity|]. split; [reflexivity|]. left. cbn. lra. }
  destruct (loop_sound f (fun y v => v = f y) (fun y => eq_refl) eps t n _ x I0 E) as (v & Hv & [Z|(c & w & Hw & OP & D)]).
  - exists x. split; [congruence|]. rewrite Rminus_eq_0, Rabs_R0.
    assert (0 <= 2 * eps * Rabs x) by (apply Rmult_le_pos; [lra|apply Rabs_pos]). lra.
  - subst v w. destruct (ivt_between f x c CO OP) as (r & Z & W). exists r. split; [exact Z|]. lra.
Qed.

(* without the orientation: near a root or near an end of the interval *)
Lemma brent_weak : forall f eps a b t n x, 0 <= eps -> 0 <= t -> continuity f ->
  brent f eps a b t n = Root x ->
  let d := 2 * (2 * eps * Rabs x + t) in
  near_root f x d \/ Rabs (x - a) <= d \/ Rabs (x - b) <= d.
Proof.
  intros f eps a b t n x He Ht CO. unfold brent, brent_init.
  destruct (Rle_dec 0 (f a * f b)) as [K|K]; [discriminate|]. cbv zeta. intro E.
  set (d := 2 * (2 * eps * Rabs x + t)).
  assert (D0 : 0 <= d).
  { unfold d. assert (0 <= 2 * eps * Rabs x) by (apply Rmult_le_pos; [lra|apply Rabs_pos]). lra. }
  set (claim := fun y v => v = f y \/ y = a \/ y = b).
  assert (CF : forall y, claim y (f y)) by (intro; left; reflexivity).
  assert (SG : (f a < 0 /\ 0 < f b) \/ (0 < f a /\ f b < 0)).
  { destruct (Rtotal_order (f a) 0) as [X|[X|X]]; [left| |right]; nra. }
  match type of E with brent_loop _ _ _ _ ?s0 = _ => assert (I0 : binv claim s0) end.
  { destruct (Rlt_dec (f b) (f a)) as [L|L]; (split; [right; tauto|]; split; [right; tauto|]; left; cbn; lra). }
  destruct (loop_sound f claim CF eps t n _ x I0 E) as (v & Hv & HR).
  (destruct Hv as [Hv|[Hv|Hv]];
    [|right; left; rewrite Hv, Rminus_eq_0, Rabs_R0; exact D0|right; right; rewrite Hv, Rminus_eq_0, Rabs_R0; exact D0]);
  (destruct HR as [Z|(c & w & Hw & OP & DD)];
    [left; exists x; split; [congruence|rewrite Rminus_eq_0, Rabs_R0; exact D0]|]);
  fold d in DD;
  (destruct Hw as [Hw|[Hw|Hw]];
    [subst v w; left; destruct (ivt_between f x c CO OP) as (r & Z & W); exists r; split; [exact Z|lra]
    |right; left; rewrite <- Hw, Rabs_minus_sym; exact DD|right; right; rewrite <- Hw, Rabs_minus_sym; exact DD]).
Qed.

(* the new iterate lies strictly between the two ends of the current bracket *)
Definition between (x u v : R) : Prop := (u < x < v) \/ (v < x < u).
Lemma ed_bound : forall tol m s, 0 <= tol -> tol < Rabs m ->
  let d := snd (brent_ed tol m s) in Rabs d <= tol \/ (0 < d < 2 * m) \/ (2 * m < d < 0).
Proof.
  intros tol m s Ht Hm. unfold brent_ed.
  assert (M : 0 < m \/ m < 0). { destruct (Rtotal_order m 0) as [A|[A|A]]; [tauto| |tauto]. rewrite A, Rabs_R0 in Hm. lra. }
  assert (Mid : Rabs m <= tol \/ (0 < m < 2 * m) \/ (2 * m < m < 0)) by lra.
  match goal with |- context [if ?b1 || ?b2 then _ else _] => destruct (b1 || b2) end; [exact Mid|]. cbv zeta.
  match goal with |- context [let '(_,_) := ?X in _] => destruct X as [p0 q0] end.
  match goal with |- context [let '(_,_) := ?X in _] => assert (P : 0 <= fst X); [|destruct X as [p q]] end.
  { destruct (Rlt_dec 0 p0); cbn; lra. }
  cbn in P.
  destruct (Rlt_dec (2 * p) (3 * m * q - Rabs (tol * q))) as [A|A]; cbn [andb]; [|exact Mid].
  destruct (Rlt_dec p (Rabs (/ 2 * be s * q))) as [B|B]; [|exact Mid]. cbn [snd].
  assert (T : 0 <= Rabs (tol * q)) by apply Rabs_pos.
  assert (MQ : 0 < m * q) by lra.
  destruct (Req_dec p 0) as [P0|P0].
  - left. rewrite P0. unfold Rdiv. rewrite Rmult_0_l, Rabs_R0. exact Ht.
  - right. destruct M as [M|M].
    + left. assert (Q : 0 < q) by nra. split; [apply Rdiv_lt_0_compat; lra|].
      apply (Rmult_lt_reg_r q); [exact Q|]. unfold Rdiv. rewrite Rmult_assoc, Rinv_l, Rmult_1_r by lra. nra.
    + right. assert (Q : q < 0) by nra.
      assert (E : p / q = - (p / (- q))) by (field; lra). rewrite E.
      assert (0 < p / (- q)) by (apply Rdiv_lt_0_compat; lra).
      split; [|lra]. assert (p / (- q) < - (2 * m)); [|lra].
      apply (Rmult_lt_reg_r (- q)); [lra|]. unfold Rdiv. rewrite Rmult_assoc, Rinv_l, Rmult_1_r by lra. nra.
Qed.

Definition next_b (tol m d b : R) : R := if Rlt_dec tol (Rabs d) then b + d else if Rlt_dec 0 m then b + tol else b - tol.
Lemma next_between : forall tol s, 0 < tol -> tol < Rabs (brent_m s) ->
  between (next_b tol (brent_m s) (snd (brent_ed tol (brent_m s) s)) (sb s)) (sb s) (sc s).
Proof.
  intros tol s Ht Hm. generalize (ed_bound tol (brent_m s) s ltac:(lra) Hm). cbv zeta.
  generalize (snd (brent_ed tol (brent_m s) s)). intros d Hd.
  assert (C : sc s = sb s + 2 * brent_m s) by (unfold brent_m; field). rewrite C.
  set (m := brent_m s) in *. clearbody m. unfold next_b, between.
  destruct (Rlt_dec tol (Rabs d)) as [L|L].
  - destruct Hd as [Hd|[Hd|Hd]]; [lra|left; lra|right; lra].
  - destruct (Rlt_dec 0 m) as [M|M].
    + rewrite Rabs_pos_eq in Hm by lra. left. lra.
    + rewrite Rabs_left1 in Hm by lra. right. lra.
Qed.

(* decreasing bracket *)
Section Decreasing.
  Variables (f : R -> R) (a b r eps t : R).
  Hypothesis Hab : a < r < b.
  Hypothesis Hpos : forall x, a <= x < r -> 0 < f x.
  Hypothesis Hneg : forall x, r < x <= b -> f x < 0.
  Hypothesis Hr : f r = 0.
  Hypothesis Heps : 0 <= eps.
  Hypothesis Htol : 0 < t.

  (* bracket {x, e} with e an end of the interval and x on its side of the root *)
  Definition stL (s : bst) : Prop :=
    (a < sb s < r /\ 0 < fb s /\ sc s = a /\ fc s < 0) \/ (a < sc s < r /\ 0 < fc s /\ sb s = a /\ fb s < 0).
  Definition stR (s : bst) : Prop :=
    (r < sb s < b /\ fb s < 0 /\ sc s = b /\ 0 < fc s) \/ (r < sc s < b /\ fc s < 0 /\ sb s = b /\ 0 < fb s).
  Definition st0 (s : bst) : Prop :=
    (sb s = b /\ 0 < fb s /\ sc s = a /\ fc s < 0) \/ (sb s = a /\ fb s < 0 /\ sc s = b /\ 0 < fc s).
  Definition stZ (s : bst) : Prop := sb s = r /\ fb s = 0.
  Definition dinv (s : bst) : Prop := st0 s \/ stL s \/ stR s \/ stZ s.

  Lemma dswap : forall s, dinv s -> dinv (brent_swap s).
  Proof.
    intros s H. unfold brent_swap. destruct (Rlt_dec (Rabs (fc s)) (Rabs (fb s))) as [L|L]; [|exact H].
    destruct H as [H|[H|[H|H]]].
    - left. unfold st0 in *. cbn. tauto.
    - right; left. unfold stL in *. cbn. tauto.
    - right; right; left. unfold stR in *. cbn. tauto.
    - destruct H as [_ Z]. rewrite Z, Rabs_R0 in L. generalize (Rabs_pos (fc s)). lra.
  Qed.

  Lemma dmove : forall tol s, 0 < tol -> tol < Rabs (brent_m s) -> fb s <> 0 -> dinv s ->
    dinv (brent_move f tol (brent_m s) (brent_ed tol (brent_m s) s) s).
  Proof.
    intros tol s Ht Hm NZ H. generalize (next_between tol s Ht Hm). unfold brent_move.
    fold (next_b tol (brent_m s) (snd (brent_ed tol (brent_m s) s)) (sb s)).
    set (x := next_b tol (brent_m s) (snd (brent_ed tol (brent_m s) s)) (sb s)). clearbody x. cbv zeta. intro B.
    destruct H as [H|[H|[H|H]]]; [| | |destruct H; contradiction].
    - (* first step *)
      assert (X : a < x < b). { destruct H as [H|H]; destruct H as (E1 & _ & E2 & _); rewrite E1, E2 in B; destruct B; lra. }
      destruct (Rtotal_order x r) as [C|[C|C]].
      + assert (F := Hpos x ltac:(lra)). right; left. unfold stL.
        destruct H as [H|H]; destruct H as (E1 & V1 & E2 & V2); bcase; cbn; try lra; left; repeat split; lra.
      + subst x. right; right; right. unfold stZ. rewrite Hr. bcase; cbn; auto.
      + assert (F := Hneg x ltac:(lra)). right; right; left. unfold stR.
        destruct H as [H|H]; destruct H as (E1 & V1 & E2 & V2); bcase; cbn; try lra; left; repeat split; lra.
    - assert (X : a < x < r). { destruct H as [H|H]; destruct B; lra. }
      assert (F := Hpos x ltac:(lra)). right; left. unfold stL.
      destruct H as [H|H]; destruct H as (E1 & V1 & E2 & V2); bcase; cbn; try lra; left; repeat split; lra.
    - assert (X : r < x < b). { destruct H as [H|H]; destruct B; lra. }
      assert (F := Hneg x ltac:(lra)). right; right; left. unfold stR.
      destruct H as [H|H]; destruct H as (E1 & V1 & E2 & V2); bcase; cbn; try lra; left; repeat split; lra.
  Qed.

  Lemma dloop : forall n s x, dinv s -> brent_loop f eps t n s = Root x ->
    let d := 2 * (2 * eps * Rabs x + t) in x = r \/ Rabs (x - a) <= d \/ Rabs (x - b) <= d.
  Proof.
    induction n as [|n IH]; intros s x HI; cbn [brent_loop]; [discriminate|].
    assert (HS := dswap s HI). set (s1 := brent_swap s) in *. clearbody s1.
    assert (TP : 0 < brent_tol eps t s1).
    { unfold brent_tol. assert (0 <= 2 * eps * Rabs (sb s1)) by (apply Rmult_le_pos; [lra|apply Rabs_pos]). lra. }
    destruct (Rle_dec (Rabs (brent_m s1)) (brent_tol eps t s1)) as [L|L]; cbn [orb].
    - intro E. injection E as <-. cbv zeta.
      assert (W : Rabs (sc s1 - sb s1) <= 2 * (2 * eps * Rabs (sb s1) + t)).
      { unfold brent_m, brent_tol in L. rewrite Rabs_mult, (Rabs_pos_eq (/ 2)) in L by lra. lra. }
      assert (D0 : 0 <= 2 * (2 * eps * Rabs (sb s1) + t)) by (unfold brent_tol in TP; lra).
      destruct HS as [H|[H|[H|H]]]; [destruct H as [H|H]|destruct H as [H|H]|destruct H as [H|H]|].
      + right; right. destruct H as (E & _). rewrite E, Rminus_eq_0, Rabs_R0. rewrite E in D0. exact D0.
      + right; left. destruct H as (E & _). rewrite E, Rminus_eq_0, Rabs_R0. rewrite E in D0. exact D0.
      + right; left. destruct H as (_ & _ & E & _). rewrite E in W. rewrite Rabs_minus_sym. exact W.
      + right; left. destruct H as (_ & _ & E & _). rewrite E, Rminus_eq_0, Rabs_R0. rewrite E in D0. exact D0.
      + right; right. destruct H as (_ & _ & E & _). rewrite E in W. rewrite Rabs_minus_sym. exact W.
      + right; right. destruct H as (_ & _ & E & _). rewrite E, Rminus_eq_0, Rabs_R0. rewrite E in D0. exact D0.
      + left. apply H.
    - destruct (Req_EM_T (fb s1) 0) as [Z|Z].
      + intro E. injection E as <-. left.
        destruct HS as [H|[H|[H|H]]]; [destruct H as [H|H]|destruct H as [H|H]|destruct H as [H|H]|apply H]; lra.
      + apply IH. apply dmove; try assumption. lra.
  Qed.

  Lemma brent_decreasing_end : forall n x, brent f eps a b t n = Root x ->
    let d := 2 * (2 * eps * Rabs x + t) in x = r \/ Rabs (x - a) <= d \/ Rabs (x - b) <= d.
  Proof.
    intros n x. unfold brent, brent_init. assert (FA := Hpos a ltac:(lra)). assert (FB := Hneg b ltac:(lra)).
    destruct (Rle_dec 0 (f a * f b)) as [K|K]; [nra|]. cbv zeta.
    destruct (Rlt_dec (f b) (f a)) as [L|L]; [|lra]. intro E.
    refine (dloop n _ x _ E). left. unfold st0. cbn. left. lra.
  Qed.
End Decreasing.

(* ---------------- selection of the angle ---------------- *)
Lemma find_none : forall (p : R -> bool) l, find p l = None -> forall x, In x l -> p x = false.
Proof. intros p l H x Hx. exact (find_none p l H x Hx). Qed.

Lemma eval_theta_accepts : forall f check eps itmax newton lo hi th0 th,
  eval_theta f check eps itmax newton lo hi th0 = Ok th ->
  check th = true \/
  (th = 0 /\ exists roots, search_all f eps itmax newton (sign_changes f) = Ok roots /\
     forall x, In x (candidates f roots) -> check x = false).
Proof.
  intros f check eps itmax newton lo hi th0 th. unfold eval_theta.
  match goal with |- context [match ?X with Ok _ => _ | Throw => _ | UB => _ end] => destruct X as [x0| |] end; try discriminate.
  destruct (check x0) eqn:CH; cbn [negb orb].
  - match goal with |- context [if ?b1 && ?b2 then _ else _] => destruct (b1 && b2) end.
    + destruct (search_all f eps itmax newton (sign_changes f)) as [roots| |] eqn:SA; try discriminate.
      destruct (find check (candidates f roots)) as [y|] eqn:FI; intro E; injection E as <-.
      * left. apply (find_some _ _ FI).
      * right. split; [reflexivity|]. exists roots. split; [reflexivity|apply find_none; exact FI].
    + intro E. injection E as <-. left. exact CH.
  - destruct (search_all f eps itmax newton (sign_changes f)) as [roots| |] eqn:SA; try discriminate.
    destruct (find check (candidates f roots)) as [y|] eqn:FI; intro E; injection E as <-.
    + left. apply (find_some _ _ FI).
    + right. split; [reflexivity|]. exists roots. split; [reflexivity|apply find_none; exact FI].
Qed.

(* in the second search the fallbacks are never reached *)
Lemma search_second : forall f eps itmax newton i x, f (grid i) * f (grid (S i)) < 0 ->
  search f eps itmax newton (grid i) (grid (S i)) = Ok x -> brent f eps (grid i) (grid (S i)) (/ 10 ^ 18) itmax = Root x.
Proof.
  intros f eps itmax newton i x NEG. unfold search.
  destruct (brent f eps (grid i) (grid (S i)) (/ 10 ^ 18) itmax) eqn:B.
  - intro E. injection E as <-. reflexivity.
  - revert B. unfold brent. destruct (Rle_dec 0 (f (grid i) * f (grid (S i)))); [lra|].
    intro B. exfalso. revert B. generalize (brent_init f (grid i) (grid (S i))) itmax. intros s0 nn. revert s0.
    induction nn as [|nn IH]; intro s0; cbn [brent_loop]; [discriminate|].
    match goal with |- context [if ?b1 || ?b2 then _ else _] => destruct (b1 || b2) end; [discriminate|apply IH].
  - discriminate.
Qed.

(* ---------------- dispatch ---------------- *)
Lemma dispatch_cases : forall A tf (v s : A) w r, dispatch tf v s w = Ok r ->
  (tf = 1 /\ r = v) \/ (tf = -1 /\ r = s) \/ (tf = 0 /\ w = Ok r).
Proof.
  intros A tf v s w r. unfold dispatch.
  destruct (Req_EM_T tf 1); [intro E; injection E as <-; auto|].
  destruct (Req_EM_T tf (-1)); [intro E; injection E as <-; auto|].
  destruct (Req_EM_T tf 0); [intro E; auto|discriminate].
Qed.
Lemma dispatch_taut : forall A (v s : A) w, dispatch 1 v s w = Ok v.
Proof. intros. unfold dispatch. destruct (Req_EM_T 1 1); [reflexivity|lra]. Qed.
Lemma dispatch_slack : forall A (v s : A) w, dispatch (-1) v s w = Ok s.
Proof. intros. unfold dispatch. destruct (Req_EM_T (-1) 1); [lra|]. destruct (Req_EM_T (-1) (-1)); [reflexivity|lra]. Qed.
Lemma dispatch_wrinkled : forall A (v s : A) w, dispatch 0 v s w = w.
Proof. intros. unfold dispatch. destruct (Req_EM_T 0 1); [lra|]. destruct (Req_EM_T 0 (-1)); [lra|]. destruct (Req_EM_T 0 0); [reflexivity|lra]. Qed.
Lemma dispatch_other : forall A tf (v s : A) w, tf <> 1 -> tf <> -1 -> tf <> 0 -> dispatch tf v s w = Throw.
Proof. intros. unfold dispatch. destruct (Req_EM_T tf 1); [lra|]. destruct (Req_EM_T tf (-1)); [lra|]. destruct (Req_EM_T tf 0); [lra|reflexivity]. Qed.

Section Loop.
  Context {A : Type}.
  Variables (n m : nat) (G : nat -> nat -> A -> outcome A).
  Open Scope nat_scope.

  Lemma colIdx_inj : forall k j k' j', k < n -> k' < n -> colIdx n k j = colIdx n k' j' -> k = k' /\ j = j'.
  Proof.
    unfold colIdx. intros k j k' j' H1 H2 E.
    assert (J : j = j').
    { destruct (Nat.lt_trichotomy j j') as [L|[L|L]]; [|exact L|]; exfalso; nia. }
    subst j'. split; lia.
  Qed.

  Lemma tft_inner_ok : forall k, k < n -> forall js s r, NoDup js -> tft_inner n k G js s = Ok r ->
    (forall j, In j js -> G k j (s (colIdx n k j)) = Ok (r (colIdx n k j))) /\
    (forall c, (forall j, In j js -> c <> colIdx n k j) -> r c = s c).
  Proof.
    intros k Hk. induction js as [|j js IH]; intros s r ND E; cbn in E.
    - injection E as <-. split; [intros j []|reflexivity].
    - destruct (G k j (s (colIdx n k j))) as [v| |] eqn:GV; try discriminate.
      inversion ND as [|x l NI ND']; subst.
      destruct (IH _ _ ND' E) as (I1 & I2). split.
      + intros j' [<-|Hj'].
        * rewrite GV. f_equal. rewrite I2; [rewrite Nat.eqb_refl; reflexivity|].
          intros j' Hj' C. destruct (colIdx_inj _ _ _ _ Hk Hk C). subst. contradiction.
        * rewrite <- (I1 j' Hj'). f_equal.
          destruct (Nat.eqb_spec (colIdx n k j') (colIdx n k j)) as [C|C]; [|reflexivity].
          destruct (colIdx_inj _ _ _ _ Hk Hk C). subst. contradiction.
      + intros c Hc. rewrite I2 by (intros; apply Hc; right; assumption).
        destruct (Nat.eqb_spec c (colIdx n k j)) as [C|C]; [|reflexivity]. exfalso. apply (Hc j (or_introl eq_refl) C).
  Qed.

  Lemma tft_outer_ok : forall ks s r, NoDup ks -> (forall k, In k ks -> k < n) -> tft_outer n m G ks s = Ok r ->
    (forall k j, In k ks -> j < m -> G k j (s (colIdx n k j)) = Ok (r (colIdx n k j))) /\
    (forall c, (forall k j, In k ks -> j < m -> c <> colIdx n k j) -> r c = s c).
  Proof.
    induction ks as [|k ks IH]; intros s r ND HK E; cbn in E.
    - injection E as <-. split; [intros k j []|reflexivity].
    - destruct (tft_inner n k G (seq 0 m) s) as [s'| |] eqn:TI; try discriminate.
      inversion ND as [|x l NI ND']; subst.
      assert (Hk : k < n) by (apply HK; left; reflexivity).
      destruct (tft_inner_ok k Hk _ _ _ (seq_NoDup m 0) TI) as (I1 & I2).
      destruct (IH _ _ ND' (fun k' H' => HK k' (or_intror H')) E) as (O1 & O2). split.
      + intros k' j [<-|Hk'] Hj.
        * rewrite (I1 j) by (apply in_seq; lia). f_equal. symmetry. apply O2.
          intros k' j' Hk' Hj' C. destruct (colIdx_inj _ _ _ _ Hk (HK k' (or_intror Hk')) C). subst. contradiction.
        * rewrite <- (O1 k' j Hk' Hj). f_equal. symmetry. apply I2.
          intros j' Hj' C. destruct (colIdx_inj _ _ _ _ (HK k' (or_intror Hk')) Hk C). subst. contradiction.
      + intros c Hc. rewrite O2 by (intros; apply Hc; [right; assumption|assumption]).
        apply I2. intros j Hj. apply Hc; [left; reflexivity|]. apply in_seq in Hj. lia.
  Qed.

  Lemma tft_loop_pointwise : forall s r, tft_loop n m G s = Ok r ->
    forall k j, k < n -> j < m -> G k j (s (colIdx n k j)) = Ok (r (colIdx n k j)).
  Proof.
    intros s r E k j Hk Hj.
    destruct (tft_outer_ok (seq 0 n) s r (seq_NoDup n 0) ltac:(intros x Hx; apply in_seq in Hx; lia) E) as (O1 & _).
    apply O1; [apply in_seq; lia|exact Hj].
  Qed.

  (* if every column has a value, so has the loop *)
  Lemma tft_inner_total : forall k, k < n -> forall js s, NoDup js ->
    (forall j, In j js -> exists v, G k j (s (colIdx n k j)) = Ok v) -> exists r, tft_inner n k G js s = Ok r.
  Proof.
    intros k Hk. induction js as [|j js IH]; intros s ND H; cbn.
    - eexists; reflexivity.
    - destruct (H j (or_introl eq_refl)) as [v Hv]. rewrite Hv. inversion ND as [|x l NI ND']; subst.
      apply IH; [exact ND'|]. intros j' Hj'. destruct (H j' (or_intror Hj')) as [v' Hv']. exists v'.
      destruct (Nat.eqb_spec (colIdx n k j') (colIdx n k j)) as [C|C]; [|exact Hv'].
      destruct (colIdx_inj _ _ _ _ Hk Hk C). subst. contradiction.
  Qed.
  Lemma tft_outer_total : forall ks s, NoDup ks -> (forall k, In k ks -> k < n) ->
    (forall k j, In k ks -> j < m -> exists v, G k j (s (colIdx n k j)) = Ok v) -> exists r, tft_outer n m G ks s = Ok r.
  Proof.
    induction ks as [|k ks IH]; intros s ND HK H; cbn.
    - eexists; reflexivity.
    - assert (Hk : k < n) by (apply HK; left; reflexivity).
      destruct (tft_inner_total k Hk (seq 0 m) s (seq_NoDup m 0)) as [s' Hs'].
      { intros j Hj. apply in_seq in Hj. apply H; [left; reflexivity|lia]. }
      rewrite Hs'. inversion ND as [|x l NI ND']; subst.
      apply IH; [exact ND'|intros; apply HK; right; assumption|].
      intros k' j Hk' Hj. destruct (H k' j (or_intror Hk') Hj) as [v Hv]. exists v. rewrite <- Hv. f_equal.
      destruct (tft_inner_ok k Hk _ _ _ (seq_NoDup m 0) Hs') as (_ & I2). apply I2.
      intros j' Hj' C. destruct (colIdx_inj _ _ _ _ (HK k' (or_intror Hk')) Hk C). subst. contradiction.
  Qed.
  Lemma tft_loop_total : forall s, (forall k j, k < n -> j < m -> exists v, G k j (s (colIdx n k j)) = Ok v) ->
    exists r, tft_loop n m G s = Ok r.
  Proof.
    intros s H. apply tft_outer_total; [apply seq_NoDup| |].
    - intros k Hk. apply in_seq in Hk. lia.
    - intros k j Hk Hj. apply in_seq in Hk. apply H; lia.
  Qed.
  (* otherwise the first failing column, in the order of the loops, decides how the loop fails *)
  Definition same_failure {X Y} (a : outcome X) (b : outcome Y) : Prop := match a, b with Throw, Throw => True | UB, UB => True | _, _ => False end.
  Lemma tft_inner_fail : forall k, k < n -> forall js1 j js2 s, NoDup (js1 ++ j :: js2) ->
    (forall j', In j' js1 -> exists v, G k j' (s (colIdx n k j')) = Ok v) -> (forall v, G k j (s (colIdx n k j)) <> Ok v) ->
    same_failure (G k j (s (colIdx n k j))) (tft_inner n k G (js1 ++ j :: js2) s).
  Proof.
    intros k Hk. induction js1 as [|j1 js1 IH]; intros j js2 s ND H F; cbn.
    - destruct (G k j (s (colIdx n k j))) as [v| |]; [exfalso; apply (F v); reflexivity|exact I|exact I].
    - destruct (H j1 (or_introl eq_refl)) as [v Hv]. rewrite Hv. inversion ND as [|x l NI ND']; subst.
      assert (E : forall j', In j' (js1 ++ j :: js2) -> (fun i => if Nat.eqb i (colIdx n k j1) then v else s i) (colIdx n k j') = s (colIdx n k j')).
      { intros j' Hj'. destruct (Nat.eqb_spec (colIdx n k j') (colIdx n k j1)) as [C|C]; [|reflexivity].
        destruct (colIdx_inj _ _ _ _ Hk Hk C). subst. contradiction. }
      assert (Ej := E j ltac:(apply in_or_app; right; left; reflexivity)). cbv beta in Ej.
      assert (R := IH j js2 (fun i => if Nat.eqb i (colIdx n k j1) then v else s i) ND'). cbv beta in R. rewrite Ej in R. apply R; [|exact F].
      intros j' Hj'. assert (E' := E j' ltac:(apply in_or_app; left; exact Hj')). cbv beta in E'. rewrite E'. apply H. right. exact Hj'.
  Qed.
  Lemma tft_outer_fail : forall ks1 k ks2 j s, NoDup (ks1 ++ k :: ks2) -> (forall k', In k' (ks1 ++ k :: ks2) -> k' < n) -> j < m ->
    (forall k' j', In k' ks1 -> j' < m -> exists v, G k' j' (s (colIdx n k' j')) = Ok v) -> (forall j', j' < j -> exists v, G k j' (s (colIdx n k j')) = Ok v) ->
    (forall v, G k j (s (colIdx n k j)) <> Ok v) -> same_failure (G k j (s (colIdx n k j))) (tft_outer n m G (ks1 ++ k :: ks2) s).
  Proof.
    induction ks1 as [|k1 ks1 IH]; intros k ks2 j s ND HK Hj H1 H2 F; cbn.
    - assert (Hk : k < n) by (apply HK; left; reflexivity).
      assert (SP : seq 0 m = seq 0 j ++ j :: seq (S j) (m - S j)).
      { replace m with (j + S (m - S j)) at 1 by lia. rewrite seq_app. reflexivity. }
      assert (R := tft_inner_fail k Hk (seq 0 j) j (seq (S j) (m - S j)) s). rewrite <- SP in R. specialize (R (seq_NoDup m 0)).
      assert (R' := R ltac:(intros j' Hj'; apply H2; apply in_seq in Hj'; lia) F).
      destruct (tft_inner n k G (seq 0 m) s); destruct (G k j (s (colIdx n k j))); cbn in *; tauto.
    - assert (Hk : k1 < n) by (apply HK; left; reflexivity). inversion ND as [|x l NI ND']; subst.
      destruct (tft_inner_total k1 Hk (seq 0 m) s (seq_NoDup m 0)) as [s' Hs'].
      { intros j' Hj'. apply in_seq in Hj'. apply H1; [left; reflexivity|lia]. }
      rewrite Hs'. destruct (tft_inner_ok k1 Hk _ _ _ (seq_NoDup m 0) Hs') as (_ & I2).
      assert (E : forall k' j', In k' (ks1 ++ k :: ks2) -> s' (colIdx n k' j') = s (colIdx n k' j')).
      { intros k' j' Hk'. apply I2. intros j'' _ C. destruct (colIdx_inj _ _ _ _ (HK k' (or_intror Hk')) Hk C). subst. contradiction. }
      assert (Ek := E k j ltac:(apply in_or_app; right; left; reflexivity)). rewrite <- Ek.
      apply IH; try assumption.
      + intros k' Hk'. apply HK. right. exact Hk'.
      + intros k' j' Hk' Hj'. rewrite E by (apply in_or_app; left; exact Hk'). apply H1; [right; exact Hk'|exact Hj'].
      + intros j' Hj'. rewrite E by (apply in_or_app; right; left; reflexivity). apply H2. exact Hj'.
      + rewrite Ek. exact F.
  Qed.
  Lemma tft_loop_fail : forall s k j, k < n -> j < m -> (forall k' j', k' < k -> j' < m -> exists v, G k' j' (s (colIdx n k' j')) = Ok v) ->
    (forall j', j' < j -> exists v, G k j' (s (colIdx n k j')) = Ok v) -> (forall v, G k j (s (colIdx n k j)) <> Ok v) ->
    same_failure (G k j (s (colIdx n k j))) (tft_loop n m G s).
  Proof.
    intros s k j Hk Hj H1 H2 F. unfold tft_loop.
    assert (SP : seq 0 n = seq 0 k ++ k :: seq (S k) (n - S k)).
    { replace n with (k + S (n - S k)) at 1 by lia. rewrite seq_app. reflexivity. }
    rewrite SP. apply tft_outer_fail; try assumption.
    - rewrite <- SP. apply seq_NoDup.
    - rewrite <- SP. intros k' Hk'. apply in_seq in Hk'. lia.
    - intros k' j' Hk' Hj'. apply in_seq in Hk'. apply H1; [lia|exact Hj'].
  Qed.
End Loop.

(* ---------------- explicit mode ---------------- *)
Section ExplicitProofs.
  Context {P V : Type}.
  Variable tf : option P -> outcome V.

  Lemma run_synced : forall cs s, own_def s = inner_def s ->
    List.Forall completed (intended tf (own_def s) (frozen_def s) (explicit_on s) cs) ->
    own_def (fst (tft_run tf s cs)) = inner_def (fst (tft_run tf s cs)) /\
    snd (tft_run tf s cs) = intended tf (own_def s) (frozen_def s) (explicit_on s) cs.
  Proof.
    induction cs as [|c cs IH]; intros s Hs HF; [split; [exact Hs|reflexivity]|].
    cbn [tft_run]. destruct c as [p|p|b|]; cbn [tft_step intended] in *.
    - specialize (IH (TS p p (frozen_def s) (explicit_on s)) eq_refl HF).
      destruct (tft_run tf (TS p p (frozen_def s) (explicit_on s)) cs). exact IH.
    - specialize (IH (TS (own_def s) (inner_def s) p (explicit_on s)) Hs HF).
      destruct (tft_run tf (TS (own_def s) (inner_def s) p (explicit_on s)) cs). exact IH.
    - specialize (IH (TS (own_def s) (inner_def s) (frozen_def s) b) Hs HF).
      destruct (tft_run tf (TS (own_def s) (inner_def s) (frozen_def s) b) cs). exact IH.
    - inversion HF as [|x l HX HL]; subst. destruct HX as [v Hv].
      assert (E : compute_TF tf (explicit_on s) (frozen_def s) (inner_def s) = (tf (if explicit_on s then frozen_def s else own_def s), inner_def s)).
      { unfold compute_TF. destruct (explicit_on s); [rewrite Hv; reflexivity|rewrite Hs; reflexivity]. }
      rewrite E.
      specialize (IH (TS (own_def s) (inner_def s) (frozen_def s) (explicit_on s)) Hs HL).
      destruct (tft_run tf (TS (own_def s) (inner_def s) (frozen_def s) (explicit_on s)) cs) as [s2 rs].
      cbn in *. destruct IH as [IH1 IH2]. split; [exact IH1|]. rewrite IH2. reflexivity.
  Qed.

  Lemma throw_leaves_frozen : forall s, explicit_on s = true -> tf (frozen_def s) = Throw ->
    let s' := fst (tft_step tf s EvalTF) in inner_def s' = frozen_def s /\ own_def s' = own_def s.
  Proof. intros s HE HT. cbn. rewrite HE. unfold compute_TF. rewrite HT. split; reflexivity. Qed.
End ExplicitProofs.
