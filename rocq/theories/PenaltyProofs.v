(* Finite-dimensional linear algebra for penalised systems: solvability of injective symmetric systems, the critical value of a
   subtracted penalty, and the values of the penalised quantities for large penalties. *)
From Coq Require Import Reals Lra Lia List FunctionalExtensionality Classical.
From Coquelicot Require Import Coquelicot.
From Verif Require Import Tensor KinModel KinSpec KinAsm KinProofs KinStiff DwrProofs EstProofs LinModel LinSpec LinProofs.
Open Scope R_scope.

Definition cscal (c : R) (x : coefs) : coefs := fun i d => c * x i d.
Definition cunit (i0 d0 : nat) : coefs := fun i d => if (Nat.eqb i i0 && Nat.eqb d d0)%bool then 1 else 0.

(* a functional that vanishes where finitely many others do is a combination of them *)
Lemma fredholm (P : coefs -> Prop) (l : nat -> coefs -> R) :
  (forall x y c, P x -> P y -> P (cadd x (cscal c y))) ->
  (forall k x y c, P x -> P y -> l k (cadd x (cscal c y)) = l k x + c * l k y) ->
  forall m b, (forall x y c, P x -> P y -> b (cadd x (cscal c y)) = b x + c * b y) ->
  (forall x, P x -> (forall k, (k < m)%nat -> l k x = 0) -> b x = 0) ->
  exists c, forall x, P x -> b x = rsum m (fun k => c k * l k x).
Proof.
  intros HP HL. induction m; intros b Hb H.
  - exists (fun _ => 0). intros x Px. cbn. apply H. exact Px. intros; lia.
  - destruct (classic (forall x, P x -> (forall k, (k < m)%nat -> l k x = 0) -> l m x = 0)) as [D|D].
    + destruct (IHm b Hb) as (c & Hc).
      { intros x Px Z. apply H. exact Px. intros k Hk. destruct (Nat.eq_dec k m) as [->|]; [apply D; assumption|apply Z; lia]. }
      exists (fun k => if Nat.eqb k m then 0 else c k). intros x Px. cbn [rsum]. rewrite Nat.eqb_refl, (Hc x Px).
      rewrite (rsum_ext m (fun k => (if Nat.eqb k m then 0 else c k) * l k x) (fun k => c k * l k x)); [ring|]. intros k Hk. destruct (Nat.eqb_spec k m); [lia|reflexivity].
    + assert (E : exists w, P w /\ (forall k, (k < m)%nat -> l k w = 0) /\ l m w <> 0).
      { apply NNPP. intro N. apply D. intros x Px Z. apply NNPP. intro Q. apply N. exists x. auto. }
      destruct E as (w & Pw & Zw & Nw). set (g := b w / l m w).
      destruct (IHm (fun x => b x - g * l m x)) as (c & Hc).
      * intros x y s Px Py. rewrite Hb, HL by assumption. ring.
      * intros x Px Z. pose (y := cadd x (cscal (- (l m x / l m w)) w)).
        assert (By : b y = 0).
        { apply H. apply HP; assumption. intros k Hk. unfold y. rewrite HL by assumption. destruct (Nat.eq_dec k m) as [->|].
          field; exact Nw. rewrite (Z k), (Zw k) by lia. ring. }
        unfold y in By. rewrite Hb in By by assumption. unfold g. replace (b x) with (l m x / l m w * b w) by lra. field. exact Nw.
      * exists (fun k => if Nat.eqb k m then g else c k). intros x Px. cbn [rsum]. rewrite Nat.eqb_refl.
        rewrite (rsum_ext m (fun k => (if Nat.eqb k m then g else c k) * l k x) (fun k => c k * l k x)). assert (Q := Hc x Px). cbv beta in Q. rewrite <- Q. ring.
        intros k Hk. destruct (Nat.eqb_spec k m); [lia|reflexivity].
Qed.

Lemma ddot_ext_l n x y z : (forall i d, (i < n)%nat -> (d < 3)%nat -> y i d = z i d) -> ddot n y x = ddot n z x.
Proof. intro H. rewrite !(ddot_comm n _ x). apply ddot_ext. exact H. Qed.
Lemma ddot_add_l n x y z : ddot n (cadd y z) x = ddot n y x + ddot n z x.
Proof. rewrite !(ddot_comm n _ x). apply ddot_add. Qed.
Lemma ddot_scal_l n c x y : ddot n (cscal c y) x = c * ddot n y x.
Proof. rewrite !(ddot_comm n _ x). apply ddot_scal. Qed.
Lemma ddot_scal_r n c x y : ddot n x (cscal c y) = c * ddot n x y.
Proof. apply ddot_scal. Qed.
Lemma rsum_triple n f : rsum (3 * n) f = rsum n (fun i => sum3 (fun d => f (3 * i + d)%nat)).
Proof.
  induction n. reflexivity. replace (3 * S n)%nat with (S (S (S (3 * n)))) by lia. cbn [rsum]. rewrite IHn. unfold sum3.
  replace (S (S (3 * n))) with (3 * n + 2)%nat by lia. replace (S (3 * n)) with (3 * n + 1)%nat by lia. replace (3 * n + 0)%nat with (3 * n)%nat by lia. ring.
Qed.
Lemma div3 i d : (d < 3)%nat -> ((3 * i + d) / 3 = i)%nat /\ ((3 * i + d) mod 3 = d)%nat.
Proof.
  intro H. split.
  - symmetry. apply (Nat.div_unique _ 3 i d); lia.
  - symmetry. apply (Nat.mod_unique _ 3 i d); lia.
Qed.

Section Sys.
Variables (n : nat) (fr : frees).
Definition Fr (x : coefs) : Prop := prescribed n fr (fun _ _ => 0) x.
Definition null (x : coefs) : Prop := forall i d, (i < n)%nat -> (d < 3)%nat -> x i d = 0.
Definition rows (A : coefs -> coefs) (x f : coefs) : Prop := forall i d, (i < n)%nat -> (d < 3)%nat -> fr i d = true -> A x i d = f i d.
Lemma Fr_add x y : Fr x -> Fr y -> Fr (cadd x y).
Proof. intros A B i d Hi Hd E. unfold cadd. rewrite (A i d), (B i d) by assumption. ring. Qed.
Lemma Fr_scal c x : Fr x -> Fr (cscal c x).
Proof. intros A i d Hi Hd E. unfold cscal. rewrite (A i d) by assumption. ring. Qed.
Lemma Fr_unit i d : fr i d = true -> Fr (cunit i d).
Proof.
  intros E i' d' _ _ F. unfold cunit. destruct (Nat.eqb_spec i' i); destruct (Nat.eqb_spec d' d); cbn; try reflexivity. subst. congruence.
Qed.
Lemma ddot_null x y : null x -> ddot n x y = 0.
Proof. intro N. apply rsum_zero. intros i Hi. unfold sum3. rewrite !(N i) by lia. ring. Qed.
Lemma ddot_zero_r x : ddot n x (fun _ _ => 0) = 0.
Proof. apply rsum_zero. intros. unfold sum3. ring. Qed.
(* free rows hold iff the equation holds tested with every admissible vector *)
Lemma rows_weak A x f : rows A x f <-> forall y, Fr y -> ddot n y (A x) = ddot n y f.
Proof.
  split.
  - intros H y Fy. assert (Z : ddot n y (fun i d => A x i d - f i d) = 0).
    { apply (ddot_free n fr). exact Fy. intros i d Hi Hd E. rewrite (H i d Hi Hd E). ring. }
    assert (Q : ddot n y (fun i d => A x i d - f i d) = ddot n y (A x) + (-1) * ddot n y f).
    { rewrite <- ddot_scal, <- ddot_add. apply ddot_ext. intros. unfold cadd. ring. }
    lra.
  - intros H i d Hi Hd E. assert (Q := H (cunit i d) (Fr_unit i d E)). unfold cunit in Q. rewrite !ddot_unit in Q by assumption. exact Q.
Qed.

Section Op.
Variable A : coefs -> coefs.
Hypothesis SY : forall x y, ddot n y (A x) = ddot n x (A y).
Lemma op_lin_r z x y c : ddot n z (A (cadd x (cscal c y))) = ddot n z (A x) + c * ddot n z (A y).
Proof. rewrite SY, ddot_add_l, ddot_scal_l, (SY x z), (SY y z). ring. Qed.
Lemma op_row x y c i d : (i < n)%nat -> (d < 3)%nat -> A (cadd x (cscal c y)) i d = A x i d + c * A y i d.
Proof.
  intros Hi Hd. assert (Q := op_lin_r (cunit i d) x y c). unfold cunit in Q. rewrite !ddot_unit in Q by assumption. exact Q.
Qed.
Lemma solvable : (forall x, Fr x -> rows A x (fun _ _ => 0) -> null x) -> forall f, exists x, Fr x /\ rows A x f.
Proof.
  intros INJ f.
  pose (l := fun k (y : coefs) => if (Nat.ltb (k / 3)%nat n && fr (k / 3)%nat (k mod 3)%nat)%bool then A y (k / 3)%nat (k mod 3)%nat else 0).
  destruct (fredholm Fr l) with (m := (3 * n)%nat) (b := fun y => ddot n y f) as (c & Hc).
  - intros x y s Fx Fy. apply Fr_add. exact Fx. apply Fr_scal. exact Fy.
  - intros k x y s Fx Fy. unfold l. destruct (Nat.ltb_spec (k / 3)%nat n) as [L|L]; cbn [andb]; [|ring].
    destruct (fr _ _); [|ring]. apply op_row. exact L. apply Nat.mod_upper_bound. lia.
  - intros x y s _ _. rewrite ddot_add_l, ddot_scal_l. reflexivity.
  - intros y Fy Z. apply ddot_null. apply INJ. exact Fy. intros i d Hi Hd E.
    assert (Q := Z (3 * i + d)%nat ltac:(lia)). unfold l in Q. destruct (div3 i d Hd) as (D1 & D2). rewrite D1, D2, E in Q.
    replace (i <? n)%nat with true in Q by (symmetry; apply Nat.ltb_lt; exact Hi). exact Q.
  - pose (x := fun i d => if fr i d then c (3 * i + d)%nat else 0). exists x. split.
    + intros i d _ _ E. unfold x. rewrite E. reflexivity.
    + apply rows_weak. intros y Fy. rewrite SY, (Hc y Fy), rsum_triple. apply rsum_ext. intros i Hi.
      assert (T : forall d, (d < 3)%nat -> x i d * A y i d = c (3 * i + d)%nat * l (3 * i + d)%nat y).
      { intros d Hd. unfold l, x. destruct (div3 i d Hd) as (D1 & D2). rewrite D1, D2.
        replace (i <? n)%nat with true by (symmetry; apply Nat.ltb_lt; exact Hi). cbn [andb]. destruct (fr i d); ring. }
      unfold sum3. rewrite !T by lia. reflexivity.
Qed.
End Op.

(* ------------------------------------------------------------- penalised system *)
Section Pen.
Variables (K : coefs -> coefs).
Hypothesis SY : forall x y, ddot n y (K x) = ddot n x (K y).
Hypothesis PD : forall x, Fr x -> ~ null x -> 0 < ddot n x (K x).
Variables (m : nat) (w : nat -> R) (lv : nat -> coefs).
Hypothesis W : forall k, (k < m)%nat -> 0 < w k.
Definition pen (x y : coefs) : R := rsum m (fun k => w k * ddot n (lv k) x * ddot n (lv k) y).
Definition psys (t : R) (x : coefs) : coefs := fun i d => K x i d + t * rsum m (fun k => w k * ddot n (lv k) x * lv k i d).

Lemma ddot_rsum x f p : ddot n x (fun i d => rsum p (fun k => f k i d)) = rsum p (fun k => ddot n x (f k)).
Proof.
  induction p; cbn [rsum]. apply rsum_zero. intros. unfold sum3. ring. rewrite <- IHp, <- ddot_add. reflexivity.
Qed.
Lemma psys_form t x y : ddot n y (psys t x) = ddot n y (K x) + t * pen x y.
Proof.
  unfold pen. rewrite <- rsum_scal. 
  transitivity (ddot n y (cadd (K x) (fun i d => rsum m (fun k => (t * (w k * ddot n (lv k) x)) * lv k i d)))).
  { apply ddot_ext. intros i d _ _. unfold psys, cadd. f_equal. rewrite <- rsum_scal. apply rsum_ext. intros. ring. }
  rewrite ddot_add. f_equal. rewrite ddot_rsum. apply rsum_ext. intros k _.
  transitivity (t * (w k * ddot n (lv k) x) * ddot n y (lv k)). apply ddot_scal_r. rewrite (ddot_comm n y). ring.
Qed.
Lemma pen_sym x y : pen x y = pen y x.
Proof. apply rsum_ext. intros. ring. Qed.
Lemma psys_sym t x y : ddot n y (psys t x) = ddot n x (psys t y).
Proof. rewrite !psys_form, SY, pen_sym. reflexivity. Qed.
Lemma rsum_nonneg p f : (forall k, (k < p)%nat -> 0 <= f k) -> 0 <= rsum p f.
Proof. induction p; cbn [rsum]; intro H. lra. assert (A := H p ltac:(lia)). assert (B : 0 <= rsum p f) by (apply IHp; intros; apply H; lia). lra. Qed.
Lemma pen_nonneg x : 0 <= pen x x.
Proof.
  apply rsum_nonneg. intros k Hk. rewrite Rmult_assoc. apply Rmult_le_pos. apply Rlt_le, W, Hk. apply Rle_0_sqr.
Qed.
Lemma pen_null x : null x -> pen x x = 0.
Proof. intro N. apply rsum_zero. intros k _. rewrite (ddot_comm n _ x), (ddot_null x) by exact N. ring. Qed.

(* positive forms are semi-inner products *)
Lemma cs_semi (B : coefs -> coefs) : (forall x y, ddot n y (B x) = ddot n x (B y)) -> (forall x, Fr x -> 0 <= ddot n x (B x)) ->
  forall x y, Fr x -> Fr y -> ddot n x (B y) * ddot n x (B y) <= ddot n x (B x) * ddot n y (B y).
Proof.
  intros S P x y Fx Fy. set (a := ddot n x (B x)). set (b := ddot n x (B y)). set (c := ddot n y (B y)).
  assert (Q : forall t, 0 <= a + 2 * t * b + t * t * c).
  { intro t. assert (Z := P (cadd x (cscal t y)) ltac:(apply Fr_add; [|apply Fr_scal]; assumption)).
    rewrite (op_lin_r B S), !ddot_add_l, !ddot_scal_l in Z. rewrite (S x y) in Z. fold a b c in Z. lra. }
  assert (A0 : 0 <= a) by (apply P; exact Fx). assert (C0 : 0 <= c) by (apply P; exact Fy).
  destruct (Rle_lt_or_eq_dec 0 c C0) as [C|C].
  - assert (Z := Q (- (b / c))). assert (E : a + 2 * - (b / c) * b + - (b / c) * - (b / c) * c = a - b * b / c) by (field; lra). rewrite E in Z.
    assert (b * b / c <= a) by lra. apply (Rmult_le_compat_r c) in H; [|lra]. replace (b * b / c * c) with (b * b) in H by (field; lra). lra.
  - rewrite <- C. rewrite <- C in Q. destruct (Req_dec b 0) as [->|N]. lra.
    exfalso. assert (Z := Q (- (a + 1) / (2 * b))). replace (a + 2 * (- (a + 1) / (2 * b)) * b + (- (a + 1) / (2 * b)) * (- (a + 1) / (2 * b)) * 0) with (-1) in Z by (field; exact N). lra.
Qed.

Lemma pd_inj (B : coefs -> coefs) : (forall x, Fr x -> ~ null x -> 0 < ddot n x (B x)) -> forall x, Fr x -> rows B x (fun _ _ => 0) -> null x.
Proof.
  intros P x Fx R. apply NNPP. intro N. assert (Q := P x Fx N). rewrite (proj1 (rows_weak B x _) R x Fx) in Q.
  rewrite ddot_comm, ddot_null in Q. lra. intros i d _ _. reflexivity.
Qed.
(* the penalty is bounded by any positive definite form *)
Lemma pen_bounded (B : coefs -> coefs) : (forall x y, ddot n y (B x) = ddot n x (B y)) -> (forall x, Fr x -> ~ null x -> 0 < ddot n x (B x)) ->
  exists c, 0 < c /\ forall x, Fr x -> pen x x <= c * ddot n x (B x).
Proof.
  intros S P. assert (P0 : forall x, Fr x -> 0 <= ddot n x (B x)).
  { intros x Fx. destruct (classic (null x)) as [N|N]. rewrite ddot_null by exact N. lra. apply Rlt_le, P; assumption. }
  assert (G : forall p, (p <= m)%nat -> exists c, 0 < c /\ forall x, Fr x -> rsum p (fun k => w k * ddot n (lv k) x * ddot n (lv k) x) <= c * ddot n x (B x)).
  { induction p; intro Hp.
    - exists 1. split. lra. intros x Fx. cbn. assert (Q := P0 x Fx). lra.
    - destruct IHp as (c & C & H). lia. destruct (solvable B S (pd_inj B P) (lv p)) as (r & Fr0 & Rr).
      set (g := ddot n r (B r)). assert (G0 : 0 <= g) by (apply P0; exact Fr0). assert (Wp := W p ltac:(lia)).
      exists (c + w p * g). split. nra. intros x Fx. cbn [rsum]. assert (Q := H x Fx).
      assert (E : ddot n (lv p) x = ddot n x (B r)) by (rewrite ddot_comm; symmetry; apply (rows_weak B r (lv p)); assumption).
      assert (CS := cs_semi B S P0 x r Fx Fr0). rewrite E. fold g in CS. rewrite Rmult_assoc.
      assert (w p * (ddot n x (B r) * ddot n x (B r)) <= w p * (ddot n x (B x) * g)) by (apply Rmult_le_compat_l; lra).
      replace ((c + w p * g) * ddot n x (B x)) with (c * ddot n x (B x) + w p * (ddot n x (B x) * g)) by ring. lra. }
  apply (G m). lia.
Qed.

(* the first value of a subtracted penalty at which the system is singular *)
Lemma critical : (exists x, Fr x /\ pen x x <> 0) -> exists s, 0 < s /\
  (forall t, t < s -> forall x, Fr x -> ~ null x -> 0 < ddot n x (psys (- t) x)) /\
  (exists x, Fr x /\ ~ null x /\ rows (psys (- s)) x (fun _ _ => 0)) /\
  (forall t, s < t -> exists x, Fr x /\ ddot n x (psys (- t) x) < 0).
Proof.
  intros (x0 & F0 & N0). assert (M0 : 0 < pen x0 x0) by (assert (Q := pen_nonneg x0); lra).
  assert (NN0 : ~ null x0) by (intro N; apply N0, pen_null, N).
  pose (S := fun t => forall x, Fr x -> ~ null x -> 0 < ddot n x (psys (- t) x)).
  assert (S0 : S 0). { intros x Fx Nx. rewrite psys_form. assert (Q := PD x Fx Nx). lra. }
  assert (BD : is_upper_bound S (ddot n x0 (K x0) / pen x0 x0)).
  { intros t Ht. assert (Q := Ht x0 F0 NN0). rewrite psys_form in Q. apply (Rmult_le_reg_r (pen x0 x0)); [exact M0|].
    replace (ddot n x0 (K x0) / pen x0 x0 * pen x0 x0) with (ddot n x0 (K x0)) by (field; exact N0). lra. }
  destruct (completeness S (ex_intro _ _ BD) (ex_intro _ 0 S0)) as (s & UB & LB).
  assert (DN : forall t, t < s -> S t).
  { intros t Ht. apply NNPP. intro N. apply (Rlt_not_le _ _ Ht). apply LB. intros u Su. apply Rnot_lt_le. intro L. apply N.
    intros x Fx Nx. assert (Q := Su x Fx Nx). rewrite psys_form in *. assert (P := pen_nonneg x). nra. }
  assert (OP : forall t, S t -> exists u, t < u /\ S u).
  { intros t St. destruct (pen_bounded (psys (- t)) (psys_sym (- t)) St) as (c & C & H). exists (t + / (2 * c)). assert (I : 0 < / (2 * c)) by (apply Rinv_0_lt_compat; lra).
    split. lra. intros x Fx Nx. assert (Q := H x Fx). assert (P := St x Fx Nx). rewrite psys_form in *.
    replace (ddot n x (K x) + - (t + / (2 * c)) * pen x x) with ((ddot n x (K x) + - t * pen x x) - / (2 * c) * pen x x) by ring.
    set (q := ddot n x (K x) + - t * pen x x) in *. apply (Rmult_le_compat_l (/ (2 * c))) in Q; [|lra].
    replace (/ (2 * c) * (c * q)) with (q / 2) in Q by (field; lra). lra. }
  assert (NS : ~ S s). { intro Ss. destruct (OP s Ss) as (u & L & Su). assert (Q := UB u Su). lra. }
  assert (SP : 0 < s). { destruct (OP 0 S0) as (u & L & Su). assert (Q := UB u Su). lra. }
  assert (SD : forall x, Fr x -> 0 <= ddot n x (psys (- s) x)).
  { intros x Fx. destruct (classic (null x)) as [N|N]. rewrite ddot_null by exact N. lra.
    apply Rnot_lt_le. intro L. rewrite psys_form in L. assert (P := pen_nonneg x).
    destruct (Req_dec (pen x x) 0) as [Z|Z]. { rewrite Z in L. assert (Q := PD x Fx N). lra. }
    assert (P1 : 0 < pen x x) by lra. set (e := - (ddot n x (K x) + - s * pen x x) / (2 * pen x x)).
    assert (E : 0 < e) by (unfold e; apply Rdiv_lt_0_compat; lra). assert (Q := DN (s - e) ltac:(lra) x Fx N). rewrite psys_form in Q.
    replace (ddot n x (K x) + - (s - e) * pen x x) with ((ddot n x (K x) + - s * pen x x) / 2) in Q by (unfold e; field; lra). lra. }
  assert (KER : exists x, Fr x /\ ~ null x /\ ddot n x (psys (- s) x) = 0).
  { apply NNPP. intro N. apply NS. intros x Fx Nx. destruct (SD x Fx) as [L|E]. exact L. exfalso. apply N. exists x. auto. }
  destruct KER as (x & Fx & Nx & Zx). exists s. split; [exact SP|]. split; [exact DN|]. split.
  - exists x. split; [exact Fx|]. split; [exact Nx|]. apply rows_weak. intros y Fy.
    assert (CS := cs_semi (psys (- s)) (psys_sym (- s)) SD y x Fy Fx). rewrite Zx in CS.
    rewrite ddot_zero_r. nra.
  - intros t L. exists x. split; [exact Fx|]. rewrite psys_form in *. assert (Q := PD x Fx Nx). assert (P := pen_nonneg x).
    assert (P1 : 0 < pen x x) by nra. nra.
Qed.

(* an added penalty keeps the system positive definite *)
Lemma added_pd t : 0 <= t -> forall x, Fr x -> ~ null x -> 0 < ddot n x (psys t x).
Proof. intros T x Fx Nx. rewrite psys_form. assert (Q := PD x Fx Nx). assert (P := pen_nonneg x). nra. Qed.

Lemma rsum_abs p f : Rabs (rsum p f) <= rsum p (fun k => Rabs (f k)).
Proof. induction p; cbn [rsum]. rewrite Rabs_R0. lra. eapply Rle_trans. apply Rabs_triang. lra. Qed.
Lemma rsum_le p f g : (forall k, (k < p)%nat -> f k <= g k) -> rsum p f <= rsum p g.
Proof. induction p; cbn [rsum]; intro H. lra. assert (A := H p ltac:(lia)). assert (B : rsum p f <= rsum p g) by (apply IHp; intros; apply H; lia). lra. Qed.
Lemma rsum_term p f k : (forall k, (k < p)%nat -> 0 <= f k) -> (k < p)%nat -> f k <= rsum p f.
Proof.
  induction p; cbn [rsum]; intros H L. lia. assert (A := H p ltac:(lia)). assert (B : 0 <= rsum p f) by (apply rsum_nonneg; intros; apply H; lia).
  destruct (Nat.eq_dec k p) as [->|]. lra. assert (Q : f k <= rsum p f) by (apply IHp; [intros; apply H|]; lia). lra.
Qed.
Lemma finite_choice {X : Type} (dflt : X) p (Q : nat -> X -> Prop) : (forall k, (k < p)%nat -> exists x, Q k x) -> exists r, forall k, (k < p)%nat -> Q k (r k).
Proof.
  induction p; intro H. exists (fun _ => dflt). intros; lia.
  destruct IHp as (r & Hr). intros; apply H; lia. destruct (H p ltac:(lia)) as (x & Hx).
  exists (fun k => if Nat.eqb k p then x else r k). intros k Hk. destruct (Nat.eqb_spec k p) as [->|]. exact Hx. apply Hr. lia.
Qed.
Lemma pen_zero x : pen x x = 0 -> forall k, (k < m)%nat -> ddot n (lv k) x = 0.
Proof.
  intros Z k Hk. assert (T : w k * ddot n (lv k) x * ddot n (lv k) x <= pen x x).
  { apply (rsum_term m (fun k => w k * ddot n (lv k) x * ddot n (lv k) x)); [|exact Hk]. intros j Hj. rewrite Rmult_assoc. apply Rmult_le_pos. apply Rlt_le, W, Hj. apply Rle_0_sqr. }
  rewrite Z in T. assert (Wk := W k Hk). set (v := ddot n (lv k) x) in *. assert (v * v <= 0) by nra. nra.
Qed.

(* large penalties of either sign: the system is uniquely solvable and the penalised quantities are of the order of 1/t *)
Lemma large : exists t0, 0 < t0 /\ (forall t, t0 < Rabs t -> forall x, Fr x -> rows (psys t) x (fun _ _ => 0) -> null x) /\
  forall f, exists C, 0 <= C /\ forall t x, t0 < Rabs t -> Fr x -> rows (psys t) x f -> forall k, (k < m)%nat -> Rabs (ddot n (lv k) x) <= C / Rabs t.
Proof.
  assert (SOL := solvable K SY (pd_inj K PD)).
  destruct (finite_choice (fun _ _ => 0) m (fun k x => Fr x /\ rows K x (lv k))) as (r & Hr). { intros; apply SOL. }
  assert (REP : forall k x, (k < m)%nat -> Fr x -> ddot n x (K (r k)) = ddot n (lv k) x).
  { intros k x Hk Fx. rewrite (ddot_comm n (lv k)). apply (rows_weak K (r k) (lv k)). apply Hr, Hk. exact Fx. }
  pose (H := fun k x => pen x (r k)).
  assert (PL : forall z x y c, pen (cadd x (cscal c y)) z = pen x z + c * pen y z).
  { intros. unfold pen. rewrite <- rsum_scal, <- rsum_plus. apply rsum_ext. intros. rewrite ddot_add, ddot_scal_r. ring. }
  assert (FAC : forall k, (k < m)%nat -> exists c, forall x, Fr x -> ddot n (lv k) x = rsum m (fun a => c a * H a x)).
  { intros k Hk. apply (fredholm Fr H).
    - intros. apply Fr_add; [|apply Fr_scal]; assumption.
    - intros. apply PL.
    - intros. rewrite ddot_add, ddot_scal_r. reflexivity.
    - intros x Fx Z. destruct (SOL (fun i d => rsum m (fun b => w b * ddot n (lv b) x * lv b i d))) as (z & Fz & Rz).
      assert (E : forall y, Fr y -> ddot n y (K z) = pen x y).
      { intros y Fy. rewrite (proj1 (rows_weak K z _) Rz y Fy). unfold pen. rewrite ddot_rsum. apply rsum_ext. intros b _.
        transitivity (w b * ddot n (lv b) x * ddot n y (lv b)). apply ddot_scal_r. rewrite (ddot_comm n y). ring. }
      assert (LZ : forall a, (a < m)%nat -> ddot n (lv a) z = 0).
      { intros a Ha. rewrite <- (REP a z Ha Fz), SY, E by apply Hr, Ha. apply Z. exact Ha. }
      assert (NZ : null z).
      { apply NNPP. intro N. assert (Q := PD z Fz N). rewrite (E z Fz) in Q. assert (P0 : pen x z = 0); [|lra].
        apply rsum_zero. intros b Hb. rewrite LZ by exact Hb. ring. }
      apply pen_zero; [|exact Hk]. rewrite <- (E x Fx), SY. apply ddot_null. exact NZ. }
  destruct (finite_choice (fun _ : nat => 0) m _ FAC) as (c & Hc).
  assert (BAL : forall t x f rho, Fr x -> Fr rho -> rows K rho f -> rows (psys t) x f -> forall a, (a < m)%nat -> ddot n (lv a) x + t * H a x = ddot n (lv a) rho).
  { intros t x f rho Fx Frho Rr Rx a Ha. destruct (Hr a Ha) as (Fa & _). assert (Q := proj1 (rows_weak _ _ _) Rx (r a) Fa). rewrite psys_form in Q.
    rewrite <- (proj1 (rows_weak _ _ _) Rr (r a) Fa) in Q. rewrite (SY x), (SY rho), !REP in Q by assumption. exact Q. }
  pose (Ck := fun k => rsum m (fun a => Rabs (c k a))). pose (C := rsum m Ck). pose (nm := fun x => rsum m (fun a => Rabs (ddot n (lv a) x))).
  assert (Ck0 : forall k, 0 <= Ck k) by (intro; apply rsum_nonneg; intros; apply Rabs_pos).
  assert (C0 : 0 <= C) by (apply rsum_nonneg; intros; apply Ck0).
  assert (nm0 : forall x, 0 <= nm x) by (intro; apply rsum_nonneg; intros; apply Rabs_pos).
  assert (EST : forall t x f rho, Fr x -> Fr rho -> rows K rho f -> rows (psys t) x f -> Rabs t * nm x <= C * (nm rho + nm x)).
  { intros t x f rho Fx Frho Rr Rx.
    assert (EK : forall k, (k < m)%nat -> Rabs t * Rabs (ddot n (lv k) x) <= Ck k * (nm rho + nm x)).
    { intros k Hk. rewrite <- Rabs_mult, (Hc k Hk x Fx), <- rsum_scal. eapply Rle_trans. apply rsum_abs.
      eapply Rle_trans. apply (rsum_le m _ (fun a => (nm rho + nm x) * Rabs (c k a))).
      - intros a Ha. assert (Q := BAL t x f rho Fx Frho Rr Rx a Ha). replace (t * (c k a * H a x)) with (c k a * (ddot n (lv a) rho - ddot n (lv a) x)) by (rewrite <- Q; ring).
        rewrite Rabs_mult, Rmult_comm. apply Rmult_le_compat_r. apply Rabs_pos.
        assert (A1 : Rabs (ddot n (lv a) rho) <= nm rho) by (apply (rsum_term m (fun a => Rabs (ddot n (lv a) rho))); [intros; apply Rabs_pos|exact Ha]).
        assert (A2 : Rabs (ddot n (lv a) x) <= nm x) by (apply (rsum_term m (fun a => Rabs (ddot n (lv a) x))); [intros; apply Rabs_pos|exact Ha]).
        unfold Rminus. eapply Rle_trans. apply Rabs_triang. rewrite Rabs_Ropp. lra.
      - rewrite rsum_scal. unfold Ck. lra. }
    unfold nm at 1, C. rewrite <- rsum_scal. rewrite (Rmult_comm (rsum m Ck)), <- rsum_scal. apply rsum_le. intros k Hk. rewrite (Rmult_comm _ (Ck k)). apply EK, Hk. }
  exists (2 * C + 1). split. lra. split.
  - intros t Ht x Fx Rx. assert (F0 : Fr (fun _ _ => 0)) by (intros i d _ _ _; reflexivity).
    assert (R0 : rows K (fun _ _ => 0) (fun _ _ => 0)).
    { apply rows_weak. intros y Fy. rewrite SY, ddot_zero_r. apply ddot_null. intros i d _ _. reflexivity. }
    assert (Q := EST t x _ _ Fx F0 R0 Rx). assert (Z : nm (fun _ _ => 0) = 0).
    { apply rsum_zero. intros. rewrite ddot_zero_r. apply Rabs_R0. }
    rewrite Z in Q. assert (N := nm0 x). assert (NX : nm x = 0) by nra.
    apply (pd_inj K PD x Fx). apply rows_weak. intros y Fy. assert (E := proj1 (rows_weak _ _ _) Rx y Fy). rewrite psys_form in E. rewrite <- E.
    assert (P0 : pen x y = 0); [|rewrite P0; ring]. apply rsum_zero. intros k Hk.
    assert (T : Rabs (ddot n (lv k) x) <= nm x) by (apply (rsum_term m (fun a => Rabs (ddot n (lv a) x))); [intros; apply Rabs_pos|exact Hk]).
    assert (T0 := Rabs_pos (ddot n (lv k) x)). assert (TZ : ddot n (lv k) x = 0) by (apply NNPP; intro NE; apply Rabs_no_R0 in NE; lra).
    rewrite TZ. ring.
  - intro f. destruct (SOL f) as (rho & Frho & Rr). exists (2 * C * nm rho). split. assert (N := nm0 rho). nra.
    intros t x Ht Fx Rx k Hk. assert (Q := EST t x f rho Fx Frho Rr Rx).
    assert (T : Rabs (ddot n (lv k) x) <= nm x) by (apply (rsum_term m (fun a => Rabs (ddot n (lv a) x))); [intros; apply Rabs_pos|exact Hk]).
    assert (N := nm0 x). assert (N' := nm0 rho). eapply Rle_trans. exact T. apply (Rmult_le_reg_r (Rabs t)). lra.
    replace (2 * C * nm rho / Rabs t * Rabs t) with (2 * (C * nm rho)) by (field; lra). nra.
Qed.
End Pen.
End Sys.
