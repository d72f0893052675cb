(* Lemmas about the penalised linear problem. *)
From Coq Require Import Reals Lra Lia List FunctionalExtensionality Classical.
From Coquelicot Require Import Coquelicot.
From Verif Require Import Tensor KinModel KinSpec KinAsm KinProofs KinStiff KinLoads DwrProofs EstProofs LinModel LinSpec LinProofs PenaltyProofs WeakModel WeakSpec.
Open Scope R_scope.

(* a penalised point: weight, and for each of the three components the functional of the dofs *)
Record ppoint := mkp { pw : R; pl : nat -> coefs }.
Definition Kpp (t : R) (l : list ppoint) (i d j e : nat) : R := t * psum l (fun p => pw p * sum3 (fun c => pl p c i d * pl p c j e)).
Definition p0 : ppoint := mkp 1 (fun _ _ _ => 0).
Lemma psum_nth {A} (l : list A) (a0 : A) f : psum l f = rsum (length l) (fun i => f (nth i l a0)).
Proof.
  induction l as [|a l IH] using rev_ind. reflexivity.
  rewrite EstProofs.psum_app, app_length, Nat.add_1_r. cbn [length rsum psum]. rewrite app_nth2, Nat.sub_diag by lia. cbn [nth].
  rewrite IH, Rplus_0_r. f_equal. apply rsum_ext. intros i Hi. rewrite app_nth1 by exact Hi. reflexivity.
Qed.
Lemma psum_rsum3 {A} (l : list A) (a0 : A) (F : A -> nat -> R) :
  psum l (fun p => sum3 (F p)) = rsum (3 * length l) (fun k => F (nth (k / 3) l a0) (k mod 3)%nat).
Proof.
  rewrite rsum_triple, (psum_nth l a0). apply rsum_ext. intros i _. unfold sum3.
  destruct (div3 i 0 ltac:(lia)) as (-> & ->). destruct (div3 i 1 ltac:(lia)) as (-> & ->). destruct (div3 i 2 ltac:(lia)) as (-> & ->). reflexivity.
Qed.

Section Gen.
Variables (n : nat) (fr : frees) (pts : list qpoint) (l : list ppoint).
Hypothesis S : sound pts.
Hypothesis PW : forall p, In p l -> 0 < pw p.
Let m := (3 * length l)%nat.
Let w := fun k => pw (nth (k / 3) l p0).
Let lv := fun k => pl (nth (k / 3) l p0) (k mod 3)%nat.
Let K := dapply n (Klmat n pts).
Definition Ktot (t : R) : dmat := fun i d j e => Klmat n pts i d j e + Kpp t l i d j e.
Lemma W : forall k, (k < m)%nat -> 0 < w k.
Proof. intros k Hk. unfold w. apply PW. apply nth_In. apply Nat.div_lt_upper_bound; unfold m in Hk; lia. Qed.
Lemma KSY : forall x y, ddot n y (K x) = ddot n x (K y).
Proof. intros. unfold K. rewrite !form_eq. apply lform_sym. exact S. Qed.
Lemma pen_list x y : pen n m w lv x y = psum l (fun p => sum3 (fun c => pw p * ddot n (pl p c) x * ddot n (pl p c) y)).
Proof. rewrite (psum_rsum3 l p0). reflexivity. Qed.
Lemma Ktot_psys t x i d : dapply n (Ktot t) x i d = psys n K m w lv t x i d.
Proof.
  unfold psys, K, dapply.
  rewrite (rsum_ext n _ (fun j => sum3 (fun e => Klmat n pts i d j e * x j e) + t * sum3 (fun e => psum l (fun p => sum3 (fun c => pw p * pl p c i d * pl p c j e)) * x j e))).
  - rewrite rsum_plus, rsum_scal. f_equal. f_equal. transitivity (psum l (fun p => sum3 (fun c => pw p * ddot n (pl p c) x * pl p c i d))).
    + rewrite (psum_e _ l _ (fun p => rsum n (fun j => sum3 (fun e => sum3 (fun c => pw p * pl p c i d * pl p c j e) * x j e)))).
      * rewrite psum_rsum. apply rsum_ext. intros j _. unfold sum3.
        rewrite !(Rmult_comm (psum l _)), <- !psum_scal, <- !psum_plus. apply psum_e. intros. ring.
      * intros p _. unfold ddot. unfold sum3 at 1. rewrite !Rmult_assoc. rewrite !(Rmult_comm (rsum n _)), <- !Rmult_assoc, <- !rsum_scal, <- !rsum_plus.
        apply rsum_ext. intros j _. unfold sum3. ring.
    + rewrite (psum_rsum3 l p0). reflexivity.
  - intros j _. unfold Ktot, Kpp. 
    assert (E : forall e, psum l (fun p => sum3 (fun c => pw p * pl p c i d * pl p c j e)) = psum l (fun p => pw p * sum3 (fun c => pl p c i d * pl p c j e)))
      by (intro e; apply psum_e; intros; unfold sum3; ring).
    unfold sum3 in *. rewrite !E. ring.
Qed.
Lemma Ktot_form t x : dquad n (Ktot t) x = dquad n (Klmat n pts) x + t * psum l (fun p => pw p * sum3 (fun c => ddot n (pl p c) x * ddot n (pl p c) x)).
Proof.
  unfold dquad. rewrite (ddot_ext n x _ (psys n K m w lv t x)) by (intros; apply Ktot_psys). rewrite psys_form, pen_list. f_equal. f_equal.
  apply psum_e. intros. unfold sum3. ring.
Qed.
Definition pval_zero (x : coefs) : Prop := forall p c, In p l -> (c < 3)%nat -> ddot n (pl p c) x = 0.
Lemma pen_zero_iff x : pen n m w lv x x = 0 <-> pval_zero x.
Proof.
  rewrite pen_list. split.
  - intros Z p c I Hc.
    assert (N : forall p c, In p l -> 0 <= pw p * ddot n (pl p c) x * ddot n (pl p c) x).
    { intros q e J. rewrite Rmult_assoc. apply Rmult_le_pos. apply Rlt_le, PW, J. apply Rle_0_sqr. }
    assert (Q := psum_nonneg_zero l (fun p => sum3 (fun c => pw p * ddot n (pl p c) x * ddot n (pl p c) x))).
    assert (Q' := Q ltac:(intros q J; unfold sum3; assert (A := N q 0%nat J); assert (B := N q 1%nat J); assert (C := N q 2%nat J); lra) Z p I).
    cbv beta in Q'. unfold sum3 in Q'. assert (A := N p 0%nat I). assert (B := N p 1%nat I). assert (C := N p 2%nat I). assert (P := PW p I).
    assert (E : forall v, pw p * v * v = 0 -> v = 0) by (intros v Ev; apply Rmult_integral in Ev; destruct Ev as [Ev|Ev]; [apply Rmult_integral in Ev; lra|exact Ev]).
    destruct c as [|[|[|c]]]; [| | |lia]; apply E; lra.
  - intro Z. transitivity (psum l (fun _ => 0)). apply psum_e. intros p I. unfold sum3. rewrite !(Z p) by (assumption || lia). ring.
    clear. induction l; cbn; lra.
Qed.
(* the stiffness with one unit of penalty added *)
Hypothesis SUP : forall x, Fr n fr x -> (forall q, In q pts -> strain_free n q x) -> pval_zero x -> null n x.
Let K1 := psys n K m w lv 1.
Lemma K1_sym x y : ddot n y (K1 x) = ddot n x (K1 y).
Proof. apply psys_sym. exact KSY. Qed.
Lemma K1_pd x : Fr n fr x -> ~ null n x -> 0 < ddot n x (K1 x).
Proof.
  intros Fx Nx. unfold K1. rewrite psys_form. assert (A : 0 <= ddot n x (K x)) by (unfold K; rewrite form_eq; apply lform_nonneg; exact S).
  assert (B := pen_nonneg n m w lv W x). destruct (Req_dec (ddot n x (K x)) 0) as [E|E]; [|lra].
  destruct (Req_dec (pen n m w lv x x) 0) as [E'|E']; [|lra]. exfalso. apply Nx, SUP. exact Fx.
  - unfold K in E. rewrite form_eq in E. apply lform_zero; assumption.
  - apply pen_zero_iff. exact E'.
Qed.
Lemma K1_psys t x i d : psys n K1 m w lv (t - 1) x i d = psys n K m w lv t x i d.
Proof. unfold K1, psys. ring. Qed.
Lemma rows_ext (A B : coefs -> coefs) x f : (forall i d, A x i d = B x i d) -> rows n fr A x f -> rows n fr B x f.
Proof. intros E R i d Hi Hd F. rewrite <- E. apply R; assumption. Qed.

Lemma gen_large : exists t0, 1 < t0 /\ (forall t, t0 < Rabs t -> forall x, Fr n fr x -> rows n fr (dapply n (Ktot t)) x (fun _ _ => 0) -> null n x) /\
  forall f, exists C, 0 <= C /\ forall t x, t0 < Rabs t -> Fr n fr x -> rows n fr (dapply n (Ktot t)) x f -> forall p c, In p l -> (c < 3)%nat -> Rabs (ddot n (pl p c) x) <= C / Rabs t.
Proof.
  destruct (large n fr K1 K1_sym K1_pd m w lv W) as (t0 & T0 & INJ & LIM).
  assert (TT : forall t, t0 + 2 < Rabs t -> t0 < Rabs (t - 1) /\ Rabs t / 2 <= Rabs (t - 1)).
  { intros t Ht. assert (Q := Rabs_triang (t - 1) 1). replace (t - 1 + 1) with t in Q by ring. rewrite Rabs_R1 in Q. split; lra. }
  assert (RW : forall t x f, rows n fr (dapply n (Ktot t)) x f -> rows n fr (psys n K1 m w lv (t - 1)) x f).
  { intros t x f. apply rows_ext. intros. rewrite K1_psys. apply Ktot_psys. }
  exists (t0 + 2). split. lra. split.
  - intros t Ht x Fx Rx. apply (INJ (t - 1)). apply TT, Ht. exact Fx. apply RW, Rx.
  - intro f. destruct (LIM f) as (C & C0 & H). exists (2 * C). split. lra. intros t x Ht Fx Rx p c I Hc. destruct (TT t Ht) as (T1 & T2).
    destruct (In_nth l p p0 I) as (k & Hk & E).
    assert (Q := H (t - 1) x T1 Fx (RW _ _ _ Rx) (3 * k + c)%nat ltac:(unfold m; lia)). unfold lv in Q. destruct (div3 k c Hc) as (D1 & D2). rewrite D1, D2, E in Q.
    eapply Rle_trans. exact Q. assert (P : 0 < Rabs t) by lra. unfold Rdiv. rewrite (Rmult_comm 2), Rmult_assoc. apply Rmult_le_compat_l. exact C0.
    replace (2 * / Rabs t) with (/ (Rabs t / 2)) by (field; lra). apply Rinv_le_contravar; lra.
Qed.
End Gen.

Section Solv.
Variables (n : nat) (fr : frees) (K : dmat).
Hypothesis SY : forall x y, ddot n y (dapply n K x) = ddot n x (dapply n K y).
Lemma solvable_unique : (forall x, Fr n fr x -> rows n fr (dapply n K) x (fun _ _ => 0) -> null n x) -> uniquely_solvable n fr K.
Proof.
  intros INJ f g.
  destruct (solvable n fr (dapply n K) SY INJ (fun i d => f i d - dapply n K g i d)) as (z & Fz & Rz).
  assert (SOL : solves n fr K f g (cadd z g)).
  { split. intros i d Hi Hd E. unfold cadd. rewrite (Fz i d Hi Hd E). ring. intros i d Hi Hd E. rewrite dapply_add, (Rz i d Hi Hd E). ring. }
  exists (cadd z g). split. exact SOL. intros y (Py & Ry). destruct SOL as (Px & Rx).
  assert (N : null n (csub y (cadd z g))).
  { apply INJ. intros i d Hi Hd E. unfold csub. rewrite (Py i d Hi Hd E), (Px i d Hi Hd E). ring.
    intros i d Hi Hd E. rewrite dapply_sub, (Ry i d Hi Hd E), (Rx i d Hi Hd E). ring. }
  intros i d Hi Hd. assert (Q := N i d Hi Hd). unfold csub in Q. lra.
Qed.
Lemma posdef_unique : posdef n fr K -> uniquely_solvable n fr K.
Proof. intro P. apply solvable_unique. apply pd_inj. exact P. Qed.
Lemma kernel_not_unique x : Fr n fr x -> ~ null n x -> rows n fr (dapply n K) x (fun _ _ => 0) -> ~ uniquely_solvable n fr K.
Proof.
  intros Fx Nx Rx U. destruct (U (fun _ _ => 0) (fun _ _ => 0)) as (z & Sz & Uz). apply Nx. intros i d Hi Hd.
  assert (Z : solves n fr K (fun _ _ => 0) (fun _ _ => 0) (fun _ _ => 0)).
  { split. intros ? ? _ _ _. reflexivity. intros i' d' _ _ _. unfold dapply. apply rsum_zero. intros. unfold sum3. ring. }
  rewrite (Uz x (conj Fx Rx) i d Hi Hd), <- (Uz _ Z i d Hi Hd). reflexivity.
Qed.
End Solv.

(* ---------------------------------------------------------------- the two kinds of penalty points *)
Definition pp_of (q : wpoint) : ppoint := mkp (ww q * wal q) (fun c i d => j0 (bvar d (wbas q i)) c).
Definition pi_of (q : ipoint) : ppoint := mkp (iw q * ial q) (fun c i d => j0 (bvar d (ibl q i)) c - j0 (bvar d (ibr q i)) c).
Lemma lin_comp c : linj (fun v => j0 v c).
Proof. split; intros; reflexivity. Qed.
Lemma val_ddot n bas x c : j0 (fieldjet n bas x) c = ddot n (fun i d => j0 (bvar d (bas i)) c) x.
Proof. rewrite (lin_field _ n bas x (lin_comp c)). reflexivity. Qed.
Lemma wval_ddot n q x c : wval n q x c = ddot n (pl (pp_of q) c) x.
Proof. unfold wval. rewrite val_ddot. reflexivity. Qed.
Lemma jump_ddot n q x c : jump n q x c = ddot n (pl (pi_of q) c) x.
Proof.
  unfold jump. rewrite !val_ddot. cbn [pl pi_of].
  rewrite (ddot_ext_l n x (fun i d => j0 (bvar d (ibl q i)) c - j0 (bvar d (ibr q i)) c) (cadd (fun i d => j0 (bvar d (ibl q i)) c) (cscal (-1) (fun i d => j0 (bvar d (ibr q i)) c)))).
  rewrite ddot_add_l, ddot_scal_l. ring. intros. unfold cadd, cscal. ring.
Qed.
Lemma psum_map {A B} (g : A -> B) l f : psum (map g l) f = psum l (fun a => f (g a)).
Proof. induction l; cbn; [reflexivity|rewrite IHl; reflexivity]. Qed.
Lemma Kwd_pp t wpts i d j e : Kwd t wpts i d j e = Kpp (- t) (map pp_of wpts) i d j e.
Proof.
  unfold Kwd, Kpp. rewrite psum_map, <- psum_scal. apply psum_e. intros q _. unfold Kweakdir, dot3, sum3. cbn [pw pl pp_of]. ring.
Qed.
Lemma Kif_pp t ipts i d j e : Kif t ipts i d j e = Kpp t (map pi_of ipts) i d j e.
Proof.
  unfold Kif, Kpp. rewrite psum_map, <- psum_scal. apply psum_e. intros q _. unfold Kifc, dot3, sum3. cbn [pw pl pi_of fst snd]. ring.
Qed.
Lemma Kweak_tot n pts t wpts : Kweak n pts t wpts = Ktot n pts (map pp_of wpts) (- t).
Proof. extensionality i; extensionality d; extensionality j; extensionality e. unfold Kweak, Ktot. rewrite Kwd_pp. reflexivity. Qed.
Lemma Kcoup_tot n pts t ipts : Kcoup n pts t ipts = Ktot n pts (map pi_of ipts) t.
Proof. extensionality i; extensionality d; extensionality j; extensionality e. unfold Kcoup, Ktot. rewrite Kif_pp. reflexivity. Qed.
Lemma Ktot_sym n pts l t : sound pts -> forall x y, ddot n y (dapply n (Ktot n pts l t) x) = ddot n x (dapply n (Ktot n pts l t) y).
Proof.
  intros S x y. rewrite (ddot_ext n y _ _ (fun i d _ _ => Ktot_psys n pts l t x i d)), (ddot_ext n x _ _ (fun i d _ _ => Ktot_psys n pts l t y i d)).
  apply psys_sym. apply KSY. exact S.
Qed.
Lemma pp_pos wpts : wsound wpts -> forall p, In p (map pp_of wpts) -> 0 < pw p.
Proof. intros H p I. apply in_map_iff in I. destruct I as (q & <- & I). destruct (H q I). cbn. nra. Qed.
Lemma pi_pos ipts : isound ipts -> forall p, In p (map pi_of ipts) -> 0 < pw p.
Proof. intros H p I. apply in_map_iff in I. destruct I as (q & <- & I). destruct (H q I). cbn. nra. Qed.
Lemma pp_zero n wpts x : pval_zero n (map pp_of wpts) x <-> forall q, In q wpts -> vanishes (wval n q x).
Proof.
  split.
  - intros H q I c Hc. rewrite wval_ddot. apply H. apply in_map, I. exact Hc.
  - intros H p c I Hc. apply in_map_iff in I. destruct I as (q & <- & I). rewrite <- wval_ddot. apply H; assumption.
Qed.
Lemma pi_zero n ipts x : pval_zero n (map pi_of ipts) x <-> forall q, In q ipts -> vanishes (jump n q x).
Proof.
  split.
  - intros H q I c Hc. rewrite jump_ddot. apply H. apply in_map, I. exact Hc.
  - intros H p c I Hc. apply in_map_iff in I. destruct I as (q & <- & I). rewrite <- jump_ddot. apply H; assumption.
Qed.
