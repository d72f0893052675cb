From Coq Require Import Reals Lra Lia List Arith Psatz FunctionalExtensionality.
From Verif Require Import Tensor KinModel KinSpec KinAsm KinProofs KinStiff IndicatorModel IndicatorSpec IndicatorProofs DwrProofs EstModel EstSpec.
Import ListNotations.
Open Scope R_scope.

Lemma Em_sub : forall c a b, Em_der c (jsub a b) = vsub (Em_der c a) (Em_der c b).
Proof. intros. unfold jsub. rewrite Em_add, Em_scal. extensionality i. unfold vadd, vscal, vsub. ring. Qed.
Lemma Efd_sub : forall c a b, Ef_derd c a b = vsub (Ef_der c a) (Ef_der c b).
Proof. intros. extensionality i. unfold Ef_derd, Ef_der, vsub, mult2. destruct i as [|[|[|i]]]; ring. Qed.
Lemma dot_sub : forall x u v, dot3 x (vsub u v) = dot3 x u - dot3 x v.
Proof. intros. unfold vsub, dot3, sum3. ring. Qed.
Lemma dot_subl : forall x u v, dot3 (vsub u v) x = dot3 u x - dot3 v x.
Proof. intros. unfold vsub, dot3, sum3. ring. Qed.
Lemma psum_app : forall A (l l' : list A) f, psum (l ++ l') f = psum l f + psum l' f.
Proof. induction l; intros; cbn. ring. rewrite IHl. ring. Qed.
Lemma psum_concat : forall A (ls : list (list A)) f, psum (concat ls) f = psum ls (fun l => psum l f).
Proof. induction ls; intros; cbn. reflexivity. rewrite psum_app, IHls. reflexivity. Qed.
Lemma psum_minus : forall A (l : list A) f g, psum l (fun q => f q - g q) = psum l f - psum l g.
Proof. induction l; intros; simpl. ring. rewrite IHl. ring. Qed.
Lemma integral_flat : forall dens P, integral dens P = psum (concat (pels P)) (fun p => ew p * dens p).
Proof. intros. unfold integral, elint. rewrite psum_concat. reflexivity. Qed.
Lemma applyTotal_psum : forall ls x, applyTotal ls x = x + psum ls lval.
Proof. unfold applyTotal. induction ls; intros; cbn. ring. rewrite IHls. ring. Qed.
Lemma psum_list_sum : forall A (l : list A) f, psum l f = list_sum (map f l).
Proof. induction l; intros; cbn. reflexivity. unfold list_sum in *. rewrite IHl. reflexivity. Qed.

Lemma bending_residual : forall P vH vL, (forall l, In l (ploads P) -> lval l = vH l - vL l) ->
  est_total Bending P true = residual P ezH bzH vH - residual P ezL bzL vL.
Proof.
  intros P vH vL HL. unfold est_total, lsum, residual. rewrite applyTotal_psum, integral_flat, (psum_e _ _ _ _ HL), psum_minus.
  rewrite (psum_e _ (concat (pels P)) (fun p => ew p * est_dens Bending p)
    (fun p => ew p * (dot3 (j0 (ezH p)) (eF p) - (dot3 (eN p) (Em_der (edef p) (ezH p)) + dot3 (eM p) (Ef_der (edef p) (ezH p))))
            - ew p * (dot3 (j0 (ezL p)) (eF p) - (dot3 (eN p) (Em_der (edef p) (ezL p)) + dot3 (eM p) (Ef_der (edef p) (ezL p)))))).
  - rewrite psum_minus. unfold bintegral. rewrite (psum_e _ (pbnd P) (fun b => bw b * bdens b) (fun b => bw b * dot3 (j0 (bzH b)) (bg b) - bw b * dot3 (j0 (bzL b)) (bg b))).
    rewrite psum_minus. ring. intros b _. unfold bdens. rewrite dot_subl. ring.
  - intros p _. unfold est_dens. cbv zeta. rewrite dot_subl, Em_sub, Efd_sub, !dot_sub. ring.
Qed.
Lemma linj_j0 : forall F, linj (fun v => dot3 (j0 v) F).
Proof. intro F. split; intros; cbn [j0 jadd jscal]. apply dot_addl. apply dot_scall. Qed.
Lemma linj_scal : forall k F, linj F -> linj (fun v => k * F v).
Proof. intros k F [A B]. split; intros. rewrite A. ring. rewrite B. ring. Qed.
Lemma linj_minus : forall F G, linj F -> linj G -> linj (fun v => F v - G v).
Proof. intros F G [A B] [C D]. split; intros. rewrite A, C. ring. rewrite B, D. ring. Qed.
Lemma psum_field : forall A (l : list A) n (F : A -> jet -> R) (bas : A -> nat -> sjet) x, (forall q, In q l -> linj (F q)) ->
  psum l (fun q => F q (fieldjet n (bas q) x)) = rsum n (fun i => sum3 (fun d => psum l (fun q => F q (bvar d (bas q i))) * x i d)).
Proof.
  intros A l n F bas x HF.
  rewrite (psum_e _ _ _ (fun q => rsum n (fun i => sum3 (fun d => F q (bvar d (bas q i)) * x i d)))).
  - rewrite psum_rsum. apply rsum_ext. intros i _. unfold sum3.
    rewrite !psum_plus. repeat rewrite <- (Rmult_comm (x i _)). rewrite <- !psum_scal.
    f_equal; [f_equal|]; apply psum_e; intros; ring.
  - intros q I. apply (lin_field (F q) n (bas q) x (HF q I)).
Qed.
Lemma rsum_sum3_plus : forall n (a b x : coefs), rsum n (fun i => sum3 (fun d => a i d * x i d)) + rsum n (fun i => sum3 (fun d => b i d * x i d))
  = rsum n (fun i => sum3 (fun d => (a i d + b i d) * x i d)).
Proof. intros. rewrite <- rsum_plus. apply rsum_ext. intros. unfold sum3. ring. Qed.
Definition vres (p : epoint) (v : jet) : R := ew p * (dot3 (j0 v) (eF p) - (dot3 (eN p) (Em_der (edef p) v) + dot3 (eM p) (Ef_der (edef p) v))).
Lemma linj_vres : forall p, linj (vres p).
Proof. intro p. apply linj_scal. apply linj_minus. apply linj_j0. apply lin_Fint. Qed.
Lemma residual_field : forall P lf V x,
  residual P (fun p => fieldjet (fn V) (fp V p) x) (fun b => fieldjet (fn V) (fb V b) x) (fun l => dot3 (j0 (fieldjet (fn V) (fl V l) x)) (lf l))
  = dofs (fn V) (resvec P lf V) x.
Proof.
  intros P lf V x. unfold residual, dofs, resvec.
  rewrite (psum_field _ _ (fn V) vres (fp V) x) by (intros; apply linj_vres).
  rewrite (psum_field _ (pbnd P) (fn V) (fun b v => bw b * dot3 (j0 v) (bg b)) (fb V) x) by (intros; apply linj_scal, linj_j0).
  rewrite (psum_field _ (ploads P) (fn V) (fun l v => dot3 (j0 v) (lf l)) (fl V) x) by (intros; apply linj_j0).
  rewrite (rsum_sum3_plus (fn V) (fun i d => psum (concat (pels P)) (fun q => vres q (bvar d (fp V q i)))) (fun i d => psum (pbnd P) (fun q => bw q * dot3 (j0 (bvar d (fb V q i))) (bg q)))).
  rewrite (rsum_sum3_plus (fn V) (fun i d => _ + _) (fun i d => psum (ploads P) (fun q => dot3 (j0 (bvar d (fl V q i))) (lf q)))). reflexivity.
Qed.
Lemma residual_ext : forall P v v' vb vb' vl vl', (forall p, In p (concat (pels P)) -> v p = v' p) -> (forall b, In b (pbnd P) -> vb b = vb' b) ->
  (forall l, In l (ploads P) -> vl l = vl' l) -> residual P v vb vl = residual P v' vb' vl'.
Proof.
  intros P v v' vb vb' vl vl' A B C. unfold residual. f_equal; [f_equal|]; apply psum_e; intros q I; [rewrite (A q I)|rewrite (B q I)|apply C]; auto.
Qed.
Lemma estimator_dofs : forall P lf VL VH xL xH, has_duals P lf VL VH xL xH ->
  est_total Bending P true = dofs (fn VH) (resvec P lf VH) xH - dofs (fn VL) (resvec P lf VL) xL.
Proof.
  intros P lf VL VH xL xH (A & B & C).
  rewrite (bending_residual P (fun l => dot3 (j0 (fieldjet (fn VH) (fl VH l) xH)) (lf l)) (fun l => dot3 (j0 (fieldjet (fn VL) (fl VL l) xL)) (lf l)) C).
  rewrite <- !residual_field. f_equal; apply residual_ext; intros; try reflexivity; try apply A; try apply B; assumption.
Qed.
Lemma dofs_zero : forall n x y, (forall i d, (i < n)%nat -> (d < 3)%nat -> x i d = 0) -> dofs n x y = 0.
Proof. intros n x y H. unfold dofs. apply rsum_zero. intros i Hi. unfold sum3. rewrite !H by lia. ring. Qed.

(* ------------------------------------------------------------------ the linear estimator *)
Lemma load_field : forall P lf V x,
  psum (concat (pels P)) (fun p => ew p * dot3 (j0 (fieldjet (fn V) (fp V p) x)) (eF p))
  + psum (pbnd P) (fun b => bw b * dot3 (j0 (fieldjet (fn V) (fb V b) x)) (bg b)) + psum (ploads P) (fun l => dot3 (j0 (fieldjet (fn V) (fl V l) x)) (lf l))
  = dofs (fn V) (loadvec P lf V) x.
Proof.
  intros P lf V x. unfold dofs, loadvec.
  rewrite (psum_field _ _ (fn V) (fun p v => ew p * dot3 (j0 v) (eF p)) (fp V) x) by (intros; apply linj_scal, linj_j0).
  rewrite (psum_field _ (pbnd P) (fn V) (fun b v => bw b * dot3 (j0 v) (bg b)) (fb V) x) by (intros; apply linj_scal, linj_j0).
  rewrite (psum_field _ (ploads P) (fn V) (fun l v => dot3 (j0 v) (lf l)) (fl V) x) by (intros; apply linj_j0).
  rewrite (rsum_sum3_plus (fn V) (fun i d => psum (concat (pels P)) (fun q => ew q * dot3 (j0 (bvar d (fp V q i))) (eF q))) (fun i d => psum (pbnd P) (fun q => bw q * dot3 (j0 (bvar d (fb V q i))) (bg q)))).
  rewrite (rsum_sum3_plus (fn V) (fun i d => _ + _) (fun i d => psum (ploads P) (fun q => dot3 (j0 (bvar d (fl V q i))) (lf q)))). reflexivity.
Qed.
Lemma linear_dofs : forall P lf VL VH xL xH, has_duals P lf VL VH xL xH ->
  est_total Linear P true = dofs (fn VH) (loadvec P lf VH) xH - dofs (fn VL) (loadvec P lf VL) xL.
Proof.
  intros P lf VL VH xL xH (A & B & C). rewrite <- !load_field. unfold est_total, lsum. rewrite applyTotal_psum, integral_flat.
  rewrite (psum_e _ (ploads P) lval _ C), psum_minus.
  rewrite (psum_e _ (concat (pels P)) (fun p => ew p * est_dens Linear p)
    (fun p => ew p * dot3 (j0 (fieldjet (fn VH) (fp VH p) xH)) (eF p) - ew p * dot3 (j0 (fieldjet (fn VL) (fp VL p) xL)) (eF p))).
  2:{ intros p I. destruct (A p I) as (E1 & E2). unfold est_dens. cbv zeta. rewrite dot_subl, E1, E2. ring. }
  unfold bintegral. rewrite (psum_e _ (pbnd P) (fun b => bw b * bdens b)
    (fun b => bw b * dot3 (j0 (fieldjet (fn VH) (fb VH b) xH)) (bg b) - bw b * dot3 (j0 (fieldjet (fn VL) (fb VL b) xL)) (bg b))).
  2:{ intros b I. destruct (B b I) as (E1 & E2). unfold bdens. rewrite dot_subl, E1, E2. ring. }
  rewrite !psum_minus. ring.
Qed.
Lemma rsum_swap : forall n m f, rsum n (fun i => rsum m (f i)) = rsum m (fun j => rsum n (fun i => f i j)).
Proof. induction n; intros m f; simpl. symmetry. apply rsum_zero. reflexivity. rewrite IHn, <- rsum_plus. reflexivity. Qed.
Lemma rsum_sum3 : forall n f, rsum n (fun j => sum3 (f j)) = sum3 (fun e => rsum n (fun j => f j e)).
Proof. intros. unfold sum3. rewrite !rsum_plus. reflexivity. Qed.
Lemma sum3_ext : forall f g, (forall d, (d < 3)%nat -> f d = g d) -> sum3 f = sum3 g.
Proof. intros f g H. unfold sum3. rewrite !H by lia. reflexivity. Qed.
Lemma dofs_matvec : forall n K x y, dofs n (matvec n K x) y = rsum n (fun i => sum3 (fun d => rsum n (fun j => sum3 (fun e => K i d j e * x j e * y i d)))).
Proof.
  intros. unfold dofs, matvec. apply rsum_ext. intros i _. apply sum3_ext. intros d _. rewrite Rmult_comm, <- rsum_scal. apply rsum_ext. intros j _. unfold sum3. ring.
Qed.
Lemma sum3_swap : forall f, sum3 (fun d => sum3 (fun e => f d e)) = sum3 (fun e => sum3 (fun d => f d e)).
Proof. intros. unfold sum3. ring. Qed.
Lemma matvec_sym : forall n K x y, matsym n K -> dofs n (matvec n K x) y = dofs n (matvec n K y) x.
Proof.
  intros n K x y S. rewrite !dofs_matvec.
  transitivity (rsum n (fun i => rsum n (fun j => sum3 (fun d => sum3 (fun e => K i d j e * x j e * y i d))))).
  { apply rsum_ext. intros i _. rewrite rsum_sum3. reflexivity. }
  rewrite rsum_swap. apply rsum_ext. intros j Hj.
  transitivity (rsum n (fun i => sum3 (fun e => sum3 (fun d => K i d j e * x j e * y i d)))).
  { apply rsum_ext. intros i _. apply sum3_swap. }
  rewrite rsum_sum3. apply sum3_ext. intros e He. apply rsum_ext. intros i Hi. apply sum3_ext. intros d Hd. rewrite (S i d j e Hi Hd Hj He). ring.
Qed.
Lemma dofs_ext : forall n x x' y, same n x x' -> dofs n x y = dofs n x' y.
Proof. intros n x x' y H. unfold dofs. apply rsum_ext. intros i Hi. apply sum3_ext. intros d Hd. rewrite (H i d Hi Hd). reflexivity. Qed.
Lemma dofs_comm : forall n x y, dofs n x y = dofs n y x.
Proof. intros. unfold dofs. apply rsum_ext. intros. apply sum3_ext. intros. ring. Qed.
Lemma primal_dual : forall n K u z b g, matsym n K -> same n (matvec n K u) b -> same n (matvec n K z) g -> dofs n b z = dofs n g u.
Proof. intros n K u z b g S U Z. rewrite <- (dofs_ext n _ _ z U), <- (dofs_ext n _ _ u Z). apply matvec_sym. assumption. Qed.

(* ------------------------------------------------------------------ element-wise sums *)
Lemma run1_sum : forall nt dens tot P wl s s', (0 < nt)%nat -> length (pels P) = total_elems (ppatches P) ->
  (wl = true -> forall l, In l (ploads P) -> exists el, In el (concat (ppatches P)) /\ in_box (lpt l) el) ->
  run nt dens tot P wl 1 s (Ok s') -> list_sum (m_errors s') = m_error s' /\ m_error s' = lsum P wl (integral dens P) /\ length (m_errors s') = length (pels P).
Proof.
  intros nt dens tot P wl s s' Hn HL HC H. inversion H; subst; clear H. cbn [m_errors m_error]. rename H1 into E.
  assert (S0 : list_sum (map (elint dens) (pels P)) = integral dens P) by (unfold integral; rewrite psum_list_sum; reflexivity).
  destruct wl.
  - assert (A : exists errs', Ok errs = Ok errs' /\ length errs' = length (map (elint dens) (pels P)) /\ list_sum errs' = applyTotal (ploads P) (list_sum (map (elint dens) (pels P)))).
    { assert (G : forall ls errs0 o, (forall l, In l ls -> exists el, In el (concat (ppatches P)) /\ in_box (lpt l) el) -> length errs0 = total_elems (ppatches P) ->
        applyAll nt (ppatches P) ls errs0 o -> exists errs', o = Ok errs' /\ length errs' = length errs0 /\ list_sum errs' = applyTotal ls (list_sum errs0)).
      { intros ls errs0 o HC' HL' R. revert HC' HL'. induction R as [e0|l r e0 e1 o A B IH|l r e0 A]; intros HC' HL'.
        - exists e0. repeat split.
        - destruct (elwise_exact _ _ _ _ _ Hn HL' A) as (a & E1 & La & Va). injection E1 as <-.
          destruct IH as (e' & -> & L' & S'). intros; apply HC'; right; assumption. congruence.
          exists e'. split. reflexivity. split. congruence. rewrite S'. unfold applyTotal. cbn [fold_left].
          rewrite (elwise_sum nt (ppatches P) l e0 e1 Hn HL' A). reflexivity. apply HC'. left; reflexivity.
        - exfalso. destruct (elwise_exact _ _ _ _ _ Hn HL' A) as (a & E1 & _). discriminate. }
      apply (G (ploads P)); auto. rewrite map_length. assumption. }
    destruct A as (e' & E1 & L & S). injection E1 as <-. rewrite S, S0, L, map_length. repeat split.
  - subst errs. rewrite S0, map_length. repeat split.
Qed.

(* ------------------------------------------------------------------ eigenvalue estimators *)
Lemma rowmat_sub : forall u v A, rowmat (vsub u v) A = vsub (rowmat u A) (rowmat v A).
Proof. intros. extensionality b. unfold rowmat, vsub, sum3. ring. Qed.
Lemma modal_A_sub : forall p, modal_A p = Klin (mori p) (mA p) (mB p) (mC p) (mD p) (mzH p) (mu_ p) - Klin (mori p) (mA p) (mB p) (mC p) (mD p) (mzL p) (mu_ p).
Proof. intro p. unfold modal_A, Klin. cbv zeta. rewrite Em_sub, Efd_sub, !rowmat_sub. unfold vadd, vsub, dot3, sum3. ring. Qed.
Lemma modal_forms : forall pts evL evDL evDH, modal_error pts evL evDL evDH =
  (aform pts mzH mu_ - evL * bform pts mzH mu_) - (aform pts mzL mu_ - evL * bform pts mzL mu_) + (evDH - evDL) * (bform pts mu_ mu_ - 1).
Proof.
  intros. unfold modal_error, aform, bform.
  rewrite (psum_e _ pts (fun p => mw p * (modal_A p - evL * modal_Bd p + (evDH - evDL) * modal_Bp p))
   (fun p => (mw p * Klin (mori p) (mA p) (mB p) (mC p) (mD p) (mzH p) (mu_ p) - evL * (mw p * (mrho p * dot3 (j0 (mzH p)) (j0 (mu_ p)))))
     - (mw p * Klin (mori p) (mA p) (mB p) (mC p) (mD p) (mzL p) (mu_ p) - evL * (mw p * (mrho p * dot3 (j0 (mzL p)) (j0 (mu_ p)))))
     + (evDH - evDL) * (mw p * (mrho p * dot3 (j0 (mu_ p)) (j0 (mu_ p)))))).
  - rewrite psum_plus, !psum_minus, !psum_scal. ring.
  - intros p _. rewrite modal_A_sub. unfold modal_Bd, modal_Bp. rewrite dot_sub, (dot_comm (j0 (mu_ p)) (j0 (mzH p))), (dot_comm (j0 (mu_ p)) (j0 (mzL p))). ring.
Qed.
Lemma Klin_sym : forall c A B C D v u, symm3 A -> symm3 D -> transp3 B C -> Klin c A B C D v u = Klin c A B C D u v.
Proof.
  intros c A B C D v u SA SD T. unfold Klin. unfold vadd, rowmat, dot3, sum3.
  rewrite !(SA 1%nat 0%nat), !(SA 2%nat 0%nat), !(SA 2%nat 1%nat), !(SD 1%nat 0%nat), !(SD 2%nat 0%nat), !(SD 2%nat 1%nat) by lia.
  rewrite !(T 0%nat _), !(T 1%nat _), !(T 2%nat _) by lia. ring.
Qed.
Lemma aform_sym : forall pts u v, (forall p, In p pts -> symm3 (mA p) /\ symm3 (mD p) /\ transp3 (mB p) (mC p)) -> aform pts u v = aform pts v u.
Proof. intros pts u v H. unfold aform. apply psum_e. intros p I. destruct (H p I) as (A & D & T). rewrite (Klin_sym _ _ _ _ _ (u p) (v p) A D T). reflexivity. Qed.
Lemma bform_sym : forall pts u v, bform pts u v = bform pts v u.
Proof. intros. unfold bform. apply psum_e. intros p _. rewrite dot_comm. reflexivity. Qed.

Lemma straight_d2 : forall c w a, straight c -> deriv2_map c w a = 0.
Proof. intros c w a H. unfold deriv2_map. rewrite H. unfold vzero, dot3, sum3. ring. Qed.
Lemma Efd_bk_straight : forall c zH zL, straight c -> Efd_bk c zH zL = vsub (Ef_bk c zH) (Ef_bk c zL).
Proof. intros c zH zL H. extensionality i. unfold Efd_bk, Ef_bk, vsub, mult2. rewrite !(straight_d2 c) by assumption. destruct i as [|[|[|i]]]; rewrite ?(straight_d2 c) by assumption; ring. Qed.
Lemma Ef_bk_straight : forall c v, straight c -> Ef_bk c v = Ef_der c v.
Proof. intros c v H. extensionality i. unfold Ef_bk, Ef_der, mult2. destruct i as [|[|[|i]]]; rewrite ?(straight_d2 c) by assumption; ring. Qed.
Lemma dofs_minus : forall n r x y, dofs n r x - dofs n r y = dofs n r (fun i d => x i d - y i d).
Proof.
  intros. unfold dofs. transitivity (rsum n (fun i => sum3 (fun d => r i d * x i d)) + (-1) * rsum n (fun i => sum3 (fun d => r i d * y i d))). ring.
  rewrite <- rsum_scal, <- rsum_plus. apply rsum_ext. intros. unfold sum3. ring.
Qed.
Lemma nested_residual : forall P lf VL VH E x, nested P lf VL VH E -> dofs (fn VL) (resvec P lf VL) x = dofs (fn VH) (resvec P lf VH) (E x).
Proof.
  intros P lf VL VH E x N. destruct (N x) as (A & B & C). rewrite <- !residual_field. apply residual_ext; intros; auto. rewrite C; auto.
Qed.
Lemma sq_nonneg : forall k P, (forall p, In p (concat (pels P)) -> 0 <= ew p) -> 0 <= integral (sq_dens k) P.
Proof.
  intros k P H. rewrite integral_flat. revert H. induction (concat (pels P)) as [|p l IH]; intro H; cbn. lra.
  assert (0 <= ew p) by (apply H; left; reflexivity). assert (0 <= psum l (fun p => ew p * sq_dens k p)) by (apply IH; intros; apply H; right; assumption).
  assert (0 <= ew p * sq_dens k p) by (apply Rmult_le_pos; [assumption|unfold sq_dens; nra]). lra.
Qed.
Lemma psum_nonneg : forall A (l : list A) f, (forall q, In q l -> 0 <= f q) -> 0 <= psum l f.
Proof. induction l; intros f H; cbn. lra. assert (0 <= f a) by (apply H; left; reflexivity). assert (0 <= psum l f) by (apply IHl; intros; apply H; right; assumption). lra. Qed.
Lemma quad4_sym : forall A B C D e f e' f', symm3 A -> symm3 D -> transp3 B C -> quad4 A B C D e f e' f' = quad4 A B C D e' f' e f.
Proof.
  intros A B C D e f e' f' SA SD T. unfold quad4. unfold vadd, rowmat, dot3, sum3.
  rewrite !(SA 1%nat 0%nat), !(SA 2%nat 0%nat), !(SA 2%nat 1%nat), !(SD 1%nat 0%nat), !(SD 2%nat 0%nat), !(SD 2%nat 1%nat) by lia.
  rewrite !(T 0%nat _), !(T 1%nat _), !(T 2%nat _) by lia. ring.
Qed.

Definition hok (M : vec) (prs : list (jet * jet)) : Prop := (forall a, (a < 3)%nat -> M a = 0) \/ (forall q a, In q prs -> jsec (fst q) a = jsec (snd q) a).
Lemma straight_var2 : forall c M u v u0 v0, straight c -> hok M [(u, u0); (v, v0)] -> Ef2_bk c u v u0 v0 M = Ef_der2 c u v M.
Proof.
  intros c M u v u0 v0 H K. unfold Ef2_bk, Ef_der2, flatdot2, var2deriv2dot, curv_of, mult2, vadd. change (j12 c) with (jsec c 2). rewrite !H. destruct K as [Z|K].
  - unfold dot3, sum3. rewrite !Z by lia. rewrite ?H. unfold vzero. ring.
  - assert (A : forall a, jsec u a = jsec u0 a) by (intro; apply (K (u, u0)); left; reflexivity).
    assert (B : forall a, jsec v a = jsec v0 a) by (intro; apply (K (v, v0)); right; left; reflexivity).
    unfold dot3, sum3. rewrite ?H, ?A, ?B. unfold vzero. ring.
Qed.
Lemma Em_flatdot : forall u v N, dot3 (Em_der u v) N = flatdot v u N.
Proof. intros. unfold flatdot, Em_der, dot3, sum3. ring. Qed.
Lemma KL2_straight : forall p u z, straight (kori p) -> KL2 p u z = kL p z u.
Proof. intros p u z H. unfold KL2, kL, Klin, quad4. cbv zeta. rewrite !Ef_bk_straight by assumption. reflexivity. Qed.
Lemma KNL2_straight : forall p u z u0 z0, straight (kdef p) -> hok (kM p) [(z, z0); (u, u0)] ->
  KNL2 p u z u0 z0 = Kstiff (kdef p) (kA' p) (kB' p) (kC' p) (kD' p) (kN p) (kM p) z u.
Proof. intros p u z u0 z0 H K. unfold KNL2, Kstiff, quad4. cbv zeta. rewrite !Ef_bk_straight, Em_flatdot, straight_var2 by assumption. ring. Qed.
Lemma quad4_sub : forall A B C D e f e0 f0 e' f', quad4 A B C D (vsub e e0) (vsub f f0) e' f' = quad4 A B C D e f e' f' - quad4 A B C D e0 f0 e' f'.
Proof. intros. unfold quad4. rewrite !rowmat_sub. unfold vadd, vsub, dot3, sum3. ring. Qed.
Lemma KdL_straight : forall p, straight (kori p) -> Kd_L p = kL p (kzH p) (ku p) - kL p (kzL p) (ku p).
Proof.
  intros p H. rewrite <- !(KL2_straight p (ku p)) by assumption. unfold Kd_L, KL2. cbv zeta. rewrite Em_sub, Efd_bk_straight, quad4_sub by assumption. reflexivity.
Qed.
Lemma Ef2_sub_straight : forall c u zH zL u0 zH0 zL0 M, straight c -> Efd2_bk c u zH zL u0 zH0 zL0 M = Ef2_bk c zH u zH0 u0 M - Ef2_bk c zL u zL0 u0 M.
Proof.
  intros c u zH zL u0 zH0 zL0 M H. unfold Efd2_bk, Ef2_bk, mult2, vadd, vsub, dot3, sum3. rewrite !H. unfold vzero. ring.
Qed.
Lemma KdNL_straight : forall p0 p, straight (kdef p) -> Kd_NL p0 p = KNL2 p (ku p) (kzH p) (ku p0) (kzH p0) - KNL2 p (ku p) (kzL p) (ku p0) (kzL p0).
Proof.
  intros p0 p H. unfold Kd_NL, KNL2. cbv zeta. rewrite Em_sub, Efd_bk_straight, quad4_sub, Ef2_sub_straight by assumption.
  rewrite Em_sub, dot_subl. ring.
Qed.
Lemma elsum_e : forall els f g, (forall el p, In el els -> In p el -> f (hd p el) p = g p) -> elsum els f = psum (concat els) g.
Proof.
  intros els f g H. unfold elsum. rewrite psum_concat. apply psum_e. intros el I. apply psum_e. intros p J. apply H; assumption.
Qed.
Lemma hess_pair : forall els fs el p f g, hess_ok els fs -> In el els -> In p el -> In f fs -> In g fs ->
  hok (kM p) [(f p, f (hd p el)); (g p, g (hd p el))].
Proof.
  intros els fs el p f g H I J F G. destruct (H el p I J) as [Z|K]. left; exact Z. right. intros q a [<-|[<-|[]]]; apply K; assumption.
Qed.
Lemma in_pt : forall (els : list (list bkpt)) el p, In el els -> In p el -> In p (concat els).
Proof. intros els el p I J. apply in_concat. exists el. split; assumption. Qed.
Lemma buckling_forms : forall els evL evDL evDH, straight_all els -> hess_ok els [ku; kzL; kzH] -> let pts := concat els in buckling_error els evL evDL evDH =
  (lform pts kzH ku - evL * gform pts kzH ku) - (lform pts kzL ku - evL * gform pts kzL ku) + (evDH - evDL) * (gform pts ku ku - 1).
Proof.
  intros els evL evDL evDH H K pts. unfold buckling_error, lform, gform.
  rewrite (elsum_e els _ (fun p => (kw p * kL p (kzH p) (ku p) - evL * (kw p * kG p (kzH p) (ku p))) - (kw p * kL p (kzL p) (ku p) - evL * (kw p * kG p (kzL p) (ku p)))
     + (evDH - evDL) * (kw p * kG p (ku p) (ku p)))).
  - fold pts. rewrite psum_plus, !psum_minus, !psum_scal. ring.
  - intros el p I J. destruct (H p (in_pt _ _ _ I J)) as (S1 & S2). set (p0 := hd p el).
    rewrite KdL_straight, KdNL_straight by assumption.
    rewrite !KNL2_straight by (try assumption; apply (hess_pair els _ el p _ _ K I J); cbn; auto).
    change (K_NL p0 p) with (KNL2 p (ku p) (ku p) (ku p0) (ku p0)). change (K_L p) with (KL2 p (ku p) (ku p)).
    rewrite KNL2_straight by (try assumption; apply (hess_pair els _ el p _ _ K I J); cbn; auto). rewrite KL2_straight by assumption. unfold kG. ring.
Qed.
Lemma kG_sym : forall p u v, regular (kdef p) -> symm3 (kA p) -> symm3 (kD p) -> transp3 (kB p) (kC p) -> symm3 (kA' p) -> symm3 (kD' p) -> transp3 (kB' p) (kC' p) ->
  kG p u v = kG p v u.
Proof. intros. unfold kG, kL. rewrite Kstiff_sym by assumption. rewrite (Klin_sym _ _ _ _ _ u v) by assumption. reflexivity. Qed.
