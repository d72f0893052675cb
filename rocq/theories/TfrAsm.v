(* Assembly of the tension-field membrane; the derivative of the stress of a wrinkled point is symmetric and non-negative. *)
From Coq Require Import Reals Lra Lia List Psatz FunctionalExtensionality.
From Coquelicot Require Import Coquelicot.
From Verif Require Import Tensor TFTModel TFTSpec TFTProofs TFTRoot TFTBranch TFTWrinkle TFTImplicit TFTBranchProps KinModel KinSpec KinProofs KinAsm KinStiff TfrModel TfrSpec TfrProofs TfrTangent.
Import ListNotations.
Open Scope R_scope.

(* ---------------- the exact tangent of a wrinkled point ---------------- *)
Definition wtan (th : R) (C : mat) (S : vec) : mat := fun i j => compute_C_lin th C S i j - coupling_term th C S i j.
Definition cn1 (th : R) (C : mat) : vec := mvec3 C (n1v th).
Definition cn2 (th : R) (C : mat) : vec := fun i => mvec3 C (n2v th) i - quad (n2v th) C (n1v th) / quad (n1v th) C (n1v th) * mvec3 C (n1v th) i.
Lemma wtan_formula th C S i j : sym3 C -> (i < 3)%nat -> (j < 3)%nat -> quad (n1v th) C (n1v th) <> 0 -> dfdT th C S <> 0 ->
  wtan th C S i j = C i j - cn1 th C i * cn1 th C j / quad (n1v th) C (n1v th) - 2 * gamma th C S / dfdT th C S * cn2 th C i * cn2 th C j.
Proof.
  intros HS Hi Hj HD HF.
  assert (R1 : forall u, rowmul u C j = mvec3 C u j).
  { intro u. unfold rowmul, mvec3, sum3. rewrite (HS 0%nat j), (HS 1%nat j), (HS 2%nat j) by lia. ring. }
  assert (M : mmul3 C (dn1_lin th C S) i j = mvec3 C (n1v th) i * dgammadE_lin th C j + dgammadT th C S * mvec3 C (n1v th) i * dTdE_lin th C S j + 2 * gamma th C S * mvec3 C (n2v th) i * dTdE_lin th C S j).
  { unfold mmul3, dn1_lin, mvec3, sum3. ring. }
  assert (Q : mvec3 C (fun l => dgammadT th C S * n1v th l + 2 * gamma th C S * n2v th l) i = dgammadT th C S * mvec3 C (n1v th) i + 2 * gamma th C S * mvec3 C (n2v th) i).
  { unfold mvec3, sum3. ring. }
  unfold wtan, compute_C_lin, coupling_term. rewrite M, Q. unfold dTdE_lin, dfdE_lin, dgammadE_lin, dgammadT, tmpc, cn1, cn2. rewrite !R1.
  field. split; assumption.
Qed.
Lemma wtan_sym th C S i j : sym3 C -> (i < 3)%nat -> (j < 3)%nat -> quad (n1v th) C (n1v th) <> 0 -> dfdT th C S <> 0 -> wtan th C S i j = wtan th C S j i.
Proof. intros HS Hi Hj HD HF. rewrite !wtan_formula by assumption. rewrite (HS i j Hi Hj). unfold Rdiv. ring. Qed.

Lemma slope_nonneg (f : R -> R) l : is_derive f 0 l -> f 0 = 0 -> locally 0 (fun t => 0 <= t * f t) -> 0 <= l.
Proof.
  intros DF F0 (d & L). destruct (Rle_dec 0 l) as [K|K]; [exact K|exfalso]. apply is_derive_Reals in DF. destruct (DF (- l) ltac:(lra)) as (d' & Q).
  set (t := Rmin d d' / 2). assert (Pt : 0 < t < Rmin d d'). { assert (0 < Rmin d d') by (apply Rmin_glb_lt; apply cond_pos). unfold t; lra. }
  assert (t < d) by (eapply Rlt_le_trans; [apply Pt|apply Rmin_l]). assert (t < d') by (eapply Rlt_le_trans; [apply Pt|apply Rmin_r]).
  specialize (Q t ltac:(lra) ltac:(rewrite Rabs_pos_eq; lra)). rewrite Rplus_0_l, F0, Rminus_0_r in Q. apply Rabs_def2 in Q as (Q1 & _).
  assert (W : 0 <= t * f t). { apply L. unfold ball; cbn; unfold AbsRing_ball; cbn. unfold abs, minus, plus, opp; cbn. rewrite Ropp_0, Rplus_0_r, Rabs_pos_eq; lra. }
  assert (f t < 0). { apply (Rmult_lt_reg_r (/ t)); [apply Rinv_0_lt_compat; lra|]. rewrite Rmult_0_l. unfold Rdiv in Q1. lra. }
  nra.
Qed.
Lemma wtan_nonneg th C E g s (H : vec) : sym3 C -> posdef3 C -> wrinkled_state C E th g s ->
  0 <= sum3 (fun i => sum3 (fun j => H i * wtan th C (hooke C E) i j * H j)).
Proof.
  intros HS HP W. set (e := fun t i => E i + t * H i).
  assert (E0 : forall i, e 0 i = E i) by (intro; unfold e; ring).
  assert (E0' : e 0 = E) by (extensionality i; apply E0).
  assert (D : is_dvec e 0 H). { intros i Hi. unfold e. auto_derive; [exact I|ring]. }
  assert (P0 : physical C (hooke C (e 0)) (e 0) th) by (rewrite E0'; apply (state_iff C E th HS HP); eauto).
  destruct (path_branch C e H th HS HP D P0) as (thb & T0 & DB & RL & PB).
  destruct (path_response C e H th HS HP D P0) as (_ & DR). specialize (DR thb PB). rewrite E0' in DR.
  set (f := fun t => dot3 (minus3 (compute_S (thb t) C (hooke C (e t))) (compute_S th C (hooke C E))) H).
  apply (slope_nonneg f).
  - evar_last.
    + unfold f. apply (d_dot (fun t => minus3 (compute_S (thb t) C (hooke C (e t))) (compute_S th C (hooke C E))) (fun _ => H) 0
        (fun i => sum3 (fun j => (compute_C_lin th C (hooke C E) i j - coupling_term th C (hooke C E) i j) * H j)) (fun _ => 0)).
      * intros i Hi. unfold minus3. evar_last; [apply (is_derive_minus (K := R_AbsRing) (V := R_NormedModule)); [apply DR, Hi|apply (is_derive_const (K := R_AbsRing) (V := R_NormedModule))]|].
        unfold minus, plus, opp, zero; cbn. ring.
      * intros i Hi. apply (is_derive_const (K := R_AbsRing) (V := R_NormedModule)).
    + cbv beta. unfold dot3, wtan, sum3. ring.
  - unfold f. rewrite T0, E0'. unfold dot3, minus3, sum3. ring.
  - revert PB. apply filter_imp. intros t PH. destruct (proj1 (proj1 (state_iff C (e t) (thb t) HS HP)) PH) as (g' & s' & W').
    assert (K := kkt_wrinkled C E th g s W). assert (K' := kkt_wrinkled C (e t) (thb t) g' s' W').
    destruct (proj2 (state_iff C E th HS HP) g s W) as (G & _). destruct (proj2 (state_iff C (e t) (thb t) HS HP) g' s' W') as (G' & _).
    assert (SE : forall i, compute_S th C (hooke C E) i = inner_stress C (plus3 E (fun i => g * dyad th i)) i).
    { intro i. unfold compute_S. rewrite <- G. symmetry. exact (state_S C E th g i). }
    assert (SE' : forall i, compute_S (thb t) C (hooke C (e t)) i = inner_stress C (plus3 (e t) (fun i => g' * dyad (thb t) i)) i).
    { intro i. unfold compute_S. rewrite <- G'. symmetry. exact (state_S C (e t) (thb t) g' i). }
    set (P := fun i => g * dyad th i) in *. set (P' := fun i => g' * dyad (thb t) i) in *.
    assert (Q1 := proj2 (kkt_pair C E P (e t) P' HS HP K K')). 
    destruct K as (A & B & Z), K' as (A' & B' & Z').
    assert (R1 := psd_dot _ _ B A'). assert (R2 := psd_dot _ _ B' A).
    assert (TF : t * f t = dot3 (minus3 (inner_stress C (plus3 (e t) P')) (inner_stress C (plus3 E P))) (minus3 (e t) E)).
    { assert (EI : forall i, e t i - E i = t * H i) by (intro; unfold e; ring). unfold f, dot3, minus3, sum3. rewrite !SE, !SE', !EI. ring. }
    rewrite TF.
    assert (N1 := energy_pos C (minus3 (plus3 (e t) P') (plus3 E P)) HP).
    assert (X : dot3 (minus3 (inner_stress C (plus3 (e t) P')) (inner_stress C (plus3 E P))) (minus3 (e t) E)
      = 2 * inner_energy C (minus3 (plus3 (e t) P') (plus3 E P)) - (dot3 (inner_stress C (plus3 (e t) P')) P' - dot3 (inner_stress C (plus3 (e t) P')) P - dot3 (inner_stress C (plus3 E P)) P' + dot3 (inner_stress C (plus3 E P)) P)).
    { unfold inner_energy, inner_stress, dot3, minus3, plus3, sum3. field. }
    rewrite X. lra.
Qed.

(* ---------------- sums over points ---------------- *)
Lemma osum_ok l f g : (forall q, In q l -> f q = Ok (g q)) -> osum l f = Ok (psum l g).
Proof.
  induction l; intro K; [reflexivity|]. cbn [osum psum]. rewrite (K a (or_introl eq_refl)), IHl; [reflexivity|]. intros; apply K; right; assumption.
Qed.
Lemma psum_der {A} (l : list A) (f : R -> A -> R) (d : A -> R) t :
  (forall q, In q l -> is_derive (fun s => f s q) t (d q)) -> is_derive (fun s => psum l (f s)) t (psum l d).
Proof.
  induction l; intro K; cbn [psum]; [apply d_const|].
  apply (d_plus (fun s => f s a) (fun s => psum l (f s))); [apply K; left; reflexivity|apply IHl; intros; apply K; right; assumption].
Qed.
Lemma psum_same {A} (l : list A) f g : (forall q, In q l -> f q = g q) -> psum l f = psum l g.
Proof. induction l; intro K; [reflexivity|]. cbn [psum]. rewrite (K a (or_introl eq_refl)), IHl; [reflexivity|]. intros; apply K; right; assumption. Qed.
Lemma psum_swap {A} (l : list A) n (f : A -> nat -> R) : psum l (fun q => rsum n (f q)) = rsum n (fun i => psum l (fun q => f q i)).
Proof.
  induction l; cbn [psum]; [symmetry; apply rsum_zero; reflexivity|]. rewrite IHl, <- rsum_plus. reflexivity.
Qed.
Lemma psum_swap3 {A} (l : list A) (f : A -> nat -> R) : psum l (fun q => sum3 (f q)) = sum3 (fun i => psum l (fun q => f q i)).
Proof. induction l; cbn [psum]; unfold sum3 in *; [ring|]. rewrite IHl. ring. Qed.
Lemma psum_scalr {A} (l : list A) (f : A -> R) c : psum l (fun q => f q * c) = psum l f * c.
Proof. induction l; cbn [psum]; [ring|]. rewrite IHl. ring. Qed.

Lemma mdef_path n q x y : jpath (fun s => mdef n q (cmove x y s)) 0 (fieldjet n (mbas q) y).
Proof. exact (qdef_path n (mkq 0 (mbas q) (mori q) (fun _ _ _ => 0) (fun _ _ _ => 0) (fun _ _ _ _ => 0) (fun _ _ _ _ => 0) (fun _ _ _ _ => 0) (fun _ _ _ _ => 0)) x y 0). Qed.
Lemma mem_dpath n q x y : is_dvec (fun s => mem n q (cmove x y s)) 0 (Em_der (mdef n q x) (fieldjet n (mbas q) y)).
Proof. assert (K := mem_path (mori q) _ 0 _ (mdef_path n q x y)). cbv beta in K. rewrite cmove0 in K. exact K. Qed.

Definition rval (o : outcome R) : R := match o with Ok v => v | _ => 0 end.
Definition Sof (mult : R) (q : mpoint) (E : vec) : vec := oval (tft_stress mult (mC q) E (mtf q E) (mtheta q)).
Lemma mN_ok mult q E : answers (mC q) (mtf q) (mtheta q) -> mN mult q E = Ok (fun i => mth q * Sof mult q E i).
Proof.
  intro AN. destruct (AN E) as (th & D & T). destruct (stress_returned mult _ _ _ _ _ D T) as (S & K & _). unfold mN, Sof. rewrite K. reflexivity.
Qed.
Lemma Fmem_ok n mult pts x i d : (forall q, In q pts -> answers (mC q) (mtf q) (mtheta q)) ->
  Fmem n mult pts x i d = Ok (psum pts (fun q => mw q * Fint_mem (mdef n q x) (fun a => mth q * Sof mult q (mem n q x) a) (bvar d (mbas q i)))).
Proof. intro AN. unfold Fmem. apply osum_ok. intros q Hq. rewrite (mN_ok mult q _ (AN q Hq)). reflexivity. Qed.

Lemma lin_Fm c N : linj (Fint_mem c N).
Proof. split; intros; unfold Fint_mem; [rewrite Em_add, dot_add|rewrite Em_scal, dot_scal]; ring. Qed.
Lemma lin_Km c A N v : linj (Kstiff_mem c A N v).
Proof.
  split; intros; unfold Kstiff_mem, flatdot; [rewrite Em_add, !dot_add|rewrite Em_scal, !dot_scal]; unfold jadd, jscal; cbn; rewrite ?dot_add, ?dot_scal; ring.
Qed.
