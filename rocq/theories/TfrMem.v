(* The assembled tension-field membrane: force and matrix. *)
From Coq Require Import Reals Lra Lia List Psatz FunctionalExtensionality.
From Coquelicot Require Import Coquelicot.
From Verif Require Import Tensor TFTModel TFTSpec TFTProofs TFTRoot TFTBranch TFTWrinkle TFTImplicit TFTBranchProps KinModel KinSpec KinProofs KinAsm KinStiff TfrModel TfrSpec TfrProofs TfrTangent TfrAsm.
Import ListNotations.
Open Scope R_scope.

(* total relaxed energy of the membrane *)
Definition mem_energy (n : nat) (pts : list mpoint) (Wr : mpoint -> vec -> R) (x : coefs) : R :=
  psum pts (fun q => mw q * (mth q * Wr q (mem n q x))).

Lemma force_gradient n mult pts Wr x y :
  (forall q, In q pts -> sym3 (mC q) /\ posdef3 (mC q) /\ answers (mC q) (mtf q) (mtheta q) /\ (forall E, relaxed (mC q) E (Wr q E)) /\
     (mult = 0 \/ mtf q (mem n q x) <> -1)) ->
  is_derive (fun t => mem_energy n pts Wr (cmove x y t)) 0 (rsum n (fun i => sum3 (fun d => rval (Fmem n mult pts x i d) * y i d))).
Proof.
  intro H.
  assert (EQ : rsum n (fun i => sum3 (fun d => rval (Fmem n mult pts x i d) * y i d))
    = psum pts (fun q => mw q * (mth q * dot3 (Sof mult q (mem n q x)) (Em_der (mdef n q x) (fieldjet n (mbas q) y))))).
  { transitivity (psum pts (fun q => mw q * Fint_mem (mdef n q x) (fun a => mth q * Sof mult q (mem n q x) a) (fieldjet n (mbas q) y))).
    - transitivity (psum pts (fun q => rsum n (fun i => sum3 (fun d => mw q * Fint_mem (mdef n q x) (fun a => mth q * Sof mult q (mem n q x) a) (bvar d (mbas q i)) * y i d)))).
      + rewrite psum_swap. apply rsum_ext. intros i Hi. rewrite psum_swap3. unfold sum3.
        rewrite !(Fmem_ok n mult pts x i) by (intros q Hq; apply (H q Hq)). cbn [rval]. rewrite <- !psum_scalr. reflexivity.
      + apply psum_same. intros q Hq. rewrite (lin_field _ n (mbas q) y (lin_Fm (mdef n q x) (fun a => mth q * Sof mult q (mem n q x) a))).
        rewrite <- rsum_scal. apply rsum_ext. intros i Hi. unfold sum3. ring.
    - apply psum_same. intros q Hq. unfold Fint_mem, dot3, sum3. ring. }
  rewrite EQ. unfold mem_energy. apply psum_der. intros q Hq. destruct (H q Hq) as (HS & HP & AN & HW & HM).
  apply d_cmul. apply d_cmul.
  destruct (AN (mem n q x)) as (th & D & T). destruct (stress_returned mult _ _ _ _ _ D T) as (S & K & SE).
  assert (KK := describes_kkt _ _ _ _ HS HP D).
  assert (E0 : (fun t => mem n q (cmove x y t)) 0 = mem n q x) by (cbv beta; rewrite cmove0; reflexivity).
  evar_last; [apply (relaxed_derive (mC q) (Wr q) (fun t => mem n q (cmove x y t)) (Em_der (mdef n q x) (fieldjet n (mbas q) y)) (wrinkle_strain (mC q) (mem n q x) (mtf q (mem n q x)) th) HS HP HW)|].
  - apply mem_dpath.
  - rewrite E0. exact KK.
  - rewrite E0. unfold Sof. rewrite K. cbn [oval]. unfold dot3, sum3.
    assert (Q : forall i, (i < 3)%nat -> S i = inner_stress (mC q) (plus3 (mem n q x) (wrinkle_strain (mC q) (mem n q x) (mtf q (mem n q x)) th)) i).
    { intros i Hi. rewrite (SE i Hi). destruct (Req_EM_T (mtf q (mem n q x)) (-1)) as [X|X]; [|ring]. destruct HM as [M|M]; [rewrite M; ring|contradiction]. }
    rewrite !Q by lia. reflexivity.
Qed.

(* ---------------- the derivative of the force ---------------- *)
Definition angle_at (q : mpoint) (E : vec) : R := rval (mtheta q (mC q) (inner_stress (mC q) E) E).
(* derivative of the returned stress with respect to the strain: the code's matrix less its coupling term *)
Definition exact_at (mult : R) (q : mpoint) (E : vec) : mat := fun i j =>
  if Req_EM_T (mtf q E) 1 then mC q i j else if Req_EM_T (mtf q E) (-1) then mult * mC q i j
  else wtan (angle_at q E) (mC q) (inner_stress (mC q) E) i j.
(* what the code adds *)
Definition extra_at (q : mpoint) (E : vec) : mat := fun i j =>
  if Req_EM_T (mtf q E) 0 then coupling_term (angle_at q E) (mC q) (inner_stress (mC q) E) i j else 0.
(* away from the transitions *)
Definition settled (C : mat) (E : vec) : Prop :=
  pos_stress (inner_stress C E) \/ neg_strain E \/ exists th g s, wrinkled_state C E th g s.
Definition Kexact (n : nat) (mult : R) (pts : list mpoint) (x : coefs) (i d j e : nat) : R :=
  psum pts (fun q => mw q * Kstiff_mem (mdef n q x) (fun a b => mth q * exact_at mult q (mem n q x) a b) (fun a => mth q * Sof mult q (mem n q x) a) (bvar d (mbas q i)) (bvar e (mbas q j))).

Lemma settled_strict mult q E : sym3 (mC q) -> posdef3 (mC q) -> answers (mC q) (mtf q) (mtheta q) -> settled (mC q) E ->
  strict mult (mC q) E (exact_at mult q E).
Proof.
  intros HS HP AN [T|[T|(th & g & s & W)]]; destruct (AN E) as (x & D & TH).
  - assert (Q := taut_only _ _ _ _ HS HP T D). apply st_taut; [exact T|]. intros i j. unfold exact_at. rewrite Q. destruct (Req_EM_T 1 1); [reflexivity|lra].
  - assert (Q := slack_only _ _ _ _ HS HP T D). apply st_slack; [exact T|]. intros i j. unfold exact_at. rewrite Q.
    destruct (Req_EM_T (-1) 1); [lra|]. destruct (Req_EM_T (-1) (-1)); [reflexivity|lra].
  - assert (Q := wrinkled_only _ _ _ _ _ _ _ HS HP W D). destruct D as [A B|A B|g' s' A W']; [lra|lra|]. apply (st_wrinkled _ _ _ _ x g' s' W').
    intros i j. unfold exact_at, angle_at. rewrite (TH Q), Q. destruct (Req_EM_T 0 1); [lra|]. destruct (Req_EM_T 0 (-1)); [lra|]. reflexivity.
Qed.

Lemma force_derive n mult pts x y i d :
  (forall q, In q pts -> sym3 (mC q) /\ posdef3 (mC q) /\ answers (mC q) (mtf q) (mtheta q) /\ settled (mC q) (mem n q x)) ->
  is_derive (fun t => rval (Fmem n mult pts (cmove x y t) i d)) 0 (rsum n (fun j => sum3 (fun e => Kexact n mult pts x i d j e * y j e))).
Proof.
  intro H.
  assert (EQ : rsum n (fun j => sum3 (fun e => Kexact n mult pts x i d j e * y j e))
    = psum pts (fun q => mw q * Kstiff_mem (mdef n q x) (fun a b => mth q * exact_at mult q (mem n q x) a b) (fun a => mth q * Sof mult q (mem n q x) a) (bvar d (mbas q i)) (fieldjet n (mbas q) y))).
  { transitivity (psum pts (fun q => rsum n (fun j => sum3 (fun e => mw q * Kstiff_mem (mdef n q x) (fun a b => mth q * exact_at mult q (mem n q x) a b) (fun a => mth q * Sof mult q (mem n q x) a) (bvar d (mbas q i)) (bvar e (mbas q j)) * y j e)))).
    - rewrite psum_swap. apply rsum_ext. intros j Hj. rewrite psum_swap3. unfold Kexact, sum3. rewrite <- !psum_scalr. reflexivity.
    - apply psum_same. intros q Hq. rewrite (lin_field _ n (mbas q) y (lin_Km (mdef n q x) (fun a b => mth q * exact_at mult q (mem n q x) a b) (fun a => mth q * Sof mult q (mem n q x) a) (bvar d (mbas q i)))).
      rewrite <- rsum_scal. apply rsum_ext. intros j Hj. unfold sum3. ring. }
  rewrite EQ. clear EQ.
  apply (is_derive_ext (fun t => psum pts (fun q => mw q * Fint_mem (mdef n q (cmove x y t)) (fun a => mth q * Sof mult q (mem n q (cmove x y t)) a) (bvar d (mbas q i))))).
  { intro t. rewrite Fmem_ok by (intros q Hq; apply (H q Hq)). reflexivity. }
  apply psum_der. intros q Hq. destruct (H q Hq) as (HS & HP & AN & ST). apply d_cmul.
  set (u := fieldjet n (mbas q) y). set (v := bvar d (mbas q i)). set (e := fun t => mem n q (cmove x y t)).
  assert (E0 : e 0 = mem n q x) by (unfold e; rewrite cmove0; reflexivity).
  assert (De : is_dvec e 0 (Em_der (mdef n q x) u)) by apply mem_dpath.
  assert (DS : is_dvec (fun t a => mth q * Sof mult q (e t) a) 0 (fun a => mth q * sum3 (fun b => exact_at mult q (mem n q x) a b * Em_der (mdef n q x) u b))).
  { intros a Ha. cbv beta. apply d_cmul. apply (ret_derive mult (mC q) (mtf q) (mtheta q) e _ HS HP AN De (exact_at mult q (mem n q x))); [|exact Ha].
    rewrite E0. apply settled_strict; assumption. }
  assert (DE : is_dvec (fun t => Em_der (mdef n q (cmove x y t)) v) 0 (Em_der u v)).
  { intros a Ha. apply (Em_der_path (fun t => mdef n q (cmove x y t)) 0 u v a Ha). apply mdef_path. }
  unfold Fint_mem. evar_last; [exact (d_dot _ _ 0 _ _ DS DE)|]. cbv beta. unfold e. rewrite cmove0.
  unfold Kstiff_mem. rewrite <- Em2_flatdot. rewrite Rplus_comm. rewrite (Rplus_comm (dot3 (rowmat _ _) _)). 
  assert (X : dot3 (fun a => mth q * sum3 (fun b => exact_at mult q (mem n q x) a b * Em_der (mdef n q x) u b)) (Em_der (mdef n q x) v)
    = dot3 (rowmat (Em_der (mdef n q x) v) (fun a b => mth q * exact_at mult q (mem n q x) a b)) (Em_der (mdef n q x) u)).
  { unfold dot3, rowmat, sum3. ring. }
  rewrite <- X. ring.
Qed.

(* ---------------- the matrix of the code ---------------- *)
Lemma matrix_returned mult q E : answers (mC q) (mtf q) (mtheta q) ->
  exists M, tft_matrix mult (mC q) E (mtf q E) (mtheta q) = Ok M /\ forall i j, M i j = exact_at mult q E i j + extra_at q E i j.
Proof.
  intro AN. destruct (AN E) as (th & D & T). unfold tft_matrix, matrix_lin_at, exact_at, extra_at, angle_at.
  destruct D as [A H|A H|g s A W]; rewrite A in *.
  - unfold dispatch. destruct (Req_EM_T 1 1); [|lra]. eexists; split; [reflexivity|]. intros. destruct (Req_EM_T 1 0); [lra|]. ring.
  - unfold dispatch. destruct (Req_EM_T (-1) 1); [lra|]. destruct (Req_EM_T (-1) (-1)); [|lra]. eexists; split; [reflexivity|]. intros. destruct (Req_EM_T (-1) 0); [lra|]. unfold mmulc. ring.
  - unfold dispatch. destruct (Req_EM_T 0 1); [lra|]. destruct (Req_EM_T 0 (-1)); [lra|]. destruct (Req_EM_T 0 0); [|lra].
    rewrite (T eq_refl). cbn [bindo rval]. eexists; split; [reflexivity|]. intros. unfold wtan. ring.
Qed.
Lemma matrix_ok n mult pts x i d j e : (forall q, In q pts -> answers (mC q) (mtf q) (mtheta q)) ->
  Kmem n mult pts x i d j e = Ok (Kexact n mult pts x i d j e +
    psum pts (fun q => mw q * (mth q * dot3 (rowmat (Em_der (mdef n q x) (bvar d (mbas q i))) (extra_at q (mem n q x))) (Em_der (mdef n q x) (bvar e (mbas q j)))))).
Proof.
  intro AN. unfold Kmem.
  rewrite (osum_ok _ _ (fun q => mw q * Kstiff_mem (mdef n q x) (fun a b => mth q * exact_at mult q (mem n q x) a b) (fun a => mth q * Sof mult q (mem n q x) a) (bvar d (mbas q i)) (bvar e (mbas q j))
     + mw q * (mth q * dot3 (rowmat (Em_der (mdef n q x) (bvar d (mbas q i))) (extra_at q (mem n q x))) (Em_der (mdef n q x) (bvar e (mbas q j)))))).
  - apply f_equal. unfold Kexact. clear AN. induction pts; cbn [psum]; [ring|]. rewrite IHpts. ring.
  - intros q Hq. rewrite (mN_ok mult q _ (AN q Hq)). destruct (matrix_returned mult q (mem n q x) (AN q Hq)) as (M & K & ME).
    unfold mA. rewrite K. cbn [scale_out omap]. apply f_equal. unfold Kstiff_mem.
    assert (X : forall v u, dot3 (rowmat v (fun a b => mth q * M a b)) u = dot3 (rowmat v (fun a b => mth q * exact_at mult q (mem n q x) a b)) u + mth q * dot3 (rowmat v (extra_at q (mem n q x))) u).
    { intros. unfold dot3, rowmat, sum3. rewrite !ME. ring. }
    rewrite X. ring.
Qed.
Lemma exact_sym mult q E : sym3 (mC q) -> posdef3 (mC q) -> answers (mC q) (mtf q) (mtheta q) -> symm3 (exact_at mult q E).
Proof.
  intros HS HP AN i j Hi Hj. unfold exact_at. destruct (AN E) as (th & D & T).
  destruct (Req_EM_T (mtf q E) 1); [apply HS; assumption|]. destruct (Req_EM_T (mtf q E) (-1)); [rewrite (HS i j Hi Hj); reflexivity|].
  destruct D as [A B|A B|g s A W]; [contradiction|contradiction|]. unfold angle_at. rewrite (T A). cbn [rval]. change (inner_stress (mC q) E) with (hooke (mC q) E).
  assert (P : physical (mC q) (hooke (mC q) E) E th) by (apply (state_iff _ _ _ HS HP); eauto).
  apply wtan_sym; [exact HS|exact Hi|exact Hj| |].
  - assert (X := posdef_D (mC q) th HP). lra.
  - destruct P as (R0 & N0 & M0). destruct (physical_state th (mC q) (hooke (mC q) E) E HS HP (fun i _ => eq_refl) R0 N0 M0) as (_ & _ & F0). lra.
Qed.
Lemma Kexact_sym n mult pts x i d j e : (forall q, In q pts -> sym3 (mC q) /\ posdef3 (mC q) /\ answers (mC q) (mtf q) (mtheta q)) ->
  Kexact n mult pts x i d j e = Kexact n mult pts x j e i d.
Proof.
  intro H. unfold Kexact. apply psum_same. intros q Hq. destruct (H q Hq) as (HS & HP & AN). apply f_equal2; [reflexivity|]. unfold Kstiff_mem.
  rewrite (flatdot_sym (bvar d (mbas q i))). assert (Y := exact_sym mult q (mem n q x) HS HP AN). apply f_equal2; [|reflexivity].
  unfold dot3, rowmat, sum3. rewrite (Y 1 0)%nat, (Y 2 0)%nat, (Y 2 1)%nat by lia. ring.
Qed.
