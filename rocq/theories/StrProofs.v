(* Lemmas for C143. *)
From Coq Require Import Reals Lra Lia List Arith FunctionalExtensionality.
From Coquelicot Require Import Coquelicot.
From Verif Require Import Tensor MetricSpec KinModel KinSpec KinAsm KinProofs KinStiff KinLoads KinMore KinProps ObjSpec ObjProofs ObjAsm ObjProps WifModel WifSpec WifProofs WifAsm WifProps
  StrModel StrSpec.
Import ListNotations.
Open Scope R_scope.

Lemma represents_iso n q X : represents n (qbas q) X (qori q) -> punity n (qbas q) -> isoparametric n X q /\ unity n q.
Proof. intros R (_ & U). split; [intros i Hi; destruct (R i Hi) as (_ & A); exact A|exact U]. Qed.
Lemma at_rot (Q : mat) d a p (g : nat -> R) : at_ a p (sum3 (fun e => Q d e * g e)) = sum3 (fun e => Q d e * at_ a p (g e)).
Proof. unfold at_. destruct (Nat.eqb a p); unfold sum3; ring. Qed.
Lemma at_rot2 (Q : mat) d e a b p q (g : nat -> nat -> R) : at_ a p (at_ b q (sum3 (fun f => sum3 (fun h => Q d f * Q e h * g f h)))) = sum3 (fun f => sum3 (fun h => Q d f * Q e h * at_ a p (at_ b q (g f h)))).
Proof. unfold at_. destruct (Nat.eqb a p), (Nat.eqb b q); unfold sum3; ring. Qed.
Lemma psum_rot {A} (l : list A) (Q : mat) d (h : A -> R) (g : A -> nat -> R) : (forall c, In c l -> h c = sum3 (fun e => Q d e * g c e)) ->
  psum l h = sum3 (fun e => Q d e * psum l (fun c => g c e)).
Proof.
  induction l as [|c l IH]; intro H; cbn [psum]. unfold sum3; ring. rewrite IH by (intros; apply H; right; assumption). rewrite (H c) by (left; reflexivity). unfold sum3; ring.
Qed.
Lemma psum_rot2 {A} (l : list A) (Q : mat) d e (h : A -> R) (g : A -> nat -> nat -> R) : (forall c, In c l -> h c = sum3 (fun a => sum3 (fun b => Q d a * Q e b * g c a b))) ->
  psum l h = sum3 (fun a => sum3 (fun b => Q d a * Q e b * psum l (fun c => g c a b))).
Proof.
  induction l as [|c l IH]; intro H; cbn [psum]. unfold sum3; ring. rewrite IH by (intros; apply H; right; assumption). rewrite (H c) by (left; reflexivity). unfold sum3; ring.
Qed.
Lemma rsum_at P a (g : nat -> R) : (a < P)%nat -> rsum P (fun p => at_ a p (g p)) = g a.
Proof.
  intro H. induction P as [|P IH]; [lia|]. cbn [rsum]. destruct (Nat.eq_dec a P) as [->|N].
  - unfold at_ at 2. rewrite Nat.eqb_refl. rewrite rsum_zero; [ring|]. intros p Hp. unfold at_. destruct (Nat.eqb_spec P p); [lia|reflexivity].
  - unfold at_ at 2. destruct (Nat.eqb_spec a P); [congruence|]. rewrite IH by lia. ring.
Qed.
Lemma work_at n a p g y : work n (fun i d => at_ a p (g i d)) y = at_ a p (work n g y).
Proof.
  unfold at_, work. destruct (Nat.eqb a p); [reflexivity|]. apply rsum_zero. intros. unfold sum3. ring.
Qed.
Lemma work_add n g h y : work n (fun i d => g i d + h i d) y = work n g y + work n h y.
Proof. unfold work. rewrite <- rsum_plus. apply rsum_ext. intros. unfold sum3. ring. Qed.
Lemma work_ext n g h y : (forall i d, (i < n)%nat -> (d < 3)%nat -> g i d = h i d) -> work n g y = work n h y.
Proof. intro H. unfold work. apply rsum_ext. intros i Hi. unfold sum3. rewrite !H by (exact Hi || lia). reflexivity. Qed.
Lemma work_sub n g h y : work n (fun i d => g i d - h i d) y = work n g y - work n h y.
Proof. unfold work. induction n; cbn [rsum]. ring. rewrite IHn. unfold sum3. ring. Qed.
Lemma work_zero n y : work n (fun _ _ => 0) y = 0.
Proof. unfold work. apply rsum_zero. intros. unfold sum3. ring. Qed.
Lemma work_psum {A} n (l : list A) (g : A -> nat -> nat -> R) y : work n (fun i d => psum l (fun c => g c i d)) y = psum l (fun c => work n (g c) y).
Proof. induction l as [|c l IH]; cbn [psum]. apply work_zero. rewrite <- IH. apply work_add. Qed.
Lemma rsum_psum {A} P (l : list A) (g : nat -> A -> R) : rsum P (fun p => psum l (g p)) = psum l (fun c => rsum P (fun p => g p c)).
Proof. induction l as [|c l IH]; cbn [psum]. apply rsum_zero. reflexivity. rewrite rsum_plus, IH. reflexivity. Qed.

(* internal forces do no work in a rigid velocity *)
Lemma patch_work n pts X x w b : (forall q, In q pts -> represents n (qbas q) X (qori q) /\ punity n (qbas q)) -> (forall q, In q pts -> regular (qdef n q x)) ->
  work n (Fvec n pts x) (rvel w b X x) = 0.
Proof.
  intros H P. unfold work.
  assert (E : rsum n (fun i => sum3 (fun d => Fvec n pts x i d * rvel w b X x i d)) =
     psum pts (fun q => qw q * Fint (qdef n q x) (qN q (qem n q x) (qef n q x)) (qM q (qem n q x) (qef n q x)) (fieldjet n (qbas q) (rvel w b X x)))).
  { unfold Fvec. clear H P. induction pts; cbn [psum].
    - apply rsum_zero. intros. unfold sum3. ring.
    - rewrite <- IHpts. rewrite (lin_field _ n (qbas a) (rvel w b X x) (lin_Fint _ _ _)). rewrite <- rsum_scal, <- rsum_plus. apply rsum_ext.
      intros j Hj. unfold sum3, Fint. rewrite !Ef_dof_ext by lia. ring. }
  rewrite E. clear E. induction pts as [|q l IH]; cbn [psum]. reflexivity.
  rewrite IH by (intros; (apply H || apply P); right; assumption).
  destruct (H q (or_introl eq_refl)) as (R & U). destruct (rvel_field n (qbas q) X x (qori q) w b R U) as (J & _).
  set (N := qN q (qem n q x) (qef n q x)). set (M := qM q (qem n q x) (qef n q x)).
  assert (F : Fint (qdef n q x) N (vscal 1 M) (fieldjet n (qbas q) (rvel w b X x)) = Fint (qdef n q x) N M (rigid w b (qdef n q x))).
  { apply (moved_Fint delta 1 delta_orth (qdef n q x) (qdef n q x) (delta_same _)). exact J. }
  assert (V : vscal 1 M = M) by (extensionality i; unfold vscal; ring). rewrite V in F. rewrite F, Fint_rigid by (apply P; left; reflexivity). ring.
Qed.
Lemma psum_null {A} (l : list A) g : (forall c, In c l -> g c = 0) -> psum l g = 0.
Proof. induction l as [|c l IH]; intro H; cbn [psum]. reflexivity. rewrite IH by (intros; apply H; right; assumption). rewrite (H c) by (left; reflexivity). ring. Qed.
Lemma rsum_sum3 P (c : nat -> R) (h : nat -> nat -> R) : rsum P (fun q => sum3 (fun g => c g * h q g)) = sum3 (fun g => c g * rsum P (fun q => h q g)).
Proof. induction P; cbn [rsum]. unfold sum3; ring. rewrite IHP. unfold sum3; ring. Qed.
(* ---------------------------------------------------------------- derivative *)
Definition fapply (S : structure) (x y : field) (c : iface) (r : bool) (i d : nat) : R :=
  work (snum S (fl c)) (fun j e => fmat S x c r i d false j e) (y (fl c)) + work (snum S (fr c)) (fun j e => fmat S x c r i d true j e) (y (fr c)).
Lemma iapply n m c0 c1 pts x y r i d :
  work n (fun j e => Imat n m c0 c1 pts x r i d false j e) (fst y) + work m (fun j e => Imat n m c0 c1 pts x r i d true j e) (snd y)
  = psum pts (fun q => iw q * Kipt n m c0 c1 x q (itest q r i d) (fieldjet n (ibl q) (fst y), fieldjet m (ibr q) (snd y))).
Proof.
  unfold Imat. rewrite !work_psum. induction pts as [|q l IH]; cbn [psum]. ring. rewrite <- IH. clear IH.
  assert (L := lin_Kipt_r n m c0 c1 x q (itest q r i d)). rewrite (linp_split _ _ _ L).
  rewrite (lin_field _ n (ibl q) (fst y) (linp_l _ L)), (lin_field _ m (ibr q) (snd y) (linp_r _ L)).
  rewrite Rmult_plus_distr_l, <- !rsum_scal. unfold work. cbn [itest].
  assert (A : forall k (g : nat -> nat -> R) z, rsum k (fun j => sum3 (fun e => iw q * g j e * z j e)) = rsum k (fun j => iw q * sum3 (fun e => g j e * z j e))) by (intros; apply rsum_ext; intros; unfold sum3; ring).
  rewrite (A n (fun j e => Kipt n m c0 c1 x q (itest q r i d) (bvar e (ibl q j), jzero))), (A m (fun j e => Kipt n m c0 c1 x q (itest q r i d) (jzero, bvar e (ibr q j)))).
  unfold itest. ring.
Qed.
Lemma jump_line n m q x y t i : (i < 3)%nat -> ifc_jump (iori q) (idef n m q (cmove (fst x) (fst y) t, cmove (snd x) (snd y) t)) i
  = ifc_jump (iori q) (idef n m q x) i + t * (j0 (fieldjet n (ibl q) (fst y)) i - j0 (fieldjet m (ibr q) (snd y)) i).
Proof.
  intro Hi. unfold ifc_jump, iori, vsub, idef. cbn [fst snd jadd j0]. unfold vadd. rewrite !field_j0 by exact Hi.
  assert (L : forall k (b : nat -> sjet) z w, rsum k (fun j => cmove z w t j i * s0 (b j)) = rsum k (fun j => z j i * s0 (b j)) + t * rsum k (fun j => w j i * s0 (b j))).
  { intros. rewrite <- rsum_scal, <- rsum_plus. apply rsum_ext. intros. unfold cmove. ring. }
  rewrite !L. ring.
Qed.
Lemma ivec_line n m c0 pts x y r i d t : (forall q, In q pts -> forall e f e' f', iad q e f = iad q e' f') ->
  Ivec n m c0 false pts (cmove (fst x) (fst y) t, cmove (snd x) (snd y) t) r i d
  = Ivec n m c0 false pts x r i d - t * psum pts (fun q => iw q * Kipt n m c0 false x q (itest q r i d) (fieldjet n (ibl q) (fst y), fieldjet m (ibr q) (snd y))).
Proof.
  unfold Ivec. induction pts as [|q l IH]; intro H; cbn [psum]. ring. rewrite IH by (intros q' I; apply H; right; exact I). clear IH.
  unfold Fipt, Kipt. destruct c0; [|ring]. assert (A : iad_at n m q (cmove (fst x) (fst y) t, cmove (snd x) (snd y) t) = iad_at n m q x) by (apply H; left; reflexivity).
  rewrite A. unfold Fifc3, Kifc, dot3, sum3. rewrite !jump_line by lia. cbn [fst snd]. ring.
Qed.
Lemma sapply_parts P S x y p i d : (p < P)%nat -> (forall c, In c (sifc S) -> (fl c < P)%nat /\ (fr c < P)%nat) ->
  sapply P S (Smat S x) y p i d = Kapply (snum S p) (spts S p) (x p) (y p) i d
    + psum (sifc S) (fun c => at_ (fside c false) p (fapply S x y c false i d) + at_ (fside c true) p (fapply S x y c true i d)).
Proof.
  intros Hp HI. change (sapply P S (Smat S x) y p i d) with (rsum P (fun q => work (snum S q) (fun j e => Smat S x p i d q j e) (y q))).
  transitivity (rsum P (fun q => at_ p q (work (snum S q) (fun j e => Kmat (snum S p) (spts S p) (x p) i d j e) (y q))) + rsum P (fun q => psum (sifc S) (fun c =>
      at_ (fl c) p (at_ (fl c) q (work (snum S q) (fun j e => fmat S x c false i d false j e) (y q))) + at_ (fl c) p (at_ (fr c) q (work (snum S q) (fun j e => fmat S x c false i d true j e) (y q)))
    + at_ (fr c) p (at_ (fl c) q (work (snum S q) (fun j e => fmat S x c true i d false j e) (y q))) + at_ (fr c) p (at_ (fr c) q (work (snum S q) (fun j e => fmat S x c true i d true j e) (y q)))))).
  - rewrite <- rsum_plus. apply rsum_ext. intros q _. unfold Smat.
    rewrite (work_add (snum S q) (fun j e => at_ p q (Kmat (snum S p) (spts S p) (x p) i d j e))), work_at, work_psum. f_equal. f_equal. extensionality c.
    rewrite !(work_add (snum S q)), !(work_at (snum S q)). cbn [fside]. reflexivity.
  - rewrite (rsum_at P p (fun q => work (snum S q) (fun j e => Kmat (snum S p) (spts S p) (x p) i d j e) (y q)) Hp). apply f_equal2; [reflexivity|].
    rewrite rsum_psum. induction (sifc S) as [|c l IH] in HI |- *; cbn [psum]. reflexivity. rewrite IH by (intros; apply HI; right; assumption). apply f_equal2; [|reflexivity].
    destruct (HI c (or_introl eq_refl)) as (Hl & Hr). cbn [fside]. rewrite !rsum_plus.
    assert (A : forall a b (g : nat -> R), (b < P)%nat -> rsum P (fun q => at_ a p (at_ b q (g q))) = at_ a p (g b)).
    { intros a b g Hb. unfold at_ at 1 3. destruct (Nat.eqb a p); [apply (rsum_at P b g Hb)|apply rsum_zero; reflexivity]. }
    rewrite (A (fl c) (fl c) (fun q => work (snum S q) (fun j e => fmat S x c false i d false j e) (y q)) Hl), (A (fl c) (fr c) (fun q => work (snum S q) (fun j e => fmat S x c false i d true j e) (y q)) Hr),
      (A (fr c) (fl c) (fun q => work (snum S q) (fun j e => fmat S x c true i d false j e) (y q)) Hl), (A (fr c) (fr c) (fun q => work (snum S q) (fun j e => fmat S x c true i d true j e) (y q)) Hr).
    unfold fapply. assert (D : forall a u v, at_ a p (u + v) = at_ a p u + at_ a p v) by (intros a u v; unfold at_; destruct (Nat.eqb a p); ring). rewrite !D. ring.
Qed.
(* the energy of the coupled structure: the energies of the patches and the penalty of the jumps *)
Lemma fenergy S x y c : fc1 c = false -> work (snum S (fl c)) (fapply S x y c false) (y (fl c)) + work (snum S (fr c)) (fapply S x y c true) (y (fr c))
  = psum (fpts c) (fun q => iw q * Kipt (snum S (fl c)) (snum S (fr c)) (fc0 c) false (fstate c x) q
      (fieldjet (snum S (fl c)) (ibl q) (y (fl c)), fieldjet (snum S (fr c)) (ibr q) (y (fr c))) (fieldjet (snum S (fl c)) (ibl q) (y (fl c)), fieldjet (snum S (fr c)) (ibr q) (y (fr c)))).
Proof.
  intro C1. set (n := snum S (fl c)). set (m := snum S (fr c)). set (X := fstate c x).
  assert (F : forall r i d, fapply S x y c r i d = psum (fpts c) (fun q => iw q * Kipt n m (fc0 c) false X q (fieldjet n (ibl q) (y (fl c)), fieldjet m (ibr q) (y (fr c))) (itest q r i d))).
  { intros r i d. pose proof (iapply n m (fc0 c) (fc1 c) (fpts c) X (y (fl c), y (fr c)) r i d) as K. cbn [fst snd] in K.
    unfold fapply, fmat. fold n m X. rewrite K, C1. f_equal. extensionality q. f_equal. unfold Kipt. f_equal. destruct (fc0 c); [|reflexivity]. unfold Kifc, dot3, sum3. ring. }
  assert (W : forall k r z, work k (fapply S x y c r) z = work k (fun i d => psum (fpts c) (fun q => iw q * Kipt n m (fc0 c) false X q (fieldjet n (ibl q) (y (fl c)), fieldjet m (ibr q) (y (fr c))) (itest q r i d))) z)
    by (intros k r z; apply work_ext; intros; apply F).
  rewrite !W, !work_psum. clear F W. induction (fpts c) as [|q l IH]; cbn [psum]. ring. rewrite <- IH. clear IH.
  set (Y := (fieldjet n (ibl q) (y (fl c)), fieldjet m (ibr q) (y (fr c)))). assert (L := lin_Kipt_r n m (fc0 c) false X q Y).
  assert (E : Kipt n m (fc0 c) false X q Y Y = rsum n (fun j => sum3 (fun e => y (fl c) j e * Kipt n m (fc0 c) false X q Y (bvar e (ibl q j), jzero)))
    + rsum m (fun j => sum3 (fun e => y (fr c) j e * Kipt n m (fc0 c) false X q Y (jzero, bvar e (ibr q j))))).
  { etransitivity; [exact (linp_split _ _ _ L)|]. rewrite (lin_field _ n (ibl q) (y (fl c)) (linp_l _ L)), (lin_field _ m (ibr q) (y (fr c)) (linp_r _ L)).
    f_equal; apply rsum_ext; intros; unfold sum3; ring. }
  rewrite E, Rmult_plus_distr_l, <- !rsum_scal. unfold work. cbn [itest].
  assert (A : forall k (g : nat -> nat -> R) z, rsum k (fun j => sum3 (fun e => iw q * g j e * z j e)) = rsum k (fun j => iw q * sum3 (fun e => z j e * g j e))) by (intros; apply rsum_ext; intros; unfold sum3; ring).
  rewrite (A n (fun j e => Kipt n m (fc0 c) false X q Y (bvar e (ibl q j), jzero))), (A m (fun j e => Kipt n m (fc0 c) false X q Y (jzero, bvar e (ibr q j)))). ring.
Qed.
